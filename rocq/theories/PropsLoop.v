(** C60: one whole iteration of the adaptation, and the loop. *)
From Coq Require Import QArith Qabs Lqa.
From Verif Require Import Base IntervalModel Spec IntervalProofs LoiModel LcaModel LcaSpec LcaProofs LcaProofs2 LcaProofs3 RowsProofs CellArrayModel CellArrayProofs PropsLca PropsCellArray
  SubsetModel TreeProofs SubsetSpec SubsetProofs2 PropsSubset StencilModel NumberingProofs StencilProofs PropsStencil MeshModel MeshProofs PropsMesh
  NumModel NumProofs NumSpec PropsNum AdaptModel AdaptProofs TagProofs PropsAdapt TransferProofs PropsTransfer MrModel MrProofs PropsMr
  GhostModel GhostProofs PropsGhost BcProofs PropsOuter HartenModel HartenProofs HartenProofs2 HartenProofs3 PropsHarten DetailProofs CriteriaProofs AroundProofs PropsDetail LoopProofs.
Open Scope Z_scope.

(** A mesh the adaptation can start from: a graded tiling of the domain, which is a box; the
    smallest level is at least 1, the widths of the levels fit in an int, graduation_width
    is 1. *)
Definition usable (n : nat) (g : setting) (lo hi : list Z) (cells : ca) : Prop :=
  ghost_input n (h_max g) (h_min_level g) (h_max_level g) (h_width g) (h_order g) cells lo hi /\
  is_box n (h_max_level g) lo hi (h_domain g) /\ (1 <= h_min_level g)%nat /\
  Z.of_nat (S n) * Z.of_nat (h_max_level g - h_min_level g) < 31 /\ h_grad g = 1.

(** On each such mesh the boundary conditions change nothing but the stored cells outside
    the domain. *)
Definition harmless (n : nat) (g : setting) (lo hi : list Z) (bc : ca -> ca -> nat -> lfield -> option lfield) : Prop :=
  forall cells r, usable n g lo hi cells ->
    update_sub_mesh n (h_max g) (h_min_level g) (h_max_level g) (h_width g) (Z.of_nat (h_order g)) cells = Some r ->
    only_outside n (h_max_level g) (r_all r) lo hi (bc cells (r_all r)).

(** The new values from the old ones; [u'] is the old field with its ghosts. *)
Definition carried (n : nat) (order : nat) (cells next : ca) (u u' v : lfield) : Prop :=
  forall l x y, ca_mem n next l (x :: y) ->
    (ca_mem n cells l (x :: y) -> v l x y = u l x y) /\
    ((exists q, ca_mem n cells (S l) q /\ ancestor 1 q = x :: y) ->
       (forall c, length c = S n -> ancestor 1 c = x :: y -> ca_mem n cells (S l) c) /\ is_mean (u (S l)) x y (v l x y)) /\
    (forall m, l = S m -> ca_mem n cells m (ancestor 1 (x :: y)) -> is_predicted order (u' m) x y (v l x y)) /\
    (ca_mem n cells l (x :: y) \/ (exists q, ca_mem n cells (S l) q /\ ancestor 1 q = x :: y) \/ (exists m, l = S m /\ ca_mem n cells m (ancestor 1 (x :: y)))).

(** The sum of the values times the volumes. *)
Definition total (n : nat) (u : lfield) (cells : ca) (q : Q) : Prop :=
  exists cs, ca_for_each_cell n cells = Some cs /\ (q == integral n u (leaf_cells cs))%Q.

Section Iteration.
  Variables (n : nat) (g : setting) (lo hi : list Z) (bc : ca -> ca -> nat -> lfield -> option lfield).
  Notation minl := (h_min_level g).
  Notation maxl := (h_max_level g).
  Notation s := (h_order g).
  Notation sub_mesh := (update_sub_mesh n (h_max g) minl maxl (h_width g) (Z.of_nat s)).
  Hypothesis HB : harmless n g lo hi bc.

  (** The parts of an iteration, one after the other. *)
  Definition with_ghosts (cells : ca) (r : mr_mesh) (u u' : lfield) : Prop :=
    exists sub, construct_subdomain n maxl cells = Some sub /\ update_ghost_mr n s (bc cells (r_all r)) cells r sub u = Some u'.
  Definition new_leaf (ite : nat) (cells : ca) (d : lfield) (l : nat) (p : list Z) : Prop :=
    let refine := to_refine n minl maxl (maxl - ite) (h_eps g) (h_factor g) (h_enlarge g) cells d in
    let coarsen := to_coarsen n minl maxl (maxl - ite) (h_eps g) (h_factor g) (h_enlarge g) cells d in
    (exists l0, l = S l0 /\ refine l0 (ancestor 1 p)) \/ (ca_mem n cells l p /\ ~ refine l p /\ ~ coarsen l p) \/
    (exists q, coarsen (S l) q /\ ancestor 1 q = p).

  Section One.
    Variables (ite : nat) (cells : ca) (u : lfield).
    Hypothesis HU : usable n g lo hi cells.

    Lemma us_ghost : ghost_input n (h_max g) minl maxl (h_width g) s cells lo hi.
    Proof using Type HU. apply HU. Qed.

    Lemma sub_mesh_total : exists r, sub_mesh cells = Some r.
    Proof using Type HU.
      destruct (C54_contents n (h_max g) minl maxl (h_width g) (Z.of_nat s) cells (gi_in _ _ _ _ _ _ _ _ _ us_ghost)) as (r & E & _). eauto.
    Qed.
    Lemma subdomain_total : exists sub, construct_subdomain n maxl cells = Some sub.
    Proof using Type HU.
      destruct (C26_subdomain n maxl cells (in_wf _ _ _ _ _ _ _ (gi_in _ _ _ _ _ _ _ _ _ us_ghost))) as (a & E & _); eauto.
      intros l q Hq. apply (gi_range _ _ _ _ _ _ _ _ _ us_ghost) in Hq. lia.
    Qed.

    (** *** The new mesh from the tags *)
    Lemma iteration_mesh : forall r cells' reference d t numbers, sub_mesh cells = Some r -> numbered_as n (h_max g) cells r cells' reference ->
      harten_tags n minl maxl ite 1 (h_eps g) (h_factor g) (h_enlarge g) (h_domain g) cells (r_ghosts r) (r_all r) d = Some t ->
      ca_for_each_cell n reference = Some numbers ->
      consistent n minl cells' (storage_of numbers t) /\
      exists new, update_cells n minl maxl cells' (storage_of numbers t) = Some new /\ usable n g lo hi new /\
        forall l p, ca_mem n new l p <-> length p = S n /\ new_leaf ite cells d l p.
    Proof using Type HU.
      intros r cells' reference d t numbers HR (W' & M' & L' & SL & Wr & _ & IX & J) Et EN.
      destruct HU as (HI & HBx & Hmin & H31 & HG).
      destruct (tags_before n _ minl maxl _ s cells lo hi r HI HR (maxl - ite) (h_eps g) (h_factor g) (h_enlarge g) d Hmin ltac:(lia) H31) as (t0 & E0 & F1 & F2 & F3 & F4).
      pose proof (tags_marked n minl maxl cells (maxl - ite) (h_eps g) (h_factor g) (h_enlarge g) d t0 F1 F2 F3) as HM.
      pose proof (refines_wish n minl maxl cells (maxl - ite) (h_eps g) (h_factor g) (h_enlarge g) d t0 F1 F4) as FR.
      pose proof (coarsens_wish n minl maxl cells (maxl - ite) (h_eps g) (h_factor g) (h_enlarge g) d t0 F1 F2 FR) as FC.
      assert (E : graduate_tags n minl maxl 1 (h_domain g) cells (r_all r) t0 = Some t).
      { revert Et. unfold harten_tags. revert E0. destruct (first_tags n cells) as [t1|]; [|discriminate]. destruct (criteria _ _ _ _ _ _ _ _ _ t1) as [t2|]; [|discriminate]. intros ->. auto. }
      destruct (graduate_flags n _ minl maxl _ s cells lo hi r (h_domain g) t0 HI HR HBx HM) as (t1 & E1 & F & _). rewrite E in E1. injection E1 as <-.
      pose proof (ghost_input_same _ _ _ _ _ _ _ cells' _ _ HI W' M' L' SL) as HI'.
      destruct (mesh_of_flags n _ minl maxl _ s cells' lo hi t0 t (storage_of numbers t) HI') as (C & new & En & Wn & Tn & Gn & Rn & X).
      - apply (marked_same n minl maxl cells); auto.
      - intros l q Hq. apply SL in Hq. destruct (F l q Hq) as (A & B & D). rewrite <- (refines_iff n cells cells'), <- (coarsens_iff n minl cells cells') by auto. auto.
      - intros l q k Hq Hk. apply SL in Hq. destruct (IX l q Hq) as [I1 I2]. rewrite I2 in Hk. apply (storage_of_spec n reference numbers t l q k EN Wr J I1 Hk).
      - split; auto. exists new. split; auto.
        assert (HX : (maxl <= c_max cells')%nat) by (rewrite M'; apply (gi_max _ _ _ _ _ _ _ _ _ HI)).
        destruct (update_cells_spec n minl maxl cells' (storage_of numbers t) W' HX) as (new' & E' & Mn & _ & Ln & _). rewrite En in E'. injection E' as <-. rewrite M' in Mn, Ln.
        split.
        + split; [|auto]. apply (ghost_input_new n _ minl maxl _ s cells); auto.
        + intros l p. rewrite X. unfold new_leaf. split; (intros (Lp & H); split; [auto|]).
          * destruct H as [(l0 & El & H)|[(H1 & H2 & H3)|(q & H1 & H2)]].
            -- left. exists l0. split; auto. apply FR. apply (refines_iff n cells cells'); auto.
            -- right. left. split; [apply SL; auto|]. split; [intros Y; apply H2; apply (refines_iff n cells cells'); auto; apply FR; auto|].
               intros Y; apply H3; apply (coarsens_iff n minl cells cells'); auto; apply FC; auto.
            -- right. right. exists q. split; auto. apply FC. apply (coarsens_iff n minl cells cells'); auto.
          * destruct H as [(l0 & El & H)|[(H1 & H2 & H3)|(q & H1 & H2)]].
            -- left. exists l0. split; auto. apply (refines_iff n cells cells'); auto. apply FR. auto.
            -- right. left. split; [apply SL; auto|]. split; [intros Y; apply H2; apply FR; apply (refines_iff n cells cells'); auto|].
               intros Y; apply H3; apply FC; apply (coarsens_iff n minl cells cells'); auto.
            -- right. right. exists q. split; auto. apply (coarsens_iff n minl cells cells'); auto. apply FC. auto.
    Qed.

    Lemma usable_ok : forall c, usable n g lo hi c -> mesh_ok n minl maxl c /\ forall l q k, ca_mem n c l q -> (k <= n)%nat -> 2 * nth k q 0 + 4 < 2 ^ 31 - 1.
    Proof using Type. clear HU ite cells u HB bc.
      intros c (HI & _). pose proof (gi_in _ _ _ _ _ _ _ _ _ HI) as (W & M & HM & L & _). pose proof (gi_tiles _ _ _ _ _ _ _ _ _ HI) as (_ & IN & _).
      pose proof HI as (_ & _ & _ & _ & Hw & _ & _ & _ & Hh).
      assert (Bd : forall l q k, ca_mem n c l q -> (k <= n)%nat -> 2 * nth k q 0 + 6 < 2 ^ 31 - 1).
      { intros l q k Hq Hk. specialize (Hh k Hk). destruct (IN l q Hq) as [_ H]. specialize (H k Hk). apply (gi_range _ _ _ _ _ _ _ _ _ HI) in Hq.
        assert (P : 2 ^ Z.of_nat l <= 2 ^ Z.of_nat maxl) by (apply Z.pow_le_mono_r; lia). pose proof (pow_pos l). nia. }
      split; [|intros l q k Hq Hk; specialize (Bd l q k Hq Hk); lia]. split; auto. split; [lia|]. split; [intros l Hl; apply L; lia|].
      intros l q Hq. split; [apply (gi_range _ _ _ _ _ _ _ _ _ HI) in Hq; auto|]. intros k Hk. specialize (Bd l q k Hq Hk). lia.
    Qed.

    Lemma make_mesh_total : forall c, usable n g lo hi c -> exists c' r reference, make_mesh n (h_max g) minl maxl (h_width g) s c = Some (c', (r, reference)) /\
      sub_mesh c = Some r /\ numbered_as n (h_max g) c r c' reference.
    Proof using Type. clear HU ite cells u HB bc.
      intros c (HI & _). destruct (C54_contents n (h_max g) minl maxl (h_width g) (Z.of_nat s) c (gi_in _ _ _ _ _ _ _ _ _ HI)) as (r & E & _).
      destruct (renumber_numbered n _ minl maxl _ _ c r (gi_in _ _ _ _ _ _ _ _ _ HI) E) as (c' & a & b & d & reference & E' & _ & _ & N).
      exists c', r, reference. unfold make_mesh. rewrite E, E'. auto.
    Qed.

    Lemma same_mesh_leaves : forall a b, (forall l q, ca_mem n a l q -> (minl <= l <= maxl)%nat) -> (forall l q, ca_mem n b l q -> (minl <= l <= maxl)%nat) ->
      c_max a = c_max b -> same_mesh n minl maxl a b = true -> same_leaves n a b.
    Proof using Type. clear HB HU ite cells u bc.
      intros a b Ra Rb M H l q. unfold same_mesh in H. rewrite forallb_forall in H.
      assert (G : (minl <= l <= maxl)%nat -> (ca_mem n a l q <-> ca_mem n b l q)).
      { intros Hl. destruct (lca_eqb_mem n (c_at a l) (c_at b l)) as [_ X]; [apply H; apply in_seq; lia|]. unfold ca_mem. rewrite M, X. tauto. }
      split; intros Hq; apply G; auto; [apply (Ra _ _ Hq)|apply (Rb _ _ Hq)].
    Qed.

    Lemma enumeration_same : forall c c' cs cs', same_leaves n c c' -> ca_enumeration n c cs -> ca_enumeration n c' cs' -> cs = cs'.
    Proof using Type. clear HB HU ite cells u bc.
      intros c c' cs cs' E [A B] [A' B']. apply (ca_enumeration_unique n c); split; auto. intros l p. rewrite B'. symmetry. apply E.
    Qed.

    Theorem iteration : exists r u' d same next v, harten n g bc ite cells u = Some (same, (next, v)) /\ usable n g lo hi next /\
      sub_mesh cells = Some r /\ with_ghosts cells r u u' /\ compute_details n s minl (maxl - ite) cells (r_all r) u' = Some d /\
      (forall l p, ca_mem n next l p <-> length p = S n /\ new_leaf ite cells d l p) /\
      carried n s cells next u u' v /\ (same = true -> next = cells) /\
      forall q, total n u cells q <-> total n v next q.
    Proof using Type HU HB.
      destruct (make_mesh_total cells HU) as (cells' & r & reference & EM & HR & HN). destruct subdomain_total as (sub & ES).
      pose proof us_ghost as HI. pose proof HU as (_ & HBx & Hmin & H31 & HG).
      destruct (C55_update n _ minl maxl _ s cells lo hi r sub (bc cells (r_all r)) HI HR ES (HB cells r HU HR) u) as (u' & EU & UL & _).
      destruct (C59_details n _ minl maxl _ s cells lo hi r ite u' HI HR) as (d & ED & _).
      destruct (C59_tags n _ minl maxl _ s cells lo hi r (h_domain g) ite (h_eps g) (h_factor g) (h_enlarge g) d HI HR HBx Hmin H31) as (t & ET & _).
      pose proof HN as (W' & M' & L' & SL & Wr & _ & IX & J).
      destruct (ca_for_each_cell_spec n reference Wr) as (numbers & EN & _).
      destruct (iteration_mesh r cells' reference d t numbers HR HN ET EN) as (HC & new & ENew & UN & X).
      destruct (make_mesh_total new UN) as (new' & r2 & ref2 & EM2 & _ & (_ & Mn' & _ & SLn & _)).
      assert (UC' : usable n g lo hi cells') by (split; [apply (ghost_input_same n _ minl maxl _ s cells); auto|auto]).
      destruct (usable_ok cells' UC') as [OK' BD]. destruct (usable_ok new UN) as [OKn _].
      pose proof (hm_dim _ _ _ _ _ _ _ _ _ HI) as Hn. pose proof (gi_ne _ _ _ _ _ _ _ _ _ HI) as Hne.
      assert (Hmm : (minl <= maxl)%nat). { pose proof HI as (_ & _ & _ & _ & _ & _ & _ & (l0 & q0 & H0) & _). apply (gi_range _ _ _ _ _ _ _ _ _ HI) in H0. lia. }
      assert (NO' : no_overlap n cells') by apply (gi_tiles _ _ _ _ _ _ _ _ _ (proj1 UC')).
      destruct (C40_integral n s minl maxl cells' (storage_of numbers t) u' Hn Hmm OK' NO' HC BD) as (new0 & v & os & ns & E0 & EV & EO & EN2 & HInt). rewrite ENew in E0. injection E0 as <-.
      destruct (C40_values n s minl maxl cells' new u' Hn Hmm OK' OKn NO') as (v0 & E1 & HV). rewrite EV in E1. injection E1 as <-.
      destruct (ca_for_each_cell_spec n cells (in_wf _ _ _ _ _ _ _ (gi_in _ _ _ _ _ _ _ _ _ HI))) as (cs & EC & EnC & _).
      destruct (ca_for_each_cell_spec n cells' W') as (os' & EO' & EnO & _). rewrite EO in EO'. injection EO' as <-.
      pose proof (enumeration_same cells cells' _ _ SL EnC EnO) as Eos.
      assert (IU : (integral n u' (leaf_cells cs) == integral n u (leaf_cells cs))%Q).
      { destruct EnC as [_ Ec]. clear -Ec UL. assert (Hc : forall l p, In (l, p) (leaf_cells cs) -> ca_mem n cells l p) by (intros; apply Ec; auto). clear Ec. revert Hc.
        generalize (leaf_cells cs). induction l as [|[l p] cs' IH]; intros Hc; [unfold integral; cbn; reflexivity|]. unfold integral in *. cbn [map qsum fold_right].
        change (fold_right Qplus 0%Q) with qsum. rewrite IH by (intros; apply Hc; right; auto). destruct p as [|x y]; [reflexivity|]. rewrite UL by (apply Hc; left; auto). reflexivity. }
      assert (HH : harten n g bc ite cells u = if same_mesh n minl maxl cells' new' then Some (true, (cells, u')) else Some (false, (new, v))).
      { unfold harten. rewrite EM, ES, EU, ED, HG, ET. unfold update_field_mr. rewrite EN, ENew, EM2, EV. reflexivity. }
      destruct (same_mesh n minl maxl cells' new') eqn:SM.
      - exists r, u', d, true, cells, u'. split; auto. split; auto. split; auto. split; [exists sub; auto|]. split; auto.
        assert (SLL : same_leaves n cells new).
        { intros l q. rewrite (SL l q), (SLn l q). apply same_mesh_leaves; auto.
          - apply (gi_range _ _ _ _ _ _ _ _ _ (proj1 UC')).
          - intros l0 q0 H0. apply SLn in H0. apply (gi_range _ _ _ _ _ _ _ _ _ (proj1 UN)) in H0. auto.
          - congruence. }
        pose proof (proj1 (gi_tiles _ _ _ _ _ _ _ _ _ HI)) as NO.
        split; [intros l p; rewrite (SLL l p); apply X|]. split; [|split; auto].
        + intros l x y Hp. split; [auto|]. split; [|split; [|auto]].
          * intros (q & Hq & Eq). exfalso. assert (l = S l); [|lia]. apply (NO l (S l) (x :: y) q Hp Hq ltac:(lia)). replace (S l - l)%nat with 1%nat by lia. auto.
          * intros m0 -> Hm0. assert (m0 = S m0); [|lia]. apply (NO m0 (S m0) _ (x :: y) Hm0 Hp ltac:(lia)). replace (S m0 - m0)%nat with 1%nat by lia. auto.
        + intros q. unfold total. split; intros (cs2 & E2 & Q2); exists cs2; (split; [auto|]); rewrite EC in E2; injection E2 as <-; rewrite Q2, IU; reflexivity.
      - exists r, u', d, false, new, v. split; auto. split; auto. split; auto. split; [exists sub; auto|]. split; auto. split; auto. split; [|split; [discriminate|]].
        + intros l x y Hp. destruct (HV l x y Hp) as (V1 & V2 & V3 & _). assert (Ly : length y = n) by (destruct Hp as (_ & Lp & _); cbn in Lp; lia).
          split; [intros H; rewrite V1 by (apply SL; auto); apply UL; auto|]. split; [|split].
          * intros (q & Hq & Eq).
            assert (Al0 : forall c, length c = S n -> ancestor 1 c = x :: y -> ca_mem n cells (S l) c).
            { intros c Lc Ac. apply X in Hp as (_ & [(l0 & -> & Hr)|[(Hl & _)|(q2 & Hq2 & Eq2)]]).
              - exfalso. apply to_refine_inv in Hr as [Hr _]. pose proof (proj1 (gi_tiles _ _ _ _ _ _ _ _ _ HI)) as NO.
                assert (l0 = S (S l0)); [|lia]. apply (NO l0 (S (S l0)) _ q Hr Hq ltac:(lia)). replace (S (S l0) - l0)%nat with (1 + 1)%nat by lia. rewrite <- ancestor_add. f_equal. auto.
              - exfalso. pose proof (proj1 (gi_tiles _ _ _ _ _ _ _ _ _ HI)) as NO. assert (l = S l); [|lia]. apply (NO l (S l) _ q Hl Hq ltac:(lia)). replace (S l - l)%nat with 1%nat by lia. auto.
              - destruct Hq2 as (_ & _ & H2). apply (H2 c); auto. congruence. }
            split; auto. unfold is_mean. rewrite Ly. rewrite V2 by (exists q; split; auto; apply SL; auto).
            assert (Al : forall c, In c (children x y) -> ca_mem n cells (S l) (fst c :: snd c)).
            { intros [cx cy] Hc. cbn [fst snd]. apply children_In in Hc as (Ec & Lc & Ac). apply Al0; [cbn; lia|]. rewrite ancestor_cons. change (2 ^ Z.of_nat 1) with 2. congruence. }
            clear -Al UL. revert Al. generalize (children x y). induction l0 as [|c cs IH]; intros Al; [reflexivity|]. cbn [map qsum fold_right]. change (fold_right Qplus 0%Q) with qsum.
            rewrite IH by (intros; apply Al; right; auto). rewrite UL by (apply (Al c); left; auto). reflexivity.
          * intros m0 Em Hm0. apply V3; auto. apply SL; auto.
          * apply X in Hp as (_ & [(l0 & -> & Hr)|[(Hl & _)|(q2 & Hq2 & Eq2)]]).
            -- right. right. exists l0. split; auto. apply to_refine_inv in Hr. apply Hr.
            -- left. auto.
            -- right. left. exists q2. split; [exact (proj1 Hq2)|auto].
        + intros q. unfold total. split; intros (cs2 & E2 & Q2).
          * exists ns. split; auto. rewrite EC in E2. injection E2 as <-. rewrite Q2, HInt, <- Eos, IU. reflexivity.
          * exists cs. split; auto. rewrite EN2 in E2. injection E2 as <-. rewrite Q2, HInt, <- Eos, IU. reflexivity.
    Qed.
  End One.
End Iteration.

(** ** One iteration
    It never accesses a value outside the storage. The leaves to refine are replaced by their
    children, the families to coarsen by their parent; the new mesh can be adapted again. A
    new leaf has its old value, the mean of its children or the prediction from the values
    with ghosts; the integral does not change. *)
Theorem C60_iteration : forall n g lo hi bc ite cells u, usable n g lo hi cells -> harmless n g lo hi bc ->
  exists r u' d same next v, harten n g bc ite cells u = Some (same, (next, v)) /\ usable n g lo hi next /\
    update_sub_mesh n (h_max g) (h_min_level g) (h_max_level g) (h_width g) (Z.of_nat (h_order g)) cells = Some r /\
    with_ghosts n g bc cells r u u' /\ compute_details n (h_order g) (h_min_level g) (h_max_level g - ite) cells (r_all r) u' = Some d /\
    (forall l p, ca_mem n next l p <-> length p = S n /\ new_leaf n g ite cells d l p) /\
    carried n (h_order g) cells next u u' v /\ (same = true -> next = cells) /\
    forall q, total n u cells q <-> total n v next q.
Proof. intros n g lo hi bc ite cells u HU HB. apply (iteration n g lo hi bc HB ite cells u HU). Qed.

(** ** The loop *)
Theorem C60_adapt : forall n g lo hi bc cells u, usable n g lo hi cells -> harmless n g lo hi bc ->
  exists next v, adapt n g bc cells u = Some (next, v) /\ usable n g lo hi next /\ forall q, total n u cells q <-> total n v next q.
Proof.
  intros n g lo hi bc cells u HU HB. unfold adapt. destruct (Nat.eqb_spec (h_min_level g) (h_max_level g)) as [E|E].
  { exists cells, u. split; auto. split; auto. tauto. }
  clear E. generalize (h_max_level g - h_min_level g)%nat 0%nat. intros k. revert cells u HU. induction k as [|k IH]; intros cells u HU ite; cbn [adapt_loop].
  - exists cells, u. split; auto. split; auto. tauto.
  - destruct (C60_iteration n g lo hi bc ite cells u HU HB) as (r & u' & d & same & next & v & E & UN & _ & _ & _ & _ & _ & _ & T). rewrite E. destruct same.
    + exists next, v. auto.
    + cbn [fst snd]. destruct (IH next v UN (S ite)) as (next2 & v2 & E2 & U2 & T2). exists next2, v2. split; auto. split; auto. intros q. rewrite T. auto.
Qed.

(** ** What is lost and what is refined *)

(** In an iteration, each leaf that is coarsened has a value close to the one predicted from
    the coarser values, in every dimension (in dimension 1 the code looks at one child of two). *)
Theorem C60_coarsened : forall n g lo hi bc ite cells u r u' d, usable n g lo hi cells -> harmless n g lo hi bc ->
  update_sub_mesh n (h_max g) (h_min_level g) (h_max_level g) (h_width g) (Z.of_nat (h_order g)) cells = Some r ->
  with_ghosts n g bc cells r u u' -> compute_details n (h_order g) (h_min_level g) (h_max_level g - ite) cells (r_all r) u' = Some d ->
  forall l x y, to_coarsen n (h_min_level g) (h_max_level g) (h_max_level g - ite) (h_eps g) (h_factor g) (h_enlarge g) cells d (S l) (x :: y) ->
  exists p, is_predicted (h_order g) (u' l) x y p /\ (Qabs (u (S l) x y - p) < threshold n (h_max_level g) (h_eps g) (S l))%Q.
Proof.
  intros n g lo hi bc ite cells u r u' d HU HB HR (sub & ES & EU) ED l x y (Hq & HQ & HS).
  pose proof HU as (HI & _ & Hmin & _). destruct HQ as (Hl & HL & _).
  destruct (C59_details n _ _ _ _ _ cells lo hi r ite u' HI HR) as (d0 & E0 & D1 & _). rewrite ED in E0. injection E0 as <-.
  destruct (C55_update n _ _ _ _ _ cells lo hi r sub (bc cells (r_all r)) HI HR ES (HB cells r HU HR) u) as (u0 & E0 & UL & UM & _). rewrite EU in E0. injection E0 as <-.
  assert (Ly : length y = n) by (destruct Hq as (_ & Lq & _); cbn in Lq; lia).
  assert (DD : forall cx cy, ancestor 1 (cx :: cy) = ancestor 1 (x :: y) -> is_detail (h_order g) u' (S l) cx cy (d (S l) cx cy)).
  { intros cx cy Ec. apply (D1 (S l) (x :: y)); auto. lia. }
  assert (SZ : (size d (S l) (x :: y) < threshold n (h_max_level g) (h_eps g) (S l))%Q).
  { destruct (Nat.eq_dec n 0) as [->|Hn].
    - destruct y; [|discriminate]. assert (X : exists a, x = 2 * a \/ x = 2 * a + 1) by (exists (x / 2); lia). destruct X as (a & X).
      assert (Aa : forall b, (b = 2 * a \/ b = 2 * a + 1) -> ancestor 1 [b] = [a]) by (intros b Hb; unfold ancestor; cbn [map]; change (2 ^ Z.of_nat 1) with 2; f_equal; lia).
      assert (H1 : (size d (S l) [2 * a]%Z < threshold 0 (h_max_level g) (h_eps g) (S l))%Q).
      { apply HL. rewrite (Aa x X). split; auto. }
      destruct X as [->| ->]; auto.
      rewrite <- (C59_first_child_suffices (h_order g) u' d l a); auto.
      + apply UM.
        * rewrite <- (Aa (2 * a + 1)) by auto. apply (parent_ref _ _ _ _ _ _ _ _ _ r HI HR). auto.
        * lia.
        * exists (S l), [2 * a + 1]. split; [lia|]. split; auto. replace (S l - l)%nat with 1%nat by lia. symmetry. auto.
      + intros cx cy Hc. rewrite doubled_child in Hc. apply DD. destruct Hc as [Hc|[Hc|[]]]; injection Hc as <- <-; rewrite !Aa; auto.
    - apply HL. split; [cbn; lia|]. split; auto. intros; lia. }
  destruct (DD x y eq_refl) as (p & Hp & Ed). exists p. split; auto. rewrite <- (UL (S l) x y) by auto. unfold size in SZ. cbn [hd tl] in SZ. rewrite Ed in SZ. auto.
Qed.

(** A leaf far from its prediction is refined. *)
Theorem C60_refined : forall n g lo hi bc ite cells u r u' d same next v, usable n g lo hi cells -> harmless n g lo hi bc ->
  update_sub_mesh n (h_max g) (h_min_level g) (h_max_level g) (h_width g) (Z.of_nat (h_order g)) cells = Some r ->
  with_ghosts n g bc cells r u u' -> compute_details n (h_order g) (h_min_level g) (h_max_level g - ite) cells (r_all r) u' = Some d ->
  harten n g bc ite cells u = Some (same, (next, v)) ->
  forall l x y p, ca_mem n cells (S l) (x :: y) -> (S l <= h_max_level g - ite)%nat -> (S l < h_max_level g)%nat -> is_predicted (h_order g) (u' l) x y p ->
    (h_factor g * threshold n (h_max_level g) (h_eps g) (S l) < Qabs (u (S l) x y - p))%Q ->
    forall c, length c = S n -> ancestor 1 c = x :: y -> ca_mem n next (S (S l)) c.
Proof.
  intros n g lo hi bc ite cells u r u' d same next v HU HB HR HG ED EH l x y p Hq Hl1 Hl2 HP HE c Lc Ec.
  destruct (C60_iteration n g lo hi bc ite cells u HU HB) as (r0 & u0 & d0 & same0 & next0 & v0 & E & _ & E1 & E2 & E3 & X & _).
  rewrite EH in E. injection E as <- <- <-. rewrite HR in E1. injection E1 as <-.
  assert (u0 = u') by (destruct HG as (s1 & A1 & B1), E2 as (s2 & A2 & B2); congruence). subst u0. rewrite ED in E3. injection E3 as <-.
  pose proof HU as (HI & _). destruct HG as (sub & ES & EU).
  destruct (C55_update n _ _ _ _ _ cells lo hi r sub (bc cells (r_all r)) HI HR ES (HB cells r HU HR) u) as (u0 & E0 & UL & _). rewrite EU in E0. injection E0 as <-.
  destruct (C59_details n _ _ _ _ _ cells lo hi r ite u' HI HR) as (d0 & E0 & D1 & _). rewrite ED in E0. injection E0 as <-.
  apply X. split; auto. left. exists (S l). split; auto. rewrite Ec. apply refine_asked. split; auto. split; auto. split; auto.
  destruct (D1 (S l) (x :: y) x y ltac:(lia) Hq eq_refl) as (p' & Hp' & Ed). unfold size. cbn [hd tl]. rewrite Ed, UL by auto.
  assert (Ep : (p' == p)%Q) by (apply (predicted_local n (h_order g) (u' l) (u' l) x y); auto; [destruct Hq as (_ & Lq & _); cbn in Lq; lia|reflexivity]). rewrite Ep. auto.
Qed.

(** ** The boundary conditions of C57 *)

(** Conditions of order 1 on the boundary of the domain, with ghosts and prediction of width 1. *)
Definition conditions (n : nat) (g : setting) (dx : nat -> Q) (bs : list bc) (cells all : ca) : nat -> lfield -> option lfield :=
  update_bc n cells all (h_domain g) (h_min_level g) (h_max_level g) 1 1 dx bs.
Theorem C60_conditions : forall n g lo hi dx bs, h_width g = 1 -> h_order g = 1%nat -> (h_max_level g < 30)%nat ->
  (forall b, In b bs -> order_one b /\ on_boundary n (h_max_level g) lo hi b) -> harmless n g lo hi (conditions n g dx bs).
Proof.
  intros n g lo hi dx bs Hw Ho Hm Hb cells r (HI & HBx & _) HR. rewrite Hw, Ho in *. apply (C57_only_outside n (h_max g)); auto. split; auto.
Qed.

(** ** Example *)

(** The mesh of C58, on [0, 1], with a Dirichlet condition of value 5 at both ends. *)
Definition lineSetting (eps factor : Q) : setting := mkSetting 4 1 3 1 1 1 eps factor false lineDomain.
Lemma line_usable : forall eps factor, usable 0 (lineSetting eps factor) [0] [1] lineMesh.
Proof.
  intros eps factor. split; [apply lineMesh_input; auto|]. split; [apply box_domain_ok; auto; intros [|k] Hk; [reflexivity|lia]|]. split; [apply Nat.le_refl|]. split; reflexivity.
Qed.
Definition lineBcs : list bc := match everywhere 0 lineDomain with Some region => [mkBc 2 region (fun _ _ _ => 5%Q) (dirichlet 1)] | None => [] end.
Lemma line_harmless : forall eps factor dx, harmless 0 (lineSetting eps factor) [0] [1] (conditions 0 (lineSetting eps factor) dx lineBcs).
Proof.
  intros eps factor dx. apply C60_conditions; auto; [cbn; lia|]. intros b Hb.
  assert (HBx : is_box 0 3 [0] [1] lineDomain) by (apply box_domain_ok; auto; intros [|k] Hk; [reflexivity|lia]).
  unfold lineBcs in Hb. destruct (everywhere 0 lineDomain) as [region|] eqn:E; [|destruct Hb]. destruct Hb as [<-|[]]. split; [apply dirichlet_order_one|].
  apply (everywhere_conditions 0 3 [0] [1] lineDomain region (fun _ _ _ => 5%Q) (dirichlet 1)); auto; try lia. intros [|k] Hk; [reflexivity|lia].
Qed.
Definition show (n : nat) (o : option (ca * lfield)) : option (list (nat * list Z * Q)) :=
  let* r := o in
  let* cs := leaf_list n (fst r) in
  Some (map (fun '(l, p) => (l, p, Qred (value_at (snd r l) p))) cs).
Definition lineField : lfield := fun l x _ => (inject_Z (x * x) / inject_Z (4 ^ Z.of_nat l))%Q.
Definition lineRun (eps factor : Q) : option (ca * lfield) :=
  adapt 0 (lineSetting eps factor) (conditions 0 (lineSetting eps factor) (fun _ => 1%Q) lineBcs) lineMesh lineField.
(** The field is far from the value at the boundary: with a small threshold the leaf of level 1 and
    one leaf of level 2 are refined, with a large one the mesh is coarsened down to level 1. The sum of
    the values times the volumes stays 117/512. *)
Definition volumes (n : nat) (o : option (list (nat * list Z * Q))) : option Q :=
  option_map (fun cs => Qred (qsum (map (fun '(l, _, q) => (q / inject_Z (2 ^ (Z.of_nat (S n) * Z.of_nat l)))%Q) cs))) o.
Example C60_example : usable 0 (lineSetting (1 # 10) 4) [0] [1] lineMesh /\
  harmless 0 (lineSetting (1 # 10) 4) [0] [1] (conditions 0 (lineSetting (1 # 10) 4) (fun _ => 1%Q) lineBcs) /\
  show 0 (Some (lineMesh, lineField)) = Some [(1%nat, [0], 0%Q); (2%nat, [2], (1 # 4)%Q); (3%nat, [6], (9 # 16)%Q); (3%nat, [7], (49 # 64)%Q)] /\
  show 0 (lineRun (1 # 10) 4) = Some [(2%nat, [0], (2443 # 2048)%Q); (2%nat, [1], (-2443 # 2048)%Q); (3%nat, [4], (293 # 16384)%Q); (3%nat, [5], (7899 # 16384)%Q);
    (3%nat, [6], (9 # 16)%Q); (3%nat, [7], (49 # 64)%Q)] /\
  show 0 (lineRun 10 2) = Some [(1%nat, [0], 0%Q); (1%nat, [1], (117 # 256)%Q)] /\
  map (volumes 0) [show 0 (Some (lineMesh, lineField)); show 0 (lineRun (1 # 10) 4); show 0 (lineRun 10 2)] = [Some (117 # 512); Some (117 # 512); Some (117 # 512)]%Q.
Proof.
  split; [apply line_usable|]. split; [apply line_harmless|]. repeat split; vm_compute; reflexivity.
Qed.

Print Assumptions C60_iteration.
Print Assumptions C60_adapt.
Print Assumptions C60_coarsened.
Print Assumptions C60_refined.
Print Assumptions C60_conditions.
