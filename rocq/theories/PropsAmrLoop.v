(** C66: the adaptation of an AMR mesh. *)
From Coq Require Import QArith Qabs Lqa.
From Verif Require Import Base IntervalModel Spec IntervalProofs LoiModel LcaModel LcaSpec LcaProofs LcaProofs2 LcaProofs3 RowsProofs CellArrayModel CellArrayProofs PropsLca PropsCellArray
  SubsetModel TreeProofs SubsetSpec SubsetProofs2 PropsSubset StencilModel NumberingProofs StencilProofs PropsStencil MeshModel MeshProofs PropsMesh
  NumModel NumProofs NumSpec PropsNum AdaptModel AdaptProofs TagProofs PropsAdapt TransferProofs PropsTransfer MrModel MrProofs PropsMr
  GhostModel GhostProofs PropsGhost BcProofs HartenModel HartenProofs HartenProofs2 PropsHarten LoopProofs DetermProofs PropsLoop PropsDeterm
  AmrModel AmrProofs AmrProofs2 AmrProofs3 PropsAmr PropsAmrGhost AmrLoopModel AmrProofs5 AmrProofs6.
From Verif Require PropsOuter PropsDetail AroundProofs.
Open Scope Z_scope.
Notation to_refine := AmrProofs2.to_refine.
Notation to_coarsen := PropsAmr.to_coarsen.

(** A mesh the adaptation can start from: leaves that fill a box without overlap, graded by
    the stencil of the graduation; the smallest level is at least 1, the coordinates fit in
    an int up to the largest level; the intervals have the step 1. *)
Record amr_usable (n : nat) (g : amr_setting) (lo hi : list Z) (cells : ca) : Prop := {
  au_sub : amr_sub_input n (g_max g) (g_min_level g) (g_max_level g) (g_width g) (Z.of_nat (g_order g)) (g_level g) (g_domain g) cells lo hi;
  au_dim : (n <= 2)%nat;
  au_graded : graded_by n (g_stencil g) cells;
  au_stencil : step_stencil n (g_stencil g);
  au_width : 1 <= g_grad g <= g_width g;
  au_low : (1 <= g_min_level g <= g_max_level g)%nat;
  au_small : forall k, (k <= n)%nat -> 2 * (Z.max 0 (nth k hi 0) * 2 ^ Z.of_nat (g_max_level g) + g_width g + Z.of_nat (g_order g) + 8) < 2 ^ 31 - 1;
  au_steps : steps_one cells }.

(** On each such mesh the boundary conditions change nothing but the stored cells outside
    the box. *)
Definition amr_harmless (n : nat) (g : amr_setting) (lo hi : list Z) (bc : ca -> ca -> nat -> lfield -> option lfield) : Prop :=
  forall cells r, amr_usable n g lo hi cells ->
    amr_sub_mesh n (g_max g) (g_min_level g) (g_max_level g) (g_width g) (Z.of_nat (g_order g)) (g_domain g) cells = Some r ->
    only_outside n (g_max_level g) (a_all r) lo hi (bc cells (a_all r)).

(** On each such mesh the criterion marks every leaf. *)
Definition marking (n : nat) (g : amr_setting) (lo hi : list Z) (criterion : ca -> ca -> lfield -> option tfield) : Prop :=
  forall cells r u, amr_usable n g lo hi cells ->
    amr_sub_mesh n (g_max g) (g_min_level g) (g_max_level g) (g_width g) (Z.of_nat (g_order g)) (g_domain g) cells = Some r ->
    exists t, criterion cells (a_all r) u = Some t /\
      forall l q, ca_mem n cells l q -> Z.testbit (tg t l q) 0 || Z.testbit (tg t l q) 1 || Z.testbit (tg t l q) 2 = true.

(** The new leaves: the children of the leaves to refine, the parents of the leaves to
    coarsen, and the others. *)
Definition amr_new_leaf (n : nat) (g : amr_setting) (cells reference : ca) (t : tfield) (l : nat) (p : list Z) : Prop :=
  let up l q := (l < g_max_level g)%nat /\ ca_mem n cells l q /\ to_refine n (g_stencil g) cells t l q in
  let down := to_coarsen n (g_min_level g) (g_grad g) (g_stencil g) cells reference t in
  (exists l0, l = S l0 /\ up l0 (ancestor 1 p)) \/ (ca_mem n cells l p /\ ~ up l p /\ ~ down l p) \/ (exists q, down (S l) q /\ ancestor 1 q = p).

Section Iteration.
  Variables (n : nat) (g : amr_setting) (lo hi : list Z) (early : bool) (bc : ca -> ca -> nat -> lfield -> option lfield) (criterion : ca -> ca -> lfield -> option tfield).
  Notation minl := (g_min_level g).
  Notation maxl := (g_max_level g).
  Notation s := (g_order g).
  Notation sub_mesh := (amr_sub_mesh n (g_max g) minl maxl (g_width g) (Z.of_nat s) (g_domain g)).
  Hypothesis HB : amr_harmless n g lo hi bc.
  Hypothesis HC : marking n g lo hi criterion.

  Lemma new_usable : forall c c', amr_usable n g lo hi c -> ca_wf n c' -> c_max c' = g_max g -> (forall l, (l <= g_max g)%nat -> a_level (c_at c' l) = l) ->
    tiles n c' lo hi -> graded_by n (g_stencil g) c' -> (forall l p, ca_mem n c' l p -> (minl <= l <= maxl)%nat) -> steps_one c' -> amr_usable n g lo hi c'.
  Proof using Type. clear HB HC early bc criterion.
    intros c c' [HS H1 H2 H3 H4 H5 H6 _] W M L T G R S1. pose proof (si_in _ _ _ _ _ _ _ _ _ _ _ HS) as (_ & _ & I1 & _ & I2 & I3 & _ & _).
    assert (B : forall l q k, ca_mem n c' l q -> (k <= n)%nat -> 2 * (Z.max 0 (nth k q 0) + g_width g + Z.of_nat s + 8) < 2 ^ 31 - 1).
    { intros l q k Hq Hk. destruct T as (_ & T & _). apply T in Hq as Hi. destruct Hi as [_ Hi]. specialize (Hi k Hk). specialize (R _ _ Hq). specialize (H6 k Hk).
      assert (P : 2 ^ Z.of_nat l <= 2 ^ Z.of_nat maxl) by (apply Z.pow_le_mono_r; lia). pose proof (pow_pos l). nia. }
    constructor; auto. constructor; auto; try (apply HS).
    - split; [auto|]. split; [auto|]. split; [auto|]. split; [auto|]. split; [auto|]. split; [auto|]. split; [auto|]. intros l q k Hq Hk. specialize (B l q k Hq Hk). lia.
    - intros l q Hq. specialize (R l q Hq). lia.
  Qed.
  Lemma graded_by_same : forall stencil c c', same_leaves n c c' -> graded_by n stencil c -> graded_by n stencil c'.
  Proof using Type. clear HB HC early bc criterion. intros stencil c c' E H l l' p q v Hp Hq. apply H; apply E; auto. Qed.
  Lemma same_usable : forall c c', amr_usable n g lo hi c -> ca_wf n c' -> c_max c' = g_max g -> (forall l, (l <= g_max g)%nat -> a_level (c_at c' l) = l) ->
    same_leaves n c c' -> steps_one c' -> amr_usable n g lo hi c'.
  Proof using Type. clear HB HC early bc criterion.
    intros c c' HU W M L E S1. apply (new_usable c); auto.
    - apply (tiles_same n c); auto. apply HU.
    - apply (graded_by_same _ c); auto. apply HU.
    - intros l p Hp. apply E in Hp. apply (lo_range _ _ _ _ _ _ _ _ _ _ _ (au_sub _ _ _ _ _ HU) _ _ Hp).
  Qed.

  Lemma make_amr_total : forall c, amr_usable n g lo hi c -> exists c' r, make_amr n g c = Some (c', (r, ca_update_index (a_all r))) /\
    sub_mesh c = Some r /\ renumber_sub_mesh n (ca_update_index (a_all r)) c = Some c' /\ amr_numbered n (g_max g) c r c' (ca_update_index (a_all r)).
  Proof using Type. clear HB HC early bc criterion.
    intros c HU. pose proof (au_sub _ _ _ _ _ HU) as HI. destruct (amr_contents n _ _ _ _ _ _ _ c lo hi HI) as (r & E & _).
    destruct (amr_renumbered n _ _ _ _ _ _ _ c lo hi r HI E) as (c' & a & b & d & E' & RN & N).
    exists c', r. unfold make_amr. rewrite E, E'. auto.
  Qed.
  Lemma amr_usable_ok : forall c, amr_usable n g lo hi c -> mesh_ok n minl maxl c /\ no_overlap n c /\ forall l q k, ca_mem n c l q -> (k <= n)%nat -> 2 * nth k q 0 + 4 < 2 ^ 31 - 1.
  Proof using Type. clear HB HC early bc criterion.
    intros c HU. pose proof (au_sub _ _ _ _ _ HU) as HI. pose proof (si_in _ _ _ _ _ _ _ _ _ _ _ HI) as (W & M & HM & L & A1 & A2 & RG & _).
    assert (Bd : forall l q k, ca_mem n c l q -> (k <= n)%nat -> 2 * nth k q 0 + 6 < 2 ^ 31 - 1).
    { intros l q k Hq Hk. pose proof (si_small _ _ _ _ _ _ _ _ _ _ _ HI l q k Hq Hk). lia. }
    split; [|split; [apply (si_tiles _ _ _ _ _ _ _ _ _ _ _ HI)|intros l q k Hq Hk; specialize (Bd l q k Hq Hk); lia]]. split; auto. split; [lia|]. split; [intros l Hl; apply L; lia|].
    intros l q Hq. split; [apply (RG l q Hq)|]. intros k Hk. specialize (Bd l q k Hq Hk). lia.
  Qed.

  Section One.
    Variables (cells : ca) (u : lfield).
    Hypothesis HU : amr_usable n g lo hi cells.

    (** *** The new mesh from the tags *)
    Lemma iteration_mesh : forall r cells' reference t t' numbers, sub_mesh cells = Some r -> amr_numbered n (g_max g) cells r cells' reference ->
      (forall l q, ca_mem n cells l q -> Z.testbit (tg t l q) 0 || Z.testbit (tg t l q) 1 || Z.testbit (tg t l q) 2 = true) ->
      graduation n maxl (g_grad g) (g_stencil g) cells' (a_all r) t = Some t' ->
      ca_for_each_cell n reference = Some numbers ->
      consistent n minl cells' (storage_of numbers t') /\
      exists new, update_cells n minl maxl cells' (storage_of numbers t') = Some new /\ amr_usable n g lo hi new /\
        forall l p, ca_mem n new l p <-> length p = S n /\ amr_new_leaf n g cells (a_all r) t l p.
    Proof using Type HU. clear HB HC early bc criterion.
      intros r cells' reference t t' numbers HR (W' & M' & L' & SL & Wr & _ & IX & J) HM Et EN.
      pose proof (au_sub _ _ _ _ _ HU) as HI.
      pose proof (C64_graduation n _ _ _ _ _ _ _ cells lo hi r (g_grad g) (g_stencil g) HI HR (au_dim _ _ _ _ _ HU) (au_graded _ _ _ _ _ HU) (au_stencil _ _ _ _ _ HU) (au_width _ _ _ _ _ HU)) as AI.
      pose proof (amr_input_same _ _ _ _ _ _ _ cells' _ _ _ AI W' M' L' SL) as AI'.
      destruct (C63_new_mesh n _ _ _ _ _ cells' (a_all r) lo hi t t' (storage_of numbers t') AI') as (C & new & En & Wn & Tn & Gn & Rn & X); auto.
      - intros l q Hq. apply HM, SL, Hq.
      - intros l q k Hq Hk. apply SL in Hq. destruct (IX l q Hq) as [I1 I2]. rewrite I2 in Hk. apply (storage_of_spec n reference numbers t' l q k EN Wr J I1 Hk).
      - split; auto. exists new. split; auto.
        assert (HX : (maxl <= c_max cells')%nat) by (rewrite M'; apply (lo_top _ _ _ _ _ _ _ _ _ _ _ HI)).
        destruct (update_cells_spec n minl maxl cells' (storage_of numbers t') W' HX) as (new' & E' & Mn & _ & Ln & _). rewrite En in E'. injection E' as <-. rewrite M' in Mn, Ln.
        split; [apply (new_usable cells); auto; apply (update_cells_steps _ _ _ _ _ _ En)|].
        pose proof (same_leaves_sym _ _ _ SL) as SL'.
        intros l p. rewrite X. unfold amr_new_leaf. split; (intros (Lp & H); split; [auto|]).
        + destruct H as [(l0 & El & H1 & H2 & H3)|[(H1 & H2 & H3)|(q & H1 & H2)]].
          * left. exists l0. split; auto. split; auto. split; [apply SL; auto|apply (up_same n _ cells'); auto].
          * right. left. split; [apply SL; auto|]. split; [intros (Y1 & _ & Y2); apply H2; split; auto; apply (up_same n _ cells); auto|].
            intros Y; apply H3; apply (down_same n _ _ _ cells); auto.
          * right. right. exists q. split; auto. apply (down_same n _ _ _ cells'); auto.
        + destruct H as [(l0 & El & H1 & H2 & H3)|[(H1 & H2 & H3)|(q & H1 & H2)]].
          * left. exists l0. split; auto. split; auto. split; [apply SL; auto|apply (up_same n _ cells); auto].
          * right. left. split; [apply SL; auto|]. split; [intros (Y2 & Y1); apply H2; split; auto; split; auto; apply (up_same n _ cells'); auto|].
            intros Y; apply H3; apply (down_same n _ _ _ cells'); auto.
          * right. right. exists q. split; auto. apply (down_same n _ _ _ cells); auto.
    Qed.

    Lemma amr_iteration : exists r u' t same next v, amr_step n g early bc criterion cells u = Some (same, (next, v)) /\ amr_usable n g lo hi next /\
      sub_mesh cells = Some r /\ update_ghost n s maxl (bc cells (a_all r)) r u = Some u' /\
      criterion cells (a_all r) (if early then u' else u) = Some t /\
      (forall l p, ca_mem n next l p <-> length p = S n /\ amr_new_leaf n g cells (a_all r) t l p) /\
      carried n s cells next u u' v /\ (same = true -> next = cells /\ v = u') /\
      (same = false -> ~ same_leaves n cells next) /\
      forall q, total n u cells q <-> total n v next q.
    Proof using Type HU HB HC.
      destruct (make_amr_total cells HU) as (cells' & r & EM & HR & RN & HN). pose proof (au_sub _ _ _ _ _ HU) as HI.
      destruct (update_loose n _ _ _ _ _ _ _ cells lo hi r HI HR (au_dim _ _ _ _ _ HU) (bc cells (a_all r)) (HB cells r HU HR) u) as (u' & EU & UL).
      destruct (HC cells r (if early then u' else u) HU HR) as (t & ET & HM).
      pose proof HN as (W' & M' & L' & SL & Wr & _ & IX & J). set (reference := ca_update_index (a_all r)) in *.
      destruct (ca_for_each_cell_spec n reference Wr) as (numbers & EN & _).
      pose proof (C64_graduation n _ _ _ _ _ _ _ cells lo hi r (g_grad g) (g_stencil g) HI HR (au_dim _ _ _ _ _ HU) (au_graded _ _ _ _ _ HU) (au_stencil _ _ _ _ _ HU) (au_width _ _ _ _ _ HU)) as AI.
      pose proof (amr_input_same _ _ _ _ _ _ _ cells' _ _ _ AI W' M' L' SL) as AI'.
      destruct (C63_closure n _ _ _ _ _ cells' (a_all r) lo hi t AI') as (t' & EG & _).
      destruct (iteration_mesh r cells' reference t t' numbers HR HN HM EG EN) as (HCs & new & ENew & UN & X).
      destruct (make_amr_total new UN) as (new' & r2 & EM2 & HR2 & RN2 & HN2). pose proof HN2 as (_ & Mn' & _ & SLn & _).
      assert (UC' : amr_usable n g lo hi cells') by (apply (same_usable cells); auto; apply (renumber_steps n _ cells cells' (in_wf _ _ _ _ _ _ _ (si_in _ _ _ _ _ _ _ _ _ _ _ HI)) (au_steps _ _ _ _ _ HU) RN)).
      destruct (amr_usable_ok cells' UC') as (OK' & NO' & BD). destruct (amr_usable_ok new UN) as [OKn _]. destruct (amr_usable_ok cells HU) as (_ & NO & _).
      pose proof (au_dim _ _ _ _ _ HU) as Hn. pose proof (proj2 (au_low _ _ _ _ _ HU)) as Hmm.
      destruct (C40_integral n s minl maxl cells' (storage_of numbers t') u' Hn Hmm OK' NO' HCs BD) as (new0 & v & os & ns & E0 & EV & EO & EN2 & HInt). rewrite ENew in E0. injection E0 as <-.
      destruct (C40_values n s minl maxl cells' new u' Hn Hmm OK' OKn NO') as (v0 & E1 & HV). rewrite EV in E1. injection E1 as <-.
      destruct (ca_for_each_cell_spec n cells (in_wf _ _ _ _ _ _ _ (si_in _ _ _ _ _ _ _ _ _ _ _ HI))) as (cs & EC & EnC & _).
      destruct (ca_for_each_cell_spec n cells' W') as (os' & EO' & EnO & _). rewrite EO in EO'. injection EO' as <-.
      pose proof (enumeration_same n cells cells' _ _ SL EnC EnO) as Eos.
      assert (IU : (integral n u' (leaf_cells cs) == integral n u (leaf_cells cs))%Q).
      { destruct EnC as [_ Ec]. clear -Ec UL. assert (Hc : forall l p, In (l, p) (leaf_cells cs) -> ca_mem n cells l p) by (intros; apply Ec; auto). clear Ec. revert Hc.
        generalize (leaf_cells cs). induction l as [|[l p] cs' IH]; intros Hc; [unfold integral; cbn; reflexivity|]. unfold integral in *. cbn [map qsum fold_right].
        change (fold_right Qplus 0%Q) with qsum. rewrite IH by (intros; apply Hc; right; auto). destruct p as [|x y]; [reflexivity|]. rewrite UL by (apply Hc; left; auto). reflexivity. }
      assert (HH : amr_step n g early bc criterion cells u = if same_mesh n minl maxl cells' new' then Some (true, (cells, u')) else Some (false, (new, v))).
      { unfold amr_step. rewrite EM. destruct early; [rewrite EU, ET, EG|rewrite ET, EG, EU]; unfold update_field; fold reference; rewrite EN, ENew, EM2, EV; reflexivity. }
      destruct (same_mesh n minl maxl cells' new') eqn:SM.
      - exists r, u', t, true, cells, u'. split; auto. split; auto. split; auto. split; auto. split; auto.
        assert (SLL : same_leaves n cells new).
        { intros l q. rewrite (SL l q), (SLn l q). apply (same_mesh_leaves n (mkSetting 0 minl maxl 0 0 0 0 0 false (g_domain g)) cells' new'); auto.
          - apply (lo_range _ _ _ _ _ _ _ _ _ _ _ (au_sub _ _ _ _ _ UC')).
          - intros l0 q0 H0. apply SLn in H0. apply (lo_range _ _ _ _ _ _ _ _ _ _ _ (au_sub _ _ _ _ _ UN)) in H0. auto.
          - congruence. }
        split; [intros l p; rewrite (SLL l p); apply X|]. split; [|split; [auto|split; [discriminate|]]].
        + intros l x y Hp. split; [intros _; apply UL; auto|]. split; [|split; [|auto]].
          * intros (q & Hq & Eq). exfalso. assert (l = S l); [|lia]. apply (NO l (S l) (x :: y) q Hp Hq ltac:(lia)). replace (S l - l)%nat with 1%nat by lia. auto.
          * intros m0 -> Hm0. assert (m0 = S m0); [|lia]. apply (NO m0 (S m0) _ (x :: y) Hm0 Hp ltac:(lia)). replace (S m0 - m0)%nat with 1%nat by lia. auto.
        + intros q. unfold total. split; intros (cs2 & E2 & Q2); exists cs2; (split; [auto|]); rewrite EC in E2; injection E2 as <-; rewrite Q2, IU; reflexivity.
      - exists r, u', t, false, new, v. split; auto. split; auto. split; auto. split; auto. split; auto. split; auto. split; [|split; [discriminate|split]].
        + intros l x y Hp. destruct (HV l x y Hp) as (V1 & V2 & V3 & _). assert (Ly : length y = n) by (destruct Hp as (_ & Lp & _); cbn in Lp; lia).
          split; [intros H; rewrite V1 by (apply SL; auto); apply UL; auto|]. split; [|split].
          * intros (q & Hq & Eq).
            assert (Al0 : forall c, length c = S n -> ancestor 1 c = x :: y -> ca_mem n cells (S l) c).
            { intros c Lc Ac. apply X in Hp as (_ & [(l0 & -> & _ & Hr & _)|[(Hl & _)|(q2 & Hq2 & Eq2)]]).
              - exfalso. assert (l0 = S (S l0)); [|lia]. apply (NO l0 (S (S l0)) _ q Hr Hq ltac:(lia)). replace (S (S l0) - l0)%nat with (1 + 1)%nat by lia. rewrite <- ancestor_add. f_equal. auto.
              - exfalso. assert (l = S l); [|lia]. apply (NO l (S l) _ q Hl Hq ltac:(lia)). replace (S l - l)%nat with 1%nat by lia. auto.
              - apply (down_siblings n _ _ _ _ _ cells (a_all r) lo hi t AI HM (S l) q2 c Hq2 Lc ltac:(congruence)). }
            split; auto. unfold is_mean. rewrite Ly. rewrite V2 by (exists q; split; auto; apply SL; auto).
            assert (Al : forall c, In c (children x y) -> ca_mem n cells (S l) (fst c :: snd c)).
            { intros [cx cy] Hc. cbn [fst snd]. apply children_In in Hc as (Ec & Lc & Ac). apply Al0; [cbn; lia|]. rewrite ancestor_cons. change (2 ^ Z.of_nat 1) with 2. congruence. }
            clear -Al UL. revert Al. generalize (children x y). induction l0 as [|c cs IH]; intros Al; [reflexivity|]. cbn [map qsum fold_right]. change (fold_right Qplus 0%Q) with qsum.
            rewrite IH by (intros; apply Al; right; auto). rewrite UL by (apply (Al c); left; auto). reflexivity.
          * intros m0 Em Hm0. apply V3; auto. apply SL; auto.
          * apply X in Hp as (_ & [(l0 & -> & _ & Hr & _)|[(Hl & _)|(q2 & Hq2 & Eq2)]]).
            -- right. right. exists l0. auto.
            -- left. auto.
            -- right. left. exists q2. split; [apply Hq2|auto].
        + intros _ SLL. pose proof (au_steps _ _ _ _ _ HU) as S1. pose proof (update_cells_steps _ _ _ _ _ _ ENew) as SN.
          rewrite (amr_same_mesh n _ _ _ _ _ _ _ cells new lo hi r r2 HI (au_sub _ _ _ _ _ UN) HR HR2 SLL cells' new' S1 SN RN HN RN2 HN2) in SM. discriminate.
        + intros q. unfold total. split; intros (cs2 & E2 & Q2).
          * exists ns. split; auto. rewrite EC in E2. injection E2 as <-. rewrite Q2, HInt, <- Eos, IU. reflexivity.
          * exists cs. split; auto. rewrite EN2 in E2. injection E2 as <-. rewrite Q2, HInt, <- Eos, IU. reflexivity.
    Qed.
  End One.
End Iteration.

(** ** One iteration
    It succeeds, the new mesh is one the next iteration can start from, its leaves are those
    the marks ask for after the graduation, the values are carried (the value of a leaf that
    stays, the mean of the leaves that are merged, the prediction with the ghosts updated)
    and the integral of the field does not change. No more is asked from the stencil than
    from that of C63: the grading may be weaker than the one C65 needs. *)
Theorem C66_step : forall n g lo hi (early : bool) bc criterion cells u, amr_usable n g lo hi cells -> amr_harmless n g lo hi bc -> marking n g lo hi criterion ->
  exists r u' t same next v, amr_step n g early bc criterion cells u = Some (same, (next, v)) /\ amr_usable n g lo hi next /\
    amr_sub_mesh n (g_max g) (g_min_level g) (g_max_level g) (g_width g) (Z.of_nat (g_order g)) (g_domain g) cells = Some r /\
    update_ghost n (g_order g) (g_max_level g) (bc cells (a_all r)) r u = Some u' /\
    criterion cells (a_all r) (if early then u' else u) = Some t /\
    (forall l p, ca_mem n next l p <-> length p = S n /\ amr_new_leaf n g cells (a_all r) t l p) /\
    carried n (g_order g) cells next u u' v /\ (same = true -> next = cells /\ v = u') /\
    forall q, total n u cells q <-> total n v next q.
Proof.
  intros n g lo hi early bc criterion cells u HU HB HC. destruct (amr_iteration n g lo hi early bc criterion HB HC cells u HU) as (r & u' & t & same & next & v & E & UN & HR & EU & ET & X & CV & S1 & _ & T).
  exists r, u', t, same, next, v. tauto.
Qed.

(** The flag says whether the leaves have changed. *)
Theorem C66_unchanged : forall n g lo hi early bc criterion cells u same next v, amr_usable n g lo hi cells -> amr_harmless n g lo hi bc -> marking n g lo hi criterion ->
  amr_step n g early bc criterion cells u = Some (same, (next, v)) -> (same = true <-> same_leaves n cells next).
Proof.
  intros n g lo hi early bc criterion cells u same next v HU HB HC E.
  destruct (amr_iteration n g lo hi early bc criterion HB HC cells u HU) as (r & u' & t & same' & next' & v' & E' & UN & HR & EU & ET & X & CV & S2 & S4 & _).
  rewrite E in E'. injection E' as <- <- <-. destruct same.
  - destruct (S2 eq_refl) as [-> _]. split; auto. intros _ l q. tauto.
  - split; [discriminate|]. intros SL. exfalso. apply (S4 eq_refl SL).
Qed.

(** ** The loop *)

(** Nothing to refine below the largest level, nothing to coarsen. *)
Definition settled (n : nat) (g : amr_setting) (cells reference : ca) (t : tfield) : Prop :=
  forall l q, ca_mem n cells l q -> ((l < g_max_level g)%nat -> ~ to_refine n (g_stencil g) cells t l q) /\
    ~ to_coarsen n (g_min_level g) (g_grad g) (g_stencil g) cells reference t l q.

Lemma settled_iff : forall n g cells reference t, no_overlap n cells -> (forall l q c, to_coarsen n (g_min_level g) (g_grad g) (g_stencil g) cells reference t l q -> length c = S n -> ancestor 1 c = ancestor 1 q -> ca_mem n cells l c) ->
  (settled n g cells reference t <-> forall l p, ca_mem n cells l p <-> length p = S n /\ amr_new_leaf n g cells reference t l p).
Proof.
  intros n g cells reference t NO HG. split.
  - intros HS l p. split.
    + intros Hp. split; [apply Hp|]. right. left. destruct (HS l p Hp) as [A B]. split; auto. split; auto. intros (Y1 & _ & Y2). apply A; auto.
    + intros (Lp & [(l0 & -> & H1 & H2 & H3)|[(H & _)|(q & H & _)]]); auto; exfalso; [apply (proj1 (HS _ _ H2)); auto|apply (proj2 (HS _ _ (proj1 (proj2 H)))); auto].
  - intros H l q Hq. split.
    + intros Hl Hr. destruct q as [|x y]; [destruct Hq as (_ & Lq & _); discriminate|].
      assert (Hc : ca_mem n cells (S l) (map (Z.mul 2) (x :: y))).
      { apply H. split; [rewrite map_length; apply Hq|]. left. exists l. split; auto. split; auto.
        replace (ancestor 1 (map (Z.mul 2) (x :: y))) with (x :: y); auto. unfold ancestor. rewrite map_map. rewrite <- (map_id (x :: y)) at 1. apply map_ext. intros a. change (2 ^ Z.of_nat 1) with 2. rewrite Z.mul_comm, Z.div_mul; lia. }
      assert (l = S l); [|lia]. apply (NO l (S l) _ _ Hq Hc ltac:(lia)). replace (S l - l)%nat with 1%nat by lia.
      unfold ancestor. rewrite map_map. rewrite <- (map_id (x :: y)) at 2. apply map_ext. intros a. change (2 ^ Z.of_nat 1) with 2. rewrite Z.mul_comm, Z.div_mul; lia.
    + intros Hd. destruct l as [|l]; [destruct Hd; lia|]. assert (Hp : ca_mem n cells l (ancestor 1 q)).
      { apply H. split; [rewrite ancestor_length; apply Hq|]. right. right. exists q. auto. }
      assert (l = S l); [|lia]. apply (NO l (S l) _ q Hp Hq ltac:(lia)). replace (S l - l)%nat with 1%nat by lia. auto.
Qed.

(** Any number of iterations: no error, a mesh the next one can start from, the integral
    kept. If the loop has ended, the criterion on the values of the leaves asks for nothing
    more. *)
Theorem C66_loop : forall n g lo hi early bc criterion fuel cells u, amr_usable n g lo hi cells -> amr_harmless n g lo hi bc -> marking n g lo hi criterion ->
  exists ended next v, amr_loop n g early bc criterion fuel cells u = Some (ended, (next, v)) /\ amr_usable n g lo hi next /\
    (forall q, total n u cells q <-> total n v next q) /\
    (ended = true -> exists r w t, amr_sub_mesh n (g_max g) (g_min_level g) (g_max_level g) (g_width g) (Z.of_nat (g_order g)) (g_domain g) next = Some r /\
       (forall l x y, ca_mem n next l (x :: y) -> w l x y = v l x y) /\ criterion next (a_all r) w = Some t /\ (early = true -> w = v) /\ settled n g next (a_all r) t).
Proof.
  intros n g lo hi early bc criterion fuel cells u HU HB HC. revert cells u HU. induction fuel as [|fuel IH]; intros cells u HU; cbn [amr_loop].
  - exists false, cells, u. split; auto. split; auto. split; [tauto|]. discriminate.
  - destruct (amr_iteration n g lo hi early bc criterion HB HC cells u HU) as (r & u' & t & same & next & v & E & UN & HR & EU & ET & X & CV & S2 & S4 & T). rewrite E. destruct same.
    + exists true, next, v. destruct (S2 eq_refl) as [-> ->]. split; auto. split; auto. split; auto. intros _. exists r, (if early then u' else u), t. split; auto.
      split; [|split; auto; split; [intros ->; auto|]].
      * intros l x y Hp. destruct early; auto. destruct (CV l x y Hp) as [A _]. symmetry. auto.
      * pose proof (au_sub _ _ _ _ _ HU) as HI. apply settled_iff; auto; [apply (si_tiles _ _ _ _ _ _ _ _ _ _ _ HI)|].
        pose proof (C64_graduation n _ _ _ _ _ _ _ cells lo hi r (g_grad g) (g_stencil g) HI HR (au_dim _ _ _ _ _ HU) (au_graded _ _ _ _ _ HU) (au_stencil _ _ _ _ _ HU) (au_width _ _ _ _ _ HU)) as AI.
        intros l q c Hd Lc Ec. destruct (HC cells r (if early then u' else u) HU HR) as (t0 & E0 & HM). rewrite ET in E0. injection E0 as <-.
        apply (down_siblings n _ _ _ _ _ cells (a_all r) lo hi t AI HM l q c Hd Lc Ec).
    + cbn [fst snd]. destruct (IH next v UN) as (e2 & next2 & v2 & E2 & U2 & T2 & H2). exists e2, next2, v2. split; auto. split; auto. split; [intros q; rewrite T; auto|]. auto.
Qed.

(** ** The tags outside the leaves
    [tag.resize()] leaves anything in the tags: the graduation reads the tags of the ghosts
    too, but the new mesh depends on those of the leaves only. *)
Definition same_marks (n : nat) (cells : ca) (t1 t2 : tfield) : Prop := forall l q, ca_mem n cells l q -> tg t1 l q = tg t2 l q.

Lemma same_cells : forall n g lo hi cells r cells' reference t1 t2 t1' t2' numbers, amr_usable n g lo hi cells ->
  amr_sub_mesh n (g_max g) (g_min_level g) (g_max_level g) (g_width g) (Z.of_nat (g_order g)) (g_domain g) cells = Some r ->
  amr_numbered n (g_max g) cells r cells' reference -> ca_for_each_cell n reference = Some numbers ->
  (forall l q, ca_mem n cells l q -> Z.testbit (tg t1 l q) 0 || Z.testbit (tg t1 l q) 1 || Z.testbit (tg t1 l q) 2 = true) ->
  same_marks n cells t1 t2 ->
  graduation n (g_max_level g) (g_grad g) (g_stencil g) cells' (a_all r) t1 = Some t1' ->
  graduation n (g_max_level g) (g_grad g) (g_stencil g) cells' (a_all r) t2 = Some t2' ->
  update_cells n (g_min_level g) (g_max_level g) cells' (storage_of numbers t1') = update_cells n (g_min_level g) (g_max_level g) cells' (storage_of numbers t2').
Proof.
  intros n g lo hi cells r cells' reference t1 t2 t1' t2' numbers HU HR (W' & M' & L' & SL & Wr & _ & IX & J) EN HM HT E1 E2.
  pose proof (C64_graduation n _ _ _ _ _ _ _ cells lo hi r (g_grad g) (g_stencil g) (au_sub _ _ _ _ _ HU) HR (au_dim _ _ _ _ _ HU) (au_graded _ _ _ _ _ HU) (au_stencil _ _ _ _ _ HU) (au_width _ _ _ _ _ HU)) as AI.
  pose proof (amr_input_same _ _ _ _ _ _ _ cells' _ _ _ AI W' M' L' SL) as AI'.
  destruct (C63_closure n _ _ _ _ _ cells' (a_all r) lo hi t1 AI') as (z1 & X1 & B1). rewrite E1 in X1. injection X1 as <-.
  destruct (C63_closure n _ _ _ _ _ cells' (a_all r) lo hi t2 AI') as (z2 & X2 & B2). rewrite E2 in X2. injection X2 as <-.
  assert (HT' : forall l q, ca_mem n cells' l q -> tg t1 l q = tg t2 l q) by (intros l q Hq; apply HT, SL, Hq).
  assert (HT2 : forall l q, ca_mem n cells' l q -> tg t2 l q = tg t1 l q) by (intros l q Hq; symmetry; auto).
  apply update_cells_ext; auto. intros l x y k Hp Hk. apply SL in Hp as Hp0. destruct (IX l _ Hp0) as [I1 I2]. rewrite I2 in Hk.
  rewrite !(storage_of_spec n reference numbers _ l (x :: y) k EN Wr J I1 Hk).
  destruct (B1 l (x :: y) ltac:(apply Hp)) as (P2 & P0 & P1). destruct (B2 l (x :: y) ltac:(apply Hp)) as (Q2 & Q0 & Q1).
  specialize (P1 1 ltac:(lia) ltac:(lia) ltac:(lia)). specialize (Q1 1 ltac:(lia) ltac:(lia) ltac:(lia)).
  assert (R2 : Z.testbit (tg t1' l (x :: y)) 2 = true <-> Z.testbit (tg t2' l (x :: y)) 2 = true).
  { rewrite P2, Q2. split; intros Y; [apply (up_leaves n _ cells' t1 t2)|apply (up_leaves n _ cells' t2 t1)]; auto. }
  assert (R0 : Z.testbit (tg t1' l (x :: y)) 0 = true <-> Z.testbit (tg t2' l (x :: y)) 0 = true).
  { rewrite P0, Q0. split; intros Y; [apply (keep_leaves n _ _ _ _ _ cells' (a_all r) lo hi t1 t2 AI')|apply (keep_leaves n _ _ _ _ _ cells' (a_all r) lo hi t2 t1 AI')]; auto. }
  assert (R1 : Z.testbit (tg t1' l (x :: y)) 1 = Z.testbit (tg t2' l (x :: y)) 1) by (rewrite P1, Q1, HT; auto).
  assert (A : Z.testbit (tg t1' l (x :: y)) 0 || Z.testbit (tg t1' l (x :: y)) 1 || Z.testbit (tg t1' l (x :: y)) 2 = true).
  { specialize (HM l _ Hp0). apply orb_true_iff in HM as [HM|HM]; [apply orb_true_iff in HM as [HM|HM]|].
    - rewrite (proj2 P0) by (apply keep_given; auto). auto.
    - rewrite P1, HM. rewrite orb_true_r. auto.
    - rewrite (proj2 P2) by (apply refine_given; auto). apply orb_true_r. }
  assert (Q : forall a b : bool, (a = true <-> b = true) -> a = b) by (intros [|] [|] H; intuition congruence).
  apply Q in R2, R0. apply tag_body_same; auto; unfold wants_coarsen; rewrite ?R2, ?R0, ?R1 in *; auto; tauto.
Qed.

Theorem C66_ghost_tags : forall n g lo hi early bc c1 c2, amr_harmless n g lo hi bc -> marking n g lo hi c1 -> marking n g lo hi c2 ->
  (forall cells r u t1 t2, amr_usable n g lo hi cells ->
     amr_sub_mesh n (g_max g) (g_min_level g) (g_max_level g) (g_width g) (Z.of_nat (g_order g)) (g_domain g) cells = Some r ->
     c1 cells (a_all r) u = Some t1 -> c2 cells (a_all r) u = Some t2 -> same_marks n cells t1 t2) ->
  forall fuel cells u, amr_usable n g lo hi cells -> amr_loop n g early bc c1 fuel cells u = amr_loop n g early bc c2 fuel cells u.
Proof.
  intros n g lo hi early bc c1 c2 HB H1 H2 HS.
  assert (ST : forall cells u, amr_usable n g lo hi cells -> amr_step n g early bc c1 cells u = amr_step n g early bc c2 cells u).
  { intros cells u HU. destruct (make_amr_total n g lo hi cells HU) as (cells' & r & EM & HR & RN & HN). pose proof (au_sub _ _ _ _ _ HU) as HI.
    destruct (update_loose n _ _ _ _ _ _ _ cells lo hi r HI HR (au_dim _ _ _ _ _ HU) (bc cells (a_all r)) (HB cells r HU HR) u) as (u' & EU & UL).
    destruct (H1 cells r (if early then u' else u) HU HR) as (t1 & E1 & HM1). destruct (H2 cells r (if early then u' else u) HU HR) as (t2 & E2 & HM2).
    pose proof HN as (W' & M' & L' & SL & Wr & _ & IX & J).
    destruct (ca_for_each_cell_spec n _ Wr) as (numbers & EN & _).
    pose proof (C64_graduation n _ _ _ _ _ _ _ cells lo hi r (g_grad g) (g_stencil g) HI HR (au_dim _ _ _ _ _ HU) (au_graded _ _ _ _ _ HU) (au_stencil _ _ _ _ _ HU) (au_width _ _ _ _ _ HU)) as AI.
    pose proof (amr_input_same _ _ _ _ _ _ _ cells' _ _ _ AI W' M' L' SL) as AI'.
    destruct (C63_closure n _ _ _ _ _ cells' (a_all r) lo hi t1 AI') as (t1' & EG1 & _). destruct (C63_closure n _ _ _ _ _ cells' (a_all r) lo hi t2 AI') as (t2' & EG2 & _).
    pose proof (same_cells n g lo hi cells r cells' _ t1 t2 t1' t2' numbers HU HR HN EN HM1 (HS cells r _ t1 t2 HU HR E1 E2) EG1 EG2) as UC.
    unfold amr_step. rewrite EM. destruct early; [rewrite EU, E1, E2, EG1, EG2|rewrite E1, E2, EG1, EG2, EU]; unfold update_field; rewrite EN, UC; reflexivity. }
  induction fuel as [|fuel IH]; intros cells u HU; cbn [amr_loop]; [reflexivity|]. rewrite ST by auto.
  destruct (C66_step n g lo hi early bc c2 cells u HU HB H2) as (r & u' & t & same & next & v & E & UN & _). rewrite E. destruct same; auto.
Qed.

(** ** The loop depends on the values of the leaves only
    With a grading in all directions, conditions that set the outer ghosts from the values
    inside, and a criterion that reads the leaves, or the cells around them once the ghosts
    are updated. *)
Definition agree_near (n : nat) (k : Z) (cells : ca) (u1 u2 : lfield) : Prop :=
  forall l p x y, ca_mem n cells l p -> length y = n -> near n k (x :: y) p -> (u1 l x y == u2 l x y)%Q.
Definition reaches (n : nat) (g : amr_setting) (lo hi : list Z) (k : Z) (criterion : ca -> ca -> lfield -> option tfield) : Prop :=
  forall cells r u1 u2 t1 t2, amr_usable n g lo hi cells ->
    amr_sub_mesh n (g_max g) (g_min_level g) (g_max_level g) (g_width g) (Z.of_nat (g_order g)) (g_domain g) cells = Some r ->
    agree_near n k cells u1 u2 -> criterion cells (a_all r) u1 = Some t1 -> criterion cells (a_all r) u2 = Some t2 -> same_marks n cells t1 t2.
Definition amr_filling (n : nat) (g : amr_setting) (lo hi : list Z) (bc : ca -> ca -> nat -> lfield -> option lfield) : Prop :=
  forall cells r, amr_usable n g lo hi cells ->
    amr_sub_mesh n (g_max g) (g_min_level g) (g_max_level g) (g_width g) (Z.of_nat (g_order g)) (g_domain g) cells = Some r ->
    fills n (Z.of_nat (g_order g)) (a_all r) lo hi (bc cells (a_all r)).
Definition fully_graded (n : nat) (g : amr_setting) (lo hi : list Z) : Prop := forall cells, amr_usable n g lo hi cells -> graded_box n cells.

(** The diagonals (in dimension 1, the two neighbours) grade in all directions, and so does
    any stencil when there are two levels at most. *)
Lemma signs_fully_graded : forall n g lo hi, (forall v, In v (g_stencil g) <-> signs n v) -> fully_graded n g lo hi.
Proof. intros n g lo hi H cells HU. apply (diagonals_graded n (g_stencil g)); auto. apply HU. Qed.
Lemma two_levels_fully_graded : forall n g lo hi, (g_max_level g <= g_min_level g + 1)%nat -> fully_graded n g lo hi.
Proof.
  intros n g lo hi H cells HU l l' p q v Hp Hq Hl. pose proof (lo_range _ _ _ _ _ _ _ _ _ _ _ (au_sub _ _ _ _ _ HU)) as R. apply R in Hp, Hq. lia.
Qed.

Section Determined.
  Variables (n : nat) (g : amr_setting) (lo hi : list Z) (early : bool) (bc : ca -> ca -> nat -> lfield -> option lfield) (criterion : ca -> ca -> lfield -> option tfield).
  Notation minl := (g_min_level g).
  Notation maxl := (g_max_level g).
  Notation s := (g_order g).
  Notation sub_mesh := (amr_sub_mesh n (g_max g) minl maxl (g_width g) (Z.of_nat s) (g_domain g)).
  Hypothesis HB : amr_harmless n g lo hi bc.
  Hypothesis HF : amr_filling n g lo hi bc.
  Hypothesis HC : marking n g lo hi criterion.
  Hypothesis HG : fully_graded n g lo hi.
  Hypothesis HS : Z.of_nat s <= g_width g.
  Hypothesis HW : 2 * Z.of_nat s <= g_width g + 2.
  Hypothesis HD : reaches n g lo hi (if early then Z.of_nat s else 0) criterion.

  Section One.
    Variables (cells : ca) (u1 u2 v1 v2 : lfield) (r : amr_mesh).
    Hypothesis HU : amr_usable n g lo hi cells.
    Hypothesis HR : sub_mesh cells = Some r.
    Hypothesis HA : agree n cells u1 u2.
    Hypothesis G1 : update_ghost n s maxl (bc cells (a_all r)) r u1 = Some v1.
    Hypothesis G2 : update_ghost n s maxl (bc cells (a_all r)) r u2 = Some v2.

    Lemma amr_near_agree : agree_near n (Z.of_nat s) cells v1 v2.
    Proof.
      intros l p x y Hp Ly Np. pose proof (au_sub _ _ _ _ _ HU) as HI.
      assert (HI2 : amr_update_input n (g_max g) minl maxl (g_width g) s (g_level g) (g_domain g) cells lo hi).
      { split; auto. split; [apply HU|]. split; [apply HG; auto|]. pose proof (au_width _ _ _ _ _ HU). lia. }
      destruct (C65_determined n _ _ _ _ _ _ _ cells lo hi r (bc cells (a_all r)) HI2 HR (HB cells r HU HR) (HF cells r HU HR) u1 u2 v1 v2 G1 G2 HA l) as [_ X].
      apply (X p); auto.
      - apply (leaf_in_all n _ _ _ _ _ _ _ cells lo hi r HI HR l p Hp).
      - apply (si_tiles _ _ _ _ _ _ _ _ _ _ _ HI). auto.
      - intros q Lq Nq. apply (C64_closed n _ _ _ _ _ _ _ cells lo hi r HI HR) with (q := p); auto. intros k Hk. specialize (Nq k Hk). lia.
    Qed.
    Lemma amr_carried_agree : forall next w1 w2, carried n s cells next u1 v1 w1 -> carried n s cells next u2 v2 w2 -> agree n next w1 w2.
    Proof.
      intros next w1 w2 C1 C2 l x y Hp. destruct (C1 l x y Hp) as (A1 & A2 & A3 & A4). destruct (C2 l x y Hp) as (B1 & B2 & B3 & _).
      assert (Lp : length (x :: y) = S n) by apply Hp. destruct A4 as [H|[H|(m & -> & H)]].
      - rewrite A1, B1 by auto. apply HA; auto.
      - destruct (A2 H) as [X1 M1]. destruct (B2 H) as [_ M2]. apply (mean_local (u1 (S l)) (u2 (S l)) x y); auto. intros cx cy Hc. apply children_In in Hc as (Ec & Lc & Ac).
        apply HA. apply X1; [cbn in *; lia|]. rewrite ancestor_cons. change (2 ^ Z.of_nat 1) with 2. congruence.
      - specialize (A3 m eq_refl H). specialize (B3 m eq_refl H). apply (predicted_local n s (v1 m) (v2 m) x y); auto.
        intros z Lz Nz. destruct z as [|zx zy]; [discriminate|]. cbn [value_at]. apply (amr_near_agree m (ancestor 1 (x :: y))); auto.
    Qed.
  End One.

  Lemma amr_step_determined : forall cells u1 u2 same next w1, amr_usable n g lo hi cells -> agree n cells u1 u2 ->
    amr_step n g early bc criterion cells u1 = Some (same, (next, w1)) -> exists w2, amr_step n g early bc criterion cells u2 = Some (same, (next, w2)) /\ agree n next w1 w2.
  Proof.
    intros cells u1 u2 same next w1 HU HA E1.
    destruct (C66_step n g lo hi early bc criterion cells u1 HU HB HC) as (r & v1 & t1 & same' & next' & w1' & E1' & UN & HR & EU1 & T1 & X1 & CV1 & SM1 & _). rewrite E1 in E1'. injection E1' as <- <- <-.
    destruct (C66_step n g lo hi early bc criterion cells u2 HU HB HC) as (r' & v2 & t2 & same2 & next2 & w2 & E2 & _ & HR' & EU2 & T2 & X2 & CV2 & SM2 & _). rewrite HR in HR'. injection HR' as <-.
    assert (Q : same2 = same /\ next2 = next).
    { destruct (make_amr_total n g lo hi cells HU) as (cells' & r' & EM & HR' & RN & HN). rewrite HR in HR'. injection HR' as <-.
      pose proof HN as (W' & M' & L' & SL & Wr & _ & IX & J). destruct (ca_for_each_cell_spec n _ Wr) as (numbers & EN & _).
      pose proof (C64_graduation n _ _ _ _ _ _ _ cells lo hi r (g_grad g) (g_stencil g) (au_sub _ _ _ _ _ HU) HR (au_dim _ _ _ _ _ HU) (au_graded _ _ _ _ _ HU) (au_stencil _ _ _ _ _ HU) (au_width _ _ _ _ _ HU)) as AI.
      pose proof (amr_input_same _ _ _ _ _ _ _ cells' _ _ _ AI W' M' L' SL) as AI'.
      destruct (C63_closure n _ _ _ _ _ cells' (a_all r) lo hi t1 AI') as (t1' & EG1 & _). destruct (C63_closure n _ _ _ _ _ cells' (a_all r) lo hi t2 AI') as (t2' & EG2 & _).
      destruct (HC cells r (if early then v1 else u1) HU HR) as (t0 & E0 & HM). rewrite T1 in E0. injection E0 as <-.
      assert (SMk : same_marks n cells t1 t2).
      { apply (HD cells r (if early then v1 else u1) (if early then v2 else u2)); auto. destruct early.
        - apply (amr_near_agree cells u1 u2 v1 v2 r); auto.
        - intros l p x y Hp Ly Np. assert (E : x :: y = p) by (apply (list_ext n); [cbn; lia|apply Hp|]; intros k Hk; specialize (Np k Hk); lia). subst p. apply HA; auto. }
      pose proof (same_cells n g lo hi cells r cells' _ t1 t2 t1' t2' numbers HU HR HN EN HM SMk EG1 EG2) as UC.
      assert (F : forall u v t t', update_ghost n s maxl (bc cells (a_all r)) r u = Some v -> criterion cells (a_all r) (if early then v else u) = Some t ->
        graduation n maxl (g_grad g) (g_stencil g) cells' (a_all r) t = Some t' -> amr_step n g early bc criterion cells u = update_field n g cells cells' (ca_update_index (a_all r)) t' v).
      { intros u v t t' F1 F2 F3. unfold amr_step. rewrite EM. clear - F1 F2 F3. destruct early; [rewrite F1, F2, F3|rewrite F2, F3, F1]; reflexivity. }
      rewrite (F u1 v1 t1 t1' EU1 T1 EG1) in E1. rewrite (F u2 v2 t2 t2' EU2 T2 EG2) in E2. revert E1 E2. unfold update_field. rewrite EN, UC.
      destruct (update_cells n minl maxl cells' (storage_of numbers t2')) as [new|]; [|discriminate].
      destruct (make_amr n g new) as [[new' rr]|]; [|discriminate]. destruct (same_mesh n minl maxl cells' new').
      - intros Q1 Q2. injection Q1 as <- <- _. injection Q2 as <- <- _. auto.
      - destruct (update_fields n s minl maxl cells' new v1); [|discriminate]. destruct (update_fields n s minl maxl cells' new v2); [|discriminate].
        intros Q1 Q2. injection Q1 as <- <- _. injection Q2 as <- <- _. auto. }
    destruct Q as [-> ->]. exists w2. split; auto. apply (amr_carried_agree cells u1 u2 v1 v2 r HU HR HA EU1 EU2 next); auto.
  Qed.
End Determined.

Theorem C66_determined : forall n g lo hi (early : bool) bc criterion, amr_harmless n g lo hi bc -> amr_filling n g lo hi bc -> marking n g lo hi criterion -> fully_graded n g lo hi ->
  Z.of_nat (g_order g) <= g_width g -> 2 * Z.of_nat (g_order g) <= g_width g + 2 -> reaches n g lo hi (if early then Z.of_nat (g_order g) else 0) criterion ->
  forall fuel cells u1 u2 ended next w1, amr_usable n g lo hi cells -> agree n cells u1 u2 ->
    amr_loop n g early bc criterion fuel cells u1 = Some (ended, (next, w1)) ->
    exists w2, amr_loop n g early bc criterion fuel cells u2 = Some (ended, (next, w2)) /\ agree n next w1 w2.
Proof.
  intros n g lo hi early bc criterion HB HF HC HG HS HW HD. induction fuel as [|fuel IH]; intros cells u1 u2 ended next w1 HU HA E; cbn [amr_loop] in *; [injection E as <- <- <-; eauto|].
  destruct (amr_step n g early bc criterion cells u1) as [[same [c1 z1]]|] eqn:E1; [|discriminate].
  destruct (amr_step_determined n g lo hi early bc criterion HB HF HC HG HS HW HD cells u1 u2 same c1 z1 HU HA E1) as (z2 & E2 & A2). rewrite E2.
  destruct same; [injection E as <- <- <-; eauto|]. cbn [fst snd] in *. apply (IH c1 z1 z2); auto.
  destruct (C66_step n g lo hi early bc criterion cells u1 HU HB HC) as (r & v1 & d1 & same' & next' & w1' & E1' & UN & _). rewrite E1 in E1'. injection E1' as _ <- _. auto.
Qed.

(** ** The boundary conditions of C57 *)
Definition amr_conditions (n : nat) (g : amr_setting) (dx : nat -> Q) (bs : list bc) (cells all : ca) : nat -> lfield -> option lfield :=
  update_bc n cells all (g_domain g) (g_min_level g) (g_max_level g) 1 1 dx bs.
Theorem C66_conditions : forall n g lo hi dx bs, g_width g = 1 -> g_order g = 1%nat -> g_level g = g_max_level g -> g_min_level g <> g_max_level g -> (g_max_level g < 30)%nat ->
  (forall b, In b bs -> PropsOuter.order_one b /\ PropsOuter.on_boundary n (g_max_level g) lo hi b) ->
  amr_harmless n g lo hi (amr_conditions n g dx bs) /\
  ((n <= 1)%nat -> bs = [] \/ PropsOuter.covering n (g_max_level g) lo hi bs -> amr_filling n g lo hi (amr_conditions n g dx bs)).
Proof.
  intros n g lo hi dx bs Hw Ho Hd Hne Hm Hb.
  assert (X : forall cells, amr_usable n g lo hi cells -> amr_outer_input n (g_max g) (g_min_level g) (g_max_level g) (g_domain g) cells lo hi bs).
  { intros cells HU. pose proof (au_sub _ _ _ _ _ HU) as HI. rewrite Hw, Ho, Hd in HI. split; [split; [exact HI|apply HU]|]. split; auto. split; auto. split; auto.
    intros k Hk. pose proof (au_small _ _ _ _ _ HU k Hk) as H. rewrite Hw, Ho in H. lia. }
  split; [intros cells r HU HR|intros Hn HC cells r HU HR]; rewrite Hw, Ho in HR; [|rewrite Ho].
  - apply (C65_only_outside n (g_max g)); auto.
  - apply (C65_fills n (g_max g)); auto.
Qed.

(** ** The criterion of the level set
    It marks every leaf from its own value, and when the loop has ended the leaves where the
    value is below the bound are those of the largest level. *)
Definition band_flag (minl maxl : nat) (bound q : Q) (l : nat) : Z :=
  if below (Qabs q) bound then (if Nat.eqb l maxl then 1 else 4) else (if Nat.eqb l minl then 1 else 2).
Lemma band_fold : forall minl maxl bound u cs t l p, (forall l p k, In (l, (p, k)) cs -> p <> []) -> p <> [] -> In (l, p) (leaf_cells cs) ->
  tg (fold_left (band_mark minl maxl bound u) cs t) l p = band_flag minl maxl bound (value_at (u l) p) l.
Proof.
  intros minl maxl bound u cs t l p Hcs Hp. set (V := band_flag minl maxl bound (value_at (u l) p) l).
  assert (M : forall t l' p' k, p' <> [] -> tg (band_mark minl maxl bound u t (l', (p', k))) l p = V /\ l = l' /\ p = p' \/ tg (band_mark minl maxl bound u t (l', (p', k))) l p = tg t l p /\ ~ (l = l' /\ p = p')).
  { intros t' l' p' k Hp'. unfold band_mark. destruct (AroundProofs.twrite_tg t' l' p' (if below (Qabs (u l' (hd 0 p') (tl p'))) bound then (if Nat.eqb l' maxl then flag_keep else flag_refine) else (if Nat.eqb l' minl then flag_keep else AdaptModel.flag_coarsen)) l p Hp' Hp) as [(E & -> & ->)|(E & N)].
    - left. split; auto. rewrite E. unfold V, band_flag. destruct p' as [|x y]; [congruence|]. cbn [value_at hd tl]. reflexivity.
    - right. auto. }
  assert (G : forall cs t, (forall l p k, In (l, (p, k)) cs -> p <> []) -> (In (l, p) (leaf_cells cs) \/ tg t l p = V) -> tg (fold_left (band_mark minl maxl bound u) cs t) l p = V).
  { clear t cs Hcs. induction cs as [|[l' [p' k]] cs IH]; intros t Hcs H; [destruct H as [[]|H]; auto|]. cbn [fold_left]. apply IH; [intros; eapply Hcs; right; eauto|].
    destruct (M t l' p' k) as [(E & -> & ->)|(E & N)]; [apply (Hcs l' p' k); left; auto|right; auto|]. rewrite E. destruct H as [[H|H]|H]; auto.
    apply pair_equal_spec in H as [-> ->]. exfalso. apply N. auto. }
  intros H. apply G; auto.
Qed.
Theorem C66_band : forall n minl maxl bound t0 cells reference u, ca_wf n cells ->
  exists t, band n minl maxl bound t0 cells reference u = Some t /\
    forall l x y, ca_mem n cells l (x :: y) -> exists f, tg t l (x :: y) = f /\
      ((Qabs (u l x y) < bound)%Q -> f = if Nat.eqb l maxl then 1 else 4) /\ ((bound <= Qabs (u l x y))%Q -> f = if Nat.eqb l minl then 1 else 2).
Proof.
  intros n minl maxl bound t0 cells reference u W. destruct (ca_for_each_cell_spec n cells W) as (cs & E & [_ EN] & _). unfold band. rewrite E. eexists. split; [reflexivity|].
  intros l x y Hp. eexists. split; [reflexivity|]. rewrite band_fold.
  - unfold band_flag. cbn [value_at]. split; intros H.
    + replace (below (Qabs (u l x y)) bound) with true; auto. symmetry. apply PropsDetail.below_spec. auto.
    + replace (below (Qabs (u l x y)) bound) with false; auto. symmetry. apply not_true_is_false. intros Y. apply PropsDetail.below_spec in Y. lra.
  - intros l' p' k Hin ->. assert (X : In (l', []) (leaf_cells cs)) by (apply in_map_iff; exists (l', ([], k)); auto). apply EN in X as (_ & X & _). discriminate.
  - discriminate.
  - apply EN. auto.
Qed.
Theorem C66_band_marking : forall n g lo hi bound t0, marking n g lo hi (band n (g_min_level g) (g_max_level g) bound t0) /\
  forall k, 0 <= k -> reaches n g lo hi k (band n (g_min_level g) (g_max_level g) bound t0).
Proof.
  intros n g lo hi bound t0.
  assert (X : forall cells reference u, amr_usable n g lo hi cells -> exists t, band n (g_min_level g) (g_max_level g) bound t0 cells reference u = Some t /\
    forall l x y, ca_mem n cells l (x :: y) -> tg t l (x :: y) = band_flag (g_min_level g) (g_max_level g) bound (u l x y) l).
  { intros cells reference u HU. destruct (C66_band n (g_min_level g) (g_max_level g) bound t0 cells reference u (in_wf _ _ _ _ _ _ _ (si_in _ _ _ _ _ _ _ _ _ _ _ (au_sub _ _ _ _ _ HU)))) as (t & E & T).
    exists t. split; auto. intros l x y Hp. destruct (T l x y Hp) as (f & -> & A & B). unfold band_flag. destruct (below (Qabs (u l x y)) bound) eqn:Y; [apply A, PropsDetail.below_spec, Y|].
    apply B. destruct (Qlt_le_dec (Qabs (u l x y)) bound) as [Z|Z]; auto. apply PropsDetail.below_spec in Z. congruence. }
  split.
  - intros cells r u HU _. destruct (X cells (a_all r) u HU) as (t & E & T). exists t. split; auto. intros l q Hq. destruct q as [|x y]; [destruct Hq as (_ & Lq & _); discriminate|].
    rewrite T by auto. unfold band_flag. destruct (below _ _), (Nat.eqb l (g_max_level g)), (Nat.eqb l (g_min_level g)); reflexivity.
  - intros k Hk cells r u1 u2 t1 t2 HU _ HA E1 E2 l q Hq. destruct q as [|x y]; [destruct Hq as (_ & Lq & _); discriminate|].
    destruct (X cells (a_all r) u1 HU) as (z1 & Z1 & T1). rewrite E1 in Z1. injection Z1 as <-. destruct (X cells (a_all r) u2 HU) as (z2 & Z2 & T2). rewrite E2 in Z2. injection Z2 as <-.
    rewrite T1, T2 by auto. assert (Q : (u1 l x y == u2 l x y)%Q).
    { apply (HA l (x :: y)); auto; [destruct Hq as (_ & Lq & _); cbn in Lq; lia|]. intros j _. lia. }
    unfold band_flag. replace (below (Qabs (u2 l x y)) bound) with (below (Qabs (u1 l x y)) bound); auto. unfold below. rewrite Q. reflexivity.
Qed.
Theorem C66_band_ended : forall n g lo hi early bc bound t0 fuel cells u next v, amr_usable n g lo hi cells -> amr_harmless n g lo hi bc ->
  amr_loop n g early bc (band n (g_min_level g) (g_max_level g) bound t0) fuel cells u = Some (true, (next, v)) ->
  forall l x y, ca_mem n next l (x :: y) -> (Qabs (v l x y) < bound)%Q -> l = g_max_level g.
Proof.
  intros n g lo hi early bc bound t0 fuel cells u next v HU HB E l x y Hp Hq.
  destruct (C66_loop n g lo hi early bc _ fuel cells u HU HB (proj1 (C66_band_marking n g lo hi bound t0))) as (e & next' & v' & E' & UN & _ & X). rewrite E in E'. injection E' as <- <- <-.
  destruct (X eq_refl) as (r & w & t & HR & Hw & ET & _ & HS).
  destruct (C66_band n (g_min_level g) (g_max_level g) bound t0 next (a_all r) w (in_wf _ _ _ _ _ _ _ (si_in _ _ _ _ _ _ _ _ _ _ _ (au_sub _ _ _ _ _ UN)))) as (t' & ET' & T). rewrite ET in ET'. injection ET' as <-.
  pose proof (lo_range _ _ _ _ _ _ _ _ _ _ _ (au_sub _ _ _ _ _ UN) _ _ Hp) as Hr. destruct (T l x y Hp) as (f & F & A & _). rewrite <- (Hw l x y Hp) in Hq. specialize (A Hq). destruct (Nat.eqb_spec l (g_max_level g)); auto.
  exfalso. apply (proj1 (HS l (x :: y) Hp)); [lia|]. apply refine_given. rewrite F, A. reflexivity.
Qed.

(** ** The criterion of the Burgers equation, in dimension 1
    The cells it reads are stored; it marks every leaf, from the values on both sides of it;
    when the loop has ended, on the leaves between the two extreme levels the slope is below
    the threshold. *)
Section Slopes.
  Variables (minl maxl : nat) (slope : Q) (dx : nat -> Q) (u : lfield).
  Definition slope_flag (l : nat) (x : Z) : Z :=
    if Nat.eqb l maxl then (if below slope (slope_at dx u l x) then 1 else 2) else if Nat.eqb l minl then 1 else (if below slope (slope_at dx u l x) then 4 else 2).
  Lemma slope_fold : forall l xs t l' x, (l' = l -> In x xs -> tg (fold_left (slope_mark minl maxl slope dx u l) xs t) l' [x] = slope_flag l x) /\
    (~ (l' = l /\ In x xs) -> tg (fold_left (slope_mark minl maxl slope dx u l) xs t) l' [x] = tg t l' [x]).
  Proof.
    intros l. assert (M : forall t z l' x, tg (slope_mark minl maxl slope dx u l t z) l' [x] = if Nat.eqb l' l && (x =? z) then slope_flag l z else tg t l' [x]).
    { intros t z l' x. unfold slope_mark, tg. cbn [hd tl]. rewrite twrite_at. unfold eqc. cbn [fst snd zlist_eqb]. rewrite andb_true_r.
      destruct (Nat.eqb_spec l' l) as [->|], (Z.eqb_spec x z) as [->|]; cbn [andb]; reflexivity. }
    induction xs as [|z xs IH]; intros t l' x; [split; [intros _ []|intros _; reflexivity]|]. cbn [fold_left]. destruct (IH (slope_mark minl maxl slope dx u l t z) l' x) as [A B]. split.
    - intros -> [->|H]; [|apply A; auto]. destruct (in_dec Z.eq_dec x xs) as [H|H]; [apply A; auto|]. rewrite B by (intros [_ Y]; auto). rewrite M, Nat.eqb_refl, Z.eqb_refl. auto.
    - intros H. rewrite B by (intros [Y1 Y2]; apply H; split; auto; right; auto). rewrite M. destruct (Nat.eqb_spec l' l), (Z.eqb_spec x z); cbn [andb]; auto. exfalso. apply H. split; auto. left. auto.
  Qed.
  Variables (reference : ca).
  Lemma slope_calls : forall l calls t, (forall i yz, In (i, yz) calls -> istep i = 1 /\ yz = [] /\ forall x, in_i i x -> stored 0 reference l [x] && stored 0 reference l [x - 1] && stored 0 reference l [x + 1] = true) ->
    exists t', HartenModel.fold_calls (slope_row minl maxl slope dx reference u l) calls t = Some t' /\ forall l' x,
      (l' = l -> (exists i, In (i, []) calls /\ in_i i x) -> tg t' l' [x] = slope_flag l x) /\
      (~ (l' = l /\ exists i, In (i, []) calls /\ in_i i x) -> tg t' l' [x] = tg t l' [x]).
  Proof.
    intros l. induction calls as [|[i yz] calls IH]; intros t H.
    { exists t. split; auto. intros l' x. split; [intros _ (i & [] & _)|auto]. }
    cbn [HartenModel.fold_calls]. destruct (H i yz (or_introl eq_refl)) as (S1 & -> & R).
    assert (IN : forall x, In x (strided i) <-> in_i i x) by (intros x; rewrite strided_in by lia; rewrite S1; split; [tauto|intros Y; split; auto; apply Z.divide_1_l]).
    unfold slope_row. replace (forallb _ (strided i)) with true by (symmetry; apply forallb_forall; intros x Hx; apply R, IN, Hx). cbn [checked].
    destruct (IH (fold_left (slope_mark minl maxl slope dx u l) (strided i) t)) as (t' & E & T); [intros; apply H; right; auto|].
    exists t'. split; auto. intros l' x. destruct (T l' x) as [A B]. destruct (slope_fold l (strided i) t l' x) as [F1 F2].
    assert (D : (exists j, In (j, []) calls /\ in_i j x) \/ ~ (exists j, In (j, []) calls /\ in_i j x)).
    { clear. induction calls as [|[j yz] calls [IH|IH]]; [right; intros (j & [] & _)|left; destruct IH as (k & Hk & Ik); exists k; split; [right|]; auto|].
      destruct yz as [|y yz]; [|right; intros (k & [Hk|Hk] & Ik); [discriminate|apply IH; eauto]].
      destruct (Z_le_dec (istart j) x); [destruct (Z_lt_dec x (iend j))|]; [left; exists j; split; [left; auto|split; auto]| |];
        (right; intros (k & [Hk|Hk] & Ik); [apply pair_equal_spec in Hk as [-> _]; unfold in_i in Ik; lia|apply IH; eauto]). }
    split.
    - intros -> (j & [Hj|Hj] & Ij); [|apply A; eauto]. apply pair_equal_spec in Hj as [-> _]. destruct D as [D|D]; [apply A; auto|]. rewrite B by (intros [_ Y]; auto). apply F1; auto. apply IN; auto.
    - intros N. rewrite B by (intros [Y1 (j & Y2 & Y3)]; apply N; split; auto; exists j; split; [right|]; auto). apply F2. intros [Y1 Y2]. apply N. split; auto. exists i. split; [left; auto|apply IN; auto].
  Qed.
End Slopes.

Lemma slopes_spec : forall g lo hi slope dx cells r u, amr_usable 0 g lo hi cells ->
  amr_sub_mesh 0 (g_max g) (g_min_level g) (g_max_level g) (g_width g) (Z.of_nat (g_order g)) (g_domain g) cells = Some r ->
  exists t, slopes (g_min_level g) (g_max_level g) slope dx cells (a_all r) u = Some t /\
    forall l x, ca_mem 0 cells l [x] -> tg t l [x] = slope_flag (g_min_level g) (g_max_level g) slope dx u l x.
Proof.
  intros g lo hi slope dx cells r u HU HR. pose proof (au_sub _ _ _ _ _ HU) as HI. pose proof (lo_range _ _ _ _ _ _ _ _ _ _ _ HI) as RG.
  pose proof (lo_top _ _ _ _ _ _ _ _ _ _ _ HI) as TOP. pose proof (si_in _ _ _ _ _ _ _ _ _ _ _ HI) as Hin.
  assert (MA : forall l p, (l <= g_max_level g)%nat -> lca_mem 0 (c_at cells l) p -> ca_mem 0 cells l p) by (intros l p Hl Hp; split; auto; rewrite (in_max _ _ _ _ _ _ _ Hin); lia).
  assert (G : forall ls t, (forall l, In l ls -> (l <= g_max_level g)%nat) -> NoDup ls ->
    exists t', fold_tags (fun t level => let* calls := for_each_interval 0 (c_at cells level) in HartenModel.fold_calls (slope_row (g_min_level g) (g_max_level g) slope dx (a_all r) u level) calls t) ls t = Some t' /\
      forall l x, (In l ls -> ca_mem 0 cells l [x] -> tg t' l [x] = slope_flag (g_min_level g) (g_max_level g) slope dx u l x) /\ (~ In l ls -> tg t' l [x] = tg t l [x])).
  { induction ls as [|l ls IH]; intros t Hls ND; [exists t; split; auto; intros l x; split; [intros []|auto]|]. cbn [fold_tags].
    assert (Hl : (l <= g_max_level g)%nat) by (apply Hls; left; auto). apply NoDup_cons_iff in ND as [NI ND].
    destruct (calls_spec 0 (c_at cells l) (in_wf _ _ _ _ _ _ _ Hin l ltac:(rewrite (in_max _ _ _ _ _ _ _ Hin); lia))) as (calls & E & F & V & M & _). rewrite E.
    destruct (slope_calls (g_min_level g) (g_max_level g) slope dx u (a_all r) l calls t) as (t1 & E1 & T1).
    { intros i yz Hi. destruct (V i yz Hi) as (Hlt & Lyz). destruct yz; [|discriminate]. split.
      - apply (au_steps _ _ _ _ _ HU l 0%nat i). rewrite <- F. apply (in_map fst) in Hi. auto.
      - split; auto. intros x Hx. assert (Hp : ca_mem 0 cells l [x]) by (apply MA; auto; apply M; exists i; auto).
        assert (Y : forall z, -1 <= z - x <= 1 -> stored 0 (a_all r) l [z] = true).
        { intros z Hz. apply (lo_stored 0 _ _ _ _ _ _ _ cells lo hi r HI HR); auto. apply (C64_closed 0 _ _ _ _ _ _ _ cells lo hi r HI HR) with (q := [x]); auto.
          intros k Hk. assert (k = 0%nat) as -> by lia. cbn [nth]. pose proof (au_width _ _ _ _ _ HU). lia. }
        rewrite !Y by lia. reflexivity. }
    rewrite E1. destruct (IH t1) as (t' & E' & T'); auto; [intros; apply Hls; right; auto|]. exists t'. split; auto. intros l0 x. destruct (T' l0 x) as [A B]. destruct (T1 l0 x) as [A1 B1]. split.
    - intros [<-|H] Hp; [|apply A; auto]. rewrite B by auto. apply A1; auto. destruct Hp as [_ Hp]. apply M in Hp as (i & Hi & Ix). eauto.
    - intros H. rewrite B by (intros Y; apply H; right; auto). apply B1. intros [Y _]. apply H. left. auto. }
  destruct (G (seq (g_min_level g) (S (g_max_level g) - g_min_level g)) (fun _ _ _ => flag_keep)) as (t & E & T); [intros l Hl; apply in_seq in Hl; lia|apply seq_NoDup|].
  exists t. split; auto. intros l x Hp. apply T; auto. apply in_seq. apply RG in Hp. lia.
Qed.
Theorem C66_slopes : forall g lo hi slope dx cells r u, amr_usable 0 g lo hi cells ->
  amr_sub_mesh 0 (g_max g) (g_min_level g) (g_max_level g) (g_width g) (Z.of_nat (g_order g)) (g_domain g) cells = Some r ->
  exists t, slopes (g_min_level g) (g_max_level g) slope dx cells (a_all r) u = Some t /\
    forall l x, ca_mem 0 cells l [x] -> forall q, (q == Qabs ((u l (x + 1)%Z [] - u l (x - 1)%Z []) / (2 * dx l)))%Q ->
      (l = g_max_level g -> tg t l [x] = if Qlt_le_dec slope q then 1 else 2) /\
      (l <> g_max_level g -> l = g_min_level g -> tg t l [x] = 1) /\
      (l <> g_max_level g -> l <> g_min_level g -> tg t l [x] = if Qlt_le_dec slope q then 4 else 2).
Proof.
  intros g lo hi slope dx cells r u HU HR. destruct (slopes_spec g lo hi slope dx cells r u HU HR) as (t & E & T). exists t. split; auto. intros l x Hp q Hq. rewrite (T l x Hp). unfold slope_flag.
  assert (Y : forall a b : Z, (if below slope (slope_at dx u l x) then a else b) = if Qlt_le_dec slope q then a else b).
  { intros a b. unfold slope_at. destruct (Qlt_le_dec slope q) as [H|H].
    - replace (below slope _) with true; auto. symmetry. apply PropsDetail.below_spec. rewrite <- Hq. auto.
    - replace (below slope _) with false; auto. symmetry. apply not_true_is_false. intros Z. apply PropsDetail.below_spec in Z. rewrite <- Hq in Z. lra. }
  rewrite !Y. destruct (Nat.eqb_spec l (g_max_level g)), (Nat.eqb_spec l (g_min_level g)); repeat split; intros; auto; contradiction.
Qed.
Theorem C66_slopes_marking : forall g lo hi slope dx, marking 0 g lo hi (slopes (g_min_level g) (g_max_level g) slope dx) /\
  reaches 0 g lo hi 1 (slopes (g_min_level g) (g_max_level g) slope dx).
Proof.
  assert (L1 : forall q, length q = 1%nat -> exists x : Z, q = [x]) by (intros [|x [|]] H; try discriminate; eauto).
  intros g lo hi slope dx. split.
  - intros cells r u HU HR. destruct (slopes_spec g lo hi slope dx cells r u HU HR) as (t & E & T). exists t. split; auto. intros l q Hq. destruct (L1 q ltac:(apply Hq)) as (x & ->).
    rewrite T by auto. unfold slope_flag. destruct (Nat.eqb l (g_max_level g)), (Nat.eqb l (g_min_level g)), (below slope (slope_at dx u l x)); reflexivity.
  - intros cells r u1 u2 t1 t2 HU HR HA E1 E2 l q Hq. destruct (L1 q ltac:(apply Hq)) as (x & ->).
    destruct (slopes_spec g lo hi slope dx cells r u1 HU HR) as (z1 & Z1 & T1). rewrite E1 in Z1. injection Z1 as <-.
    destruct (slopes_spec g lo hi slope dx cells r u2 HU HR) as (z2 & Z2 & T2). rewrite E2 in Z2. injection Z2 as <-.
    rewrite T1, T2 by auto. unfold slope_flag. replace (below slope (slope_at dx u2 l x)) with (below slope (slope_at dx u1 l x)); auto.
    assert (Q : forall z, -1 <= z - x <= 1 -> (u1 l z [] == u2 l z [])%Q).
    { intros z Hz. apply (HA l [x]); auto. intros k Hk. assert (k = 0%nat) as -> by lia. cbn [nth]. lia. }
    unfold below, slope_at. rewrite !Q by lia. reflexivity.
Qed.
Theorem C66_slopes_ended : forall g lo hi bc slope dx fuel cells u next v, amr_usable 0 g lo hi cells -> amr_harmless 0 g lo hi bc ->
  amr_loop 0 g true bc (slopes (g_min_level g) (g_max_level g) slope dx) fuel cells u = Some (true, (next, v)) ->
  forall l x, ca_mem 0 next l [x] -> (g_min_level g < l < g_max_level g)%nat -> (Qabs ((v l (x + 1)%Z [] - v l (x - 1)%Z []) / (2 * dx l)) <= slope)%Q.
Proof.
  intros g lo hi bc slope dx fuel cells u next v HU HB E l x Hp Hl.
  destruct (C66_loop 0 g lo hi true bc _ fuel cells u HU HB (proj1 (C66_slopes_marking g lo hi slope dx))) as (e & next' & v' & E' & UN & _ & X). rewrite E in E'. injection E' as <- <- <-.
  destruct (X eq_refl) as (r & w & t & HR & _ & ET & Hw & HS). specialize (Hw eq_refl). subst w.
  destruct (C66_slopes g lo hi slope dx next r v UN HR) as (t' & ET' & T). rewrite ET in ET'. injection ET' as <-.
  destruct (T l x Hp _ (Qeq_refl _)) as (_ & _ & A). specialize (A ltac:(lia) ltac:(lia)). destruct (Qlt_le_dec slope _) as [H|H] in A; auto.
  exfalso. apply (proj1 (HS l [x] Hp)); [lia|]. apply refine_given. rewrite A. reflexivity.
Qed.

(** ** Examples *)
Definition run_show (n : nat) (o : option (bool * (ca * lfield))) : option (bool * option (list (nat * list Z * Q))) :=
  match o with Some (b, cu) => Some (b, show n (Some cu)) | None => None end.
Lemma agree_check : forall n cells cs u v, ca_wf n cells -> ca_for_each_cell n cells = Some cs ->
  forallb (fun '(l, p) => Qeq_bool (value_at (u l) p) (value_at (v l) p)) (leaf_cells cs) = true -> agree n cells u v.
Proof.
  intros n cells cs u v W E H l x y Hp. destruct (ca_for_each_cell_spec n cells W) as (cs' & E' & [_ EN] & _). rewrite E in E'. injection E' as <-. apply EN in Hp.
  rewrite forallb_forall in H. specialize (H _ Hp). cbn beta iota in H. apply Qeq_bool_iff in H. exact H.
Qed.

(** The line of C60, the field x^2 and the slopes of the Burgers demo: the leaf of level 1
    stays at first and is refined with the graduation when a neighbour is; the loop ends
    after 3 iterations with all the leaves on the largest level. *)
Definition hatSetting : amr_setting := mkAmrSetting 4 1 3 1 1 1 [[1]; [-1]] 3 lineDomain.
Definition hatField : lfield := fun l x _ => (inject_Z (x * x) / inject_Z (4 ^ Z.of_nat l))%Q.
Definition hatDx (l : nat) : Q := (1 / inject_Z (2 ^ Z.of_nat l))%Q.
Definition hatBc := amr_conditions 0 hatSetting hatDx lineBcs.
Definition hatSlopes := slopes 1 3 (3 # 2) hatDx.
Lemma line_signs : forall v, In v [[1]; [-1]] <-> signs 0 v.
Proof.
  intros v. split.
  - intros [<-|[<-|[]]]; (split; [reflexivity|]); intros [|k] Hk; cbn; lia.
  - intros (Lv & Hv). destruct v as [|x [|]]; try discriminate. specialize (Hv 0%nat ltac:(lia)). cbn [nth] in Hv. destruct Hv as [-> | ->]; cbn; auto.
Qed.
Lemma hat_usable : amr_usable 0 hatSetting [0] [1] lineMesh.
Proof.
  constructor.
  - eapply amr_sub_check with (M := 3%nat); [exact lineMesh_wf|vm_compute; reflexivity|reflexivity|vm_compute; reflexivity|vm_compute; reflexivity|vm_compute; reflexivity|
      reflexivity|reflexivity|cbn; lia|cbn; lia|cbn; lia|vm_compute; reflexivity].
  - lia.
  - eapply graded_by_check; [exact lineMesh_wf|vm_compute; reflexivity|vm_compute; reflexivity].
  - apply diagonal_steps, line_signs.
  - cbn. lia.
  - cbn. lia.
  - intros [|k] Hk; [reflexivity|lia].
  - exact line_steps.
Qed.
Lemma hat_conditions : amr_harmless 0 hatSetting [0] [1] hatBc /\ amr_filling 0 hatSetting [0] [1] hatBc.
Proof.
  assert (HBx : is_box 0 3 [0] [1] lineDomain) by (apply PropsOuter.box_domain_ok; auto; intros [|k] Hk; [reflexivity|lia]).
  unfold hatBc, lineBcs. destruct (everywhere 0 lineDomain) as [region|] eqn:E; [|exfalso; revert E; vm_compute; discriminate].
  destruct (PropsOuter.everywhere_conditions 0 3 [0] [1] lineDomain region (fun _ _ _ => 5%Q) (dirichlet 1)) as (A & B & _); auto; try lia. { intros [|k] Hk; [reflexivity|lia]. }
  destruct (C66_conditions 0 hatSetting [0] [1] hatDx [mkBc 2 region (fun _ _ _ => 5%Q) (dirichlet 1)]) as [X Y]; auto; try (cbn; lia).
  intros b [<-|[]]. split; [apply PropsOuter.dirichlet_order_one|exact A].
Qed.
Example C66_example :
  amr_usable 0 hatSetting [0] [1] lineMesh /\ amr_harmless 0 hatSetting [0] [1] hatBc /\ amr_filling 0 hatSetting [0] [1] hatBc /\
  marking 0 hatSetting [0] [1] hatSlopes /\ reaches 0 hatSetting [0] [1] 1 hatSlopes /\ fully_graded 0 hatSetting [0] [1] /\
  show 0 (Some (lineMesh, hatField)) = Some [(1%nat, [0], 0%Q); (2%nat, [2], 1 # 4); (3%nat, [6], 9 # 16); (3%nat, [7], 49 # 64)] /\
  run_show 0 (amr_loop 0 hatSetting true hatBc hatSlopes 1 lineMesh hatField) =
    Some (false, Some [(2%nat, [0], 2443 # 2048); (2%nat, [1], -2443 # 2048); (3%nat, [4], 293 # 16384); (3%nat, [5], 7899 # 16384); (3%nat, [6], 9 # 16); (3%nat, [7], 49 # 64)]) /\
  (forall fuel, run_show 0 (amr_loop 0 hatSetting true hatBc hatSlopes (3 + fuel) lineMesh hatField) =
    Some (true, Some [(3%nat, [0], 5003 # 2048); (3%nat, [1], -117 # 2048); (3%nat, [2], -17613 # 16384); (3%nat, [3], -21475 # 16384);
                      (3%nat, [4], 293 # 16384); (3%nat, [5], 7899 # 16384); (3%nat, [6], 9 # 16); (3%nat, [7], 49 # 64)])).
Proof.
  split; [exact hat_usable|]. split; [apply hat_conditions|]. split; [apply hat_conditions|]. split; [apply (C66_slopes_marking hatSetting)|]. split; [apply (C66_slopes_marking hatSetting)|].
  split; [apply signs_fully_graded, line_signs|]. split; [vm_compute; reflexivity|]. split; [vm_compute; reflexivity|]. intros fuel. vm_compute. reflexivity.
Qed.

(** ** What it does not do *)

(** The stencil of the level set demo (level_set.cpp L303-308) does not grade by the corners.
    Then a leaf can be refined with a ghost predicted from a cell nobody sets (C65): the
    values of the new leaves depend on what the memory held. *)
Lemma star_conditions : forall n g lo hi, g_domain g = PropsOuter.box_domain n (g_max_level g) lo hi -> length lo = S n -> length hi = S n -> (n <= 2)%nat ->
  (forall k, (k <= n)%nat -> nth k lo 0 < nth k hi 0) -> g_width g = 1 -> g_order g = 1%nat -> g_level g = g_max_level g -> g_min_level g <> g_max_level g -> (g_max_level g < 30)%nat ->
  (forall k, (k <= n)%nat -> 2 * (Z.max 0 (nth k hi 0) * 2 ^ Z.of_nat (g_max_level g) + 8) < 2 ^ 31 - 1) ->
  forall region dx value, everywhere n (g_domain g) = Some region ->
  amr_harmless n g lo hi (amr_conditions n g dx [mkBc 2 region value neumann]) /\ ((n <= 1)%nat -> amr_filling n g lo hi (amr_conditions n g dx [mkBc 2 region value neumann])).
Proof.
  intros n g lo hi ED L1 L2 Hn HL Hw Ho Hd Hne Hm Hk region dx value E.
  assert (HBx : is_box n (g_max_level g) lo hi (g_domain g)) by (rewrite ED; apply PropsOuter.box_domain_ok; auto).
  destruct (PropsOuter.everywhere_conditions n (g_max_level g) lo hi (g_domain g) region value neumann) as (A & B & _); auto.
  destruct (C66_conditions n g lo hi dx [mkBc 2 region value neumann]) as [X Y]; auto.
  intros b [<-|[]]. split; [apply PropsOuter.neumann_order_one|exact A].
Qed.
Definition starSetting : amr_setting := mkAmrSetting 4 1 4 1 1 1 star 4 starDomain.
Definition starBcs : list bc := match everywhere 1 starDomain with Some region => [mkBc 2 region (fun _ _ _ => 0%Q) neumann] | None => [] end.
Definition starBc := amr_conditions 1 starSetting (fun _ => 1%Q) starBcs.
Definition starBand := band 1 1 4 10 (fun _ _ _ => 77).
Definition starField (q : Q) : lfield := fun l x y => if stored 1 starMesh l (x :: y) then (if Nat.eqb l 3 && (x =? 4) && zlist_eqb y [4] then 0%Q else 100%Q) else q.
Lemma star_usable : amr_usable 1 starSetting [0; 0] [1; 1] starMesh.
Proof.
  constructor; [exact starMesh_input|lia|apply starMesh_graded|apply star_steps|cbn; lia|cbn; lia|intros [|[|k]] Hk; [reflexivity|reflexivity|lia]|].
  intros l d i. destruct l as [|[|[|[|l]]]], d as [|[|d]]; cbn; intros H; intuition; subst; reflexivity.
Qed.
Theorem C66_star_refuted :
  amr_usable 1 starSetting [0; 0] [1; 1] starMesh /\ amr_harmless 1 starSetting [0; 0] [1; 1] starBc /\ amr_filling 1 starSetting [0; 0] [1; 1] starBc /\
  marking 1 starSetting [0; 0] [1; 1] starBand /\ reaches 1 starSetting [0; 0] [1; 1] 0 starBand /\ agree 1 starMesh (starField 0) (starField 100) /\
  exists next next' w1 w2, amr_loop 1 starSetting false starBc starBand 1 starMesh (starField 0) = Some (false, (next, w1)) /\
    amr_loop 1 starSetting false starBc starBand 1 starMesh (starField 100) = Some (false, (next', w2)) /\
    same_leaves 1 next next' /\ ca_mem 1 next 4 [8; 8] /\ (w1 4%nat 8%Z [8%Z] == -476575 # 524288)%Q /\ (w2 4%nat 8%Z [8%Z] == -463775 # 524288)%Q.
Proof.
  assert (HC : amr_harmless 1 starSetting [0; 0] [1; 1] starBc /\ amr_filling 1 starSetting [0; 0] [1; 1] starBc).
  { unfold starBc, starBcs. destruct (everywhere 1 starDomain) as [region|] eqn:E; [|exfalso; revert E; vm_compute; discriminate].
    destruct (star_conditions 1 starSetting [0; 0] [1; 1]) with (region := region) (dx := fun _ : nat => 1%Q) (value := fun (_ : nat) (_ _ : list Z) => 0%Q) as [X Y]; auto; try (cbn; lia);
      intros [|[|k]] Hk; try reflexivity; lia. }
  split; [exact star_usable|]. split; [apply HC|]. split; [apply HC|]. split; [apply (C66_band_marking 1 starSetting)|]. split; [apply (C66_band_marking 1 starSetting); lia|].
  assert (HA : agree 1 starMesh (starField 0) (starField 100)) by (eapply agree_check; [exact starMesh_wf|vm_compute; reflexivity|vm_compute; reflexivity]). split; auto.
  assert (X : match amr_loop 1 starSetting false starBc starBand 1 starMesh (starField 0), amr_loop 1 starSetting false starBc starBand 1 starMesh (starField 100) with
    Some (b1, (n1, w1)), Some (b2, (n2, w2)) => b1 = false /\ b2 = false /\ leaf_list 1 n1 = leaf_list 1 n2 /\
      option_map (existsb (fun c => zlist_eqb (snd c) [8; 8] && Nat.eqb (fst c) 4)) (leaf_list 1 n1) = Some true /\
      Qeq_bool (w1 4%nat 8%Z [8%Z]) (-476575 # 524288) = true /\ Qeq_bool (w2 4%nat 8%Z [8%Z]) (-463775 # 524288) = true | _, _ => False end).
  { vm_compute. split; [reflexivity|]. split; [reflexivity|]. split; [reflexivity|]. split; [reflexivity|]. split; reflexivity. }
  assert (UN : forall q e nx v, amr_loop 1 starSetting false starBc starBand 1 starMesh (starField q) = Some (e, (nx, v)) -> ca_wf 1 nx).
  { intros q e nx v E. destruct (C66_loop 1 starSetting [0; 0] [1; 1] false starBc starBand 1 starMesh (starField q) star_usable (proj1 HC) (proj1 (C66_band_marking 1 starSetting _ _ _ _))) as (e' & nx' & v' & E' & UN & _).
    rewrite E in E'. injection E' as <- <- <-. apply (in_wf _ _ _ _ _ _ _ (si_in _ _ _ _ _ _ _ _ _ _ _ (au_sub _ _ _ _ _ UN))). }
  destruct (amr_loop 1 starSetting false starBc starBand 1 starMesh (starField 0)) as [[b1 [n1 w1]]|] eqn:E1; [|destruct X].
  destruct (amr_loop 1 starSetting false starBc starBand 1 starMesh (starField 100)) as [[b2 [n2 w2]]|] eqn:E2; [|destruct X].
  destruct X as (-> & -> & X0 & X1 & X2 & X3). exists n1, n2, w1, w2. split; auto. split; auto.
  destruct (ca_for_each_cell_spec 1 n1 (UN _ _ _ _ E1)) as (cs1 & EC1 & [_ EN1] & _). destruct (ca_for_each_cell_spec 1 n2 (UN _ _ _ _ E2)) as (cs2 & EC2 & [_ EN2] & _).
  unfold leaf_list in X0, X1. rewrite EC1 in X0, X1. rewrite EC2 in X0. cbn [option_map] in X0, X1. injection X0 as X0. injection X1 as X1.
  split; [intros l p; rewrite <- EN1, <- EN2, X0; tauto|]. split; [|split; apply Qeq_bool_iff; auto].
  apply existsb_exists in X1 as ([l p] & Hin & Y). cbn [fst snd] in Y. apply andb_true_iff in Y as [Y1 Y2]. apply zlist_eqb_eq in Y1. apply Nat.eqb_eq in Y2. subst. apply EN1. auto.
Qed.

(** Nothing bounds the number of iterations of [while (true)]: here the prediction moves the
    values of the new leaves out of the band and their mean brings them back. The mesh
    alternates between 4 leaves of level 1 and a mesh with two of them refined. *)
Definition flatTree : nat -> list lcl_call := fun l => match l with 1%nat => [AddI [0] (mk 0 2); AddI [1] (mk 0 2)] | _ => [] end.
Definition flatMesh : ca := client_ca 1 4 flatTree false.
Definition flatDomain : lca := PropsOuter.box_domain 1 2 [0; 0] [1; 1].
Definition flatSetting : amr_setting := mkAmrSetting 4 1 2 1 1 1 star 2 flatDomain.
Definition flatBcs : list bc := match everywhere 1 flatDomain with Some region => [mkBc 2 region (fun _ _ _ => 0%Q) neumann] | None => [] end.
Definition flatBc := amr_conditions 1 flatSetting (fun _ => 1%Q) flatBcs.
Definition flatBand := band 1 1 2 10 (fun _ _ _ => 77).
Definition flatField : lfield := fun l x y => if x =? 0 then 0%Q else 100%Q.
Lemma flatMesh_wf : ca_wf 1 flatMesh.
Proof.
  apply raw_wf. intros l Hl. split; [|apply adds_filled]; destruct l as [|[|l]]; repeat constructor; simpl; lia.
Qed.
Lemma flat_usable : amr_usable 1 flatSetting [0; 0] [1; 1] flatMesh.
Proof.
  constructor; [|lia| |apply star_steps|cbn; lia|cbn; lia|intros [|[|k]] Hk; [reflexivity|reflexivity|lia]|].
  - eapply amr_sub_check with (M := 1%nat); [exact flatMesh_wf|vm_compute; reflexivity|reflexivity|vm_compute; reflexivity|vm_compute; reflexivity|vm_compute; reflexivity|
      reflexivity|reflexivity|cbn; lia|cbn; lia|cbn; lia|vm_compute; reflexivity].
  - eapply graded_by_check; [exact flatMesh_wf|vm_compute; reflexivity|vm_compute; reflexivity].
  - intros l d i. destruct l as [|[|[|[|[|l]]]]], d as [|[|d]]; cbn; intros H; intuition; subst; reflexivity.
Qed.
Lemma flat_conditions : amr_harmless 1 flatSetting [0; 0] [1; 1] flatBc /\ amr_filling 1 flatSetting [0; 0] [1; 1] flatBc.
Proof.
  unfold flatBc, flatBcs. destruct (everywhere 1 flatDomain) as [region|] eqn:E; [|exfalso; revert E; vm_compute; discriminate].
  destruct (star_conditions 1 flatSetting [0; 0] [1; 1]) with (region := region) (dx := fun _ : nat => 1%Q) (value := fun (_ : nat) (_ _ : list Z) => 0%Q) as [X Y]; auto; try (cbn; lia);
    intros [|[|k]] Hk; try reflexivity; lia.
Qed.

Lemma loop_next : forall n g early bc criterion fuel c u c' v, amr_step n g early bc criterion c u = Some (false, (c', v)) ->
  amr_loop n g early bc criterion (S fuel) c u = amr_loop n g early bc criterion fuel c' v.
Proof. intros n g early bc criterion fuel c u c' v E. cbn [amr_loop]. rewrite E. reflexivity. Qed.
(** Two meshes that turn into each other, with the same values after two iterations. *)
Lemma two_cycle : forall n g early bc criterion c1 c2 u1 u2 u3,
  (forall u same next w, agree n c1 u1 u -> amr_step n g early bc criterion c1 u1 = Some (same, (next, w)) -> exists w', amr_step n g early bc criterion c1 u = Some (same, (next, w')) /\ agree n next w w') ->
  (forall u same next w, agree n c2 u2 u -> amr_step n g early bc criterion c2 u2 = Some (same, (next, w)) -> exists w', amr_step n g early bc criterion c2 u = Some (same, (next, w')) /\ agree n next w w') ->
  amr_step n g early bc criterion c1 u1 = Some (false, (c2, u2)) -> amr_step n g early bc criterion c2 u2 = Some (false, (c1, u3)) -> agree n c1 u3 u1 ->
  forall fuel, (forall u, agree n c1 u1 u -> exists next v, amr_loop n g early bc criterion fuel c1 u = Some (false, (next, v))) /\
    (forall u, agree n c2 u2 u -> exists next v, amr_loop n g early bc criterion fuel c2 u = Some (false, (next, v))).
Proof.
  intros n g early bc criterion c1 c2 u1 u2 u3 D1 D2 R1 R2 A3. induction fuel as [|fuel [I1 I2]]; [split; intros u HA; [exists c1, u|exists c2, u]; reflexivity|]. split; intros u HA.
  - destruct (D1 u _ _ _ HA R1) as (w & E & A). rewrite (loop_next _ _ _ _ _ fuel _ _ _ _ E). apply I2. exact A.
  - destruct (D2 u _ _ _ HA R2) as (w & E & A). rewrite (loop_next _ _ _ _ _ fuel _ _ _ _ E). apply I1. intros l x y Hp. rewrite <- (A l x y Hp). symmetry. apply A3. exact Hp.
Qed.
Definition agreeb (n : nat) (cells : ca) (u v : lfield) : bool :=
  match ca_for_each_cell n cells with Some cs => forallb (fun '(l, p) => Qeq_bool (value_at (u l) p) (value_at (v l) p)) (leaf_cells cs) | None => false end.
Lemma flat_run : exists c1 u1 c2 u2 u3, amr_step 1 flatSetting false flatBc flatBand flatMesh flatField = Some (false, (c1, u1)) /\
  amr_step 1 flatSetting false flatBc flatBand c1 u1 = Some (false, (c2, u2)) /\ amr_step 1 flatSetting false flatBc flatBand c2 u2 = Some (false, (c1, u3)) /\ agreeb 1 c1 u3 u1 = true.
Proof.
  assert (X : match amr_step 1 flatSetting false flatBc flatBand flatMesh flatField with Some (b1, (c1, u1)) =>
    match amr_step 1 flatSetting false flatBc flatBand c1 u1 with Some (b2, (c2, u2)) =>
    match amr_step 1 flatSetting false flatBc flatBand c2 u2 with Some (b3, (c3, u3)) => b1 = false /\ b2 = false /\ b3 = false /\ c3 = c1 /\ agreeb 1 c1 u3 u1 = true
    | None => False end | None => False end | None => False end).
  { vm_compute. split; [reflexivity|]. split; [reflexivity|]. split; [reflexivity|]. split; reflexivity. }
  destruct (amr_step 1 flatSetting false flatBc flatBand flatMesh flatField) as [[b1 [c1 u1]]|]; [|destruct X].
  destruct (amr_step 1 flatSetting false flatBc flatBand c1 u1) as [[b2 [c2 u2]]|] eqn:E2; [|destruct X].
  destruct (amr_step 1 flatSetting false flatBc flatBand c2 u2) as [[b3 [c3 u3]]|] eqn:E3; [|destruct X].
  destruct X as (-> & -> & -> & -> & A). exists c1, u1, c2, u2, u3. auto.
Qed.
Theorem C66_endless_refuted :
  amr_usable 1 flatSetting [0; 0] [1; 1] flatMesh /\ amr_harmless 1 flatSetting [0; 0] [1; 1] flatBc /\ marking 1 flatSetting [0; 0] [1; 1] flatBand /\
  forall fuel, exists next v, amr_loop 1 flatSetting false flatBc flatBand fuel flatMesh flatField = Some (false, (next, v)).
Proof.
  split; [exact flat_usable|]. split; [apply flat_conditions|]. split; [apply (C66_band_marking 1 flatSetting)|].
  destruct flat_conditions as [HB HF]. pose proof (C66_band_marking 1 flatSetting [0; 0] [1; 1] 10 (fun _ _ _ => 77)) as [HM HD].
  assert (HG : fully_graded 1 flatSetting [0; 0] [1; 1]) by (apply two_levels_fully_graded; cbn; lia).
  pose proof (amr_step_determined 1 flatSetting [0; 0] [1; 1] false flatBc flatBand HB HF HM HG ltac:(cbn; lia) ltac:(cbn; lia) (HD 0 ltac:(lia))) as DT.
  assert (UN : forall c u b c' v, amr_usable 1 flatSetting [0; 0] [1; 1] c -> amr_step 1 flatSetting false flatBc flatBand c u = Some (b, (c', v)) -> amr_usable 1 flatSetting [0; 0] [1; 1] c').
  { intros c u b c' v HU E. destruct (C66_step 1 flatSetting [0; 0] [1; 1] false flatBc flatBand c u HU HB HM) as (r & u' & t & same & next & w & E' & U' & _). rewrite E in E'. injection E' as <- <- <-. exact U'. }
  destruct flat_run as (c1 & u1 & c2 & u2 & u3 & R0 & R1 & R2 & A).
  pose proof (UN _ _ _ _ _ flat_usable R0) as U1. pose proof (UN _ _ _ _ _ U1 R1) as U2.
  assert (A3 : agree 1 c1 u3 u1).
  { unfold agreeb in A. destruct (ca_for_each_cell 1 c1) as [cs|] eqn:EC; [|discriminate]. apply (agree_check 1 c1 cs); auto. apply (in_wf _ _ _ _ _ _ _ (si_in _ _ _ _ _ _ _ _ _ _ _ (au_sub _ _ _ _ _ U1))). }
  intros [|fuel]; [exists flatMesh, flatField; reflexivity|]. rewrite (loop_next _ _ _ _ _ fuel _ _ _ _ R0).
  destruct (two_cycle 1 flatSetting false flatBc flatBand c1 c2 u1 u2 u3) with (fuel := fuel) as [X _]; auto; try (intros u same next w; apply DT; auto).
  apply X. intros l x y _. reflexivity.
Qed.

Print Assumptions C66_step.
Print Assumptions C66_unchanged.
Print Assumptions C66_loop.
Print Assumptions C66_ghost_tags.
Print Assumptions C66_determined.
Print Assumptions C66_conditions.
Print Assumptions C66_band.
Print Assumptions C66_band_marking.
Print Assumptions C66_band_ended.
Print Assumptions C66_slopes.
Print Assumptions C66_slopes_marking.
Print Assumptions C66_slopes_ended.
Print Assumptions C66_star_refuted.
Print Assumptions C66_endless_refuted.
