(** C62: the adaptation depends on the leaves and on the values on the leaves only, and an
    iteration reports an unchanged mesh exactly when the leaves are the same. *)
From Coq Require Import QArith Qabs Lqa.
From Verif Require Import Base IntervalModel Spec IntervalProofs LoiModel LcaModel LcaSpec LcaProofs LcaProofs2 LcaProofs3 RowsProofs CellArrayModel CellArrayProofs PropsLca PropsCellArray
  SubsetModel TreeProofs SubsetSpec SubsetProofs2 PropsSubset StencilModel NumberingProofs StencilProofs PropsStencil MeshModel MeshProofs PropsMesh
  NumModel NumProofs NumSpec PropsNum AdaptModel AdaptProofs TagProofs PropsAdapt TransferProofs PropsTransfer MrModel MrProofs PropsMr
  GhostModel GhostProofs PropsGhost BcProofs PropsOuter HartenModel HartenProofs HartenProofs2 HartenProofs3 PropsHarten DetailProofs CriteriaProofs AroundProofs PropsDetail LoopProofs PropsLoop DetermProofs.
Open Scope Z_scope.

(** The same values on the leaves. *)
Definition agree (n : nat) (cells : ca) (u u' : lfield) : Prop := forall l x y, ca_mem n cells l (x :: y) -> (u l x y == u' l x y)%Q.

(** On each mesh the boundary conditions set the stored cells the stencils need from the
    values inside the domain. *)
Definition filling (n : nat) (g : setting) (lo hi : list Z) (bc : ca -> ca -> nat -> lfield -> option lfield) : Prop :=
  forall cells r, usable n g lo hi cells ->
    update_sub_mesh n (h_max g) (h_min_level g) (h_max_level g) (h_width g) (Z.of_nat (h_order g)) cells = Some r ->
    fills n (Z.of_nat (h_order g)) (r_all r) lo hi (bc cells (r_all r)).

Section Determined.
  Variables (n : nat) (g : setting) (lo hi : list Z) (bc : ca -> ca -> nat -> lfield -> option lfield).
  Notation minl := (h_min_level g).
  Notation maxl := (h_max_level g).
  Notation s := (h_order g).
  Notation sub_mesh := (update_sub_mesh n (h_max g) minl maxl (h_width g) (Z.of_nat s)).
  Hypothesis HB : harmless n g lo hi bc.
  Hypothesis HF : filling n g lo hi bc.
  Hypothesis HS : Z.of_nat s <= h_width g.

  Section One.
    Variables (ite : nat) (cells : ca) (u1 u2 : lfield).
    Notation top := (maxl - ite)%nat.
    Hypothesis HU : usable n g lo hi cells.
    Hypothesis HA : agree n cells u1 u2.
    Variables (r : mr_mesh) (v1 v2 : lfield).
    Hypothesis HR : sub_mesh cells = Some r.
    Hypothesis G1 : with_ghosts n g bc cells r u1 v1.
    Hypothesis G2 : with_ghosts n g bc cells r u2 v2.

    Lemma ghosts_agree : forall l, (minl - 1 <= l)%nat ->
      (forall x y, ca_mem n (r_all r) l (x :: y) -> inside n lo hi l (x :: y) -> (v1 l x y == v2 l x y)%Q) /\
      (forall p, ca_mem n (r_all r) l p -> inside n lo hi l p -> (forall q, length q = S n -> near n (Z.of_nat s) q p -> ca_mem n (r_all r) l q) ->
        forall x y, length y = n -> near n (Z.of_nat s) (x :: y) p -> (v1 l x y == v2 l x y)%Q).
    Proof.
      destruct G1 as (sub & ES & E1). destruct G2 as (sub' & ES' & E2). rewrite ES in ES'. injection ES' as <-.
      apply (C55_determined n _ minl maxl _ s cells lo hi r sub (bc cells (r_all r)) (proj1 HU) HR ES (HB cells r HU HR) (HF cells r HU HR) u1 u2 v1 v2 E1 E2 HA).
    Qed.
    Lemma detail_agree : forall l x y q1 q2, (minl - 1 <= l)%nat -> length y = n ->
      ca_mem n (r_all r) (S l) (x :: y) -> inside n lo hi (S l) (x :: y) ->
      (forall p, length p = S n -> near n (Z.of_nat s) p (ancestor 1 (x :: y)) -> ca_mem n (r_all r) l p) ->
      is_detail s v1 (S l) x y q1 -> is_detail s v2 (S l) x y q2 -> (q1 == q2)%Q.
    Proof.
      intros l x y q1 q2 Hl Ly Hm Hi Hbox (p & Hp & ->) (p2 & Hp2 & ->). destruct (ghosts_agree (S l) ltac:(lia)) as [A _]. rewrite (A x y Hm Hi). cbn [Nat.pred] in Hp, Hp2.
      assert (Lanc : length (ancestor 1 (x :: y)) = S n) by (rewrite ancestor_length; cbn; lia).
      assert (E : (p == p2)%Q).
      { apply (predicted_local n s (v1 l) (v2 l) x y); auto. intros z Lz Nz. destruct z as [|zx zy]; [discriminate|]. cbn [value_at].
        destruct (ghosts_agree l Hl) as [_ B]. apply (B (ancestor 1 (x :: y))); auto.
        - apply Hbox; auto. intros k _. lia.
        - replace (S l) with (l + 1)%nat in Hi by lia. apply inside_ancestor in Hi. apply Hi. }
      rewrite E. reflexivity.
    Qed.

    Variables (d1 d2 : lfield).
    Hypothesis D1 : compute_details n s minl top cells (r_all r) v1 = Some d1.
    Hypothesis D2 : compute_details n s minl top cells (r_all r) v2 = Some d2.

    Lemma details_close : close n minl top cells d1 d2.
    Proof.
      pose proof HU as (HI & _ & Hmin & _).
      destruct (C59_details n _ minl maxl _ s cells lo hi r ite v1 HI HR) as (e1 & E1 & X1 & Y1 & _). rewrite D1 in E1. injection E1 as <-.
      destruct (C59_details n _ minl maxl _ s cells lo hi r ite v2 HI HR) as (e2 & E2 & X2 & Y2 & _). rewrite D2 in E2. injection E2 as <-. split.
      - intros l q x y Ht Hq Ea. pose proof (gi_range _ _ _ _ _ _ _ _ _ HI _ _ Hq) as Hl.
        assert (Ly : length y = n). { apply (f_equal (@length Z)) in Ea. rewrite !ancestor_length in Ea. destruct Hq as (_ & Lq & _). cbn [length] in Ea. lia. }
        specialize (X1 l q x y ltac:(lia) Hq Ea). specialize (X2 l q x y ltac:(lia) Hq Ea). destruct l as [|l]; [lia|].
        destruct (C54_leaf_stencils n _ minl maxl _ (Z.of_nat s) cells r (gi_in _ _ _ _ _ _ _ _ _ HI) (gi_ne _ _ _ _ _ _ _ _ _ HI) HR _ q Hq) as (A1 & A2 & _).
        { apply (hm_tiles _ _ _ _ _ _ _ _ _ HI). }
        apply (detail_agree l x y); auto; [lia| | |].
        + apply A1; [cbn; lia|]. intros k Hk. apply (f_equal (fun z => nth k z 0)) in Ea. rewrite !nth_ancestor in Ea. change (2 ^ Z.of_nat 1) with 2 in Ea.
          pose proof HI as (_ & _ & _ & _ & Hw & _). lia.
        + replace (S l) with (l + 1)%nat by lia. apply inside_ancestor. split; [cbn; lia|]. rewrite Ea. apply (hm_tiles _ _ _ _ _ _ _ _ _ HI) in Hq. replace (S l) with (l + 1)%nat in Hq by lia. apply inside_ancestor in Hq. apply Hq.
        + intros p Lp Np. rewrite Ea in Np. replace l with (S l - 1)%nat by lia. apply A2; auto. lia.
      - intros l q x y Hml Ht Hq Ea. pose proof (gi_range _ _ _ _ _ _ _ _ _ HI _ _ Hq) as Hl.
        assert (Ly : length y = n). { apply (f_equal (@length Z)) in Ea. rewrite !ancestor_length in Ea. destruct Hq as (_ & Lq & _). cbn [length] in Ea. lia. }
        specialize (Y1 l q x y ltac:(lia) ltac:(lia) Hq Ea). specialize (Y2 l q x y ltac:(lia) ltac:(lia) Hq Ea). pose proof (parent_ref _ _ _ _ _ _ _ _ _ r HI HR l q Hq) as PR. rewrite Ea in PR.
        apply (hm_tiles _ _ _ _ _ _ _ _ _ HI) in Hq as Hi. replace (S l) with (l + 1)%nat in Hi by lia. apply inside_ancestor in Hi as [_ Hi]. rewrite Ea in Hi.
        destruct l as [|l]; [lia|]. apply (detail_agree l x y); auto; [lia|].
        intros p Lp Np. change l with (Nat.pred (S l)). apply (parent_stencil2 n _ minl maxl _ s cells lo hi r HI HR (S l) (x :: y)); auto; [lia|lia|]. exists q. auto.
    Qed.

    (** The values on the new leaves. *)
    Lemma carried_agree : forall next w1 w2, carried n s cells next u1 v1 w1 -> carried n s cells next u2 v2 w2 -> agree n next w1 w2.
    Proof using HU HA HR G1 G2 HB HF HS.
      intros next w1 w2 C1 C2 l x y Hp. destruct (C1 l x y Hp) as (A1 & A2 & A3 & A4). destruct (C2 l x y Hp) as (B1 & B2 & B3 & _).
      assert (Lp : length (x :: y) = S n) by apply Hp. pose proof HU as (HI & _). destruct A4 as [H|[H|(m & -> & H)]].
      - rewrite A1, B1 by auto. apply HA; auto.
      - destruct (A2 H) as [X1 M1]. destruct (B2 H) as [_ M2]. apply (mean_local (u1 (S l)) (u2 (S l)) x y); auto. intros cx cy Hc. apply children_In in Hc as (Ec & Lc & Ac).
        apply HA. apply X1; [cbn in *; lia|]. rewrite ancestor_cons. change (2 ^ Z.of_nat 1) with 2. congruence.
      - specialize (A3 m eq_refl H). specialize (B3 m eq_refl H). apply (predicted_local n s (v1 m) (v2 m) x y); auto.
        intros z Lz Nz. destruct z as [|zx zy]; [discriminate|]. cbn [value_at]. pose proof (gi_range _ _ _ _ _ _ _ _ _ HI _ _ H) as Hm.
        destruct (ghosts_agree m ltac:(lia)) as [_ B]. 
        destruct (C54_leaf_stencils n _ minl maxl _ (Z.of_nat s) cells r (gi_in _ _ _ _ _ _ _ _ _ HI) (gi_ne _ _ _ _ _ _ _ _ _ HI) HR _ _ H) as (S1 & _).
        { apply (hm_tiles _ _ _ _ _ _ _ _ _ HI). }
        apply (B (ancestor 1 (x :: y))); auto.
        + apply S1; [apply H|]. intros k _. pose proof HI as (_ & _ & _ & _ & Hw & _). lia.
        + apply (hm_tiles _ _ _ _ _ _ _ _ _ HI); auto.
        + intros q Lq Nq. apply S1; auto. intros k Hk. specialize (Nq k Hk). pose proof HI as (_ & _ & _ & _ & Hw & _). lia.
    Qed.
  End One.

  (** The tags of an iteration, on the leaves. *)
  Lemma tags_full : forall ite cells r d, usable n g lo hi cells -> sub_mesh cells = Some r ->
    exists t, harten_tags n minl maxl ite (h_grad g) (h_eps g) (h_factor g) (h_enlarge g) (h_domain g) cells (r_ghosts r) (r_all r) d = Some t /\
    forall l q, ca_mem n cells l q ->
      (Re t l q <-> to_refine n minl maxl (maxl - ite) (h_eps g) (h_factor g) (h_enlarge g) cells d l q) /\
      (wants_coarsen minl l (tg t l q) <-> to_coarsen n minl maxl (maxl - ite) (h_eps g) (h_factor g) (h_enlarge g) cells d l q) /\
      Z.testbit (tg t l q) 0 || Z.testbit (tg t l q) 1 || Z.testbit (tg t l q) 2 = true.
  Proof using Type.
    intros ite cells r d HU HR. destruct HU as (HI & HBx & Hmin & H31 & HG). rewrite HG.
    destruct (tags_before n _ minl maxl _ s cells lo hi r HI HR (maxl - ite) (h_eps g) (h_factor g) (h_enlarge g) d Hmin ltac:(lia) H31) as (t0 & E0 & F1 & F2 & F3 & F4).
    pose proof (tags_marked n minl maxl cells (maxl - ite) (h_eps g) (h_factor g) (h_enlarge g) d t0 F1 F2 F3) as HM.
    pose proof (refines_wish n minl maxl cells (maxl - ite) (h_eps g) (h_factor g) (h_enlarge g) d t0 F1 F4) as FR.
    pose proof (coarsens_wish n minl maxl cells (maxl - ite) (h_eps g) (h_factor g) (h_enlarge g) d t0 F1 F2 FR) as FC.
    destruct (graduate_flags n _ minl maxl _ s cells lo hi r (h_domain g) t0 HI HR HBx HM) as (t & E & F & _). exists t. split.
    - unfold harten_tags. revert E0. destruct (first_tags n cells) as [t1|]; [|discriminate]. destruct (criteria _ _ _ _ _ _ _ _ _ t1) as [t2|]; [|discriminate]. intros ->. exact E.
    - intros l q Hq. destruct (F l q Hq) as (A & B & C). rewrite A, B, FR, FC. tauto.
  Qed.

  Lemma harten_determined : forall ite cells u1 u2 same next w1, usable n g lo hi cells -> agree n cells u1 u2 ->
    harten n g bc ite cells u1 = Some (same, (next, w1)) -> exists w2, harten n g bc ite cells u2 = Some (same, (next, w2)) /\ agree n next w1 w2.
  Proof.
    intros ite cells u1 u2 same next w1 HU HA E1.
    destruct (C60_iteration n g lo hi bc ite cells u1 HU HB) as (r & v1 & d1 & same' & next' & w1' & E1' & UN & HR & W1 & D1 & X1 & CV1 & SM1 & _). rewrite E1 in E1'. injection E1' as <- <- <-.
    destruct (C60_iteration n g lo hi bc ite cells u2 HU HB) as (r' & v2 & d2 & same2 & next2 & w2 & E2 & _ & HR' & W2 & D2 & X2 & CV2 & SM2 & _). rewrite HR in HR'. injection HR' as <-.
    assert (Q : same2 = same /\ next2 = next).
    { destruct (make_mesh_total n g lo hi cells HU) as (cells' & r' & reference & EM & HR' & HN). rewrite HR in HR'. injection HR' as <-.
      pose proof HN as (W' & M' & L' & SL & Wr & _ & IX & J). destruct (ca_for_each_cell_spec n reference Wr) as (numbers & EN & _).
      destruct (tags_full ite cells r d1 HU HR) as (t1 & T1 & F1). destruct (tags_full ite cells r d2 HU HR) as (t2 & T2 & F2).
      destruct W1 as (sub & ES & EU1) eqn:EW1. destruct W2 as (sub' & ES' & EU2) eqn:EW2. assert (sub' = sub) by congruence. subst sub'.
      assert (UC : update_cells n minl maxl cells' (storage_of numbers t1) = update_cells n minl maxl cells' (storage_of numbers t2)).
      { apply update_cells_ext; auto. intros l x y k Hp Hk. apply SL in Hp. destruct (IX l _ Hp) as [I1 I2]. rewrite I2 in Hk.
        rewrite !(storage_of_spec n reference numbers _ l (x :: y) k EN Wr J I1 Hk). destruct (F1 l _ Hp) as (A1 & B1 & C1). destruct (F2 l _ Hp) as (A2 & B2 & C2).
        pose proof (details_close ite cells u1 u2 HU HA r v1 v2 HR W1 W2 d1 d2 D1 D2) as CL. pose proof (close_sym _ _ _ _ _ _ CL) as CL'.
        apply tag_body_same; auto.
        - rewrite A1, A2. split; apply refine_close; auto.
        - rewrite B1, B2. split; apply coarsen_close; auto. }
      revert E1 E2. unfold harten. rewrite EM, ES, EU1, EU2, D1, D2, T1, T2. unfold update_field_mr. rewrite EN, UC.
      destruct (update_cells n minl maxl cells' (storage_of numbers t2)) as [new|]; [|discriminate].
      destruct (make_mesh n (h_max g) minl maxl (h_width g) s new) as [[new' rr]|]; [|discriminate]. destruct (same_mesh n minl maxl cells' new').
      - intros Q1 Q2. injection Q1 as <- <- _. injection Q2 as <- <- _. auto.
      - destruct (update_fields n s minl maxl cells' new v1); [|discriminate]. destruct (update_fields n s minl maxl cells' new v2); [|discriminate].
        intros Q1 Q2. injection Q1 as <- <- _. injection Q2 as <- <- _. auto. }
    destruct Q as [-> ->]. exists w2. split; auto. apply (carried_agree cells u1 u2 HU HA r v1 v2 HR W1 W2 next); auto.
  Qed.

  Lemma loop_determined : forall k ite cells u1 u2 next w1, usable n g lo hi cells -> agree n cells u1 u2 ->
    adapt_loop n g bc k ite cells u1 = Some (next, w1) -> exists w2, adapt_loop n g bc k ite cells u2 = Some (next, w2) /\ agree n next w1 w2.
  Proof.
    induction k as [|k IH]; intros ite cells u1 u2 next w1 HU HA E; cbn [adapt_loop] in *; [injection E as <- <-; eauto|].
    destruct (harten n g bc ite cells u1) as [[same [c1 z1]]|] eqn:E1; [|discriminate]. destruct (harten_determined ite cells u1 u2 same c1 z1 HU HA E1) as (z2 & E2 & A2). rewrite E2.
    destruct same; [injection E as <- <-; eauto|]. cbn [fst snd] in *. apply (IH (S ite) c1 z1 z2); auto.
    destruct (C60_iteration n g lo hi bc ite cells u1 HU HB) as (r & v1 & d1 & same' & next' & w1' & E1' & UN & _). rewrite E1 in E1'. injection E1' as _ <- _. auto.
  Qed.
End Determined.

(** One iteration: the same flag, the same new leaves (the same array), the same new values. *)
Theorem C62_iteration : forall n g lo hi bc ite cells u1 u2 same next w1, usable n g lo hi cells -> harmless n g lo hi bc -> filling n g lo hi bc ->
  Z.of_nat (h_order g) <= h_width g ->
  agree n cells u1 u2 -> harten n g bc ite cells u1 = Some (same, (next, w1)) ->
  exists w2, harten n g bc ite cells u2 = Some (same, (next, w2)) /\ agree n next w1 w2.
Proof. intros n g lo hi bc ite cells u1 u2 same next w1 HU HB HF HS. apply (harten_determined n g lo hi bc HB HF HS); auto. Qed.

(** The whole adaptation: whatever the ghosts contain at the beginning. *)
Theorem C62_adapt : forall n g lo hi bc cells u1 u2 next w1, usable n g lo hi cells -> harmless n g lo hi bc -> filling n g lo hi bc ->
  Z.of_nat (h_order g) <= h_width g ->
  agree n cells u1 u2 -> adapt n g bc cells u1 = Some (next, w1) -> exists w2, adapt n g bc cells u2 = Some (next, w2) /\ agree n next w1 w2.
Proof.
  intros n g lo hi bc cells u1 u2 next w1 HU HB HF HS HA. unfold adapt. destruct (Nat.eqb (h_min_level g) (h_max_level g)); [intros E; injection E as <- <-; eauto|].
  apply (loop_determined n g lo hi bc HB HF HS); auto.
Qed.

(** The order-one conditions of samurai in dimensions 1 and 2. *)
Theorem C62_conditions : forall n g lo hi dx bs, h_width g = 1 -> h_order g = 1%nat -> (h_max_level g < 30)%nat -> (n <= 1)%nat ->
  (forall b, In b bs -> order_one b /\ on_boundary n (h_max_level g) lo hi b) -> bs = [] \/ covering n (h_max_level g) lo hi bs ->
  filling n g lo hi (conditions n g dx bs).
Proof.
  intros n g lo hi dx bs Hw Ho Hm Hn1 Hb HC cells r (HI & HBx & _) HR. rewrite Hw, Ho in *. apply (C57_fills n (h_max g)); auto. split; auto.
Qed.

(** The cells the values of the new leaves are computed from are stored: the leaf itself, the
    leaves it merges, the cells around the leaf it refines. *)
Theorem C62_reads : forall n g lo hi cells r, usable n g lo hi cells -> Z.of_nat (h_order g) <= h_width g ->
  update_sub_mesh n (h_max g) (h_min_level g) (h_max_level g) (h_width g) (Z.of_nat (h_order g)) cells = Some r ->
  (forall l p, ca_mem n cells l p -> ca_mem n (r_all r) l p) /\
  forall l p q, ca_mem n cells l (ancestor 1 p) -> length q = S n -> near n (Z.of_nat (h_order g)) q (ancestor 1 p) -> ca_mem n (r_all r) l q.
Proof.
  intros n g lo hi cells r HU HS HR. pose proof HU as (HI & _).
  assert (S1 : forall l p q, ca_mem n cells l p -> length q = S n -> near n (h_width g) q p -> ca_mem n (r_all r) l q).
  { intros l p q Hp Lq Nq. destruct (C54_leaf_stencils n _ _ _ _ _ cells r (gi_in _ _ _ _ _ _ _ _ _ HI) (gi_ne _ _ _ _ _ _ _ _ _ HI) HR l p Hp) as (S1 & _); [apply (hm_tiles _ _ _ _ _ _ _ _ _ HI)|].
    apply S1; auto. }
  pose proof HI as (_ & _ & _ & _ & Hw & _). split.
  - intros l p Hp. apply (S1 l p p); auto; [apply Hp|]. intros k _. lia.
  - intros l p q Hp Lq Nq. apply (S1 l (ancestor 1 p) q); auto. intros k Hk. specialize (Nq k Hk). lia.
Qed.

(** The flag says whether the leaves have changed. *)
Theorem C62_unchanged : forall n g lo hi bc ite cells u same next v, usable n g lo hi cells -> harmless n g lo hi bc -> steps_one cells ->
  harten n g bc ite cells u = Some (same, (next, v)) ->
  steps_one next /\ (same = true <-> same_leaves n cells next).
Proof.
  intros n g lo hi bc ite cells u same next v HU HB S1 E.
  destruct (C60_iteration n g lo hi bc ite cells u HU HB) as (r & v1 & d1 & same' & next' & w1' & E1' & UN & HR & W1 & D1 & X1 & CV1 & SM1 & _). rewrite E in E1'. injection E1' as <- <- <-.
  destruct same; [rewrite (SM1 eq_refl); split; auto; split; auto; intros _ l q; tauto|].
  pose proof HU as (HI & _). pose proof (gi_in _ _ _ _ _ _ _ _ _ HI) as Hin. pose proof (gi_in _ _ _ _ _ _ _ _ _ (proj1 UN)) as Hin'.
  destruct (renumber_numbered n _ _ _ _ _ cells r Hin HR) as (c' & a & b & c & reference & ER & -> & RN & N).
  destruct (C54_contents n (h_max g) (h_min_level g) (h_max_level g) (h_width g) (Z.of_nat (h_order g)) next Hin') as (r2 & HR2 & _).
  destruct (renumber_numbered n _ _ _ _ _ next r2 Hin' HR2) as (c2' & a2 & b2 & c2 & reference2 & ER2 & -> & RN2 & N2).
  revert E. unfold harten, make_mesh. rewrite HR, ER. destruct W1 as (sub & ES & EU). rewrite ES, EU, D1. cbv beta iota. destruct (harten_tags _ _ _ _ _ _ _ _ _ _ _ _ _) as [t|]; [|discriminate].
  unfold update_field_mr, make_mesh. destruct (ca_for_each_cell n (ca_update_index (r_all r))) as [numbers|]; [|discriminate].
  destruct (update_cells n (h_min_level g) (h_max_level g) c' (storage_of numbers t)) as [new|] eqn:EN; [|discriminate]. pose proof (update_cells_steps _ _ _ _ _ _ EN) as SN.
  destruct (update_sub_mesh n (h_max g) (h_min_level g) (h_max_level g) (h_width g) (Z.of_nat (h_order g)) new) as [r3|] eqn:ER3; [|discriminate].
  destruct (mr_renumber n new r3) as [subs|] eqn:EM; [|discriminate]. destruct subs as [|n' [|s1 [|s2 [|s3 [|ref3 [|]]]]]]; try discriminate. 
  destruct (same_mesh n (h_min_level g) (h_max_level g) c' n') eqn:SM; [discriminate|]. destruct (update_fields n (h_order g) (h_min_level g) (h_max_level g) c' new v1); [|discriminate].
  intros Q. injection Q as -> _. split; auto. split; [discriminate|]. intros SL. rewrite HR2 in ER3. injection ER3 as <-. rewrite ER2 in EM. injection EM as <- _ _ _ _.
  rewrite (same_leaves_same_mesh n _ _ _ _ _ cells next r r2 Hin Hin' HR HR2 SL c' c2' S1 SN RN N RN2 N2) in SM. discriminate.
Qed.

(** ** Examples *)

(** Garbage everywhere but on the leaves. *)
Definition dirty : lfield := fun l x y => if stored 0 lineMesh l (x :: y) then lineField l x y else inject_Z (1000 + 17 * x).
Lemma line_filling : forall eps factor dx, filling 0 (lineSetting eps factor) [0] [1] (conditions 0 (lineSetting eps factor) dx lineBcs).
Proof.
  intros eps factor dx. assert (HBx : is_box 0 3 [0] [1] lineDomain) by (apply box_domain_ok; auto; intros [|k] Hk; [reflexivity|lia]).
  unfold lineBcs. destruct (everywhere 0 lineDomain) as [region|] eqn:E; [|exfalso; revert E; vm_compute; discriminate].
  destruct (everywhere_conditions 0 3 [0] [1] lineDomain region (fun _ _ _ => 5%Q) (dirichlet 1)) as (A & B & _); auto; try lia. { intros [|k] Hk; [reflexivity|lia]. }
  apply C62_conditions; auto; [cbn; lia|]. intros b [<-|[]]. split; [apply dirichlet_order_one|]. exact A.
Qed.
Lemma stored_agree : agree 0 lineMesh lineField dirty.
Proof.
  intros l x y H. unfold dirty. replace (stored 0 lineMesh l (x :: y)) with true; [reflexivity|]. symmetry. apply stored_mem; [apply lineMesh_wf, H|apply H|apply H].
Qed.
Lemma line_steps : steps_one lineMesh.
Proof.
  intros l d i. destruct l as [|[|[|[|l]]]], d as [|d]; cbn; intros H; intuition; subst; reflexivity.
Qed.
Example C62_example :
  usable 0 (lineSetting (1 # 10) 4) [0] [1] lineMesh /\ agree 0 lineMesh lineField dirty /\ steps_one lineMesh /\
  (dirty 2%nat 1%Z [] == 1017)%Q /\ (lineField 2%nat 1%Z [] == 1 # 16)%Q /\
  show 0 (adapt 0 (lineSetting (1 # 10) 4) (conditions 0 (lineSetting (1 # 10) 4) (fun _ => 1%Q) lineBcs) lineMesh dirty) = show 0 (lineRun (1 # 10) 4) /\
  show 0 (lineRun (1 # 10) 4) <> show 0 (Some (lineMesh, lineField)).
Proof.
  split; [apply line_usable|]. split; [apply stored_agree|]. split; [apply line_steps|]. split; [reflexivity|]. split; [reflexivity|]. split; [vm_compute; reflexivity|vm_compute; discriminate].
Qed.

(** The hypothesis on the width: with max_stencil_width 1 and prediction_order 2 the refinement of
    a leaf reads a cell two cells away, which may not be stored. Here the leaf 2 of level 2 is refined
    and its values depend on what is found in place of the cell 0 of level 2, inside the domain but
    not stored: two fields equal on all the stored cells give different values. *)
Definition stepTree : nat -> list lcl_call := fun l => match l with 1%nat => [AddI [] (mk 0 1)] | 2%nat => [AddI [] (mk 2 7)] | 3%nat => [AddI [] (mk 14 16)] | _ => [] end.
Definition stepMesh : ca := client_ca 0 4 stepTree true.
Lemma stepMesh_wf : ca_wf 0 stepMesh.
Proof.
  assert (G : good_hist 0 4 stepTree).
  { intros l Hl. split; [|apply adds_filled]; destruct l as [|[|[|[|l]]]]; repeat constructor; simpl; lia. }
  destruct (ca_update_index_spec 0 (client_ca 0 4 stepTree false) (raw_wf _ _ _ G)) as (cs & _ & W & _). exact W.
Qed.
Definition wideSetting : setting := mkSetting 4 1 3 1 2 1 (1 # 100) 2 false (box_domain 0 3 [0] [2]).
Lemma wide_usable : usable 0 wideSetting [0] [2] stepMesh.
Proof.
  split; [|split; [apply box_domain_ok; auto; intros [|k] Hk; [reflexivity|lia]|split; [apply Nat.le_refl|split; reflexivity]]].
  eapply ghost_check; [exact stepMesh_wf|reflexivity|vm_compute; reflexivity|vm_compute; reflexivity|vm_compute; reflexivity|vm_compute; reflexivity|
    vm_compute; reflexivity|vm_compute; discriminate|reflexivity|reflexivity|cbn; lia|cbn; lia|right; vm_compute; discriminate|lia|].
  intros [|k] Hk; [reflexivity|lia].
Qed.
(** Boundary conditions that put 0 in the stored cells outside the domain. *)
Definition zero_bc (n : nat) (lo hi : list Z) : ca -> ca -> nat -> lfield -> option lfield := fun _ all l u =>
  Some (fun k => if Nat.eqb k l then fun x y =>
    if Nat.leb l (c_max all) && Nat.eqb (length y) n && stored n all l (x :: y) && negb (insideb n lo hi l (x :: y)) then 0%Q else u l x y else u k).
Lemma zero_bc_ok : forall n g lo hi, harmless n g lo hi (zero_bc n lo hi) /\ filling n g lo hi (zero_bc n lo hi).
Proof.
  intros n g lo hi.
  assert (ST : forall cells r l x y, usable n g lo hi cells -> update_sub_mesh n (h_max g) (h_min_level g) (h_max_level g) (h_width g) (Z.of_nat (h_order g)) cells = Some r ->
    (Nat.leb l (c_max (r_all r)) && Nat.eqb (length y) n && stored n (r_all r) l (x :: y) = true <-> ca_mem n (r_all r) l (x :: y))).
  { intros cells r l x y HU HR. destruct (C54_contents n _ _ _ _ _ cells (gi_in _ _ _ _ _ _ _ _ _ (proj1 HU))) as (r' & E & W & _). rewrite HR in E. injection E as <-.
    destruct (W (r_all r)) as (WA & _); auto. rewrite !andb_true_iff, Nat.leb_le, Nat.eqb_eq. split.
    - intros [[A B] C]. split; auto. apply (stored_mem n (r_all r)); auto. cbn. lia.
    - intros [A B]. pose proof (proj1 B) as L. split; [split; [auto|cbn in L; lia]|]. apply stored_mem; auto. }
  split.
  - intros cells r HU HR l u Hl. eexists. split; [reflexivity|]. split.
    + intros k Hk. apply Nat.eqb_neq in Hk. rewrite Hk. reflexivity.
    + intros x y H. rewrite Nat.eqb_refl. destruct (_ && _ && _ && _) eqn:E; [|reflexivity]. exfalso. apply andb_true_iff in E as [E1 E2]. destruct H as [H|H].
      * apply insideb_iff in H. rewrite H in E2. discriminate.
      * apply H. apply (ST cells r l x y HU HR). auto.
  - intros cells r HU HR l u u' v v' E E' HA p Hp Hpi Hbox x y Ly Ny. unfold zero_bc in E, E'. injection E as <-. injection E' as <-. rewrite Nat.eqb_refl.
    assert (Hm : ca_mem n (r_all r) l (x :: y)) by (apply Hbox; [cbn; lia|auto]). rewrite (proj2 (ST cells r l x y HU HR) Hm). cbn [andb].
    destruct (insideb n lo hi l (x :: y)) eqn:EI; cbn [negb]; [|reflexivity]. apply HA; auto. apply insideb_iff. auto.
Qed.
Definition wideField (garbage : Q) : lfield := fun l x _ => if Nat.eqb l 2 && (x =? 0) then garbage else inject_Z (x * x).
Theorem C62_width_refuted :
  usable 0 wideSetting [0] [2] stepMesh /\ harmless 0 wideSetting [0] [2] (zero_bc 0 [0] [2]) /\ filling 0 wideSetting [0] [2] (zero_bc 0 [0] [2]) /\
  (exists r, update_sub_mesh 0 4 1 3 1 2 stepMesh = Some r /\ inside 0 [0] [2] 2 [0] /\ ~ ca_mem 0 (r_all r) 2 [0] /\
     forall l x y, ca_mem 0 (r_all r) l (x :: y) -> (wideField 0 l x y == wideField 1 l x y)%Q) /\
  exists next w1 next2 w2, harten 0 wideSetting (zero_bc 0 [0] [2]) 0 stepMesh (wideField 0) = Some (false, (next, w1)) /\
    harten 0 wideSetting (zero_bc 0 [0] [2]) 0 stepMesh (wideField 1) = Some (false, (next2, w2)) /\
    leaf_list 0 next = Some [(2%nat, [0]); (2%nat, [1]); (3%nat, [4]); (3%nat, [5]); (3%nat, [6]); (3%nat, [7]); (3%nat, [8]); (3%nat, [9]); (3%nat, [10]); (3%nat, [11]);
      (3%nat, [12]); (3%nat, [13]); (3%nat, [14]); (3%nat, [15])] /\ leaf_list 0 next2 = leaf_list 0 next /\
    ~ (w1 3%nat 4%Z [] == w2 3%nat 4%Z [])%Q.
Proof.
  split; [apply wide_usable|]. destruct (zero_bc_ok 0 wideSetting [0] [2]) as [HB HF]. split; auto. split; auto.
  destruct (update_sub_mesh 0 4 1 3 1 2 stepMesh) as [r|] eqn:ER; [|exfalso; revert ER; vm_compute; discriminate].
  destruct (C54_contents 0 4 1 3 1 2 stepMesh (gi_in _ _ _ _ _ _ _ _ _ (proj1 wide_usable))) as (r' & E & W & _). rewrite ER in E. injection E as <-. destruct (W (r_all r)) as (WA & MA & _); auto.
  assert (N : ~ ca_mem 0 (r_all r) 2 [0]).
  { intros [A B]. assert (X : forall o, o = Some r -> match o with Some r => stored 0 (r_all r) 2 [0] | None => true end = false) by (intros o Eo; rewrite <- ER in Eo; subst o; vm_compute; reflexivity).
    specialize (X _ eq_refl). cbn beta iota in X. apply (stored_mem 0 (r_all r) 2 [0]) in B; auto. congruence. }
  split.
  - exists r. split; auto. split; [apply insideb_iff; reflexivity|]. split; auto. intros l x y Hm. unfold wideField.
    destruct (Nat.eqb_spec l 2) as [->|]; cbn [andb]; [|reflexivity]. destruct (Z.eqb_spec x 0) as [->|]; [|reflexivity]. exfalso. apply N. destruct y; auto. destruct Hm as (_ & L & _). discriminate.
  - assert (P : forall o1 o2 : option (bool * (ca * lfield)), harten 0 wideSetting (zero_bc 0 [0] [2]) 0 stepMesh (wideField 0) = o1 -> harten 0 wideSetting (zero_bc 0 [0] [2]) 0 stepMesh (wideField 1) = o2 ->
      option_map (fun o => (fst o, leaf_list 0 (fst (snd o)))) o1 = Some (false, Some [(2%nat, [0]); (2%nat, [1]); (3%nat, [4]); (3%nat, [5]); (3%nat, [6]); (3%nat, [7]); (3%nat, [8]); (3%nat, [9]); (3%nat, [10]); (3%nat, [11]);
        (3%nat, [12]); (3%nat, [13]); (3%nat, [14]); (3%nat, [15])]) /\
      match o1, o2 with Some (_, (c1, w1)), Some (same, (c2, w2)) => same = false /\ leaf_list 0 c2 = leaf_list 0 c1 /\ Qeq_bool (w1 3%nat 4 []) (w2 3%nat 4 []) = false | _, _ => False end).
    { intros o1 o2 <- <-. split; [vm_compute; reflexivity|]. vm_compute. auto. }
    destruct (harten 0 wideSetting (zero_bc 0 [0] [2]) 0 stepMesh (wideField 0)) as [[same [next w1]]|] eqn:E1; [|destruct (P _ _ eq_refl eq_refl) as [P1 _]; discriminate].
    destruct (harten 0 wideSetting (zero_bc 0 [0] [2]) 0 stepMesh (wideField 1)) as [[same2 [next2 w2]]|] eqn:E2; [|destruct (P _ _ eq_refl eq_refl) as [_ []]].
    destruct (P _ _ eq_refl eq_refl) as [P1 (-> & P2 & P3)]. cbn [option_map fst snd] in P1. injection P1 as -> P1. exists next, w1, next2, w2.
    split; auto. split; auto. split; auto. split; auto. intros X. apply Qeq_bool_iff in X. congruence.
Qed.

Print Assumptions C62_iteration.
Print Assumptions C62_adapt.
Print Assumptions C62_conditions.
Print Assumptions C62_reads.
Print Assumptions C62_unchanged.
Print Assumptions C62_width_refuted.
