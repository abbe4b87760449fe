(** Proofs about [graduation] (AmrModel): what each operator does to the bits of the tags,
    and the states of the loop over the levels. *)
From Coq Require Import QArith.
From Verif Require Import Base IntervalModel Spec IntervalProofs LoiModel LcaModel LcaSpec LcaProofs RowsProofs CellArrayModel CellArrayProofs PropsLca PropsCellArray
  SubsetModel TreeProofs SubsetSpec SubsetProofs2 PropsSubset StencilModel NumberingProofs StencilProofs PropsStencil MeshModel MeshProofs
  NumModel NumProofs NumSpec PropsNum AdaptModel AdaptProofs TagProofs PropsAdapt TransferProofs PropsTransfer MrModel MrProofs PropsMr
  GhostModel GhostProofs PropsGhost BcProofs HartenModel HartenProofs HartenProofs2 AmrModel.
Open Scope Z_scope.

(** ** Marks of several bits *)
Definition sets (n l : nat) (D : Z -> list Z -> Prop) (t t' : tfield) : Prop :=
  forall l' p j, length p = S n -> 0 <= j ->
    (Z.testbit (tg t' l' p) j = true <-> Z.testbit (tg t l' p) j = true \/ (l' = l /\ D j p)).
Lemma sets_refl : forall n l t, sets n l (fun _ _ => False) t t.
Proof. intros n l t l' p j Lp Hj. tauto. Qed.
Lemma sets_weaken : forall n l D E t t', (forall j p, 0 <= j -> length p = S n -> (D j p <-> E j p)) -> sets n l D t t' -> sets n l E t t'.
Proof. intros n l D E t t' H M l' p j Lp Hj. rewrite (M l' p j Lp Hj), (H j p Hj Lp). tauto. Qed.
Lemma sets_trans : forall n l D E t t1 t2, sets n l D t t1 -> sets n l E t1 t2 -> sets n l (fun j p => D j p \/ E j p) t t2.
Proof. intros n l D E t t1 t2 M1 M2 l' p j Lp Hj. rewrite (M2 l' p j Lp Hj), (M1 l' p j Lp Hj). tauto. Qed.
Lemma marks_sets : forall n l b D t t', marks n l b D t t' -> sets n l (fun j p => j = b /\ D p) t t'.
Proof. intros n l b D t t' M l' p j Lp Hj. apply M; auto. Qed.
Lemma fold_sets : forall n l A (f : tfield -> A -> option tfield) (D : A -> tfield -> Z -> list Z -> Prop) (xs : list A) t,
  (forall x t, In x xs -> exists t', f t x = Some t' /\ sets n l (D x t) t t') ->
  (forall x t t' E j p, In x xs -> sets n l E t t' -> 0 <= j -> length p = S n -> (D x t' j p <-> D x t j p)) ->
  exists t', fold_tags f xs t = Some t' /\ sets n l (fun j p => exists x, In x xs /\ D x t j p) t t'.
Proof.
  intros n l A f D. induction xs as [|x xs IH]; intros t H1 H2.
  - exists t. split; auto. eapply sets_weaken; [|apply (sets_refl n l t)]. intros j p _ _. split; [tauto|]. intros (x & [] & _).
  - cbn [fold_tags]. destruct (H1 x t ltac:(left; auto)) as (t1 & E1 & M1). rewrite E1.
    destruct (IH t1) as (t2 & E2 & M2); [intros; apply H1; right; auto|intros x0 t0 t' E0 j p Hx M0 Hj Lp; apply (H2 x0 t0 t' E0 j p (or_intror Hx) M0 Hj Lp)|].
    exists t2. split; auto. eapply sets_weaken; [|apply (sets_trans _ _ _ _ _ _ _ M1 M2)].
    intros j p Hj Lp. split.
    + intros [X|(y & Hy & X)]; [exists x; split; auto; left; auto|]. exists y. split; [right; auto|]. apply (H2 y t t1 _ j p (or_intror Hy) M1 Hj Lp) in X. exact X.
    + intros (y & [->|Hy] & X); auto. right. exists y. split; auto. apply (H2 y t t1 _ j p (or_intror Hy) M1 Hj Lp). exact X.
Qed.
(** The bits of another level. *)
Lemma sets_other : forall n l D t t' l' p j, sets n l D t t' -> l' <> l -> length p = S n -> 0 <= j ->
  (Z.testbit (tg t' l' p) j = true <-> Z.testbit (tg t l' p) j = true).
Proof. intros n l D t t' l' p j M Hl Lp Hj. rewrite (M l' p j Lp Hj). split; auto. intros [H|[H _]]; [auto|contradiction]. Qed.

(** ** tag_to_keep<0> *)
Lemma keep_spec : forall n reference level set calls t, subset_calls n set = Some calls -> (forall i yz, In (i, yz) calls -> length yz = n) ->
  (forall p, In p (cells_of_calls calls) -> stored n reference level p = true) ->
  exists t', apply_tags n set (keep_op n reference level) t = Some t' /\ marks n level 0 (fun p => In p (cells_of_calls calls)) t t'.
Proof.
  intros n reference level set calls t EC HL HS. unfold apply_tags. rewrite EC, fold_calls_tags.
  assert (ST : forall i yz, In (i, yz) calls -> istep i = 1) by (intros i yz; apply (subset_calls_step n set calls i yz EC)).
  destruct (fold_marks n level 0 _ (fun t '(i, yz) => keep_op n reference level i yz t) (fun '(i, yz) t q => In q (row_cells i yz)) calls t) as (t' & E & M).
  - intros [i yz] t0 Hin. unfold keep_op.
    destruct (or_view_marks n reference flag_keep 0 level _ (fun p => p) (fun _ => true) (row_cells i yz) t0 ltac:(lia) eq_refl) as (t' & E & M).
    + intros p Hp. split; [apply HS; apply row_cells_In; auto; apply in_flat_map; exists (i, yz); auto|]. apply (row_length n) in Hp; [destruct p; discriminate|eauto].
    + rewrite map_id. apply row_NoDup. rewrite (ST _ _ Hin). lia.
    + rewrite map_id in E. exists t'. split; auto. eapply marks_weaken; [|exact M]. intros q Lq. split; [intros (x & Hx & _ & ->); auto|intros Hq; exists q; auto].
  - intros [i yz] t0 t1 E q Hin M Lq. tauto.
  - exists t'. split; auto. eapply marks_weaken; [|exact M]. intros q Lq. rewrite <- row_cells_In by auto. rewrite in_flat_map. split.
    + intros ([i yz] & Hin & Hq). exists (i, yz). auto.
    + intros ([i yz] & Hin & Hq). exists (i, yz). auto.
Qed.

(** ** keep_children_together *)
Definition in_group (t : tfield) (l : nat) (q : list Z) : Prop := exists c, length c = length q /\ ancestor 1 c = ancestor 1 q /\ K t (S l) c.

Lemma together_op_marks : forall n reference l i yz t, istep i = 1 -> length yz = n ->
  (forall c, length c = S n -> In (ancestor 1 c) (row_cells i yz) -> stored n reference (S l) c = true) ->
  exists t', together_op n reference l i yz t = Some t' /\ marks n (S l) 0 (fun q => In (ancestor 1 q) (row_cells i yz) /\ in_group t l q) t t'.
Proof.
  intros n reference l i yz t Hi Ly HS. unfold together_op.
  assert (X : forallb (stored n reference (S l)) (projection_reads i yz) = true).
  { apply forallb_forall. intros c Hc. apply in_flat_map in Hc as (x & Hx & Hc). apply in_map_iff in Hc as ([cx cyz] & <- & Hc). apply children_In in Hc as (H1 & H2 & H3).
    apply HS; [cbn [length]; lia|]. apply in_map_iff. exists x. split; auto. cbn [ancestor map]. change (2 ^ Z.of_nat 1) with 2. rewrite H1. f_equal. symmetry. exact H3. }
  rewrite X. cbn [checked]. eexists. split; [reflexivity|]. intros l' p j Lp Hj. destruct p as [|cx cyz]; [discriminate|]. unfold tg. cbn [hd tl].
  rewrite (map_ext _ _ (fun x => flags_keep t l x yz)).
  pose proof (masked_children (fun v => Z.lor v flag_keep) (S l) (strided i) yz (fun x => any_keep t l x yz) t l' cx cyz ltac:(apply strided_NoDup; lia)) as MC.
  match goal with |- context[fold_left ?f ?ks t l' cx cyz] => match type of MC with ?a = _ => change (fold_left f ks t l' cx cyz) with a end end.
  rewrite MC. clear MC.
  assert (Lc : length cyz = n) by (cbn in Lp; lia).
  assert (AK : any_keep t l (cx / 2) (ancestor 1 cyz) = true <-> in_group t l (cx :: cyz)).
  { pose proof (any_keep_iff n t l (ancestor 1 (cx :: cyz)) ltac:(rewrite ancestor_length; auto)) as A. cbn [ancestor map hd tl] in A. change (2 ^ Z.of_nat 1) with 2 in A.
    rewrite A. unfold in_group. split; intros (c & H1 & H2 & H3); exists c; (split; [cbn [length] in *; lia|split; auto]). }
  destruct (Nat.eqb_spec l' (S l)) as [->|Hl]; cbn [andb].
  2: { split; auto. intros [H|(H & _)]; [auto|contradiction]. }
  assert (IN : existsb (fun x => x =? cx / 2) (strided i) && zlist_eqb (ancestor 1 cyz) yz = true <-> In (ancestor 1 (cx :: cyz)) (row_cells i yz)).
  { rewrite andb_true_iff, existsb_exists, zlist_eqb_eq. unfold row_cells. rewrite in_map_iff. cbn [ancestor map]. change (2 ^ Z.of_nat 1) with 2. split.
    - intros [(x & Hx & Ex) Ey]. apply Z.eqb_eq in Ex. subst x. exists (cx / 2). split; auto. f_equal. auto.
    - intros (x & E & Hx). injection E as E1 E2. split; [exists x; split; auto; apply Z.eqb_eq; auto|]. symmetry. exact E2. }
  destruct (any_keep t l (cx / 2) yz && existsb (fun x => x =? cx / 2) (strided i) && zlist_eqb (ancestor 1 cyz) yz) eqn:B.
  - apply andb_true_iff in B as [B B3]. apply andb_true_iff in B as [B1 B2]. pose proof B3 as B4. apply zlist_eqb_eq in B4. subst yz.
    change flag_keep with (2 ^ 0). rewrite Z.lor_spec, Z.pow2_bits_eqb, orb_true_iff, Z.eqb_eq by lia. split.
    + intros [H|<-]; auto. right. split; auto. split; auto. split; [apply IN; rewrite B2, B3; auto|apply AK; auto].
    + intros [H|(_ & -> & _)]; auto.
  - split; auto. intros [H|(_ & _ & H1 & H2)]; auto. exfalso. apply IN in H1. apply andb_true_iff in H1 as [H1 H3]. pose proof H3 as H4. apply zlist_eqb_eq in H4. subst yz.
    apply AK in H2. rewrite H1, H2, H3 in B. discriminate.
Qed.

Lemma together_spec : forall n reference l set calls t, subset_calls n set = Some calls -> (forall i yz, In (i, yz) calls -> length yz = n) ->
  (forall c, length c = S n -> In (ancestor 1 c) (cells_of_calls calls) -> stored n reference (S l) c = true) ->
  exists t', apply_tags n set (together_op n reference l) t = Some t' /\
    marks n (S l) 0 (fun q => In (ancestor 1 q) (cells_of_calls calls) /\ in_group t l q) t t'.
Proof.
  intros n reference l set calls t EC HL HS. unfold apply_tags. rewrite EC.
  assert (ST : forall i yz, In (i, yz) calls -> istep i = 1) by (intros i yz; apply (subset_calls_step n set calls i yz EC)). clear EC.
  assert (HS' : forall i yz c, In (i, yz) calls -> length c = S n -> In (ancestor 1 c) (row_cells i yz) -> stored n reference (S l) c = true).
  { intros i yz c Hin Lc Hc. apply HS; auto. apply row_cells_In; auto. apply in_flat_map. exists (i, yz). auto. }
  assert (G : exists t', fold_calls (together_op n reference l) calls t = Some t' /\
    marks n (S l) 0 (fun q => In (ancestor 1 q) (flat_map (fun '(i, yz) => row_cells i yz) calls) /\ in_group t l q) t t').
  { clear HS. revert t. induction calls as [|[i yz] calls IH]; intros t.
    - exists t. split; auto. eapply marks_weaken; [|apply (marks_refl n (S l) 0 t)]. intros q Lq. cbn. tauto.
    - cbn [fold_calls]. destruct (together_op_marks n reference l i yz t) as (t1 & E1 & M1); [eapply ST; left; eauto|eapply HL; left; eauto|intros c; apply HS'; left; auto|].
      rewrite E1. destruct (IH ltac:(intros; eapply HL; right; eauto) ltac:(intros; eapply ST; right; eauto) ltac:(intros; eapply HS'; eauto; right; eauto) t1) as (t2 & E2 & M2).
      exists t2. split; auto. eapply marks_weaken; [|apply (marks_trans _ _ _ _ _ _ _ _ M1 M2)]. intros q Lq. cbn [flat_map]. rewrite in_app_iff.
      assert (X : in_group t1 l q <-> in_group t l q).
      { unfold in_group. split; intros (c & Lc & Ac & HK).
        - unfold K in HK. rewrite (M1 (S l) c 0 ltac:(congruence) ltac:(lia)) in HK. destruct HK as [HK|(_ & _ & _ & (c' & Lc' & Ac' & HK))]; [exists c; auto|].
          exists c'. split; [congruence|]. split; [congruence|auto].
        - exists c. split; auto. split; auto. unfold K. rewrite (M1 (S l) c 0 ltac:(congruence) ltac:(lia)). auto. }
      rewrite X. tauto. }
  destruct G as (t' & E & M). exists t'. split; auto. eapply marks_weaken; [|exact M]. intros q Lq. rewrite <- row_cells_In by auto. tauto.
Qed.

(** ** graduate *)
Definition flagged (j : Z) : Prop := j = 0 \/ j = 2.

Lemma graduate_view_marks : forall n reference l s i yz t b, 0 <= b -> length s = S n -> length yz = n ->
  map (fun x => x / 2) (strided i) = strided (ishr i 1) -> NoDup (map (ancestor 1) (row_cells i yz)) ->
  (forall p, In p (row_cells i yz) -> stored n reference (S l) (add_vec p (opposite s)) = true /\ stored n reference l (ancestor 1 p) = true) ->
  exists t', graduate_view n reference (S l) s i yz t (2 ^ b) = Some t' /\
    marks n l b (fun q => exists p, In p (row_cells i yz) /\ Z.testbit (tg t (S l) (add_vec p (opposite s))) b = true /\ q = ancestor 1 p) t t'.
Proof.
  intros n reference l s i yz t b Hb Ls Ly HE HN HS. unfold graduate_view.
  assert (X : forallb (stored n reference (S l)) (moved_cells (opposite s) i yz) = true).
  { apply forallb_forall. intros p Hp. apply in_map_iff in Hp as (p0 & <- & Hp). apply HS. auto. }
  rewrite X. cbn [checked Nat.pred]. rewrite (flag_mask_bits _ b) by auto. rewrite half_ancestor. unfold moved_cells. rewrite map_map.
  assert (R : row_cells (ishr i 1) (ancestor 1 yz) = map (ancestor 1) (row_cells i yz)).
  { unfold row_cells. rewrite <- HE, !map_map. reflexivity. }
  rewrite R.
  destruct (or_view_marks n reference (2 ^ b) b l _ (ancestor 1) (fun p => Z.testbit (tg t (S l) (add_vec p (opposite s))) b) (row_cells i yz) t Hb eq_refl) as (t' & E & M); auto.
  - intros p Hp. split; [apply HS; auto|]. apply row_length with (n := n) in Hp; auto. destruct p; discriminate.
  - exists t'. auto.
Qed.

Lemma graduate_part_sets : forall n reference l s i yz t, length s = S n -> length yz = n ->
  map (fun x => x / 2) (strided i) = strided (ishr i 1) -> NoDup (map (ancestor 1) (row_cells i yz)) ->
  (forall p, In p (row_cells i yz) -> stored n reference (S l) (add_vec p (opposite s)) = true /\ stored n reference l (ancestor 1 p) = true) ->
  exists t', graduate_part n reference (S l) s i yz t = Some t' /\
    sets n l (fun j q => flagged j /\ exists p, In p (row_cells i yz) /\ Z.testbit (tg t (S l) (add_vec p (opposite s))) j = true /\ q = ancestor 1 p) t t'.
Proof.
  intros n reference l s i yz t Ls Ly HE HN HS. unfold graduate_part. cbn [fold_tags].
  destruct (graduate_view_marks n reference l s i yz t 2 ltac:(lia) Ls Ly HE HN HS) as (t1 & E1 & M1). change flag_refine with (2 ^ 2). rewrite E1.
  destruct (graduate_view_marks n reference l s i yz t1 0 ltac:(lia) Ls Ly HE HN HS) as (t2 & E2 & M2). change flag_keep with (2 ^ 0). rewrite E2.
  exists t2. split; auto. intros l' q j Lq Hj. rewrite (M2 l' q j Lq Hj), (M1 l' q j Lq Hj). unfold flagged.
  assert (KK : forall p, In p (row_cells i yz) -> (Z.testbit (tg t1 (S l) (add_vec p (opposite s))) 0 = true <-> Z.testbit (tg t (S l) (add_vec p (opposite s))) 0 = true)).
  { intros p Hp. rewrite (M1 (S l)); [split; auto; intros [|(? & _)]; auto; lia| |lia]. apply moved_length; [eapply row_length; eauto|rewrite opposite_length; auto]. }
  split.
  - intros [[H|(El & -> & p & Hp & Hbit & Eq)]|(El & -> & p & Hp & Hbit & Eq)]; auto; right; split; auto; (split; [auto|]); exists p; auto. split; auto. split; auto. apply KK; auto.
  - intros [H|(El & [->| ->] & p & Hp & Hbit & Eq)]; auto.
    + right. split; auto. split; auto. exists p. split; auto. split; auto. apply KK; auto.
    + left. right. split; auto. split; auto. exists p. auto.
Qed.

Lemma graduate_op_sets : forall n reference l s i yz t, length s = S n -> istep i = 1 -> istart i < iend i -> length yz = n ->
  (n = 0%nat -> iend i = istart i + 1) ->
  (forall p, In p (row_cells i yz) -> stored n reference (S l) (add_vec p (opposite s)) = true /\ stored n reference l (ancestor 1 p) = true) ->
  exists t', graduate_op n reference (S l) s i yz t = Some t' /\
    sets n l (fun j q => flagged j /\ exists p, In p (row_cells i yz) /\ Z.testbit (tg t (S l) (add_vec p (opposite s))) j = true /\ q = ancestor 1 p) t t'.
Proof.
  intros n reference l s i yz t Ls Hi V Ly H1 HS. unfold graduate_op. destruct n as [|n'].
  - apply graduate_part_sets; auto.
    + specialize (H1 eq_refl). destruct i as [a e st ix]. cbn [istart iend istep] in *. subst. unfold ishr, strided. cbn [istart iend istep].
      rewrite !Z.shiftr_div_pow2 by lia. unfold range_count.
      replace (a + 1 - 1) with a by lia. change (2 ^ 1) with 2. replace ((a + 1 - a + 1 - 1) / 1) with 1 by (rewrite Z.div_1_r; lia). replace ((a / 2 + 1 - a / 2 + 1 - 1) / 1) with 1 by (rewrite Z.div_1_r; lia).
      reflexivity.
    + specialize (H1 eq_refl). destruct i as [a e st ix]. cbn [istart iend istep] in *. subst. unfold row_cells, strided. cbn [istart iend istep]. unfold range_count.
      replace ((a + 1 - a + 1 - 1) / 1) with 1 by (rewrite Z.div_1_r; lia). cbn. repeat constructor. auto.
  - remember (S n') as n eqn:En. clear H1 En n'.
    assert (IE : forall x, In x (strided (even_elements i)) -> In x (strided i)) by (intros x Hx; apply even_elements_in in Hx; auto; apply strided_In; tauto).
    assert (IO : forall x, In x (strided (odd_elements i)) -> In x (strided i)) by (intros x Hx; apply odd_elements_in in Hx; auto; apply strided_In; tauto).
    assert (RE : forall p, In p (row_cells (even_elements i) yz) -> In p (row_cells i yz)).
    { intros p Hp. apply in_map_iff in Hp as (x & <- & Hx). apply in_map_iff. eauto. }
    assert (RO : forall p, In p (row_cells (odd_elements i) yz) -> In p (row_cells i yz)).
    { intros p Hp. apply in_map_iff in Hp as (x & <- & Hx). apply in_map_iff. eauto. }
    assert (ND : forall j c, 0 <= c <= 1 -> strided j = map (fun x => 2 * x + c) (strided (ishr j 1)) -> map (fun x => x / 2) (strided j) = strided (ishr j 1) /\ NoDup (map (ancestor 1) (row_cells j yz))).
    { intros j c Hc HE. assert (D2 : map (fun x => x / 2) (strided j) = strided (ishr j 1)).
      { rewrite HE, map_map. rewrite <- (map_id (strided (ishr j 1))) at 2. apply map_ext. intros x. lia. }
      split; auto. replace (map (ancestor 1) (row_cells j yz)) with (row_cells (ishr j 1) (ancestor 1 yz)); [apply row_NoDup; cbn; lia|].
      unfold row_cells. rewrite <- D2, !map_map. reflexivity. }
    destruct (ND (even_elements i) 0 ltac:(lia) ltac:(rewrite even_strided by auto; apply map_ext; intros; lia)) as [NE1 NE2].
    destruct (ND (odd_elements i) 1 ltac:(lia) ltac:(rewrite odd_strided by auto; apply map_ext; intros; lia)) as [NO1 NO2].
    set (P := fun (i' : interval) (t : tfield) (j : Z) (q : list Z) => flagged j /\ exists p, is_valid i' = true /\ In p (row_cells i' yz) /\ Z.testbit (tg t (S l) (add_vec p (opposite s))) j = true /\ q = ancestor 1 p).
    assert (PP : forall i' t, (forall p, In p (row_cells i' yz) -> In p (row_cells i yz)) -> map (fun x => x / 2) (strided i') = strided (ishr i' 1) -> NoDup (map (ancestor 1) (row_cells i' yz)) ->
      exists t', (if is_valid i' then graduate_part n reference (S l) s i' yz t else Some t) = Some t' /\ sets n l (P i' t) t t').
    { intros i' t0 HR A B. destruct (is_valid i') eqn:Vi.
      - destruct (graduate_part_sets n reference l s i' yz t0 Ls Ly A B) as (t' & E & M); [intros p Hp; apply HS; auto|]. exists t'. split; auto.
        eapply sets_weaken; [|exact M]. intros j q _ _. unfold P. split; intros (F & p & H); (split; [auto|]); exists p; tauto.
      - exists t0. split; auto. eapply sets_weaken; [|apply (sets_refl n l t0)]. intros j q _ _. unfold P. split; [tauto|]. intros (_ & p & H & _). congruence. }
    destruct (PP (even_elements i) t RE NE1 NE2) as (t1 & E1 & M1). rewrite E1. destruct (PP (odd_elements i) t1 RO NO1 NO2) as (t2 & E2 & M2). rewrite E2.
    exists t2. split; auto. eapply sets_weaken; [|apply (sets_trans _ _ _ _ _ _ _ M1 M2)].
    assert (KK : forall p j, In p (row_cells i yz) -> 0 <= j -> (Z.testbit (tg t1 (S l) (add_vec p (opposite s))) j = true <-> Z.testbit (tg t (S l) (add_vec p (opposite s))) j = true)).
    { intros p j Hp Hj. apply (sets_other n l _ t t1 (S l)) with (1 := M1); [lia| |auto]. apply moved_length; [eapply row_length; eauto|rewrite opposite_length; auto]. }
    intros j q Hj Lq. unfold P. split.
    + intros [(F & p & _ & Hp & Hb & Eq)|(F & p & _ & Hp & Hb & Eq)]; split; auto; exists p; split; auto; split; auto. apply KK; auto.
    + intros (F & p & Hp & Hb & Eq). pose proof Hp as Hp0. apply in_map_iff in Hp as (x & <- & Hx). apply strided_In in Hx; auto.
      destruct (Z.even x) eqn:Ev.
      * left. split; auto. exists (x :: yz). split; [apply even_elements_valid; eauto|]. split; [apply in_map_iff; exists x; split; auto; apply even_elements_in; auto|]. auto.
      * right. assert (Od : Z.odd x = true) by (rewrite <- Z.negb_even, Ev; auto). split; auto. exists (x :: yz).
        split; [apply odd_elements_valid; eauto|]. split; [apply in_map_iff; exists x; split; auto; apply odd_elements_in; auto|]. split; auto. apply KK; auto.
Qed.

Lemma graduate_spec : forall n reference l s set calls t, subset_calls n set = Some calls -> length s = S n ->
  (forall i yz, In (i, yz) calls -> length yz = n /\ istart i < iend i) ->
  (forall i yz, In (i, yz) calls -> n = 0%nat -> iend i = istart i + 1) ->
  (forall p, In p (cells_of_calls calls) -> stored n reference (S l) (add_vec p (opposite s)) = true /\ stored n reference l (ancestor 1 p) = true) ->
  exists t', apply_tags n set (graduate_op n reference (S l) s) t = Some t' /\
    sets n l (fun j q => flagged j /\ exists p, In p (cells_of_calls calls) /\ Z.testbit (tg t (S l) (add_vec p (opposite s))) j = true /\ q = ancestor 1 p) t t'.
Proof.
  intros n reference l s set calls t EC Ls HL H1 HS. unfold apply_tags. rewrite EC, fold_calls_tags.
  assert (ST : forall i yz, In (i, yz) calls -> istep i = 1) by (intros i yz; apply (subset_calls_step n set calls i yz EC)).
  assert (RC : forall i yz p, In (i, yz) calls -> In p (row_cells i yz) -> In p (cells_of_calls calls)).
  { intros i yz p Hin Hp. apply row_cells_In; auto. apply in_flat_map. exists (i, yz). auto. }
  destruct (fold_sets n l _ (fun t '(i, yz) => graduate_op n reference (S l) s i yz t)
    (fun '(i, yz) t j q => flagged j /\ exists p, In p (row_cells i yz) /\ Z.testbit (tg t (S l) (add_vec p (opposite s))) j = true /\ q = ancestor 1 p) calls t) as (t' & E & M).
  - intros [i yz] t0 Hin. destruct (HL _ _ Hin). apply graduate_op_sets; eauto.
  - intros [i yz] t0 t1 E j q Hin M Hj Lq. assert (X : forall p, In p (row_cells i yz) ->
      (Z.testbit (tg t1 (S l) (add_vec p (opposite s))) j = true <-> Z.testbit (tg t0 (S l) (add_vec p (opposite s))) j = true)).
    { intros p Hp. apply (sets_other n l _ t0 t1 (S l)) with (1 := M); [lia| |auto]. apply moved_length; [apply (row_length n) in Hp; auto; apply (HL _ _ Hin)|rewrite opposite_length; auto]. }
    split; intros (F & p & Hp & Hb & Eq); (split; [auto|]); exists p; (split; [auto|split; [apply X; auto|auto]]).
  - exists t'. split; auto. eapply sets_weaken; [|exact M]. intros j q Hj Lq. split.
    + intros ([i yz] & Hin & F & p & Hp & Hb & Eq). split; auto. exists p. split; eauto.
    + intros (F & p & Hp & Hb & Eq). apply row_cells_In in Hp; auto. apply in_flat_map in Hp as ([i yz] & Hin & Hp). exists (i, yz). split; auto. split; auto. exists p. auto.
Qed.
