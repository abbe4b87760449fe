(** Proofs about HartenModel: what each operator does to the bits of the tags. *)
From Coq Require Import QArith.
From Verif Require Import Base IntervalModel Spec IntervalProofs LoiModel LcaModel LcaSpec LcaProofs RowsProofs CellArrayModel CellArrayProofs PropsLca PropsCellArray
  SubsetModel SubsetSpec PropsSubset StencilModel NumberingProofs StencilProofs PropsStencil MeshModel MeshProofs
  NumModel NumProofs NumSpec PropsNum AdaptModel AdaptProofs TagProofs PropsAdapt TransferProofs PropsTransfer MrModel MrProofs PropsMr
  GhostModel GhostProofs PropsGhost BcProofs HartenModel.
Open Scope Z_scope.

(** ** Marks: the bit [b] is set on level [l] in the cells of [D], nothing else changes. *)
Definition marks (n l : nat) (b : Z) (D : list Z -> Prop) (t t' : tfield) : Prop :=
  forall l' p j, length p = S n -> 0 <= j ->
    (Z.testbit (tg t' l' p) j = true <-> Z.testbit (tg t l' p) j = true \/ (l' = l /\ j = b /\ D p)).
(** The bit [b] is set on level [l] in some cells of [D], nothing else changes. *)
Definition grows (n l : nat) (b : Z) (D : list Z -> Prop) (t t' : tfield) : Prop :=
  forall l' p j, length p = S n -> 0 <= j ->
    (Z.testbit (tg t l' p) j = true -> Z.testbit (tg t' l' p) j = true) /\
    (Z.testbit (tg t' l' p) j = true -> Z.testbit (tg t l' p) j = true \/ (l' = l /\ j = b /\ D p)).

Lemma marks_grows : forall n l b D t t', marks n l b D t t' -> grows n l b D t t'.
Proof. intros n l b D t t' H l' p j Lp Hj. rewrite (H l' p j Lp Hj). tauto. Qed.
Lemma marks_refl : forall n l b t, marks n l b (fun _ => False) t t.
Proof. intros n l b t l' p j Lp Hj. tauto. Qed.
Lemma marks_weaken : forall n l b D E t t', (forall p, length p = S n -> (D p <-> E p)) -> marks n l b D t t' -> marks n l b E t t'.
Proof. intros n l b D E t t' H M l' p j Lp Hj. rewrite (M l' p j Lp Hj), (H p Lp). tauto. Qed.
Lemma marks_trans : forall n l b D E t t1 t2, marks n l b D t t1 -> marks n l b E t1 t2 -> marks n l b (fun p => D p \/ E p) t t2.
Proof. intros n l b D E t t1 t2 M1 M2 l' p j Lp Hj. rewrite (M2 l' p j Lp Hj), (M1 l' p j Lp Hj). tauto. Qed.
Lemma grows_refl : forall n l b D t, grows n l b D t t.
Proof. intros n l b D t l' p j Lp Hj. tauto. Qed.
Lemma grows_weaken : forall n l b (D E : list Z -> Prop) t t', (forall p, length p = S n -> D p -> E p) -> grows n l b D t t' -> grows n l b E t t'.
Proof. intros n l b D E t t' H M l' p j Lp Hj. destruct (M l' p j Lp Hj) as [A B]. split; auto. intros X. destruct (B X) as [|(? & ? & ?)]; auto. Qed.
Lemma grows_trans : forall n l b D t t1 t2, grows n l b D t t1 -> grows n l b D t1 t2 -> grows n l b D t t2.
Proof.
  intros n l b D t t1 t2 M1 M2 l' p j Lp Hj. destruct (M1 l' p j Lp Hj) as [A B]. destruct (M2 l' p j Lp Hj) as [A' B'].
  split; auto. intros X. destruct (B' X); auto.
Qed.

(** A loop of marks, when the marked sets do not depend on the bits that change. *)
Lemma fold_marks : forall n l b A (f : tfield -> A -> option tfield) (D : A -> tfield -> list Z -> Prop) (xs : list A) t,
  (forall x t, In x xs -> exists t', f t x = Some t' /\ marks n l b (D x t) t t') ->
  (forall x t t' E p, In x xs -> marks n l b E t t' -> length p = S n -> (D x t' p <-> D x t p)) ->
  exists t', fold_tags f xs t = Some t' /\ marks n l b (fun p => exists x, In x xs /\ D x t p) t t'.
Proof.
  intros n l b A f D. induction xs as [|x xs IH]; intros t H1 H2.
  - exists t. split; auto. eapply marks_weaken; [|apply (marks_refl n l b t)]. intros p _. split; [tauto|]. intros (x & [] & _).
  - cbn [fold_tags]. destruct (H1 x t ltac:(left; auto)) as (t1 & E1 & M1). rewrite E1.
    destruct (IH t1) as (t2 & E2 & M2); [intros; apply H1; right; auto|intros x0 t0 t' E0 p Hx M0 Lp; apply (H2 x0 t0 t' E0 p (or_intror Hx) M0 Lp)|].
    exists t2. split; auto. eapply marks_weaken; [|apply (marks_trans _ _ _ _ _ _ _ _ M1 M2)].
    intros p Lp. split.
    + intros [X|(y & Hy & X)]; [exists x; split; auto; left; auto|]. exists y. split; [right; auto|]. apply (H2 y t t1 _ p (or_intror Hy) M1 Lp) in X. exact X.
    + intros (y & [->|Hy] & X); auto. right. exists y. split; auto. apply (H2 y t t1 _ p (or_intror Hy) M1 Lp). exact X.
Qed.
Lemma fold_grows : forall n l b A (f : tfield -> A -> option tfield) (D : list Z -> Prop) (L : A -> tfield -> tfield -> Prop) (xs : list A) t,
  (forall x t, In x xs -> exists t', f t x = Some t' /\ grows n l b D t t' /\ L x t t') ->
  (forall x t0 t t' t1, grows n l b D t0 t -> L x t t' -> grows n l b D t' t1 -> L x t0 t1) ->
  exists t', fold_tags f xs t = Some t' /\ grows n l b D t t' /\ forall x, In x xs -> L x t t'.
Proof.
  intros n l b A f D L. induction xs as [|x xs IH]; intros t H1 H2.
  - exists t. split; auto. split; [apply grows_refl|]. intros x [].
  - cbn [fold_tags]. destruct (H1 x t ltac:(left; auto)) as (t1 & E1 & M1 & L1). rewrite E1.
    destruct (IH t1) as (t2 & E2 & M2 & L2); [intros; apply H1; right; auto|auto|].
    exists t2. split; auto. split; [eapply grows_trans; eauto|]. intros y [->|Hy].
    + eapply H2; [apply grows_refl|eauto|auto].
    + eapply H2; [exact M1|apply L2; auto|apply grows_refl].
Qed.
Lemma fold_calls_tags : forall A (op : interval -> list Z -> A -> option A) calls t,
  fold_calls op calls t = fold_tags (fun t '(i, yz) => op i yz t) calls t.
Proof. intros A op. induction calls as [|[i yz] calls IH]; intros t; auto. cbn [fold_calls fold_tags]. destruct (op i yz t); auto. Qed.

(** ** Views *)
Lemma cut_inj : forall p q, p <> [] -> q <> [] -> cut p = cut q -> p = q.
Proof. intros [|a p] [|b q] Hp Hq E; try congruence. apply pair_equal_spec in E as [E1 E2]. cbn in E1, E2. congruence. Qed.

Lemma NoDup_cut : forall (ps : list (list Z)), NoDup ps -> (forall p, In p ps -> p <> []) -> NoDup (map cut ps).
Proof.
  induction ps as [|p ps IH]; intros ND H; constructor.
  - inversion ND; subst. intros X. apply in_map_iff in X as (q & E & Hq). apply cut_inj in E; [|apply H; right; auto|apply H; left; auto]. subst. contradiction.
  - inversion ND; subst. apply IH; auto. intros q Hq. apply H. right. auto.
Qed.

Lemma or_view_marks : forall n reference flag b level A (h : A -> list Z) (g : A -> bool) (xs : list A) t, 0 <= b -> flag = 2 ^ b ->
  (forall x, In x xs -> stored n reference level (h x) = true /\ h x <> []) -> NoDup (map h xs) ->
  exists t', or_view n reference flag level (map h xs) (map g xs) t = Some t' /\
    marks n level b (fun p => exists x, In x xs /\ g x = true /\ p = h x) t t'.
Proof.
  intros n reference flag b level A h g xs t Hb -> HS ND. unfold or_view, update_view.
  assert (X : forallb (stored n reference level) (map h xs) = true).
  { apply forallb_forall. intros p Hp. apply in_map_iff in Hp as (x & <- & Hx). apply HS. auto. }
  rewrite X, !map_length, Nat.eqb_refl. cbn [andb checked]. eexists. split; [reflexivity|].
  intros l' p j Lp Hj. unfold tg. destruct p as [|x yz]; [discriminate|]. cbn [hd tl]. rewrite map_map.
  rewrite masked_spec.
  - destruct (Nat.eqb_spec l' level) as [->|Hl]; cbn [andb].
    2: { split; [auto|]. intros [H|(H & _)]; auto; contradiction. }
    destruct (existsb _ xs) eqn:E.
    + apply existsb_exists in E as (a & Ha & E). apply andb_true_iff in E as [G E]. apply eqc_eq in E.
      assert (Eh : h a = x :: yz). { apply cut_inj; [apply HS; auto|discriminate|]. exact E. }
      rewrite Z.lor_spec, Z.pow2_bits_eqb, orb_true_iff, Z.eqb_eq by auto. split.
      * intros [H|<-]; auto. right. split; auto. split; auto. exists a. auto.
      * intros [H|(_ & -> & _)]; auto.
    + split; auto. intros [H|(_ & _ & (a & Ha & G & Eh))]; auto. exfalso.
      assert (F : existsb (fun a => g a && eqc (cut (h a)) (x, yz)) xs = true); [|congruence].
      apply existsb_exists. exists a. split; auto. rewrite G, <- Eh. apply eqc_eq. reflexivity.
  - rewrite <- (map_map h cut). apply NoDup_cut; auto. intros q Hq. apply in_map_iff in Hq as (a & <- & Ha). apply HS. auto.
Qed.

Lemma flag_mask_bits : forall flag a level cells t, 0 <= a -> flag = 2 ^ a -> flag_mask flag level cells t = map (fun p => Z.testbit (tg t level p) a) cells.
Proof.
  intros flag a level cells t Ha ->. unfold flag_mask. apply map_ext. intros p. fold (tg t level p). rewrite land_pow2_val by auto.
  assert (0 < 2 ^ a) by (apply Z.pow_pos_nonneg; lia). destruct (Z.testbit (tg t level p) a); [destruct (Z.eqb_spec (2 ^ a) 0); auto; lia|reflexivity].
Qed.

Lemma row_NoDup : forall i yz, 0 < istep i -> NoDup (row_cells i yz).
Proof. intros i yz H. unfold row_cells. apply FinFun.Injective_map_NoDup; [intros x y E; congruence|apply strided_NoDup; auto]. Qed.
Lemma row_length : forall n i yz p, length yz = n -> In p (row_cells i yz) -> length p = S n.
Proof. intros n i yz p <- H. apply in_map_iff in H as (x & <- & _). reflexivity. Qed.
Lemma moved_NoDup : forall n i yz v, 0 < istep i -> length yz = n -> length v = S n -> NoDup (moved_cells v i yz).
Proof.
  intros n i yz v Hi Ly Lv. unfold moved_cells. assert (G : forall ps, NoDup ps -> (forall p, In p ps -> length p = S n) -> NoDup (map (fun p => add_vec p v) ps)).
  { induction ps as [|p ps IH]; intros ND HL; constructor.
    - inversion_clear ND as [|? ? N1 N2]. intros X. apply in_map_iff in X as (q & E & Hq). assert (p = q); [|subst; contradiction].
      assert (Lp : length p = S n) by (apply HL; left; auto). assert (Lq : length q = S n) by (apply HL; right; auto).
      apply (list_ext n); auto. intros k Hk. assert (X : nth k (add_vec q v) 0 = nth k (add_vec p v) 0) by (rewrite E; auto).
      rewrite !nth_add_vec in X by lia. lia.
    - inversion_clear ND as [|? ? N1 N2]. apply IH; auto. intros q Hq. apply HL. right. auto. }
  apply G; [apply row_NoDup; auto|]. intros p Hp. eapply row_length; eauto.
Qed.
Lemma moved_nonempty : forall n p v, length p = S n -> length v = S n -> add_vec p v <> [].
Proof. intros n p v Lp Lv E. assert (X : length (add_vec p v) = length p) by (apply add_vec_length; lia). rewrite E in X. cbn in X. lia. Qed.

(** ** The operators that mark around flagged cells *)
Section Spread.
  Variables (n : nat) (reference : ca) (level : nat) (vs : list (list Z)) (a b : Z).
  Hypothesis Ha : 0 <= a.
  Hypothesis Hb : 0 <= b.
  Hypothesis Hab : a <> b.
  Hypothesis Hvs : forall v, In v vs -> length v = S n.

  Lemma spread_op_marks : forall i yz t, istep i = 1 -> length yz = n ->
    (forall p v, In p (row_cells i yz) -> In v vs -> stored n reference level (add_vec p v) = true) ->
    exists t', spread_op n reference level vs (2 ^ a) (2 ^ b) i yz t = Some t' /\
      marks n level b (fun q => exists p v, In p (row_cells i yz) /\ In v vs /\ Z.testbit (tg t level p) a = true /\ q = add_vec p v) t t'.
  Proof.
    intros i yz t Hi Ly HS. unfold spread_op.
    destruct (fold_marks n level b _ (fun t v => or_view n reference (2 ^ b) level (moved_cells v i yz) (flag_mask (2 ^ a) level (row_cells i yz) t) t)
      (fun v t q => exists p, In p (row_cells i yz) /\ Z.testbit (tg t level p) a = true /\ q = add_vec p v) vs t) as (t' & E & M).
    - intros v t0 Hv. rewrite (flag_mask_bits _ a) by auto. unfold moved_cells.
      destruct (or_view_marks n reference (2 ^ b) b level _ (fun p => add_vec p v) (fun p => Z.testbit (tg t0 level p) a) (row_cells i yz) t0 Hb eq_refl) as (t' & E & M).
      + intros p Hp. split; [apply HS; auto|]. apply (moved_nonempty n); auto. eapply row_length; eauto.
      + apply (moved_NoDup n); auto; lia.
      + exists t'. auto.
    - intros v t0 t1 E q Hv M Lq. assert (X : forall p, In p (row_cells i yz) -> (Z.testbit (tg t1 level p) a = true <-> Z.testbit (tg t0 level p) a = true)).
      { intros p Hp. rewrite (M level p a (row_length n _ _ _ Ly Hp) Ha). intuition. }
      split; intros (p & Hp & Hbit & Eq); exists p; (split; [auto|split; [apply X; auto|auto]]).
    - exists t'. split; auto. eapply marks_weaken; [|exact M]. intros q Lq. cbv beta. split.
      + intros (v & Hv & p & Hp & Hbit & Eq). exists p, v. auto.
      + intros (p & v & Hp & Hv & Hbit & Eq). exists v. split; auto. exists p. auto.
  Qed.

  Lemma spread_spec : forall set calls t, subset_calls n set = Some calls -> (forall i yz, In (i, yz) calls -> length yz = n) ->
    (forall p v, In p (cells_of_calls calls) -> In v vs -> stored n reference level (add_vec p v) = true) ->
    exists t', apply_tags n set (spread_op n reference level vs (2 ^ a) (2 ^ b)) t = Some t' /\
      marks n level b (fun q => exists p v, In p (cells_of_calls calls) /\ In v vs /\ Z.testbit (tg t level p) a = true /\ q = add_vec p v) t t'.
  Proof.
    intros set calls t EC HL HS. unfold apply_tags. rewrite EC, fold_calls_tags.
    assert (ST : forall i yz, In (i, yz) calls -> istep i = 1) by (intros i yz; apply (subset_calls_step n set calls i yz EC)).
    destruct (fold_marks n level b _ (fun t '(i, yz) => spread_op n reference level vs (2 ^ a) (2 ^ b) i yz t)
      (fun '(i, yz) t q => exists p v, In p (row_cells i yz) /\ In v vs /\ Z.testbit (tg t level p) a = true /\ q = add_vec p v) calls t) as (t' & E & M).
    - intros [i yz] t0 Hin. apply spread_op_marks; eauto. intros p v Hp Hv. apply HS; auto. apply row_cells_In; auto. apply in_flat_map. exists (i, yz). auto.
    - intros [i yz] t0 t1 E q Hin M Lq. assert (X : forall p, In p (row_cells i yz) -> (Z.testbit (tg t1 level p) a = true <-> Z.testbit (tg t0 level p) a = true)).
      { intros p Hp. rewrite (M level p a (row_length n _ _ _ (HL _ _ Hin) Hp) Ha). intuition. }
      split; intros (p & v & Hp & Hv & Hbit & Eq); exists p, v; (split; [auto|split; [auto|split; [apply X; auto|auto]]]).
    - exists t'. split; auto. eapply marks_weaken; [|exact M]. intros q Lq. split.
      + intros ([i yz] & Hin & p & v & Hp & Hv & Hbit & Eq). exists p, v. split; auto. apply row_cells_In; auto. apply in_flat_map. exists (i, yz). auto.
      + intros (p & v & Hp & Hv & Hbit & Eq). apply row_cells_In in Hp; auto. apply in_flat_map in Hp as ([i yz] & Hin & Hp).
        exists (i, yz). split; auto. exists p, v. auto.
  Qed.
End Spread.

(** ** balance_2to1 *)
Lemma balance_spec : forall n reference level s set calls t, subset_calls n set = Some calls -> (forall i yz, In (i, yz) calls -> length yz = n) ->
  length s = S n -> (forall p, In p (cells_of_calls calls) -> stored n reference level p = true /\ stored n reference level (add_vec p (opposite s)) = true) ->
  exists t', apply_tags n set (balance_op n reference level s) t = Some t' /\
    grows n level 0 (fun q => exists p, In p (cells_of_calls calls) /\ q = add_vec p (opposite s)) t t' /\
    forall p, In p (cells_of_calls calls) -> K t level p -> K t' level (add_vec p (opposite s)).
Proof.
  intros n reference level s set calls t EC HL Ls HS. unfold apply_tags. rewrite EC, fold_calls_tags.
  assert (ST : forall i yz, In (i, yz) calls -> istep i = 1) by (intros i yz; apply (subset_calls_step n set calls i yz EC)).
  assert (RC : forall i yz p, In (i, yz) calls -> In p (row_cells i yz) -> In p (cells_of_calls calls)).
  { intros i yz p Hin Hp. apply row_cells_In; auto. apply in_flat_map. exists (i, yz). auto. }
  assert (Lo : length (opposite s) = S n) by (unfold opposite; rewrite map_length; auto).
  destruct (fold_grows n level 0 _ (fun t '(i, yz) => balance_op n reference level s i yz t)
    (fun q => exists p, In p (cells_of_calls calls) /\ q = add_vec p (opposite s))
    (fun '(i, yz) t t' => forall p, length p = S n -> In p (row_cells i yz) -> K t level p -> K t' level (add_vec p (opposite s))) calls t) as (t' & E & G & L).
  - intros [i yz] t0 Hin. unfold balance_op.
    assert (X : forallb (stored n reference level) (row_cells i yz) = true) by (apply forallb_forall; intros p Hp; apply HS; eauto).
    rewrite X. cbn [checked]. rewrite (flag_mask_bits _ 0) by (auto; lia). unfold moved_cells.
    destruct (or_view_marks n reference flag_keep 0 level _ (fun p => add_vec p (opposite s)) (fun p => Z.testbit (tg t0 level p) 0) (row_cells i yz) t0 ltac:(lia) eq_refl) as (t' & E & M).
    + intros p Hp. split; [apply HS; eauto|]. apply (moved_nonempty n); auto. eapply row_length; eauto.
    + apply (moved_NoDup n); auto; rewrite ?(ST _ _ Hin); eauto; lia.
    + exists t'. split; auto. split.
      * eapply grows_weaken; [|apply marks_grows; exact M]. intros q Lq (p & Hp & _ & ->). exists p. eauto.
      * intros p Lp Hp HK. unfold K. rewrite (M level (add_vec p (opposite s)) 0) by (rewrite ?add_vec_length; lia). right. split; auto. split; auto. exists p. auto.
  - intros [i yz] t0 t1 t2 t3 G1 HLm G2 p Lp Hp HK. destruct (G1 level p 0 Lp ltac:(lia)) as [G1' _].
    destruct (G2 level (add_vec p (opposite s)) 0) as [G2' _]; [rewrite add_vec_length; lia|lia|]. apply G2'. apply HLm; auto. apply G1'. auto.
  - exists t'. split; auto. split; auto. intros p Hp HK. apply row_cells_In in Hp; auto. apply in_flat_map in Hp as ([i yz] & Hin & Hp).
    apply (L (i, yz) Hin); auto. eapply row_length; eauto.
Qed.

(** ** make_graduation *)
Lemma half_ancestor : forall yz, map (fun y => Z.shiftr y 1) yz = ancestor 1 yz.
Proof. intros yz. unfold ancestor. apply map_ext. intros y. rewrite Z.shiftr_div_pow2 by lia. reflexivity. Qed.

Lemma graduation_part_marks : forall n reference l i yz t c, 0 <= c <= 1 -> istep (ishr i 1) = 1 -> length yz = n ->
  strided i = map (fun x => 2 * x + c) (strided (ishr i 1)) ->
  (forall p, In p (row_cells i yz) -> stored n reference (S l) p = true /\ stored n reference l (ancestor 1 p) = true) ->
  exists t', graduation_part n reference (S l) i yz t = Some t' /\
    marks n l 2 (fun q => exists p, is_valid i = true /\ In p (row_cells i yz) /\ K t (S l) p /\ q = ancestor 1 p) t t'.
Proof.
  intros n reference l i yz t c Hc Hi Ly HE HS. unfold graduation_part. destruct (is_valid i) eqn:V.
  2: { exists t. split; auto. eapply marks_weaken; [|apply (marks_refl n l 2 t)]. intros p _. split; [tauto|]. intros (q & X & _). discriminate. }
  assert (X : forallb (stored n reference (S l)) (row_cells i yz) = true) by (apply forallb_forall; intros p Hp; apply HS; auto).
  rewrite X. cbn [checked Nat.pred]. rewrite (flag_mask_bits _ 0) by (auto; lia). rewrite half_ancestor.
  assert (R : row_cells (ishr i 1) (ancestor 1 yz) = map (ancestor 1) (row_cells i yz)).
  { unfold row_cells. rewrite HE, !map_map. apply map_ext. intros x. cbn [ancestor map]. f_equal. change (2 ^ Z.of_nat 1) with 2. lia. }
  rewrite R.
  destruct (or_view_marks n reference flag_refine 2 l _ (ancestor 1) (fun p => Z.testbit (tg t (S l) p) 0) (row_cells i yz) t ltac:(lia) eq_refl) as (t' & E & M).
  - intros p Hp. split; [apply HS; auto|]. apply row_length with (n := n) in Hp; auto. destruct p; discriminate.
  - rewrite <- R. apply row_NoDup. lia.
  - exists t'. split; auto. eapply marks_weaken; [|exact M]. intros q Lq. split; intros (p & H); exists p; tauto.
Qed.

Lemma graduation_op_marks : forall n reference l i yz t, istep i = 1 -> istart i < iend i -> length yz = n ->
  (forall p, In p (row_cells i yz) -> stored n reference (S l) p = true /\ stored n reference l (ancestor 1 p) = true) ->
  exists t', graduation_op n reference (S l) i yz t = Some t' /\
    marks n l 2 (fun q => exists p, In p (row_cells i yz) /\ K t (S l) p /\ q = ancestor 1 p) t t'.
Proof.
  intros n reference l i yz t Hi V Ly HS. unfold graduation_op.
  assert (IE : forall x, In x (strided (even_elements i)) -> In x (strided i)) by (intros x Hx; apply even_elements_in in Hx; auto; apply strided_In; tauto).
  assert (IO : forall x, In x (strided (odd_elements i)) -> In x (strided i)) by (intros x Hx; apply odd_elements_in in Hx; auto; apply strided_In; tauto).
  assert (RE : forall p, In p (row_cells (even_elements i) yz) -> In p (row_cells i yz)).
  { intros p Hp. apply in_map_iff in Hp as (x & <- & Hx). apply in_map_iff. eauto. }
  assert (RO : forall p, In p (row_cells (odd_elements i) yz) -> In p (row_cells i yz)).
  { intros p Hp. apply in_map_iff in Hp as (x & <- & Hx). apply in_map_iff. eauto. }
  destruct (graduation_part_marks n reference l (even_elements i) yz t 0) as (t1 & E1 & M1); auto; [lia|rewrite even_strided by auto; apply map_ext; intros; lia|].
  destruct (graduation_part_marks n reference l (odd_elements i) yz t1 1) as (t2 & E2 & M2); auto; [lia|rewrite odd_strided by auto; apply map_ext; intros; lia|].
  rewrite E1, E2. exists t2. split; auto. eapply marks_weaken; [|apply (marks_trans _ _ _ _ _ _ _ _ M1 M2)].
  assert (KK : forall p, length p = S n -> (K t1 (S l) p <-> K t (S l) p)).
  { intros p Lp. unfold K. rewrite (M1 (S l) p 0 Lp ltac:(lia)). split; auto. intros [H|(H & _)]; auto. exfalso; lia. }
  intros q Lq. split.
  - intros [(p & _ & Hp & HK & Eq)|(p & _ & Hp & HK & Eq)]; exists p; split; auto; split; auto. apply KK; auto. eapply row_length; eauto.
  - intros (p & Hp & HK & Eq). apply in_map_iff in Hp as (x & <- & Hx). apply strided_In in Hx; auto.
    destruct (Z.even x) eqn:Ev.
    + left. exists (x :: yz). split; [apply even_elements_valid; eauto|]. split; [apply in_map_iff; exists x; split; auto; apply even_elements_in; auto|]. auto.
    + right. assert (Od : Z.odd x = true) by (rewrite <- Z.negb_even, Ev; auto). exists (x :: yz).
      split; [apply odd_elements_valid; eauto|]. split; [apply in_map_iff; exists x; split; auto; apply odd_elements_in; auto|]. split; auto. apply KK; auto. cbn. lia.
Qed.

Lemma graduation_spec : forall n reference l set calls t, subset_calls n set = Some calls -> (forall i yz, In (i, yz) calls -> length yz = n /\ istart i < iend i) ->
  (forall p, In p (cells_of_calls calls) -> stored n reference (S l) p = true /\ stored n reference l (ancestor 1 p) = true) ->
  exists t', apply_tags n set (graduation_op n reference (S l)) t = Some t' /\
    marks n l 2 (fun q => exists p, In p (cells_of_calls calls) /\ K t (S l) p /\ q = ancestor 1 p) t t'.
Proof.
  intros n reference l set calls t EC HL HS. unfold apply_tags. rewrite EC, fold_calls_tags.
  assert (ST : forall i yz, In (i, yz) calls -> istep i = 1) by (intros i yz; apply (subset_calls_step n set calls i yz EC)).
  destruct (fold_marks n l 2 _ (fun t '(i, yz) => graduation_op n reference (S l) i yz t)
    (fun '(i, yz) t q => exists p, In p (row_cells i yz) /\ K t (S l) p /\ q = ancestor 1 p) calls t) as (t' & E & M).
  - intros [i yz] t0 Hin. destruct (HL _ _ Hin). apply graduation_op_marks; eauto. intros p Hp. apply HS; auto. apply row_cells_In; auto. apply in_flat_map. exists (i, yz). auto.
  - intros [i yz] t0 t1 E q Hin M Lq. assert (X : forall p, In p (row_cells i yz) -> (K t1 (S l) p <-> K t0 (S l) p)).
    { intros p Hp. unfold K. rewrite (M (S l) p 0 (row_length n _ _ _ (proj1 (HL _ _ Hin)) Hp) ltac:(lia)). split; auto. intros [H|(H & _)]; auto. exfalso; lia. }
    split; intros (p & Hp & Hbit & Eq); exists p; (split; [auto|split; [apply X; auto|auto]]).
  - exists t'. split; auto. eapply marks_weaken; [|exact M]. intros q Lq. split.
    + intros ([i yz] & Hin & p & Hp & Hbit & Eq). exists p. split; auto. apply row_cells_In; auto. apply in_flat_map. exists (i, yz). auto.
    + intros (p & Hp & Hbit & Eq). apply row_cells_In in Hp; auto. apply in_flat_map in Hp as ([i yz] & Hin & Hp).
      exists (i, yz). split; auto. exists p. auto.
Qed.
