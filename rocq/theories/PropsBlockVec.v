(** Properties of the vectors of a monolithic block system. *)
From Coq Require Import QArith.
From Verif Require Import Base SubsetModel ReconModel AssemblyModel BlockModel BlockProofs PropsBlock BlockVecModel.
Open Scope nat_scope.

Lemma nth_seq : forall n s i, i < n -> nth_error (seq s n) i = Some (s + i).
Proof. induction n as [|n IH]; intros s [|i] H; try lia; cbn [seq nth_error]; [f_equal; lia|]. rewrite IH by lia. f_equal. lia. Qed.
Lemma placed_nth : forall C out i, nth_error (for_each_placed C out) i = option_map (fun b => (b, (i / C, i mod C))) (nth_error out i).
Proof.
  intros C out i. unfold for_each_placed. rewrite nth_error_map, nth_combine. destruct (nth_error out i) as [b|] eqn:E.
  - rewrite nth_seq by (apply nth_error_Some; congruence). reflexivity.
  - destruct (nth_error (seq 0 (length out)) i); reflexivity.
Qed.
Lemma fold_never : forall (S A : Type) (cond : A -> bool) (g : A -> S -> option S) l x, (forall j b, nth_error l j = Some b -> cond b = false) -> fold_opt (fun x a => if cond a then g a x else Some x) l x = Some x.
Proof. intros S A cond g. induction l as [|b l IH]; intros x H; cbn [fold_opt]; [reflexivity|]. rewrite (H 0 b eq_refl). apply IH. intros j c Hc. apply (H (Datatypes.S j) c Hc). Qed.
Lemma fold_once : forall (S A : Type) (cond : A -> bool) (g : A -> S -> option S) l k a x, nth_error l k = Some a -> cond a = true -> (forall j b, nth_error l j = Some b -> cond b = true -> j = k) ->
  fold_opt (fun x a => if cond a then g a x else Some x) l x = g a x.
Proof.
  intros S A cond g. induction l as [|b l IH]; intros [|k] a x Hk Ha U; try discriminate Hk; cbn [fold_opt nth_error] in *.
  - injection Hk as ->. rewrite Ha. destruct (g a x) as [y|]; [|reflexivity]. apply fold_never. intros j c Hc. destruct (cond c) eqn:E; [|reflexivity]. specialize (U (Datatypes.S j) c Hc E). discriminate U.
  - destruct (cond b) eqn:E; [specialize (U 0 b eq_refl E); discriminate U|]. apply (IH k); auto. intros j c Hc Ec. specialize (U (Datatypes.S j) c Hc Ec). lia.
Qed.

Lemma copy_in_mid : forall f a m c, length m = length f -> copy_in f (a ++ m ++ c) (Z.of_nat (length a)) = Some (a ++ f ++ c).
Proof.
  intros f a m c L. unfold copy_in. rewrite !app_length. rewrite (proj2 (Z.leb_le _ _)) by lia. rewrite (proj2 (Z.leb_le _ _)) by lia. cbn [andb]. rewrite Nat2Z.id, firstn_app, firstn_all, Nat.sub_diag, firstn_O, app_nil_r. f_equal. f_equal. f_equal.
  rewrite <- L, app_assoc, <- app_length, skipn_app, skipn_all, Nat.sub_diag. reflexivity.
Qed.
Lemma copy_out_mid : forall a f c, copy_out (Z.of_nat (length a)) (a ++ f ++ c) (length f) = Some f.
Proof.
  intros a f c. unfold copy_out. rewrite !app_length. rewrite (proj2 (Z.leb_le _ _)) by lia. rewrite (proj2 (Z.leb_le _ _)) by lia. cbn [andb]. rewrite Nat2Z.id, skipn_app, skipn_all, Nat.sub_diag. cbn [app skipn]. rewrite firstn_app, firstn_all, Nat.sub_diag, firstn_O, app_nil_r. reflexivity.
Qed.
Lemma put_spec : forall place fs i before, (forall j f x, nth_error fs j = Some f -> place (i + j) f x = copy_in f x (Z.of_nat (length before + length (concat (firstn j fs))))) ->
  put_fields place i fs (before ++ repeat 0%Q (length (concat fs))) = Some (before ++ concat fs).
Proof.
  intros place. induction fs as [|f fs IH]; intros i before H; cbn [put_fields concat]; [reflexivity|]. rewrite app_length, repeat_app. pose proof (H 0 f (before ++ repeat 0%Q (length f) ++ repeat 0%Q (length (concat fs))) eq_refl) as H0. rewrite Nat.add_0_r in H0. rewrite H0. cbn [firstn concat length]. rewrite Nat.add_0_r, copy_in_mid by apply repeat_length. rewrite !app_assoc. apply IH. intros j g x Hj. replace (S i + j) with (i + S j) by lia. rewrite (H (S j) g x Hj). cbn [firstn concat]. rewrite !app_length. f_equal. lia.
Qed.
(** The position of a field is the size of those before. *)
Lemma pre_fields : forall W (fields : list (list Q)) c, (forall j f, nth_error fields j = Some f -> Z.of_nat (length f) = W j) -> c <= length fields -> pre W c = Z.of_nat (length (concat (firstn c fields))).
Proof.
  intros W fields c H. induction c as [|c IH]; intros L; [reflexivity|]. cbn [pre]. rewrite IH by lia. destruct (nth_error fields c) as [f|] eqn:E; [|apply nth_error_None in E; lia]. rewrite <- (H c f E).
  assert (G : forall (l : list (list Q)) c f, nth_error l c = Some f -> firstn (S c) l = firstn c l ++ [f]) by (clear; induction l as [|x l IHl]; intros [|c] f E; try discriminate E; [injection E as ->; reflexivity|]; cbn [firstn app]; f_equal; apply IHl; exact E).
  rewrite (G fields c f E), concat_app, app_length. cbn [concat]. rewrite app_nil_r. lia.
Qed.
Lemma split_fields : forall (l : list (list Q)) c f, nth_error l c = Some f -> concat l = concat (firstn c l) ++ f ++ concat (skipn (S c) l).
Proof. induction l as [|x l IH]; intros [|c] f E; try discriminate E; [injection E as ->; reflexivity|]. cbn [firstn skipn concat]. rewrite <- app_assoc. f_equal. apply IH. exact E. Qed.

(** The fields have the widths of the columns of blocks, the sources the heights of the rows. *)
Definition fields_fit (C : nat) (out : list (block * (Z * Z))) (fields : list (list Q)) : Prop :=
  length fields = C /\ forall c f, nth_error fields c = Some f -> exists b s, nth_error out c = Some (b, s) /\ b_cols b = Z.of_nat (length f).
Definition sources_fit (C : nat) (out : list (block * (Z * Z))) (sources : list (list Q)) : Prop :=
  length sources = C /\ forall r f, nth_error sources r = Some f -> exists b s, nth_error out (r * C) = Some (b, s) /\ b_rows b = Z.of_nat (length f).

(** What [reset] leaves for a square block matrix, with partial sums *)
Lemma placed_blocks : forall C bs out, 0 < C -> length bs = C * C -> reset C C bs = Some out -> exists H W,
  total_rows C (map fst out) = pre H C /\ total_cols C (map fst out) = pre W C /\ length out = C * C /\
  forall i, i < C * C -> exists b, nth_error out i = Some (b, (pre H (i / C), pre W (i mod C))) /\ b_rows b = H (i / C) /\ b_cols b = W (i mod C).
Proof.
  intros C bs out HC L E. destruct (reset_spec C C bs out L E) as (Lo & _ & _ & Z & _ & N). exists (fun r => block_rows C r bs), (fun c => block_cols C c bs). destruct (totals C _ _ (map fst out) HC Z) as [T1 T2]. rewrite T1, T2, map_length, Lo, diagonals_full, Nat.min_id by lia. split; [reflexivity|]. split; [reflexivity|]. split; [reflexivity|].
  intros i Hi. destruct (N i Hi) as (x & _ & b & Hb). exists b. split; [exact Hb|]. apply (Z i b). rewrite nth_error_map, Hb. reflexivity.
Qed.

(** The vector of the unknowns is the fields one after the other, and update_unknowns gives the
    fields back. *)
Theorem C85_unknowns : forall C bs out fields, 0 < C -> length bs = C * C -> reset C C bs = Some out -> fields_fit C out fields ->
  create_applicable_vector C out fields = Some (concat fields) /\ update_unknowns C out (map (@length Q) fields) (concat fields) = Some fields.
Proof.
  intros C bs out fields HC L E [Lf F]. destruct (placed_blocks C bs out HC L E) as (H & W & _ & T & Lo & N).
  assert (First : forall c, c < C -> exists b, nth_error out c = Some (b, (0%Z, pre W c)) /\ b_cols b = W c).
  { intros c Hc. destruct (N c ltac:(nia)) as (b & Hb & _ & Bc). rewrite Nat.div_small, Nat.mod_small in Hb by exact Hc. rewrite Nat.mod_small in Bc by exact Hc. exists b. auto. }
  assert (FW : forall j f, nth_error fields j = Some f -> Z.of_nat (length f) = W j).
  { intros j f Hj. assert (j < C) by (rewrite <- Lf; apply nth_error_Some; congruence). destruct (F j f Hj) as (b & s & Hb & Eb). destruct (First j ltac:(assumption)) as (b' & Hb' & Eb'). rewrite Hb in Hb'. injection Hb' as <- _. congruence. }
  split.
  - unfold create_applicable_vector. rewrite T. rewrite (pre_fields W fields C FW ltac:(lia)), Nat2Z.id, <- Lf, firstn_all. apply (put_spec _ fields 0 []). intros j f x Hj. cbn [length Nat.add]. rewrite <- (pre_fields W fields j FW) by (apply Nat.lt_le_incl, nth_error_Some; congruence).
    assert (Hjc : j < C) by (rewrite <- Lf; apply nth_error_Some; congruence). destruct (First j Hjc) as (b & Hb & _). unfold place_field.
    transitivity (fold_opt (fun x a => if (fun '((_, (row, col)) : (block * (Z * Z)) * (nat * nat)) => Nat.eqb row 0 && Nat.eqb col j) a then (fun '(((_, (_, col_shift)), _) : (block * (Z * Z)) * (nat * nat)) x => copy_in f x col_shift) a x else Some x) (for_each_placed (length fields) out) x).
    { clear. generalize (for_each_placed (length fields) out). intros l. revert x. induction l as [|[[b [rs cs]] [row col]] l IH]; intros x; cbn [fold_opt]; [reflexivity|]. destruct (Nat.eqb row 0 && Nat.eqb col j)%bool; [destruct (copy_in f x cs)|]; auto. }
    rewrite (fold_once _ _ _ _ (for_each_placed (length fields) out) j ((b, (0%Z, pre W j)), (j / C, j mod C)) x); [reflexivity|rewrite Lf, placed_nth, Hb; reflexivity| |].
    + rewrite Nat.div_small, Nat.mod_small, !Nat.eqb_refl by exact Hjc. reflexivity.
    + intros k [pb [row col]] Hk Q. rewrite Lf, placed_nth in Hk. destruct (nth_error out k); [|discriminate Hk]. injection Hk as _ <- <-. apply andb_true_iff in Q as [Q1 Q2]. apply Nat.eqb_eq in Q1. apply Nat.eqb_eq in Q2. rewrite (Nat.div_mod k C) by lia. rewrite Q1, Q2. lia.
  - unfold update_unknowns.
    assert (FL : filter (fun '((_, (row, _)) : (block * (Z * Z)) * (nat * nat)) => Nat.eqb row 0) (for_each_placed C out) = firstn C (for_each_placed C out)).
    { rewrite <- (firstn_skipn C (for_each_placed C out)) at 1. rewrite filter_app.
      assert (G : forall (p : (block * (Z * Z)) * (nat * nat) -> bool) l, (forall i a, nth_error l i = Some a -> p a = true) -> filter p l = l) by (clear; intros p; induction l as [|a l IH]; intros G; [reflexivity|]; cbn [filter]; rewrite (G 0 a eq_refl); f_equal; apply IH; intros i b Hb; apply (G (S i) b Hb)).
      assert (G' : forall (p : (block * (Z * Z)) * (nat * nat) -> bool) l, (forall i a, nth_error l i = Some a -> p a = false) -> filter p l = []) by (clear; intros p; induction l as [|a l IH]; intros G; [reflexivity|]; cbn [filter]; rewrite (G 0 a eq_refl); apply IH; intros i b Hb; apply (G (S i) b Hb)).
      rewrite G, G'; [apply app_nil_r| |].
      - intros i [pb [row col]] Hi. assert (Hs : nth_error (for_each_placed C out) (C + i) = Some (pb, (row, col))) by (rewrite <- Hi; clear; revert i; generalize (for_each_placed C out); induction C as [|C IH]; intros l i; [reflexivity|]; destruct l as [|y l]; [destruct i; reflexivity|]; cbn [skipn Nat.add nth_error]; apply IH).
        rewrite placed_nth in Hs. destruct (nth_error out (C + i)); [|discriminate Hs]. injection Hs as _ <- _. apply Nat.eqb_neq. intros Q. apply Nat.div_small_iff in Q; lia.
      - intros i [pb [row col]] Hi. assert (Hic : i < C) by (assert (i < length (firstn C (for_each_placed C out))) by (apply nth_error_Some; congruence); rewrite firstn_length in *; lia).
        assert (Hs : nth_error (for_each_placed C out) i = Some (pb, (row, col))) by (rewrite <- Hi; clear - Hic; revert i Hic; generalize (for_each_placed C out); induction C as [|C IH]; intros l i Hic; [lia|]; destruct l as [|y l]; [destruct i; reflexivity|]; destruct i as [|i]; [reflexivity|]; cbn [firstn nth_error]; apply IH; lia).
        rewrite placed_nth in Hs. destruct (nth_error out i); [|discriminate Hs]. injection Hs as _ <- _. rewrite Nat.div_small by exact Hic. reflexivity. }
    rewrite FL.
    assert (G : forall l fs c, length l = length fs -> (forall i a, nth_error l i = Some a -> exists b rs row f, a = ((b, (rs, pre W (c + i))), (row, c + i)) /\ nth_error fields (c + i) = Some f /\ nth_error fs i = Some f) ->
      all_opt (fun '(((_, (_, col_shift)), (_, col)) : (block * (Z * Z)) * (nat * nat)) => copy_out col_shift (concat fields) (nth col (map (@length Q) fields) 0)) l = Some fs).
    { induction l as [|a l IH]; intros [|f fs] c Ll G; try discriminate Ll; [reflexivity|]. cbn [all_opt]. destruct (G 0 a eq_refl) as (b & rs & row & g & -> & Hg & Hf). injection Hf as <-. rewrite Nat.add_0_r in *.
      rewrite (nth_error_nth (map (@length Q) fields) c (x := length f) 0) by (rewrite nth_error_map, Hg; reflexivity). rewrite (split_fields fields c f Hg) at 1. rewrite (pre_fields W fields c FW) by (apply Nat.lt_le_incl, nth_error_Some; congruence). rewrite copy_out_mid.
      rewrite (IH fs (S c)); [reflexivity|cbn [length] in Ll; lia|]. intros i a Ha. destruct (G (S i) a Ha) as (b' & rs' & row' & g & -> & Hg' & Hf'). rewrite <- plus_n_Sm in *. exists b', rs', row', g. auto. }
    apply (G _ _ 0); [rewrite firstn_length, Lf; unfold for_each_placed; rewrite map_length, combine_length, seq_length; nia|].
    intros i [pb [row col]] Hi. assert (Hic : i < C) by (assert (i < length (firstn C (for_each_placed C out))) by (apply nth_error_Some; congruence); rewrite firstn_length in *; lia).
    assert (Hs : nth_error (for_each_placed C out) i = Some (pb, (row, col))) by (rewrite <- Hi; clear - Hic; revert i Hic; generalize (for_each_placed C out); induction C as [|C IH]; intros l i Hic; [lia|]; destruct l as [|y l]; [destruct i; reflexivity|]; destruct i as [|i]; [reflexivity|]; cbn [firstn nth_error]; apply IH; lia).
    rewrite placed_nth in Hs. destruct (First i Hic) as (b & Hb & _). rewrite Hb in Hs. injection Hs as <- <- <-. destruct (nth_error fields i) as [f|] eqn:Hf; [|apply nth_error_None in Hf; lia]. exists b, 0%Z, (i / C), f. cbn [Nat.add]. rewrite (Nat.mod_small i C Hic). auto.
Qed.

(** The right-hand side is the sources one after the other, in the order of the rows of blocks. *)
Theorem C85_rhs : forall C bs out sources, 0 < C -> length bs = C * C -> reset C C bs = Some out -> sources_fit C out sources ->
  create_rhs_vector C out sources = Some (concat sources).
Proof.
  intros C bs out sources HC L E [Lf F]. destruct (placed_blocks C bs out HC L E) as (H & W & T & _ & Lo & N).
  assert (First : forall r, r < C -> exists b, nth_error out (r * C) = Some (b, (pre H r, 0%Z)) /\ b_rows b = H r).
  { intros r Hr. destruct (N (r * C) ltac:(nia)) as (b & Hb & Br & _). rewrite Nat.div_mul, Nat.mod_mul in Hb by lia. rewrite Nat.div_mul in Br by lia. exists b. auto. }
  assert (FH : forall j f, nth_error sources j = Some f -> Z.of_nat (length f) = H j).
  { intros j f Hj. assert (j < C) by (rewrite <- Lf; apply nth_error_Some; congruence). destruct (F j f Hj) as (b & s & Hb & Eb). destruct (First j ltac:(assumption)) as (b' & Hb' & Eb'). rewrite Hb in Hb'. injection Hb' as <- _. congruence. }
  unfold create_rhs_vector. rewrite T. rewrite (pre_fields H sources C FH ltac:(lia)), Nat2Z.id. rewrite <- Lf at 2. rewrite firstn_all. apply (put_spec _ sources 0 []). intros j f x Hj. cbn [length Nat.add]. rewrite <- (pre_fields H sources j FH) by (apply Nat.lt_le_incl, nth_error_Some; congruence).
  assert (Hjc : j < C) by (rewrite <- Lf; apply nth_error_Some; congruence). destruct (First j Hjc) as (b & Hb & _). unfold place_rhs.
  transitivity (fold_opt (fun x a => if (fun '((_, (row, col)) : (block * (Z * Z)) * (nat * nat)) => Nat.eqb col 0 && Nat.eqb row j) a then (fun '(((_, (row_shift, _)), _) : (block * (Z * Z)) * (nat * nat)) x => copy_in f x row_shift) a x else Some x) (for_each_placed C out) x).
  { clear. generalize (for_each_placed C out). intros l. revert x. induction l as [|[[b [rs cs]] [row col]] l IH]; intros x; cbn [fold_opt]; [reflexivity|]. destruct (Nat.eqb col 0 && Nat.eqb row j)%bool; [destruct (copy_in f x rs)|]; auto. }
  rewrite (fold_once _ _ _ _ (for_each_placed C out) (j * C) ((b, (pre H j, 0%Z)), (j * C / C, (j * C) mod C)) x); [reflexivity|rewrite placed_nth, Hb; reflexivity| |].
  - rewrite Nat.div_mul, Nat.mod_mul, !Nat.eqb_refl by lia. reflexivity.
  - intros k [pb [row col]] Hk Q. rewrite placed_nth in Hk. destruct (nth_error out k); [|discriminate Hk]. injection Hk as _ <- <-. apply andb_true_iff in Q as [Q1 Q2]. apply Nat.eqb_eq in Q1. apply Nat.eqb_eq in Q2. rewrite (Nat.div_mod k C) by lia. rewrite Q1, Q2. lia.
Qed.

(** update_result_fields takes the sources out of a right-hand side, whatever the result fields
    were before. *)
Theorem C85_results : forall C bs out sources old, 0 < C -> length bs = C * C -> reset C C bs = Some out -> sources_fit C out sources -> map (@length Q) old = map (@length Q) sources ->
  update_result_fields C out (concat sources) old = Some sources.
Proof.
  intros C bs out sources old HC L E [Lf F] Ho. destruct (placed_blocks C bs out HC L E) as (H & W & _ & _ & Lo & N).
  assert (First : forall r, r < C -> exists b, nth_error out (r * C) = Some (b, (pre H r, 0%Z)) /\ b_rows b = H r).
  { intros r Hr. destruct (N (r * C) ltac:(nia)) as (b & Hb & Br & _). rewrite Nat.div_mul, Nat.mod_mul in Hb by lia. rewrite Nat.div_mul in Br by lia. exists b. auto. }
  assert (FH : forall j f, nth_error sources j = Some f -> Z.of_nat (length f) = H j).
  { intros j f Hj. assert (j < C) by (rewrite <- Lf; apply nth_error_Some; congruence). destruct (F j f Hj) as (b & s & Hb & Eb). destruct (First j ltac:(assumption)) as (b' & Hb' & Eb'). rewrite Hb in Hb'. injection Hb' as <- _. congruence. }
  assert (One : forall j f g, nth_error sources j = Some f -> length g = length f -> result_field C out (concat sources) j g = Some f).
  { intros j f g Hj Lg. assert (Hjc : j < C) by (rewrite <- Lf; apply nth_error_Some; congruence). destruct (First j Hjc) as (b & Hb & _). unfold result_field.
    transitivity (fold_opt (fun x a => if (fun '((_, (row, col)) : (block * (Z * Z)) * (nat * nat)) => Nat.eqb col 0 && Nat.eqb row j) a then (fun '(((_, (row_shift, _)), _) : (block * (Z * Z)) * (nat * nat)) x => copy_out row_shift (concat sources) (length x)) a x else Some x) (for_each_placed C out) g).
    { clear. generalize (for_each_placed C out). intros l. revert g. induction l as [|[[b [rs cs]] [row col]] l IH]; intros x; cbn [fold_opt]; [reflexivity|]. destruct (Nat.eqb col 0 && Nat.eqb row j)%bool; [destruct (copy_out rs (concat sources) (length x))|]; auto. }
    rewrite (fold_once _ _ _ _ (for_each_placed C out) (j * C) ((b, (pre H j, 0%Z)), (j * C / C, (j * C) mod C)) g); [|rewrite placed_nth, Hb; reflexivity| |].
    - rewrite Lg, (split_fields sources j f Hj), (pre_fields H sources j FH) by (apply Nat.lt_le_incl, nth_error_Some; congruence). apply copy_out_mid.
    - rewrite Nat.div_mul, Nat.mod_mul, !Nat.eqb_refl by lia. reflexivity.
    - intros k [pb [row col]] Hk Q. rewrite placed_nth in Hk. destruct (nth_error out k); [|discriminate Hk]. injection Hk as _ <- <-. apply andb_true_iff in Q as [Q1 Q2]. apply Nat.eqb_eq in Q1. apply Nat.eqb_eq in Q2. rewrite (Nat.div_mod k C) by lia. rewrite Q1, Q2. lia. }
  unfold update_result_fields.
  assert (G : forall olds fs s, map (@length Q) olds = map (@length Q) fs -> (forall i f, nth_error fs i = Some f -> nth_error sources (s + i) = Some f) -> all_opt (fun '(i, f) => result_field C out (concat sources) i f) (combine (seq s (length olds)) olds) = Some fs).
  { induction olds as [|g olds IH]; intros [|f fs] s Hl Hs; try discriminate Hl; [reflexivity|]. cbn [length seq combine all_opt]. injection Hl as Hl1 Hl2. pose proof (Hs 0 f eq_refl) as H0. rewrite Nat.add_0_r in H0. rewrite (One s f g H0 Hl1). rewrite (IH fs (S s) Hl2); [reflexivity|]. intros i h Hi. replace (S s + i) with (s + S i) by lia. apply Hs. exact Hi. }
  apply (G old sources 0 Ho). intros i f Hi. exact Hi.
Qed.

(** With at least two rows of blocks, the indices of each field are where its values are in the
    vector of the unknowns. *)
Theorem C85_indices : forall C bs out fields, 2 <= C -> length bs = C * C -> reset C C bs = Some out -> fields_fit C out fields ->
  exists indices, create_fields_IS C out = Some indices /\ length indices = C /\
  forall c f is, nth_error fields c = Some f -> nth_error indices c = Some is -> length is = length f /\ forall i v, nth_error f i = Some v -> exists k, nth_error is i = Some (Z.of_nat k) /\ nth_error (concat fields) k = Some v.
Proof.
  intros C bs out fields HC L E [Lf F]. destruct (placed_blocks C bs out ltac:(lia) L E) as (H & W & _ & _ & Lo & N).
  assert (FW : forall j f, nth_error fields j = Some f -> Z.of_nat (length f) = W j).
  { intros j f Hj. assert (Hjc : j < C) by (rewrite <- Lf; apply nth_error_Some; congruence). destruct (F j f Hj) as (b & s & Hb & Eb). destruct (N j ltac:(nia)) as (b' & Hb' & _ & Eb'). rewrite Hb in Hb'. injection Hb' as <- _. rewrite Nat.mod_small in Eb' by exact Hjc. congruence. }
  set (g := fun c => match find (fun '((_, (row, col)) : (block * (Z * Z)) * (nat * nat)) => Nat.eqb row 1 && Nat.eqb col c) (for_each_placed C out) with Some ((b, (_, col_shift)), _) => Some (map (fun i => col_shift + Z.of_nat i)%Z (seq 0 (Z.to_nat (b_cols b)))) | None => None end).
  assert (G : forall c, c < C -> g c = Some (map (fun i => pre W c + Z.of_nat i)%Z (seq 0 (Z.to_nat (W c))))).
  { intros c Hc. unfold g. destruct (find _ (for_each_placed C out)) as [[[b [rs cs]] [row col]]|] eqn:Ef.
    - apply find_some in Ef as [Hin Q]. apply andb_true_iff in Q as [_ Q]. apply Nat.eqb_eq in Q. apply In_nth_error in Hin as [k Hk]. rewrite placed_nth in Hk. destruct (nth_error out k) as [pb|] eqn:Hp; [|discriminate Hk]. assert (Hk' : k < C * C) by (rewrite <- Lo; apply nth_error_Some; congruence). destruct (N k Hk') as (b' & Hb' & _ & Eb'). rewrite Hp in Hb'. injection Hb' as ->. injection Hk as <- <- <- <- Hm. rewrite Q in Hm. rewrite Eb', Hm. reflexivity.
    - exfalso. destruct (block_number C C 1 c ltac:(lia) Hc) as (Bn & Bd & Bm). destruct (N _ Bn) as (b & Hb & _). pose proof (find_none _ _ Ef ((b, (pre H ((1 * C + c) / C), pre W ((1 * C + c) mod C))), ((1 * C + c) / C, (1 * C + c) mod C))) as Q. cbv beta iota in Q. rewrite Bd, Bm, !Nat.eqb_refl in Q. apply diff_true_false. apply Q. apply (nth_error_In _ (1 * C + c)). rewrite placed_nth, Hb, Bd, Bm. reflexivity. }
  assert (O : all_opt g (seq 0 C) <> None) by (apply all_opt_ok; intros i c Hc; assert (i < C) by (rewrite <- (seq_length C 0); apply nth_error_Some; congruence); rewrite nth_seq in Hc by assumption; injection Hc as <-; rewrite G by lia; discriminate).
  destruct (all_opt g (seq 0 C)) as [indices|] eqn:Ei; [|contradiction]. destruct (all_opt_some _ _ _ _ _ Ei) as [Li Ni]. rewrite seq_length in Li. exists indices. split; [exact Ei|]. split; [exact Li|]. intros c f is Hf His.
  assert (Hc : c < C) by (rewrite <- Lf; apply nth_error_Some; congruence). destruct (Ni c (0 + c) (nth_seq C 0 c Hc)) as (is' & His' & Q). rewrite His in His'. injection His' as <-. cbn [Nat.add] in Q. rewrite (G c Hc) in Q. injection Q as <-. rewrite <- (FW c f Hf), Nat2Z.id, map_length, seq_length. split; [reflexivity|].
  intros i v Hv. assert (Hi : i < length f) by (apply nth_error_Some; congruence). exists (length (concat (firstn c fields)) + i). rewrite nth_error_map, nth_seq by exact Hi. cbn [option_map Nat.add]. rewrite (pre_fields W fields c FW) by lia. split; [f_equal; lia|].
  rewrite (split_fields fields c f Hf), nth_error_app2 by lia. replace (length (concat (firstn c fields)) + i - length (concat (firstn c fields))) with i by lia. rewrite nth_error_app1 by exact Hi. exact Hv.
Qed.

(** Velocity and pressure *)
Definition stokes_fields : list (list Q) := [[1; 2; 3; 4; 5; 6; 7; 8]; [9; 10; 11; 12]]%Q.
Definition stokes_out : list (block * (Z * Z)) := [(mkBlock false 8 8, (0, 0)); (mkBlock false 8 4, (0, 8)); (mkBlock false 4 8, (8, 0)); (mkBlock true 4 4, (8, 8))]%Z.
Example C85_hypotheses : reset 2 2 stokes = Some stokes_out /\ fields_fit 2 stokes_out stokes_fields /\ sources_fit 2 stokes_out stokes_fields.
Proof.
  split; [vm_compute; reflexivity|]. split; (split; [reflexivity|]); intros [|[|c]] f Hf; cbn in Hf; try (destruct c; discriminate Hf); injection Hf as <-; eexists; eexists; (split; [reflexivity|reflexivity]).
Qed.
Example C85_results_example : let old := map (map (fun _ => 7%Q)) stokes_fields in old <> stokes_fields /\ map (@length Q) old = map (@length Q) stokes_fields /\ update_result_fields 2 stokes_out (concat stokes_fields) old = Some stokes_fields.
Proof. cbv zeta. split; [discriminate|]. split; vm_compute; reflexivity. Qed.
Example C85_example : create_fields_IS 2 stokes_out = Some [[0; 1; 2; 3; 4; 5; 6; 7]; [8; 9; 10; 11]]%Z.
Proof. vm_compute. reflexivity. Qed.

(** "create_fields_IS gives the indices of each field" is false with one row of blocks: it uses
    the blocks with row == 1. *)
Theorem C85_indices_refuted : exists bs out fields, length bs = 1 * 1 /\ reset 1 1 bs = Some out /\ fields_fit 1 out fields /\ create_fields_IS 1 out = None.
Proof.
  exists [mkBlock false 2 2], [(mkBlock false 2 2, (0, 0)%Z)], [[5; 6]%Q]. split; [reflexivity|]. split; [vm_compute; reflexivity|]. split; [|vm_compute; reflexivity]. split; [reflexivity|]. intros [|c] f Hf; [|cbn in Hf; destruct c; discriminate Hf]. injection Hf as <-. eexists. eexists. split; reflexivity.
Qed.

Print Assumptions C85_unknowns.
Print Assumptions C85_rhs.
Print Assumptions C85_results.
Print Assumptions C85_indices.
Print Assumptions C85_indices_refuted.
