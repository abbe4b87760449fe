From Verif Require Import Base IntervalModel Spec.
Open Scope Z_scope.
Ltac Zify.zify_post_hook ::= Z.div_mod_to_equations.

Lemma pow2_pos : forall s, 0 <= s -> 0 < 2 ^ s.
Proof. intros; apply Z.pow_pos_nonneg; lia. Qed.

Lemma icontains_spec : forall i x, icontains i x = true <-> in_i i x.
Proof.
  intros. unfold icontains, in_i. rewrite Bool.andb_true_iff, Z.leb_le, Z.ltb_lt. tauto.
Qed.

Lemma odd_bit_spec : forall x, odd_bit x = Z.odd x.
Proof. intros. unfold odd_bit. apply Z.bit0_odd. Qed.

Lemma div_range : forall a b k c, 0 < k -> a < b ->
  (a / k <= c < (b - 1) / k + 1 <-> exists f, a <= f < b /\ f / k = c).
Proof.
  intros a b k c Hk Hab. split.
  - intros [H1 H2].
    exists (Z.max a (c * k)).
    assert (c * k <= b - 1).
    { assert (c <= (b - 1) / k) by lia. nia. }
    split; [lia|].
    destruct (Z.max_spec a (c * k)) as [[Hm ->]|[Hm ->]].
    + apply Z.div_mul; lia.
    + assert (a / k >= c * k / k) by (apply Z.le_ge, Z.div_le_mono; lia).
      rewrite Z.div_mul in H0 by lia. lia.
  - intros (f & Hf & <-). split.
    + apply Z.div_le_mono; lia.
    + assert (f / k <= (b - 1) / k) by (apply Z.div_le_mono; lia). lia.
Qed.

Lemma ishr_spec : forall i s c, 0 <= s -> istart i < iend i ->
  (in_i (ishr i s) c <-> exists f, in_i i f /\ f / 2 ^ s = c).
Proof.
  intros. unfold in_i, ishr; simpl. rewrite !Z.shiftr_div_pow2 by lia.
  apply div_range; auto. apply pow2_pos; auto.
Qed.

Lemma ishr_valid : forall i s, 0 <= s -> istart i < iend i ->
  istart (ishr i s) < iend (ishr i s).
Proof.
  intros. simpl. rewrite !Z.shiftr_div_pow2 by lia.
  assert (istart i / 2 ^ s <= (iend i - 1) / 2 ^ s).
  { apply Z.div_le_mono; [apply pow2_pos|]; lia. }
  lia.
Qed.

Lemma ishr_smallest : forall i s, 0 <= s -> istart i < iend i ->
  let j := ishr i s in
  istart j * 2 ^ s <= istart i /\ iend i <= iend j * 2 ^ s /\
  forall a b, a * 2 ^ s <= istart i -> iend i <= b * 2 ^ s ->
    a <= istart j /\ iend j <= b.
Proof.
  intros i s Hs Hv j. subst j. simpl. rewrite !Z.shiftr_div_pow2 by lia.
  pose proof (pow2_pos s Hs) as Hp. set (p := 2 ^ s) in *. clearbody p.
  repeat split.
  - pose proof (Z.mul_div_le (istart i) p Hp). lia.
  - pose proof (Z.mul_succ_div_gt (iend i - 1) p Hp). lia.
  - apply Z.div_le_lower_bound; lia.
  - assert ((iend i - 1) / p < b); [|lia]. apply Z.div_lt_upper_bound; lia.
Qed.

Lemma ishl_spec : forall i s f, 0 <= s ->
  (in_i (ishl i s) f <-> in_i i (f / 2 ^ s)).
Proof.
  intros. unfold in_i, ishl; simpl. rewrite !Z.shiftl_mul_pow2 by lia.
  pose proof (pow2_pos s H) as Hp. set (p := 2 ^ s) in *. clearbody p.
  split; intros [H1 H2]; split.
  - apply Z.div_le_lower_bound; lia.
  - apply Z.div_lt_upper_bound; lia.
  - pose proof (Z.mul_div_le f p Hp). nia.
  - pose proof (Z.mul_succ_div_gt f p Hp). nia.
Qed.

Lemma ishl_ishr : forall i s, 0 <= s -> istart i < iend i -> istep i = 1 ->
  ishr (ishl i s) s = i.
Proof.
  intros i s Hs Hv Hst. unfold ishr, ishl; destruct i as [a b st ix]; simpl in *. subst st.
  rewrite !Z.shiftr_div_pow2, !Z.shiftl_mul_pow2 by lia.
  pose proof (pow2_pos s Hs) as Hp.
  rewrite Z.div_mul by lia. f_equal.
  replace (b * 2 ^ s - 1) with ((2 ^ s - 1) + (b - 1) * 2 ^ s) by ring.
  rewrite Z.div_add by lia. rewrite Z.div_small by lia. lia.
Qed.

Lemma odd_cases : forall x,
  (Z.odd x = true /\ Z.even x = false /\ x mod 2 = 1) \/
  (Z.odd x = false /\ Z.even x = true /\ x mod 2 = 0).
Proof.
  intros. rewrite <- Z.negb_odd. pose proof (Zmod_odd x). destruct (Z.odd x); simpl; auto.
Qed.

Ltac parity x :=
  let A := fresh "Po" in let B := fresh "Pe" in let C := fresh "Pm" in
  destruct (odd_cases x) as [(A & B & C)|(A & B & C)]; rewrite ?A, ?B.

(** Strided ranges *)
Lemma range_from_in : forall n x step y, 0 < step ->
  (In y (range_from n x step) <-> exists k, (k < n)%nat /\ y = x + Z.of_nat k * step).
Proof.
  induction n; intros x step y Hs; simpl.
  - split; [tauto|]. intros (k & Hk & _). lia.
  - rewrite IHn by auto. split.
    + intros [<-|(k & Hk & ->)].
      * exists 0%nat. lia.
      * exists (S k). split; [lia|]. nia.
    + intros (k & Hk & ->). destruct k as [|k].
      * left. lia.
      * right. exists k. split; [lia|]. nia.
Qed.

Lemma range_count_lt : forall s e step k, 0 < step ->
  ((k < range_count s e step)%nat <-> s + Z.of_nat k * step < e).
Proof.
  intros. unfold range_count.
  destruct (Z_lt_ge_dec s e).
  - assert (0 <= (e - s + step - 1) / step) by (apply Z.div_pos; lia).
    assert (Z.of_nat k < (e - s + step - 1) / step <-> s + Z.of_nat k * step < e).
    { split; intros.
      - assert ((Z.of_nat k + 1) * step <= e - s + step - 1).
        { pose proof (Z.mul_div_le (e - s + step - 1) step H). nia. }
        nia.
      - assert (Z.of_nat k + 1 <= (e - s + step - 1) / step); [|lia].
        apply Z.div_le_lower_bound; nia. }
    lia.
  - assert ((e - s + step - 1) / step <= 0).
    { assert ((e - s + step - 1) / step < 1); [|lia]. apply Z.div_lt_upper_bound; lia. }
    split; intros; nia.
Qed.

Lemma strided_in : forall i y, 0 < istep i ->
  (In y (strided i) <-> in_i i y /\ (istep i | y - istart i)).
Proof.
  intros. unfold strided. rewrite range_from_in by auto. split.
  - intros (k & Hk & ->). apply range_count_lt in Hk; auto. unfold in_i.
    split; [nia|]. exists (Z.of_nat k). ring.
  - intros [Hi [q Hq]]. exists (Z.to_nat q). unfold in_i in Hi.
    assert (0 <= q) by nia. split; [|nia].
    apply range_count_lt; auto. nia.
Qed.

Lemma range_from_sorted : forall n x step, 0 < step ->
  StronglySorted Z.lt (range_from n x step).
Proof.
  induction n; intros; simpl; constructor; auto.
  apply Forall_forall. intros y Hy. apply range_from_in in Hy as (k & _ & ->); nia.
Qed.

Lemma strided_sorted : forall i, 0 < istep i -> StronglySorted Z.lt (strided i).
Proof. intros. apply range_from_sorted; auto. Qed.

Lemma even_elements_in : forall i y, istart i < iend i ->
  (In y (strided (even_elements i)) <-> in_i i y /\ Z.even y = true).
Proof.
  intros i y Hv. rewrite strided_in by (simpl; lia).
  unfold in_i, even_elements; simpl. rewrite (odd_bit_spec (istart i)), (odd_bit_spec (iend i)).
  assert (E : forall q, (2 | q) <-> q mod 2 = 0) by
    (intros; rewrite Z.mod_divide by lia; tauto).
  rewrite E.
  parity (istart i); parity (iend i); parity y; split; intros; lia.
Qed.

Lemma odd_elements_in : forall i y, istart i < iend i ->
  (In y (strided (odd_elements i)) <-> in_i i y /\ Z.odd y = true).
Proof.
  intros i y Hv. rewrite strided_in by (simpl; lia).
  unfold in_i, odd_elements; simpl. rewrite (odd_bit_spec (istart i)), (odd_bit_spec (iend i)).
  assert (E : forall q, (2 | q) <-> q mod 2 = 0) by
    (intros; rewrite Z.mod_divide by lia; tauto).
  rewrite E.
  parity (istart i); parity (iend i); parity y; split; intros; lia.
Qed.

Lemma even_elements_valid : forall i, istart i < iend i ->
  (is_valid (even_elements i) = true <-> exists y, in_i i y /\ Z.even y = true).
Proof.
  intros i Hv. split.
  - intros H. exists (istart (even_elements i)). apply even_elements_in; auto.
    apply strided_in; [simpl; lia|]. unfold is_valid in H. unfold in_i.
    split; [lia|]. exists 0. lia.
  - intros (y & Hy). apply even_elements_in in Hy; auto.
    apply strided_in in Hy; [|simpl; lia]. unfold is_valid, in_i in *. lia.
Qed.

Lemma odd_elements_valid : forall i, istart i < iend i ->
  (is_valid (odd_elements i) = true <-> exists y, in_i i y /\ Z.odd y = true).
Proof.
  intros i Hv. split.
  - intros H. exists (istart (odd_elements i)). apply odd_elements_in; auto.
    apply strided_in; [simpl; lia|]. unfold is_valid in H. unfold in_i.
    split; [lia|]. exists 0. lia.
  - intros (y & Hy). apply odd_elements_in in Hy; auto.
    apply strided_in in Hy; [|simpl; lia]. unfold is_valid, in_i in *. lia.
Qed.

Lemma range_from_map_div2 : forall n x, 
  range_from n (x / 2) 1 = map (fun y => y / 2) (range_from n x 2).
Proof.
  induction n; intros; simpl; auto. f_equal.
  rewrite <- IHn. f_equal. lia.
Qed.

(** A strided sub-interval shifted down enumerates the coarse coordinates in step. *)
Lemma strided_shr1 : forall i, istep i = 2 -> istart i < iend i -> 
  (iend i - istart i) mod 2 = 1 ->
  strided (ishr i 1) = map (fun y => y / 2) (strided i).
Proof.
  intros i Hst Hv Hm. unfold strided. rewrite Hst. simpl istep.
  rewrite <- range_from_map_div2.
  replace (istart (ishr i 1)) with (istart i / 2).
  2: { simpl. rewrite Z.shiftr_div_pow2 by lia. reflexivity. }
  f_equal. unfold range_count. f_equal. simpl.
  rewrite !Z.shiftr_div_pow2 by lia. change (2 ^ 1) with 2. lia.
Qed.

Lemma even_elements_coarse : forall i, istart i < iend i -> is_valid (even_elements i) = true ->
  strided (ishr (even_elements i) 1) = map (fun y => y / 2) (strided (even_elements i)).
Proof.
  intros i Hv H. apply strided_shr1; auto.
  - unfold is_valid in H. lia.
  - simpl. rewrite (odd_bit_spec (istart i)), (odd_bit_spec (iend i)). parity (istart i); parity (iend i); lia.
Qed.

Lemma odd_elements_coarse : forall i, istart i < iend i -> is_valid (odd_elements i) = true ->
  strided (ishr (odd_elements i) 1) = map (fun y => y / 2) (strided (odd_elements i)).
Proof.
  intros i Hv H. apply strided_shr1; auto.
  - unfold is_valid in H. lia.
  - simpl. rewrite (odd_bit_spec (istart i)), (odd_bit_spec (iend i)). parity (istart i); parity (iend i); lia.
Qed.

(** Division *)
Lemma idiv_exact_iff : forall i k, 0 < k -> istart i < iend i ->
  ((forall c, in_i (idiv i k) c <-> exists x, in_i i x /\ x / k = c) <->
   ((k | iend i) \/ istart i / k = iend i / k)).
Proof.
  intros i k Hk Hv.
  assert (G : forall c, (exists x, in_i i x /\ x / k = c) <->
            istart i / k <= c < (iend i - 1) / k + 1).
  { intros c. rewrite (div_range (istart i) (iend i) k c Hk Hv). reflexivity. }
  assert (Hmono : istart i / k <= iend i / k) by (apply Z.div_le_mono; lia).
  assert (Hmono1 : (iend i - 1) / k <= iend i / k) by (apply Z.div_le_mono; lia).
  assert (Hmono2 : istart i / k <= (iend i - 1) / k) by (apply Z.div_le_mono; lia).
  unfold in_i at 1, idiv; simpl.
  destruct (Z.eqb_spec (istart i / k) (iend i / k)) as [E|E].
  - split; auto. intros _ c. rewrite G. lia.
  - split.
    + intros H. left. specialize (H ((iend i - 1) / k)). rewrite G in H.
      assert (iend i / k <> (iend i - 1) / k) by lia.
      apply Z.mod_divide; [lia|].
      assert (He : iend i = k * (iend i / k) + iend i mod k) by (apply Z.div_mod; lia).
      pose proof (Z.mod_pos_bound (iend i) k Hk) as Hb.
      destruct (Z.eq_dec (iend i mod k) 0) as [|Hn]; auto. exfalso. apply H0.
      apply Z.div_unique with (r := iend i mod k - 1);
        generalize dependent (iend i mod k); generalize dependent (iend i / k); intros; clear - Hb He Hn; lia.
    + intros [[q Hq]|]; [|lia]. intros c. rewrite G.
      rewrite Hq, Z.div_mul by lia.
      replace ((q * k - 1) / k) with (q - 1); [lia|].
      apply Z.div_unique with (r := k - 1); lia.
Qed.
