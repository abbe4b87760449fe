(** The transfer of a field between two meshes: one level of the destination. *)
From Coq Require Import QArith Qfield Permutation.
From Verif Require Import Base IntervalModel Spec LoiModel LcaModel LcaSpec LcaProofs CellArrayModel CellArrayProofs SubsetModel StencilModel MeshProofs AdaptModel AdaptProofs
  NumModel NumProofs TransferProofs MrModel MrProofs GhostModel GhostProofs NumSpec PolyProofs PropsNum FluxProofs TagProofs PropsAdapt PropsGrad PropsMr
  ReconModel ReconProofs ReconProofs2 PropsRecon ReconProofs3 MeshTransferModel.
Open Scope Z_scope.

(** ** Rows *)
Lemma range_zrange : forall m a, range_from m a 1 = map (fun k => a + Z.of_nat k) (seq 0 m).
Proof.
  induction m as [|m IH]; intros a; cbn [range_from seq map]; auto. f_equal; [lia|]. rewrite IH, <- seq_shift, map_map. apply map_ext. intros; lia.
Qed.
Lemma row_zrange : forall s e, range_from (Z.to_nat (e - s)) s 1 = zrange s e.
Proof. intros. apply range_zrange. Qed.
Lemma strided_zrange : forall i, istep i = 1 -> strided i = zrange (istart i) (iend i).
Proof.
  intros i H. unfold strided, range_count. rewrite H. rewrite Z.div_1_r. rewrite <- row_zrange. f_equal. lia.
Qed.
Lemma row_cells_zrange : forall i yz, istep i = 1 -> row_cells i yz = map (fun x => x :: yz) (zrange (istart i) (iend i)).
Proof. intros. unfold row_cells. rewrite strided_zrange; auto. Qed.
Lemma calls_cons : forall i yz calls, istep i = 1 -> cells_of_calls ((i, yz) :: calls) = row_cells i yz ++ cells_of_calls calls.
Proof. intros. unfold cells_of_calls. cbn [flat_map]. rewrite row_cells_zrange by auto. reflexivity. Qed.

Lemma view_nth : forall i yz k x, istep i = 1 -> istart i <= x < iend i ->
  nth_error (row_cells (ishr i (Z.of_nat k)) (map (fun y => Z.shiftr y (Z.of_nat k)) yz)) (Z.to_nat (Z.shiftr x (Z.of_nat k) - Z.shiftr (istart i) (Z.of_nat k))) = Some (ancestor k (x :: yz)).
Proof.
  intros [s e st ix] yz k x Hs Hx. cbn [istart iend istep] in *. rewrite row_cells_zrange by reflexivity. unfold ishr. cbn [istart iend]. rewrite !Z.shiftr_div_pow2 by lia.
  assert (P : 0 < 2 ^ Z.of_nat k) by (apply Z.pow_pos_nonneg; lia). set (N := 2 ^ Z.of_nat k) in *.
  assert (A : s / N <= x / N) by (apply Z.div_le_mono; lia). assert (B : x / N <= (e - 1) / N) by (apply Z.div_le_mono; lia).
  unfold zrange. rewrite map_map. rewrite nth_error_map. rewrite (nth_error_nth' (seq 0 _) 0%nat) by (rewrite seq_length; apply Z2Nat.inj_lt; lia).
  rewrite seq_nth by (apply Z2Nat.inj_lt; lia). cbn [option_map ancestor map]. fold N. do 2 f_equal; [lia|]. apply map_ext. intros y. rewrite Z.shiftr_div_pow2 by lia. reflexivity.
Qed.

Lemma view_mem : forall i yz k c, istep i = 1 -> istart i < iend i -> In c (row_cells (ishr i (Z.of_nat k)) (map (fun y => Z.shiftr y (Z.of_nat k)) yz)) ->
  exists x, istart i <= x < iend i /\ c = ancestor k (x :: yz).
Proof.
  intros [s e st ix] yz k c Hs Hi Hc. cbn [istart iend istep] in *. rewrite row_cells_zrange in Hc by reflexivity. unfold ishr in Hc. cbn [istart iend] in Hc.
  apply in_map_iff in Hc as (z & <- & Hz). apply zrange_In in Hz. rewrite !Z.shiftr_div_pow2 in Hz by lia.
  assert (P : 0 < 2 ^ Z.of_nat k) by (apply Z.pow_pos_nonneg; lia). set (N := 2 ^ Z.of_nat k) in *. exists (Z.max s (z * N)).
  assert (Q1 : z * N <= e - 1) by (assert (z <= (e - 1) / N) by lia; pose proof (Z.mul_div_le (e - 1) N P); nia).
  split; [lia|]. cbn [ancestor map]. fold N. f_equal.
  - destruct (Z.max_spec s (z * N)) as [[M ->]|[M ->]]; [rewrite Z.div_mul by lia; auto|].
    apply Z.le_antisymm; [|lia]. apply Z.div_le_lower_bound; lia.
  - apply map_ext. intros y. rewrite Z.shiftr_div_pow2 by lia. reflexivity.
Qed.

(** ** The three operators *)
Section Ops.
  Variables (n order : nat) (ref_src ref_dst : ca).

  Lemma same_calls : forall level src calls d, (forall i yz, In (i, yz) calls -> istep i = 1) ->
    (forall p, In p (cells_of_calls calls) -> stored n ref_src level p = true /\ stored n ref_dst level p = true) ->
    exists d', fold_opt (same_op n ref_src ref_dst level src) calls d = Some d' /\ forall c, (In c (cells_of_calls calls) -> d' c = src c) /\ (~ In c (cells_of_calls calls) -> d' c = d c).
  Proof.
    intros level src. induction calls as [|[i yz] calls IH]; intros d Hs Hm; cbn [fold_opt].
    - exists d. split; auto. intros c. split; auto. intros [].
    - assert (H1 : istep i = 1) by (apply (Hs i yz); left; auto). rewrite calls_cons in * by auto. unfold same_op at 1.
      rewrite (proj2 (forallb_forall _ _)) by (intros p Hp; apply Hm; apply in_app_iff; auto).
      rewrite (proj2 (forallb_forall _ _)) by (intros p Hp; apply Hm; apply in_app_iff; auto). cbn [andb checked].
      destruct (IH (set_cells d (map (fun p => (p, src p)) (row_cells i yz)))) as (d' & E & P); [intros; apply (Hs i0 yz0); right; auto|intros; apply Hm; apply in_app_iff; auto|].
      exists d'. split; auto. intros c. destruct (P c) as [A B]. destruct (set_cells_spec src (row_cells i yz) d c) as [A1 B1]. rewrite in_app_iff.
      destruct (in_dec (list_eq_dec Z.eq_dec) c (cells_of_calls calls)) as [Hin|Hout]; [split; [auto|tauto]|]. rewrite (B Hout). split; [intros [H|H]; [auto|contradiction]|intros H; apply B1; tauto].
  Qed.

  (** The part of the cell [c] in the sum over some finer cells. *)
  Definition share (k : nat) (src : cfield) (c : list Z) (qs : list (list Z)) : Q :=
    sum_over (fun q => src q / inject_Z (2 ^ Z.of_nat (k * S n)))%Q (filter (fun q => zlist_eqb (ancestor k q) c) qs).

  Lemma share_app : forall k src c a b, (share k src c (a ++ b) == share k src c a + share k src c b)%Q.
  Proof. intros. unfold share. rewrite filter_app, sum_app. reflexivity. Qed.

  Lemma proj_calls : forall level_dst level_src src calls d, (forall i yz, In (i, yz) calls -> istart i < iend i /\ istep i = 1) -> ((level_src - level_dst) * S n < 31)%nat ->
    (forall q, In q (cells_of_calls calls) -> stored n ref_src level_src q = true /\ stored n ref_dst level_dst (ancestor (level_src - level_dst) q) = true) ->
    exists d', fold_opt (proj_op n ref_src ref_dst level_dst level_src src) calls d = Some d' /\ forall c, (d' c == d c + share (level_src - level_dst) src c (cells_of_calls calls))%Q.
  Proof.
    intros level_dst level_src src calls d Hs Hk Hm. set (k := (level_src - level_dst)%nat) in *. revert d Hs Hm. induction calls as [|[i yz] calls IH]; intros d Hs Hm; cbn [fold_opt].
    - exists d. split; auto. intros c. unfold share, cells_of_calls. cbn [flat_map filter]. rewrite sum_nil. ring.
    - destruct (Hs i yz) as [Hi H1]; [left; auto|]. rewrite calls_cons in * by auto. unfold proj_op at 1. fold k.
      rewrite (proj2 (forallb_forall _ _)) by (intros p Hp; apply Hm; apply in_app_iff; auto).
      rewrite (proj2 (forallb_forall _ _)).
      2: { intros c Hc. apply view_mem in Hc as (x & Hx & ->); auto. apply Hm. apply in_app_iff. left. rewrite row_cells_zrange by auto. apply in_map_iff. exists x. split; auto. apply zrange_In. auto. }
      rewrite (proj2 (Nat.ltb_lt _ _)) by auto. cbn [andb checked]. rewrite row_zrange.
      assert (R : forall xs d, (forall x, In x xs -> istart i <= x < iend i) -> exists d', fold_opt (fun d x =>
         let i_dst := Z.shiftr x (Z.of_nat k) - Z.shiftr (istart i) (Z.of_nat k) in
         let* c := nth_error (row_cells (ishr i (Z.of_nat k)) (map (fun y => Z.shiftr y (Z.of_nat k)) yz)) (Z.to_nat i_dst) in
         Some (add_cells d [(c, (src (x :: yz) / inject_Z (Z.shiftl 1 (Z.of_nat k * Z.of_nat (S n))))%Q)])) xs d = Some d' /\
         forall c, (d' c == d c + share k src c (map (fun x => x :: yz) xs))%Q).
      { clear - H1. induction xs as [|x xs IHx]; intros d Hx; cbn [fold_opt].
        - exists d. split; auto. intros c. unfold share. cbn [map filter]. rewrite sum_nil. ring.
        - cbv zeta. rewrite view_nth by (auto; apply Hx; left; auto).
          destruct (IHx (add_cells d [(ancestor k (x :: yz), (src (x :: yz) / inject_Z (Z.shiftl 1 (Z.of_nat k * Z.of_nat (S n))))%Q)])) as (d' & E & P); [intros; apply Hx; right; auto|].
          exists d'. split; [exact E|]. intros c. rewrite P. change (map (fun x => x :: yz) (x :: xs)) with ([x :: yz] ++ map (fun x => x :: yz) xs). rewrite share_app.
          unfold add_cells. cbn [fold_left]. unfold share at 2. cbn [filter]. rewrite Z.shiftl_1_l, <- Nat2Z.inj_mul.
          destruct (zlist_eqb c (ancestor k (x :: yz))) eqn:Ec.
          + apply zlist_eqb_eq in Ec. rewrite <- Ec. rewrite (proj2 (zlist_eqb_eq c c) eq_refl). rewrite sum_cons, sum_nil. ring.
          + destruct (zlist_eqb (ancestor k (x :: yz)) c) eqn:Ec'; [apply zlist_eqb_eq in Ec'; subst c; rewrite (proj2 (zlist_eqb_eq _ _) eq_refl) in Ec; discriminate|].
            rewrite sum_nil. ring. }
      destruct (R (zrange (istart i) (iend i)) d) as (d1 & E1 & P1); [intros x Hx; apply zrange_In in Hx; auto|]. cbv zeta in E1. rewrite E1.
      destruct (IH d1) as (d2 & E2 & P2); [intros; apply (Hs i0 yz0); right; auto|intros; apply Hm; apply in_app_iff; auto|].
      exists d2. split; auto. intros c. rewrite P2, P1, share_app. rewrite row_cells_zrange by auto. ring.
  Qed.

  Hypothesis Ho : (order <= 5)%nat.

  Lemma keys_near : forall dl sub k, small dl sub -> In k (map fst (pure order dl sub)) -> length k = length sub /\ forall j, (j < length sub)%nat -> Z.abs (nth j k 0) <= 2 * Z.of_nat order.
  Proof.
    intros dl sub k Hs Hin. apply pure_keys in Hin; auto. split; [symmetry; apply (Forall2_size _ _ _ _ _ Hin)|].
    induction Hin as [|a b sub k Hw Hin IH]; intros j Hj; [simpl in Hj; lia|]. inversion Hs; subst. destruct j as [|j]; cbn [nth].
    - apply window_within in Hw; [|lia]. rewrite Z.div_small in Hw by lia. rewrite Z.sub_0_r in Hw. auto.
    - apply IH; auto. simpl in Hj. lia.
  Qed.

  Lemma sub_of : forall k p, let sub := map (fun '(y, y_src) => y - Z.shiftl y_src (Z.of_nat k)) (combine p (ancestor k p)) in
    length sub = length p /\ small k sub /\ subcell k (ancestor k p) sub = p.
  Proof.
    intros k. assert (P : 0 < 2 ^ Z.of_nat k) by (apply Z.pow_pos_nonneg; lia). induction p as [|x p (A & B & C)]; cbv zeta; [repeat constructor|].
    cbn [ancestor map combine]. split; [simpl; f_equal; exact A|]. rewrite Z.shiftl_mul_pow2 by lia.
    assert (D : x - x / 2 ^ Z.of_nat k * 2 ^ Z.of_nat k = x mod 2 ^ Z.of_nat k) by (pose proof (Z.div_mod x (2 ^ Z.of_nat k) ltac:(lia)); lia). split.
    - constructor; [rewrite D; apply Z.mod_pos_bound; auto|exact B].
    - rewrite subcell_cons. f_equal; [lia|exact C].
  Qed.

  Lemma pred_calls : forall level_dst level_src src calls d values, (forall i yz, In (i, yz) calls -> length yz = n /\ istep i = 1) -> (level_dst - level_src < 31)%nat ->
    (forall p, In p (cells_of_calls calls) -> stored n ref_dst level_dst p = true /\
       forall k, length k = S n -> (forall j, (j <= n)%nat -> Z.abs (nth j k 0) <= 2 * Z.of_nat order) -> stored n ref_src level_src (add_vec (ancestor (level_dst - level_src) p) k) = true) ->
    good values ->
    exists d' values', fold_opt (pred_op n order ref_src ref_dst level_dst level_src src) calls (d, values) = Some (d', values') /\ good values' /\
      forall c, (In c (cells_of_calls calls) -> (d' c == iterated order (level_dst - level_src) src c)%Q) /\ (~ In c (cells_of_calls calls) -> d' c = d c).
  Proof.
    intros level_dst level_src src calls d values Hs Hk Hm G. set (k := (level_dst - level_src)%nat) in *. revert d values Hs Hm G.
    induction calls as [|[i yz] calls IH]; intros d values Hs Hm G; cbn [fold_opt].
    - exists d, values. split; auto. split; auto. intros c. split; auto. intros [].
    - destruct (Hs i yz) as [Hy H1]; [left; auto|]. rewrite calls_cons in * by auto. unfold pred_op at 1. fold k. rewrite (proj2 (Nat.ltb_lt _ _)) by auto. cbn [checked]. rewrite row_zrange.
      rewrite row_cells_zrange in * by auto. revert Hm. generalize (zrange (istart i) (iend i)). intros xs Hm.
      match goal with |- context [fold_opt ?f xs (d, values)] => set (step := f) end.
      assert (R : forall xs d values, (forall p, In p (map (fun x => x :: yz) xs) -> stored n ref_dst level_dst p = true /\
         forall j, length j = S n -> (forall a, (a <= n)%nat -> Z.abs (nth a j 0) <= 2 * Z.of_nat order) -> stored n ref_src level_src (add_vec (ancestor k p) j) = true) -> good values ->
         exists d' values', fold_opt step xs (d, values) = Some (d', values') /\ good values' /\
         forall c, (In c (map (fun x => x :: yz) xs) -> (d' c == iterated order k src c)%Q) /\ (~ In c (map (fun x => x :: yz) xs) -> d' c = d c)).
      { clear xs Hm d values G IH Hs. induction xs as [|x xs IHx]; intros d values Hm G; cbn [fold_opt map].
        - exists d, values. split; auto. split; auto. intros c. split; auto. intros [].
        - destruct (Hm (x :: yz)) as [S1 S2]; [left; auto|]. unfold step at 1.
          replace (map (fun y => Z.shiftr y (Z.of_nat k)) (x :: yz)) with (ancestor k (x :: yz)) by (unfold ancestor; apply map_ext; intros y; rewrite Z.shiftr_div_pow2 by lia; reflexivity).
          destruct (sub_of k (x :: yz)) as (A & B & C). set (sub := map _ (combine (x :: yz) (ancestor k (x :: yz)))) in *.
          destruct (memo_good k order sub values G) as [E G']. destruct (prediction order k sub values) as [m values1]. cbn [fst snd] in E, G'. subst m.
          rewrite S1. rewrite (proj2 (forallb_forall _ _)).
          2: { intros [key q] Hin. apply (in_map fst) in Hin. cbn [fst] in Hin. apply keys_near in Hin as [K1 K2]; auto. apply S2.
               - rewrite K1, A. simpl. auto.
               - intros a Ha. apply K2. rewrite A. simpl. lia. }
          cbn [andb checked]. destruct (IHx (set_cells d [(x :: yz, pm_value (pure order k sub) src (ancestor k (x :: yz)))]) values1) as (d' & v' & E & G2 & P); auto; [intros; apply Hm; right; auto|].
          exists d', v'. split; auto. split; auto. intros c. destruct (P c) as [P1 P2]. destruct (in_dec (list_eq_dec Z.eq_dec) c (map (fun x => x :: yz) xs)) as [Hin|Hout].
          + split; [auto|]. intros H. exfalso. apply H. right. auto.
          + rewrite (P2 Hout). unfold set_cells. cbn [fold_left]. destruct (zlist_eqb c (x :: yz)) eqn:Ec.
            * apply zlist_eqb_eq in Ec. subst c. split; [|intros H; exfalso; apply H; left; auto]. intros _. rewrite pm_value_sum, pure_sum by auto.
              rewrite iterated_shift by (rewrite ancestor_length, A; auto). fold (subcell k (ancestor k (x :: yz)) sub). rewrite C. reflexivity.
            * split; auto. intros [H|H]; [|contradiction]. subst c. rewrite (proj2 (zlist_eqb_eq _ _) eq_refl) in Ec. discriminate. }
      destruct (R xs d values) as (d1 & v1 & E1 & G1 & P1); auto; [intros p Hp; apply Hm; apply in_app_iff; auto|]. rewrite E1.
      destruct (IH d1 v1) as (d2 & v2 & E2 & G2 & P2); auto; [intros; apply (Hs i0 yz0); right; auto|intros; apply Hm; apply in_app_iff; auto|].
      exists d2, v2. split; auto. split; auto. intros c. destruct (P1 c) as [A1 B1]. destruct (P2 c) as [A2 B2]. rewrite in_app_iff.
      destruct (in_dec (list_eq_dec Z.eq_dec) c (cells_of_calls calls)) as [Hin|Hout]; [split; [auto|tauto]|]. rewrite (B2 Hout). split; [intros [H|H]; [auto|contradiction]|intros H; apply B1; tauto].
  Qed.
End Ops.
