(** Proofs about the prediction over several levels (reconstruction.hpp). *)
From Coq Require Import QArith Qfield.
From Verif Require Import Base IntervalModel MeshProofs AdaptModel AdaptProofs StencilModel NumModel NumProofs NumSpec PolyProofs PropsNum FluxProofs ReconModel.
Open Scope Z_scope.

(** ** The map without the memory of the earlier calls *)
Fixpoint pure (order level : nat) (idx : list Z) {struct level} : pmap :=
  match level with
  | O => [(idx, 1%Q)]
  | S lev =>
      let g := map (fun i => Z.shiftr i 1) idx in
      fold_left (fun m '(cs, q) => if is_centre order cs then m else pm_plus m (pm_scale q (pure order lev (shifted order g cs))))
        (interp_loop order idx) (pure order lev g)
  end.

Lemma memo_eqb_eq : forall a b, memo_eqb a b = true <-> a = b.
Proof.
  intros [[o l] i] [[o' l'] i']. unfold memo_eqb. rewrite !andb_true_iff, !Nat.eqb_eq, zlist_eqb_eq. split.
  - intros [[-> ->] ->]. auto.
  - intros E. injection E as -> -> ->. auto.
Qed.
Lemma memo_eqb_refl : forall a, memo_eqb a a = true.
Proof. intros. apply memo_eqb_eq. auto. Qed.
Lemma memo_eqb_neq : forall a b, a <> b -> memo_eqb a b = false.
Proof. intros a b H. destruct (memo_eqb a b) eqn:E; auto. apply memo_eqb_eq in E. contradiction. Qed.

Lemma find_set_same : forall k m v, memo_find k (memo_set k m v) = Some m.
Proof.
  intros k m v. induction v as [|[k' m'] v IH]; cbn [memo_set memo_find]; [rewrite memo_eqb_refl; auto|].
  destruct (memo_eqb k k') eqn:E; cbn [memo_find]; [rewrite memo_eqb_refl; auto|rewrite E; auto].
Qed.
Lemma find_set_other : forall k k' m v, k <> k' -> memo_find k (memo_set k' m v) = memo_find k v.
Proof.
  intros k k' m v H. induction v as [|[k2 m2] v IH]; cbn [memo_set memo_find]; [rewrite memo_eqb_neq by auto; auto|].
  destruct (memo_eqb k' k2) eqn:E; cbn [memo_find].
  - apply memo_eqb_eq in E. subst k2. rewrite !(memo_eqb_neq k k') by auto. auto.
  - rewrite IH. auto.
Qed.

Definition good_le (L : nat) (v : memo) : Prop := forall o l i m, (l <= L)%nat -> memo_find (o, l, i) v = Some m -> m = pure o l i.
Definition good (v : memo) : Prop := forall o l i m, memo_find (o, l, i) v = Some m -> m = pure o l i.

Lemma memo_ok : forall lev o idx v, good_le lev v ->
  fst (prediction o lev idx v) = pure o lev idx /\ good_le lev (snd (prediction o lev idx v)) /\
  forall o' l i, (lev < l)%nat -> memo_find (o', l, i) (snd (prediction o lev idx v)) = memo_find (o', l, i) v.
Proof.
  induction lev as [|lev IH]; intros o idx v G; [cbn [prediction fst snd pure]; auto|].
  cbn [prediction pure]. cbv zeta. set (k := (o, S lev, idx)). set (g := map _ idx).
  destruct (memo_find k v) as [m|] eqn:F; [cbn [fst snd]; split; [exact (G _ _ _ _ (le_n _) F)|auto]|].
  assert (Gl : good_le lev v) by (intros o' l i m Hl; apply G; lia).
  destruct (IH o g v Gl) as (E1 & E2 & E3). destruct (prediction o lev g v) as [m0 v0]. cbn [fst snd] in E1, E2, E3. subst m0.
  set (step := fun (values : memo) (c : list nat * Q) => _).
  set (pstep := fun (m : pmap) (c : list nat * Q) => _).
  assert (L : forall cs m w, good_le lev w -> memo_find k w = Some m ->
    (forall o' l i, (lev < l)%nat -> (o', l, i) <> k -> memo_find (o', l, i) w = memo_find (o', l, i) v) ->
    good_le lev (fold_left step cs w) /\ memo_find k (fold_left step cs w) = Some (fold_left pstep cs m) /\
    (forall o' l i, (lev < l)%nat -> (o', l, i) <> k -> memo_find (o', l, i) (fold_left step cs w) = memo_find (o', l, i) v)).
  { induction cs as [|[c q] cs IHc]; intros m w H1 H2 H3; [cbn [fold_left]; auto|]. cbn [fold_left].
    unfold step at 2 4 6, pstep at 2. destruct (is_centre o c); [apply IHc; auto|].
    destruct (IH o (shifted o g c) w H1) as (F1 & F2 & F3). destruct (prediction o lev (shifted o g c) w) as [m1 w1]. cbn [fst snd] in F1, F2, F3. subst m1.
    assert (Fk : memo_find k w1 = Some m) by (unfold k; rewrite F3 by lia; auto).
    replace (memo_get k w1) with m by (unfold memo_get; rewrite Fk; auto).
    apply IHc.
    - intros o' l i m' Hl Hf. rewrite find_set_other in Hf by (unfold k; intros E; injection E as -> -> ->; lia). eauto.
    - apply find_set_same.
    - intros o' l i Hl Hne. rewrite find_set_other by auto. rewrite F3 by auto. auto. }
  destruct (L (interp_loop o idx) (pure o lev g) (memo_set k (pure o lev g) v0)) as (L1 & L2 & L3).
  - intros o' l i m' Hl Hf. rewrite find_set_other in Hf by (unfold k; intros E; injection E as -> -> ->; lia). eauto.
  - apply find_set_same.
  - intros o' l i Hl Hne. rewrite find_set_other by auto. auto.
  - cbn [fst snd]. unfold memo_get. rewrite L2. split; auto. split.
    + intros o' l i m' Hl Hf. destruct (Nat.eq_dec l (S lev)) as [->|]; [|apply (L1 o' l i m'); auto; lia].
      destruct (memo_eqb (o', S lev, i) k) eqn:E.
      * apply memo_eqb_eq in E. rewrite E in Hf. unfold k in E. injection E as -> ->. rewrite L2 in Hf. injection Hf as <-. reflexivity.
      * rewrite L3 in Hf; [|lia|]. 2: { intros E'. rewrite E', memo_eqb_refl in E. discriminate. } apply (G _ _ _ _ (le_n _) Hf).
    + intros o' l i Hl. apply L3; [lia|]. unfold k. intros E. injection E as -> -> ->. lia.
Qed.

Lemma memo_good : forall lev o idx v, good v -> fst (prediction o lev idx v) = pure o lev idx /\ good (snd (prediction o lev idx v)).
Proof.
  intros lev o idx v G. destruct (memo_ok lev o idx v) as (H1 & H2 & H3); [intros o' l i m _; apply G|]. split; auto.
  intros o' l i m Hf. destruct (Nat.le_gt_cases l lev); [eapply H2; eauto|]. rewrite H3 in Hf by auto. eapply G; eauto.
Qed.
Lemma good_nil : good [].
Proof. intros o l i m H. discriminate. Qed.

(** ** Meaning of a map *)
Definition pm_sum (m : pmap) (u : list Z -> Q) : Q := sum_over (fun '(k, q) => (q * u k)%Q) m.

Lemma pm_sum_add : forall k q m u, (pm_sum (pm_add k q m) u == pm_sum m u + q * u k)%Q.
Proof.
  intros k q m u. unfold pm_sum. induction m as [|[k' q'] m IH]; cbn [pm_add].
  - rewrite sum_cons, sum_nil, Qred_correct. ring.
  - destruct (zlist_eqb k k') eqn:E.
    + apply zlist_eqb_eq in E. subst. rewrite !sum_cons, Qred_correct. ring.
    + rewrite !sum_cons, IH. ring.
Qed.
Lemma pm_sum_plus : forall p m u, (pm_sum (pm_plus m p) u == pm_sum m u + pm_sum p u)%Q.
Proof.
  unfold pm_plus. induction p as [|[k q] p IH]; intros m u; cbn [fold_left]; [unfold pm_sum at 3; rewrite sum_nil; ring|].
  rewrite IH, pm_sum_add. unfold pm_sum at 4. rewrite sum_cons. fold (pm_sum p u). ring.
Qed.
Lemma pm_sum_scale : forall d p u, (pm_sum (pm_scale d p) u == d * pm_sum p u)%Q.
Proof.
  intros d p u. unfold pm_sum, pm_scale. rewrite sum_map, <- sum_scale. apply sum_ext. intros [k q] _. rewrite Qred_correct. ring.
Qed.

(** ** The interpolation in every direction *)

(** In each direction in turn, the one-dimensional interpolation of the values [u] of the
    coarse cells in the fine cell [p]. *)
Fixpoint interpolated (s : nat) (u : list Z -> Q) (p : list Z) : Q :=
  match p with
  | [] => u []
  | x :: p =>
      let c := interp_coeffs s (if Z.odd x then -1 else 1)%Q in
      sum_over (fun k => nth k c 0 * interpolated s (fun q => u ((x / 2 + (Z.of_nat k - Z.of_nat s))%Z :: q)) p)%Q (seq 0 (length c))
  end.

(** The same through [dl] levels. *)
Fixpoint iterated (s dl : nat) (u : list Z -> Q) (p : list Z) : Q :=
  match dl with O => u p | S dl => interpolated s (iterated s dl u) p end.

Lemma interpolated_ext : forall s p u v, (forall q, length q = length p -> (u q == v q)%Q) -> (interpolated s u p == interpolated s v p)%Q.
Proof.
  intros s. induction p as [|x p IH]; intros u v H; cbn [interpolated]; [apply H; auto|]. cbv zeta.
  apply sum_ext. intros k _. rewrite (IH _ (fun q => v (x / 2 + (Z.of_nat k - Z.of_nat s) :: q))); [reflexivity|].
  intros q Hq. apply H. simpl. auto.
Qed.
Lemma iterated_ext : forall s dl p u v, (forall q, length q = length p -> (u q == v q)%Q) -> (iterated s dl u p == iterated s dl v p)%Q.
Proof.
  intros s. induction dl as [|dl IH]; intros p u v H; cbn [iterated]; auto. apply interpolated_ext. intros q Hq. apply IH. intros r Hr. apply H. congruence.
Qed.

Lemma sum_flat : forall (A B : Type) (f : B -> Q) (g : A -> list B) xs, (sum_over f (flat_map g xs) == sum_over (fun x => sum_over f (g x)) xs)%Q.
Proof. intros A B f g xs. induction xs as [|x xs IH]; [reflexivity|]. cbn [flat_map]. rewrite sum_app, sum_cons, IH. reflexivity. Qed.

Lemma shiftr1 : forall x, Z.shiftr x 1 = x / 2.
Proof. intros. rewrite Z.shiftr_div_pow2 by lia. reflexivity. Qed.

Lemma loop_sum : forall s idx (f : list Z -> Q),
  (sum_over (fun '(cs, q) => q * f (shifted s (map (fun i => Z.shiftr i 1) idx) cs)) (interp_loop s idx) == interpolated s f idx)%Q.
Proof.
  intros s. induction idx as [|x idx IH]; intros f; cbn [interp_loop interpolated map].
  - rewrite sum_cons, sum_nil. cbn. ring.
  - cbv zeta. rewrite sum_flat. apply sum_ext. intros k _. rewrite sum_map.
    rewrite <- (IH (fun q => f (x / 2 + (Z.of_nat k - Z.of_nat s) :: q))). rewrite <- sum_scale. apply sum_ext. intros [cs q] _.
    unfold shifted. cbn [combine map]. rewrite shiftr1. ring.
Qed.

Lemma interp_length : forall s g, (s <= 5)%nat -> length (interp_coeffs s g) = (2 * s + 1)%nat.
Proof. intros s g Hs. do 6 (destruct s as [|s]; [reflexivity|]). lia. Qed.
Lemma interp_centre : forall s g, (s <= 5)%nat -> nth s (interp_coeffs s g) 0%Q = 1%Q.
Proof. intros s g Hs. do 6 (destruct s as [|s]; [reflexivity|]). lia. Qed.

(** The skipped term is the one added first. *)
Lemma centre_sum : forall s idx (F : list nat -> Q), (s <= 5)%nat ->
  (sum_over (fun '(cs, q) => if is_centre s cs then q * F cs else 0) (interp_loop s idx) == F (repeat s (length idx)))%Q.
Proof.
  intros s idx F Hs. revert F. induction idx as [|x idx IH]; intros F; cbn [interp_loop length repeat].
  - rewrite sum_cons, sum_nil. cbn. ring.
  - cbv zeta. rewrite interp_length by auto. rewrite sum_flat.
    rewrite (sum_ext _ _ (fun k => if Nat.eqb k s then F (k :: repeat s (length idx)) else 0)%Q).
    + apply (sum_pick _ Nat.eqb (fun k => F (k :: repeat s (length idx)))); [apply Nat.eqb_eq|apply seq_NoDup|apply in_seq; lia].
    + intros k _. rewrite sum_map. rewrite Nat.eqb_sym. destruct (Nat.eqb s k) eqn:E.
      * apply Nat.eqb_eq in E. subst k. rewrite <- (IH (fun cs => F (s :: cs))). apply sum_ext. intros [cs q] _.
        unfold is_centre. cbn [forallb]. rewrite Nat.eqb_refl. cbn [andb]. destruct (forallb _ cs); [|reflexivity]. rewrite interp_centre by auto. ring.
      * apply sum_zero. intros [cs q] _. unfold is_centre. cbn [forallb]. rewrite E. reflexivity.
Qed.

Lemma shifted_centre : forall s g, shifted s g (repeat s (length g)) = g.
Proof. intros s g. unfold shifted. induction g as [|x g IH]; cbn [length repeat combine map]; auto. rewrite IH. f_equal. lia. Qed.

Lemma pure_sum : forall o lev idx u, (o <= 5)%nat -> (pm_sum (pure o lev idx) u == iterated o lev u idx)%Q.
Proof.
  intros o lev idx u Ho. revert idx. induction lev as [|lev IH]; intros idx; cbn [pure iterated].
  - unfold pm_sum. rewrite sum_cons, sum_nil. ring.
  - cbv zeta. set (g := map _ idx).
    assert (L : forall cs m, (pm_sum (fold_left (fun m '(cs, q) => if is_centre o cs then m else pm_plus m (pm_scale q (pure o lev (shifted o g cs)))) cs m) u
      == pm_sum m u + sum_over (fun '(cs, q) => if is_centre o cs then 0 else q * iterated o lev u (shifted o g cs)) cs)%Q).
    { induction cs as [|[c q] cs IHc]; intros m; cbn [fold_left]; [rewrite sum_nil; ring|]. rewrite IHc, sum_cons.
      destruct (is_centre o c); [ring|]. rewrite pm_sum_plus, pm_sum_scale, IH. ring. }
    rewrite L, IH. rewrite <- (loop_sum o idx (iterated o lev u)). fold g.
    pose proof (centre_sum o idx (fun cs => iterated o lev u (shifted o g cs)) Ho) as C. cbv beta in C.
    replace (length idx) with (length g) in C by apply map_length. rewrite shifted_centre in C. rewrite <- C. rewrite <- sum_plus.
    apply sum_ext. intros [cs q] _. destruct (is_centre o cs); ring.
Qed.

(** ** Translation *)
Lemma pm_value_sum : forall m u p, (pm_value m u p == pm_sum m (fun k => u (add_vec p k)))%Q.
Proof.
  intros m u p. unfold pm_value.
  assert (L : forall m r, (fold_left (fun r '(k, q) => (r + q * u (add_vec p k))%Q) m r == r + pm_sum m (fun k => u (add_vec p k)))%Q).
  { clear m. induction m as [|[k q] m IH]; intros r; cbn [fold_left]; [unfold pm_sum; rewrite sum_nil; ring|]. rewrite IH. unfold pm_sum. rewrite sum_cons. ring. }
  rewrite L. ring.
Qed.

Lemma interpolated_shift : forall s p a u, length a = length p ->
  (interpolated s (fun q => u (add_vec a q)) p == interpolated s u (add_vec (map (Z.mul 2) a) p))%Q.
Proof.
  intros s. induction p as [|x p IH]; intros a u H; destruct a as [|b a]; try discriminate; [reflexivity|].
  injection H as H. unfold add_vec at 2. cbn [map combine interpolated]. cbv zeta.
  replace (Z.odd (2 * b + x)) with (Z.odd x) by (rewrite Z.odd_add, Z.odd_mul; destruct (Z.odd x); auto).
  apply sum_ext. intros k _. apply Qmult_comp; [reflexivity|].
  rewrite <- (IH a (fun q => u ((2 * b + x) / 2 + (Z.of_nat k - Z.of_nat s) :: q))) by auto.
  apply interpolated_ext. intros q _. unfold add_vec. cbn [combine map].
  replace ((2 * b + x) / 2 + (Z.of_nat k - Z.of_nat s)) with (b + (x / 2 + (Z.of_nat k - Z.of_nat s))); [reflexivity|].
  rewrite (Z.mul_comm 2 b), Z.add_comm, (Z.add_comm (b * 2)), Z.div_add by lia. lia.
Qed.

Lemma iterated_shift : forall s dl p a u, length a = length p ->
  (iterated s dl (fun q => u (add_vec a q)) p == iterated s dl u (add_vec (map (Z.mul (2 ^ Z.of_nat dl)) a) p))%Q.
Proof.
  intros s. induction dl as [|dl IH]; intros p a u H; cbn [iterated].
  - change (2 ^ Z.of_nat 0) with 1. rewrite (map_ext _ id) by (intros; unfold id; lia). rewrite map_id. reflexivity.
  - rewrite (interpolated_ext s p _ (fun q => iterated s dl u (add_vec (map (Z.mul (2 ^ Z.of_nat dl)) a) q))) by (intros q Hq; apply IH; congruence).
    rewrite (interpolated_shift s p _ (iterated s dl u)) by (rewrite map_length; auto). rewrite map_map.
    replace (map (fun x => 2 * (2 ^ Z.of_nat dl * x)) a) with (map (Z.mul (2 ^ Z.of_nat (S dl))) a); [reflexivity|].
    apply map_ext. intros x. rewrite Nat2Z.inj_succ, Z.pow_succ_r by lia. lia.
Qed.

(** ** The cells that are read *)
Definition window (s : Z) (lev : nat) (x k : Z) : Prop :=
  (x - 2 * s * (2 ^ Z.of_nat lev - 1)) / 2 ^ Z.of_nat lev <= k <= (x + 2 * s * (2 ^ Z.of_nat lev - 1)) / 2 ^ Z.of_nat lev.

Lemma window_step : forall s lev x d k, - s <= d <= s -> window s lev (x / 2 + d) k -> window s (S lev) x k.
Proof.
  intros s lev x d k Hd [H1 H2]. unfold window. rewrite Nat2Z.inj_succ, Z.pow_succ_r by lia.
  set (P := 2 ^ Z.of_nat lev) in *. assert (HP : 0 < P) by (apply Z.pow_pos_nonneg; lia).
  rewrite <- !Z.div_div by lia.
  replace ((x - 2 * s * (2 * P - 1)) / 2) with (x / 2 - s - 2 * s * (P - 1))
    by (replace (x - 2 * s * (2 * P - 1)) with (x + (- s - 2 * s * (P - 1)) * 2) by ring; rewrite Z.div_add by lia; ring).
  replace ((x + 2 * s * (2 * P - 1)) / 2) with (x / 2 + s + 2 * s * (P - 1))
    by (replace (x + 2 * s * (2 * P - 1)) with (x + (s + 2 * s * (P - 1)) * 2) by ring; rewrite Z.div_add by lia; ring).
  split; [etransitivity; [|exact H1]|etransitivity; [exact H2|]]; apply Z.div_le_mono; nia.
Qed.

Lemma window_within : forall s lev x k, 0 <= s -> window s lev x k -> Z.abs (k - x / 2 ^ Z.of_nat lev) <= 2 * s.
Proof.
  intros s lev x k Hs [H1 H2]. set (P := 2 ^ Z.of_nat lev) in *. assert (HP : 0 < P) by (apply Z.pow_pos_nonneg; lia).
  assert (A : x / P - 2 * s <= (x - 2 * s * (P - 1)) / P).
  { replace (x / P - 2 * s) with ((x + (- (2 * s)) * P) / P) by (rewrite Z.div_add by lia; ring). apply Z.div_le_mono; nia. }
  assert (B : (x + 2 * s * (P - 1)) / P <= x / P + 2 * s).
  { replace (x / P + 2 * s) with ((x + (2 * s) * P) / P) by (rewrite Z.div_add by lia; ring). apply Z.div_le_mono; nia. }
  apply Z.abs_le. lia.
Qed.

Lemma pm_add_keys : forall k q m k', In k' (map fst (pm_add k q m)) <-> k' = k \/ In k' (map fst m).
Proof.
  intros k q m k'. induction m as [|[k2 q2] m IH]; cbn [pm_add]; [simpl; intuition|].
  destruct (zlist_eqb k k2) eqn:E; cbn [map fst In]; [apply zlist_eqb_eq in E; subst; intuition|rewrite IH; intuition].
Qed.
Lemma pm_plus_keys : forall p m k', In k' (map fst (pm_plus m p)) <-> In k' (map fst m) \/ In k' (map fst p).
Proof.
  unfold pm_plus. induction p as [|[k q] p IH]; intros m k'; cbn [fold_left map fst In]; [intuition|].
  rewrite IH, pm_add_keys. intuition.
Qed.
Lemma pm_add_nodup : forall k q m, NoDup (map fst m) -> NoDup (map fst (pm_add k q m)).
Proof.
  intros k q m. induction m as [|[k2 q2] m IH]; intros H; cbn [pm_add]; [simpl; constructor; auto; constructor|].
  destruct (zlist_eqb k k2) eqn:E; cbn [map fst] in *; auto. inversion H as [|a l Hn Hd]; subst. constructor; auto.
  rewrite pm_add_keys. intros [->|Hin]; auto. rewrite (proj2 (zlist_eqb_eq _ _) eq_refl) in E. discriminate.
Qed.
Lemma pm_plus_nodup : forall p m, NoDup (map fst m) -> NoDup (map fst (pm_plus m p)).
Proof. unfold pm_plus. induction p as [|[k q] p IH]; intros m H; cbn [fold_left]; auto. apply IH, pm_add_nodup, H. Qed.

Lemma pm_scale_keys : forall d p, map fst (pm_scale d p) = map fst p.
Proof. intros. unfold pm_scale. rewrite map_map. apply map_ext. intros [k q]. auto. Qed.

Lemma loop_In : forall s idx cs q, In (cs, q) (interp_loop s idx) -> length cs = length idx /\ ((s <= 5)%nat -> Forall (fun c => c <= 2 * s)%nat cs).
Proof.
  intros s. induction idx as [|x idx IH]; intros cs q H; cbn [interp_loop] in H.
  - destruct H as [H|[]]. injection H as <- _. auto.
  - cbv zeta in H. apply in_flat_map in H as (k & Hk & H). apply in_map_iff in H as ([cs' q'] & E & H). injection E as <- _.
    apply IH in H as [H1 H2]. split; [simpl; auto|]. intros Hs. rewrite interp_length in Hk by auto. apply in_seq in Hk. constructor; auto. lia.
Qed.

Lemma pure_keys : forall o lev idx k, (o <= 5)%nat -> In k (map fst (pure o lev idx)) -> Forall2 (window (Z.of_nat o) lev) idx k.
Proof.
  intros o lev idx k Ho. revert idx k. induction lev as [|lev IH]; intros idx k H; cbn [pure] in H.
  - destruct H as [<-|[]]. clear. cbn [fst]. induction idx; constructor; auto. unfold window. cbn. rewrite !Z.div_1_r. lia.
  - cbv zeta in H. set (g := map _ idx) in *.
    assert (Hg : forall cs k, length cs = length idx -> Forall (fun c => c <= 2 * o)%nat cs -> Forall2 (window (Z.of_nat o) lev) (shifted o g cs) k -> Forall2 (window (Z.of_nat o) (S lev)) idx k).
    { unfold g. clear. intros cs. revert idx. induction cs as [|c cs IHc]; intros [|x idx] k Hl Hf Hw; try discriminate; cbn [map shifted combine] in Hw;
        inversion Hw; subst; constructor.
      - apply (window_step _ _ _ (Z.of_nat c - Z.of_nat o)); [inversion Hf; lia|]. rewrite <- shiftr1. auto.
      - inversion Hf; subst. apply IHc; auto. }
    assert (L : forall cs m, (forall c q, In (c, q) cs -> length c = length idx /\ Forall (fun x => x <= 2 * o)%nat c) ->
      In k (map fst (fold_left (fun m '(cs, q) => if is_centre o cs then m else pm_plus m (pm_scale q (pure o lev (shifted o g cs)))) cs m)) ->
      In k (map fst m) \/ exists c, length c = length idx /\ Forall (fun x => x <= 2 * o)%nat c /\ In k (map fst (pure o lev (shifted o g c)))).
    { induction cs as [|[c q] cs IHc]; intros m Hc Hk; cbn [fold_left] in Hk; auto.
      apply IHc in Hk; [|intros c' q' Hin; apply (Hc c' q'); right; auto]. destruct Hk as [Hk|Hk]; auto.
      destruct (is_centre o c); auto. apply pm_plus_keys in Hk as [Hk|Hk]; auto. rewrite pm_scale_keys in Hk. right. exists c.
      destruct (Hc c q) as [H1 H2]; [left; auto|auto]. }
    apply L in H.
    + destruct H as [H|(c & H1 & H2 & H3)]; [|apply (Hg c); auto].
      apply (Hg (repeat o (length g))); [rewrite repeat_length; apply map_length| |].
      * apply Forall_forall. intros c Hc. apply repeat_spec in Hc. lia.
      * rewrite shifted_centre. auto.
    + intros c q Hin. apply loop_In in Hin as [H1 H2]. auto.
Qed.

Lemma pure_nodup : forall o lev idx, NoDup (map fst (pure o lev idx)).
Proof.
  intros o. induction lev as [|lev IH]; intros idx; cbn [pure]; [constructor; auto; constructor|]. cbv zeta.
  generalize (IH (map (fun i => Z.shiftr i 1) idx)). generalize (pure o lev (map (fun i => Z.shiftr i 1) idx)). generalize (interp_loop o idx).
  induction l as [|[c q] l IHl]; intros m H; cbn [fold_left]; auto. apply IHl. destruct (is_centre o c); auto. apply pm_plus_nodup. auto.
Qed.
