(** Exactness and conservation of the prediction over several levels. *)
From Coq Require Import QArith Qfield.
From Verif Require Import Base IntervalModel MeshProofs AdaptModel AdaptProofs StencilModel NumModel NumProofs NumSpec PolyProofs PropsNum FluxProofs ReconModel ReconProofs.
Open Scope Z_scope.

(** ** Linearity *)
Lemma interpolated_scale : forall s p a u, (interpolated s (fun q => a * u q) p == a * interpolated s u p)%Q.
Proof.
  intros s. induction p as [|x p IH]; intros a u; cbn [interpolated]; [reflexivity|]. cbv zeta. rewrite <- sum_scale. apply sum_ext. intros k _.
  rewrite (IH a (fun q => u (x / 2 + (Z.of_nat k - Z.of_nat s) :: q))). ring.
Qed.
Lemma interpolated_sum : forall (A : Type) s (f : A -> list Z -> Q) js p, (interpolated s (fun q => sum_over (fun j => f j q) js) p == sum_over (fun j => interpolated s (f j) p) js)%Q.
Proof.
  intros A s f js p. revert f. induction p as [|x p IH]; intros f; cbn [interpolated]; [reflexivity|]. cbv zeta.
  rewrite sum_swap. apply sum_ext. intros k _. rewrite (IH (fun j q => f j (x / 2 + (Z.of_nat k - Z.of_nat s) :: q))). symmetry. apply sum_scale.
Qed.
Lemma iterated_scale : forall s dl p a u, (iterated s dl (fun q => a * u q) p == a * iterated s dl u p)%Q.
Proof.
  intros s. induction dl as [|dl IH]; intros p a u; cbn [iterated]; [reflexivity|].
  rewrite <- interpolated_scale. apply interpolated_ext. intros q _. apply IH.
Qed.
Lemma iterated_sum : forall (A : Type) s dl (f : A -> list Z -> Q) js p, (iterated s dl (fun q => sum_over (fun j => f j q) js) p == sum_over (fun j => iterated s dl (f j) p) js)%Q.
Proof.
  intros A s. induction dl as [|dl IH]; intros f js p; cbn [iterated]; [reflexivity|].
  rewrite <- interpolated_sum. apply interpolated_ext. intros q _. apply IH.
Qed.

(** ** One direction *)
Lemma interp_child : forall s (v : Z -> Q) x, (s <= 5)%nat ->
  let c := interp_coeffs s (if Z.odd x then -1 else 1)%Q in
  (sum_over (fun k => nth k c 0 * v (x / 2 + (Z.of_nat k - Z.of_nat s))%Z) (seq 0 (length c)) == child1 s v (Z.odd x) (x / 2))%Q.
Proof.
  intros s v x Hs. cbv zeta. generalize (x / 2). generalize (Z.odd x). clear x. intros odd x. unfold child1.
  do 6 (destruct s as [|s]; [destruct odd; cbn -[Qplus Qmult Qminus Qopp Qeq Z.add];
    repeat match goal with |- context [Z.sub ?a ?b] => let v := eval compute in (Z.sub a b) in change (Z.sub a b) with v end;
    rewrite ?Z.add_0_r; ring|]). exfalso; lia.
Qed.

Lemma odd_half : forall x, 2 * (x / 2) + bz (Z.odd x) = x.
Proof. intros x. rewrite Zodd_mod. unfold bz. pose proof (Z.mod_pos_bound x 2 ltac:(lia)). pose proof (Z.div_mod x 2 ltac:(lia)). destruct (Zeq_bool (x mod 2) 1) eqn:E; [apply Zeq_bool_eq in E|apply Zeq_bool_neq in E]; lia. Qed.

Lemma interp_poly : forall s P h x, (s <= 5)%nat -> (length P <= 2 * s + 1)%nat -> ~ (h == 0)%Q ->
  let c := interp_coeffs s (if Z.odd x then -1 else 1)%Q in
  (sum_over (fun k => nth k c 0 * cell_avg P h (x / 2 + (Z.of_nat k - Z.of_nat s))%Z) (seq 0 (length c)) == cell_avg P (h / 2) x)%Q.
Proof.
  intros s P h x Hs Hl Hh. cbv zeta. rewrite (interp_child s (cell_avg P h)) by auto. rewrite poly_child by (auto; lia). rewrite odd_half. reflexivity.
Qed.

(** ** Products of polynomials *)

(** Mean over the cell [p] of the grid of step [h] of the product of the polynomials [ps],
    one for each direction. *)
Fixpoint tensor_avg (ps : list (list Q)) (h : Q) (p : list Z) : Q :=
  match ps, p with P :: ps, x :: p => (cell_avg P h x * tensor_avg ps h p)%Q | _, _ => 1%Q end.

Lemma interpolated_poly : forall s ps h p, (s <= 5)%nat -> Forall (fun P => length P <= 2 * s + 1)%nat ps -> ~ (h == 0)%Q -> length ps = length p ->
  (interpolated s (tensor_avg ps h) p == tensor_avg ps (h / 2) p)%Q.
Proof.
  intros s ps h p Hs. revert ps. induction p as [|x p IH]; intros [|P ps] Hf Hh Hl; try discriminate; cbn [interpolated tensor_avg]; [reflexivity|].
  inversion Hf; subst. injection Hl as Hl. cbv zeta. rewrite <- (interp_poly s P h x) by auto. cbv zeta.
  rewrite Qmult_comm, <- sum_scale. apply sum_ext. intros k _. rewrite interpolated_scale, IH by auto. ring.
Qed.

Lemma cell_avg_ext : forall P h h' x, (h == h')%Q -> (cell_avg P h x == cell_avg P h' x)%Q.
Proof. intros P h h' x E. unfold cell_avg, poly_avg. rewrite E. reflexivity. Qed.
Lemma tensor_avg_ext : forall ps h h' p, (h == h')%Q -> (tensor_avg ps h p == tensor_avg ps h' p)%Q.
Proof.
  induction ps as [|P ps IH]; intros h h' [|x p] E; cbn [tensor_avg]; try reflexivity. rewrite (cell_avg_ext P h h' x E), (IH h h' p E). reflexivity.
Qed.
Lemma pow2_nz : forall k, ~ (inject_Z (2 ^ Z.of_nat k) == 0)%Q.
Proof. intros k E. unfold Qeq in E. cbn in E. pose proof (Z.pow_pos_nonneg 2 (Z.of_nat k)). lia. Qed.

Lemma iterated_poly : forall s dl ps h p, (s <= 5)%nat -> Forall (fun P => length P <= 2 * s + 1)%nat ps -> ~ (h == 0)%Q -> length ps = length p ->
  (iterated s dl (tensor_avg ps h) p == tensor_avg ps (h / inject_Z (2 ^ Z.of_nat dl)) p)%Q.
Proof.
  intros s dl ps h. induction dl as [|dl IH]; intros p Hs Hf Hh Hl; cbn [iterated].
  - apply tensor_avg_ext. change (inject_Z (2 ^ Z.of_nat 0)) with 1%Q. field.
  - rewrite (interpolated_ext s p _ (tensor_avg ps (h / inject_Z (2 ^ Z.of_nat dl)))) by (intros q Hq; apply IH; auto; congruence).
    pose proof (pow2_nz dl) as Hp.
    rewrite interpolated_poly; auto.
    + apply tensor_avg_ext. rewrite Nat2Z.inj_succ, Z.pow_succ_r, inject_Z_mult by lia. change (inject_Z 2) with 2%Q. field. auto.
    + intros E. apply Hh. assert (E' : (h == h / inject_Z (2 ^ Z.of_nat dl) * inject_Z (2 ^ Z.of_nat dl))%Q) by (field; auto). rewrite E', E. ring.
Qed.

(** ** Conservation *)
Lemma range_sum_double : forall (v : Z -> Q) m a,
  (sum_over v (range_from (2 * m) (2 * a) 1) == sum_over (fun x => v (2 * x)%Z + v (2 * x + 1)%Z) (range_from m a 1))%Q.
Proof.
  intros v. induction m as [|m IH]; intros a; [reflexivity|]. replace (2 * S m)%nat with (S (S (2 * m))) by lia. cbn [range_from]. rewrite !sum_cons.
  replace (2 * a + 1 + 1) with (2 * (a + 1)) by lia. rewrite IH. ring.
Qed.

Lemma interp_mean : forall s (v : Z -> Q) a b, (s <= 5)%nat -> a <= b ->
  (sum_over (fun x => let c := interp_coeffs s (if Z.odd x then -1 else 1)%Q in
     sum_over (fun k => nth k c 0 * v (x / 2 + (Z.of_nat k - Z.of_nat s))%Z) (seq 0 (length c))) (range_from (Z.to_nat (2 * b - 2 * a)) (2 * a) 1)
   == 2 * sum_over v (range_from (Z.to_nat (b - a)) a 1))%Q.
Proof.
  intros s v a b Hs Hab. rewrite (sum_ext _ _ (fun x => child1 s v (Z.odd x) (x / 2))) by (intros x _; apply interp_child; auto).
  replace (Z.to_nat (2 * b - 2 * a)) with (2 * Z.to_nat (b - a))%nat by lia. rewrite range_sum_double. rewrite <- sum_scale. apply sum_ext. intros x _.
  replace (Z.odd (2 * x)) with false by (rewrite Z.odd_mul; auto). replace (Z.odd (2 * x + 1)) with true by (rewrite Z.odd_add, Z.odd_mul; auto).
  replace (2 * x / 2) with x by lia. replace ((2 * x + 1) / 2) with x by lia. rewrite (child1_sum s v x) by auto. ring.
Qed.

Lemma block_cons : forall (f : list Z -> Q) a b ii, (sum_over f (block ((a, b) :: ii)) == sum_over (fun x => sum_over (fun q => f (x :: q)) (block ii)) (range_from (Z.to_nat (b - a)) a 1))%Q.
Proof. intros f a b ii. cbn [block]. rewrite sum_flat. apply sum_ext. intros x _. rewrite sum_map. reflexivity. Qed.

Definition zoom (k : Z) (ii : list (Z * Z)) : list (Z * Z) := map (fun '(a, b) => (k * a, k * b)) ii.

Lemma interpolated_mean : forall s ii u, (s <= 5)%nat -> Forall (fun '(a, b) => a <= b) ii ->
  (sum_over (interpolated s u) (block (zoom 2 ii)) == inject_Z (2 ^ Z.of_nat (length ii)) * sum_over u (block ii))%Q.
Proof.
  intros s ii u Hs. revert u. induction ii as [|[a b] ii IH]; intros u Hf; cbn [zoom map length].
  - unfold sum_over. cbn. ring.
  - inversion Hf as [|? ? Hab Hf']; subst. fold (zoom 2 ii). rewrite !block_cons. cbn [interpolated]. cbv zeta.
    pose (H := fun x => sum_over (fun q => u (x :: q)) (block ii)).
    rewrite (sum_ext _ _ (fun x => inject_Z (2 ^ Z.of_nat (length ii)) * (let c := interp_coeffs s (if Z.odd x then -1 else 1)%Q in
     sum_over (fun k => nth k c 0 * H (x / 2 + (Z.of_nat k - Z.of_nat s))%Z) (seq 0 (length c))))%Q).
    + rewrite sum_scale, (interp_mean s H a b) by auto. unfold H. rewrite Nat2Z.inj_succ, Z.pow_succ_r, inject_Z_mult by lia. change (inject_Z 2) with 2%Q. ring.
    + intros x _. cbv zeta. rewrite sum_swap, <- sum_scale. apply sum_ext. intros k _. rewrite sum_scale.
      rewrite (IH (fun q => u (x / 2 + (Z.of_nat k - Z.of_nat s) :: q))) by auto. unfold H. ring.
Qed.

Lemma iterated_mean : forall s dl ii u, (s <= 5)%nat -> Forall (fun '(a, b) => a <= b) ii ->
  (sum_over (iterated s dl u) (block (zoom (2 ^ Z.of_nat dl) ii)) == inject_Z (2 ^ Z.of_nat (length ii * dl)) * sum_over u (block ii))%Q.
Proof.
  intros s dl ii u Hs Hf. induction dl as [|dl IH].
  - replace (zoom (2 ^ Z.of_nat 0) ii) with ii.
    + change (iterated s 0 u) with u. rewrite Nat.mul_0_r. change (inject_Z (2 ^ Z.of_nat 0)) with 1%Q. ring.
    + unfold zoom. rewrite (map_ext _ id); [rewrite map_id; auto|]. intros [a b]. unfold id. f_equal; lia.
  - replace (zoom (2 ^ Z.of_nat (S dl)) ii) with (zoom 2 (zoom (2 ^ Z.of_nat dl) ii)).
    + change (iterated s (S dl) u) with (interpolated s (iterated s dl u)). rewrite interpolated_mean; auto.
      * rewrite IH. unfold zoom. rewrite map_length. replace (length ii * S dl)%nat with (length ii + length ii * dl)%nat by lia.
        rewrite Nat2Z.inj_add, Z.pow_add_r, inject_Z_mult by lia. ring.
      * unfold zoom. apply Forall_map. eapply Forall_impl; [|exact Hf]. intros [a b] Hab. cbn beta iota. pose proof (Z.pow_pos_nonneg 2 (Z.of_nat dl)). nia.
    + unfold zoom. rewrite map_map. apply map_ext. intros [a b]. rewrite Nat2Z.inj_succ, Z.pow_succ_r by lia. rewrite !Z.mul_assoc. reflexivity.
Qed.
