(** Lemmas on the geometry of cells. *)
From Coq Require Import QArith Qround Qabs Lqa.
From Verif Require Import Base IntervalModel LoiModel LcaModel CellArrayModel SubsetModel AdaptModel MeshModel MeshProofs GeomModel.
Open Scope Q_scope.

Lemma zip_nth : forall (A B C : Type) (f : A -> B -> C) a b k da db dc, (k < length a)%nat -> (k < length b)%nat ->
  nth k (zip f a b) dc = f (nth k a da) (nth k b db).
Proof.
  intros A B C f a. induction a as [|x a IH]; intros [|y b] [|k] da db dc H1 H2; cbn in *; try lia; auto. apply IH; lia.
Qed.
Lemma zip_length : forall (A B C : Type) (f : A -> B -> C) a b, length (zip f a b) = Nat.min (length a) (length b).
Proof. intros. unfold zip. rewrite map_length, combine_length. auto. Qed.

Lemma pow2_pos : forall k, 0 < inject_Z (2 ^ Z.of_nat k).
Proof. intros k. change 0 with (inject_Z 0). rewrite <- Zlt_Qlt. apply Z.pow_pos_nonneg; lia. Qed.

Lemma length_pos : forall s l, 0 < s -> 0 < cell_length s l.
Proof. intros s l Hs. unfold cell_length. apply Qlt_shift_div_l; [apply pow2_pos|]. rewrite Qmult_0_l. auto. Qed.
Lemma length_add : forall s l k, cell_length s l == cell_length s (l + k) * inject_Z (2 ^ Z.of_nat k).
Proof.
  intros s l k. unfold cell_length. rewrite Nat2Z.inj_add, Z.pow_add_r, inject_Z_mult by lia. field. split; pose proof (pow2_pos l); pose proof (pow2_pos k); lra.
Qed.
Lemma length_succ : forall s l, cell_length s l == cell_length s (S l) * 2.
Proof. intros s l. rewrite (length_add s l 1). replace (l + 1)%nat with (S l) by lia. reflexivity. Qed.

(** One coordinate: [x] lies in the cell of index [i]. *)
Definition slot (o h : Q) (i : Z) (x : Q) : Prop := o + h * inject_Z i <= x /\ x < o + h * inject_Z i + h.

Lemma slot_floor : forall o h i x, 0 < h -> (slot o h i x <-> i = Qfloor ((x - o) / h)).
Proof.
  intros o h i x Hh. unfold slot. pose proof (Qfloor_le ((x - o) / h)) as F1. pose proof (Qlt_floor ((x - o) / h)) as F2.
  rewrite inject_Z_plus in F2. change (inject_Z 1) with 1 in F2. set (j := Qfloor ((x - o) / h)) in *. clearbody j.
  assert (E : (x - o) == ((x - o) / h) * h) by (field; lra). set (y := (x - o) / h) in *. clearbody y. split.
  - intros [H1 H2]. assert (G1 : inject_Z i < inject_Z (j + 1)) by (rewrite inject_Z_plus; change (inject_Z 1) with 1; nra).
    assert (G2 : inject_Z j < inject_Z (i + 1)) by (rewrite inject_Z_plus; change (inject_Z 1) with 1; nra). rewrite <- Zlt_Qlt in G1, G2. lia.
  - intros ->. split; nra.
Qed.
Lemma slot_unique : forall o h i j x, 0 < h -> slot o h i x -> slot o h j x -> i = j.
Proof. intros o h i j x Hh H1 H2. apply slot_floor in H1, H2; auto. congruence. Qed.
Lemma slot_ext : forall o h h' i x, h == h' -> slot o h i x -> slot o h' i x.
Proof. intros o h h' i x E [H1 H2]. unfold slot. rewrite <- E. auto. Qed.

Lemma slot_up : forall o h i x k, 0 < h -> slot o h i x -> slot o (h * inject_Z (2 ^ Z.of_nat k)) (i / 2 ^ Z.of_nat k) x.
Proof.
  intros o h i x k Hh [H1 H2]. assert (P : (0 < 2 ^ Z.of_nat k)%Z) by (apply Z.pow_pos_nonneg; lia).
  destruct (proj1 (div_iff i (i / 2 ^ Z.of_nat k) _ P) eq_refl) as [D1 D2]. set (w := (2 ^ Z.of_nat k)%Z) in *. set (j := (i / w)%Z) in *. clearbody w j.
  assert (Q1 : inject_Z j * inject_Z w <= inject_Z i) by (rewrite <- inject_Z_mult, <- Zle_Qle; lia).
  assert (Q2 : inject_Z i + 1 <= (inject_Z j + 1) * inject_Z w).
  { change 1 with (inject_Z 1). rewrite <- !inject_Z_plus, <- inject_Z_mult, <- Zle_Qle. lia. }
  unfold slot. split; nra.
Qed.
Lemma slot_corner : forall o h i, 0 < h -> slot o h i (o + h * inject_Z i).
Proof. intros o h i Hh. unfold slot. split; lra. Qed.

(** ** approximate_box *)
Fixpoint halved (i : nat) (sub : Q) : Q := match i with O => sub | S i => halved i (sub / 2) end.

Lemma halved_pow : forall i sub, halved i sub * inject_Z (2 ^ Z.of_nat i) == sub.
Proof.
  induction i as [|i IH]; intros sub; [cbn; ring|]. cbn [halved]. rewrite Nat2Z.inj_succ, Z.pow_succ_r, inject_Z_mult by lia.
  transitivity (halved i (sub / 2) * inject_Z (2 ^ Z.of_nat i) * 2); [change (inject_Z 2) with 2; ring|]. rewrite IH. field.
Qed.
Lemma halved_pos : forall i sub, 0 < sub -> 0 < halved i sub.
Proof.
  intros i sub H. pose proof (halved_pow i sub) as E. pose proof (pow2_pos i) as P. destruct (Qlt_le_dec 0 (halved i sub)) as [|C]; auto. nra.
Qed.

Lemma ceil_bounds : forall x s, 0 < s -> let a := inject_Z (Qceiling (x / s)) * s in x <= a /\ a < x + s.
Proof.
  intros x s Hs a. unfold a. pose proof (Qle_ceiling (x / s)) as C1. pose proof (Qceiling_lt (x / s)) as C2.
  replace (Qceiling (x / s) - 1)%Z with (Qceiling (x / s) + - (1))%Z in C2 by lia. rewrite inject_Z_plus in C2.
  change (inject_Z (- (1))) with (-(1)) in C2. assert (E : x == (x / s) * s) by (field; lra). set (c := inject_Z (Qceiling (x / s))) in *. set (y := x / s) in *. clearbody c y. split; nra.
Qed.

Definition close (tol s x : Q) : Prop := inject_Z (Qceiling (x / s)) * s - x <= tol * x.

Lemma too_far_false : forall tol s lens, 0 < s -> (too_far tol lens (approx_length lens s) = false <-> forall x, In x lens -> close tol s x).
Proof.
  intros tol s lens Hs. unfold too_far, approx_length. induction lens as [|x lens IH]; cbn [map combine existsb].
  - split; auto. intros _ x [].
  - rewrite orb_false_iff, IH. rewrite negb_false_iff, Qle_bool_iff. pose proof (ceil_bounds x s Hs) as [C1 C2]. rewrite Qabs_pos by lra. cbn [In]. unfold close. split.
    + intros [H1 H2] y [<-|Hy]; auto.
    + intros H. split; auto.
Qed.

Lemma halve_spec : forall tol lens j fuel sub, (j < fuel)%nat -> 0 < sub -> (forall x, In x lens -> halved j sub <= tol * x) ->
  exists i, (i <= j)%nat /\ halve_loop fuel tol lens sub = Some (halved i sub) /\ (forall x, In x lens -> close tol (halved i sub) x) /\
    forall i', (i' < i)%nat -> ~ forall x, In x lens -> close tol (halved i' sub) x.
Proof.
  intros tol lens j. induction j as [|j IH]; intros [|fuel] sub Hf Hs HB; try lia; cbn [halve_loop].
  - assert (F : too_far tol lens (approx_length lens sub) = false).
    { apply too_far_false; auto. intros x Hx. specialize (HB x Hx). cbn [halved] in HB. pose proof (ceil_bounds x sub Hs) as [C1 C2]. unfold close. lra. }
    rewrite F. exists 0%nat. split; auto. split; auto. split; [apply too_far_false; auto|]. intros; lia.
  - destruct (too_far tol lens (approx_length lens sub)) eqn:F.
    + assert (Hs2 : 0 < sub / 2) by (apply Qlt_shift_div_l; lra).
      destruct (IH fuel (sub / 2)) as (i & Hi & E & C & M); auto; [lia|]. exists (S i). split; [lia|]. split; [exact E|]. split; [exact C|].
      intros [|i'] Hi'; [|apply M; lia]. cbn [halved]. intros H. apply (too_far_false tol sub lens Hs) in H. congruence.
    + exists 0%nat. split; [lia|]. split; auto. split; [apply too_far_false; auto|]. intros; lia.
Qed.

Lemma tol_pow : forall tol, 0 < tol -> 1 <= tol * inject_Z (2 ^ Z.of_nat (Pos.to_nat (Qden tol))).
Proof.
  intros [a b] H. cbn [Qden]. assert (Ha : (0 < a)%Z) by (unfold Qlt in H; cbn in H; lia).
  assert (P : (Z.pos b <= 2 ^ Z.of_nat (Pos.to_nat b))%Z) by (rewrite positive_nat_Z; apply Z.lt_le_incl, Z.pow_gt_lin_r; lia).
  unfold Qle, Qmult, inject_Z. cbn [Qnum Qden]. rewrite Pos.mul_1_r, Z.mul_1_r. nia.
Qed.

Lemma truncate_int : forall q m, q == inject_Z m -> truncate q = m.
Proof.
  intros [a b] m H. unfold Qeq, inject_Z in H. cbn in H. unfold truncate. cbn [Qnum Qden]. rewrite Z.mul_1_r in H. subst a. apply Z.quot_mul. lia.
Qed.

Lemma min_from_spec : forall xs m, (min_from m xs <= m) /\ (forall x, In x xs -> min_from m xs <= x) /\ (min_from m xs = m \/ In (min_from m xs) xs).
Proof.
  induction xs as [|x xs IH]; intros m; cbn [min_from]; [split; [lra|]; split; [intros x []|auto]|].
  destruct (Qle_bool m x) eqn:E.
  - apply Qle_bool_iff in E. destruct (IH m) as (H1 & H2 & H3). split; auto. split; [intros y [<-|Hy]; [lra|auto]|]. destruct H3; [auto|right; right; auto].
  - assert (L : x < m) by (destruct (Qlt_le_dec x m) as [|C]; auto; apply Qle_bool_iff in C; congruence).
    destruct (IH x) as (H1 & H2 & H3). split; [lra|]. split; [intros y [<-|Hy]; [auto|auto]|]. right. destruct H3 as [H3|H3]; [left; auto|right; auto].
Qed.
