(** Property C50: the geometry of cells. *)
From Coq Require Import QArith Qround Qabs Lqa.
From Verif Require Import Base IntervalModel LoiModel LcaModel LcaSpec CellArrayModel CellArrayProofs PropsLca PropsCellArray SubsetModel SubsetSpec SubsetProofs2 PropsSubset
  NumberingProofs StencilModel MeshModel MeshProofs AdaptModel AdaptProofs PropsAdapt InterfaceModel PropsInterface GeomModel GeomProofs.
Open Scope Q_scope.

(** The point [x] lies in the half open box of the cell. *)
Definition inside (n : nat) (c : cell) (x : list Q) : Prop :=
  forall k, (k <= n)%nat -> nth k (corner c) 0 <= nth k x 0 /\ nth k x 0 < nth k (corner c) 0 + cl_length c.

Section Geometry.
  Context (n : nat) (origin : list Q) (scaling : Q) (HO : length origin = S n) (HS : 0 < scaling).
  Let the (l : nat) (p : list Z) := make_cell origin scaling l p.

  Lemma corner_nth : forall l p i k, length p = S n -> (k <= n)%nat ->
    nth k (corner (the l p i)) 0 = nth k origin 0 + cell_length scaling l * inject_Z (nth k p 0%Z).
  Proof.
    intros l p i k Hp Hk. unfold corner. cbn [the make_cell cl_origin cl_indices cl_length].
    apply (zip_nth Q Z Q (fun o i => o + cell_length scaling l * inject_Z i)); rewrite ?HO, ?Hp; lia.
  Qed.
  Lemma center_nth : forall l p i k, length p = S n -> (k <= n)%nat ->
    nth k (center (the l p i)) 0 = nth k origin 0 + cell_length scaling l * (inject_Z (nth k p 0%Z) + (1 # 2)).
  Proof.
    intros l p i k Hp Hk. unfold center. cbn [the make_cell cl_origin cl_indices cl_length].
    apply (zip_nth Q Z Q (fun o i => o + cell_length scaling l * (inject_Z i + (1 # 2)))); rewrite ?HO, ?Hp; lia.
  Qed.
  Lemma inside_slot : forall l p i x, length p = S n ->
    (inside n (the l p i) x <-> forall k, (k <= n)%nat -> slot (nth k origin 0) (cell_length scaling l) (nth k p 0%Z) (nth k x 0)).
  Proof.
    intros l p i x Hp. unfold inside, slot. split; intros H k Hk; specialize (H k Hk).
    - rewrite corner_nth in H by auto. exact H.
    - rewrite corner_nth by auto. exact H.
  Qed.

  (** At every level a point lies in exactly one cell. *)
  Lemma containing : forall l x, exists p, length p = S n /\ forall q i, length q = S n -> (inside n (the l q i) x <-> q = p).
  Proof.
    intros l x. pose proof (length_pos scaling l HS) as P.
    exists (map (fun k => Qfloor ((nth k x 0 - nth k origin 0) / cell_length scaling l)) (seq 0 (S n))).
    split; [rewrite map_length, seq_length; auto|]. intros q i Hq. rewrite inside_slot by auto. split.
    - intros H. apply (list_ext n); [auto|rewrite map_length, seq_length; auto|]. intros k Hk.
      rewrite (PropsGrad.nth_map_seq (S n)) by lia. apply slot_floor; auto.
    - intros -> k Hk. rewrite (PropsGrad.nth_map_seq (S n)) by lia. apply slot_floor; auto.
  Qed.

  Lemma inside_ancestor : forall l k q i j x, length q = S n -> inside n (the (l + k) q i) x -> inside n (the l (ancestor k q) j) x.
  Proof.
    intros l k q i j x Hq H. rewrite inside_slot in H by auto. rewrite inside_slot by (rewrite ancestor_length; auto). intros d Hd.
    rewrite nth_ancestor. eapply slot_ext; [symmetry; apply (length_add scaling l k)|]. apply slot_up; auto. apply length_pos; auto.
  Qed.
End Geometry.

Theorem C50_containing_cell : forall n origin scaling x, length origin = S n -> 0 < scaling ->
  (forall l, exists p, length p = S n /\ forall q i, length q = S n -> (inside n (make_cell origin scaling l q i) x <-> q = p)) /\
  (forall l k p q i j, length p = S n -> length q = S n -> inside n (make_cell origin scaling l p i) x ->
     inside n (make_cell origin scaling (l + k) q j) x -> forall d, (d <= n)%nat -> nth d p 0%Z = (nth d q 0 / 2 ^ Z.of_nat k)%Z).
Proof.
  intros n origin scaling x HO HS. split; [intros l; apply containing; auto|].
  intros l k p q i j Hp Hq H1 H2 d Hd. apply (inside_ancestor n origin scaling HO HS l k q j i) in H2; auto.
  destruct (containing n origin scaling HO HS l x) as (r & _ & Hr). apply Hr in H1; auto. apply Hr in H2; [|rewrite ancestor_length; auto].
  rewrite H1, <- H2, nth_ancestor. reflexivity.
Qed.

(** The children 2 p + {0, 1}^dim tile the cell [p], and are half as long. *)
Theorem C50_children_tile : forall n origin scaling l p i x, length origin = S n -> 0 < scaling -> length p = S n ->
  let child q := length q = S n /\ forall k, (k <= n)%nat -> (nth k q 0 = 2 * nth k p 0 \/ nth k q 0 = 2 * nth k p 0 + 1)%Z in
  let fine q := make_cell origin scaling (S l) q i in
  (inside n (make_cell origin scaling l p i) x <-> exists q, child q /\ inside n (fine q) x) /\
  (forall q q', child q -> child q' -> inside n (fine q) x -> inside n (fine q') x -> q = q') /\
  forall q, 2 * cl_length (fine q) == cl_length (make_cell origin scaling l p i).
Proof.
  intros n origin scaling l p i x HO HS Hp child fine.
  assert (AC : forall q, length q = S n -> (ancestor 1 q = p <-> child q)).
  { intros q Hq. split.
    - intros E. split; auto. intros k Hk. assert (Ek : nth k (ancestor 1 q) 0%Z = nth k p 0%Z) by congruence. rewrite nth_ancestor in Ek.
      change (2 ^ Z.of_nat 1)%Z with 2%Z in Ek. apply div_iff in Ek; lia.
    - intros [_ H]. apply (list_ext n); [rewrite ancestor_length; auto|auto|]. intros k Hk. rewrite nth_ancestor. change (2 ^ Z.of_nat 1)%Z with 2%Z.
      apply div_iff; [lia|]. specialize (H k Hk). lia. }
  destruct (containing n origin scaling HO HS l x) as (r & Lr & Hr). destruct (containing n origin scaling HO HS (S l) x) as (r' & Lr' & Hr').
  assert (UP : ancestor 1 r' = r).
  { apply (Hr _ i); [rewrite ancestor_length; auto|]. apply (inside_ancestor n origin scaling HO HS l 1 r' i); auto.
    replace (l + 1)%nat with (S l) by lia. apply Hr'; auto. }
  split; [|split].
  - split.
    + intros H. apply Hr in H; auto. exists r'. split; [|apply Hr'; auto]. apply AC; congruence.
    + intros (q & Hc & H). apply Hr' in H; [|apply Hc]. subst q. apply AC in Hc; auto. apply Hr; congruence.
  - intros q q' Hq Hq' H H'. apply Hr' in H; [|apply Hq]. apply Hr' in H'; [|apply Hq']. congruence.
  - intros q. cbn [cl_length make_cell fine]. rewrite (length_succ scaling l). ring.
Qed.

(** Two cells meet exactly when the finer one descends from the coarser one, so that
    [no_overlap] says that the boxes of the leaves are disjoint. *)
Theorem C50_overlap : forall n origin scaling l1 p l2 q i j, length origin = S n -> 0 < scaling -> length p = S n -> length q = S n -> (l1 <= l2)%nat ->
  ((exists x, inside n (make_cell origin scaling l1 p i) x /\ inside n (make_cell origin scaling l2 q j) x) <->
   forall k, (k <= n)%nat -> (nth k q 0 / 2 ^ Z.of_nat (l2 - l1) = nth k p 0)%Z).
Proof.
  intros n origin scaling l1 p l2 q i j HO HS Hp Hq Hl.
  assert (El : l2 = (l1 + (l2 - l1))%nat) by lia. set (k := (l2 - l1)%nat) in *. clearbody k. subst l2. split.
  - intros (x & H1 & H2) d Hd. symmetry. apply (proj2 (C50_containing_cell n origin scaling x HO HS) l1 k p q i j); auto.
  - intros H. exists (corner (make_cell origin scaling (l1 + k) q j)).
    assert (H2 : inside n (make_cell origin scaling (l1 + k) q j) (corner (make_cell origin scaling (l1 + k) q j))).
    { apply (inside_slot n origin scaling HO); auto. intros d Hd. rewrite corner_nth with (n := n) by auto. apply slot_corner. apply length_pos; auto. }
    split; auto. replace p with (ancestor k q); [apply (inside_ancestor n origin scaling HO HS l1 k q j); auto|].
    apply (list_ext n); [rewrite ancestor_length; auto|auto|]. intros d Hd. rewrite nth_ancestor. auto.
Qed.

(** The integer test [share_face] of C47 is the geometric one: in direction [d] the
    first box ends where the second begins, in the others the boxes overlap. *)
Theorem C50_shared_faces : forall n d origin scaling l1 p l2 q i j, length origin = S n -> 0 < scaling -> length p = S n -> length q = S n -> (d <= n)%nat ->
  let a := make_cell origin scaling l1 p i in let b := make_cell origin scaling l2 q j in
  (share_face n d l1 p l2 q <->
   nth d (corner a) 0 + cl_length a == nth d (corner b) 0 /\
   forall k, (k <= n)%nat -> k <> d -> nth k (corner a) 0 < nth k (corner b) 0 + cl_length b /\ nth k (corner b) 0 < nth k (corner a) 0 + cl_length a).
Proof.
  intros n d origin scaling l1 p l2 q i j HO HS Hp Hq Hd a b.
  pose proof (pow2_pos l1) as P1. pose proof (pow2_pos l2) as P2.
  assert (E1 : cell_length scaling l1 * inject_Z (2 ^ Z.of_nat l1) == scaling) by (unfold cell_length; field; lra).
  assert (E2 : cell_length scaling l2 * inject_Z (2 ^ Z.of_nat l2) == scaling) by (unfold cell_length; field; lra).
  pose proof (length_pos scaling l1 HS) as L1. pose proof (length_pos scaling l2 HS) as L2.
  assert (EL : cell_length scaling l1 == cell_length scaling l2 * inject_Z (2 ^ Z.of_nat l2) / inject_Z (2 ^ Z.of_nat l1)) by (rewrite E2; unfold cell_length; reflexivity).
  (* multiply by w1 w2 / scaling *)
  assert (LT : forall u v, (u * 2 ^ Z.of_nat l2 < v * 2 ^ Z.of_nat l1)%Z <-> cell_length scaling l1 * inject_Z u < cell_length scaling l2 * inject_Z v).
  { intros u v. rewrite Zlt_Qlt, !inject_Z_mult. set (w1 := inject_Z (2 ^ Z.of_nat l1)) in *. set (w2 := inject_Z (2 ^ Z.of_nat l2)) in *.
    set (h1 := cell_length scaling l1) in *. set (h2 := cell_length scaling l2) in *. set (uu := inject_Z u). set (vv := inject_Z v). clearbody w1 w2 h1 h2 uu vv.
    assert (A : (uu * w2) * (h1 * h2) == (h1 * uu) * scaling) by (rewrite <- E2; ring). assert (B : (vv * w1) * (h1 * h2) == (h2 * vv) * scaling) by (rewrite <- E1; ring).
    assert (HH : 0 < h1 * h2) by nra. clear - A B HS HH. split; intros H.
    - apply (Qmult_lt_r _ _ scaling HS). rewrite <- A, <- B. apply (Qmult_lt_r _ _ _ HH). exact H.
    - apply (Qmult_lt_r _ _ _ HH). rewrite A, B. apply (Qmult_lt_r _ _ scaling HS). exact H. }
  assert (LT' : forall u v, (v * 2 ^ Z.of_nat l1 < u * 2 ^ Z.of_nat l2)%Z <-> cell_length scaling l2 * inject_Z v < cell_length scaling l1 * inject_Z u).
  { intros u v. rewrite Zlt_Qlt, !inject_Z_mult. set (w1 := inject_Z (2 ^ Z.of_nat l1)) in *. set (w2 := inject_Z (2 ^ Z.of_nat l2)) in *.
    set (h1 := cell_length scaling l1) in *. set (h2 := cell_length scaling l2) in *. set (uu := inject_Z u). set (vv := inject_Z v). clearbody w1 w2 h1 h2 uu vv.
    assert (A : (uu * w2) * (h1 * h2) == (h1 * uu) * scaling) by (rewrite <- E2; ring). assert (B : (vv * w1) * (h1 * h2) == (h2 * vv) * scaling) by (rewrite <- E1; ring).
    assert (HH : 0 < h1 * h2) by nra. clear - A B HS HH. split; intros H.
    - apply (Qmult_lt_r _ _ scaling HS). rewrite <- A, <- B. apply (Qmult_lt_r _ _ _ HH). exact H.
    - apply (Qmult_lt_r _ _ _ HH). rewrite A, B. apply (Qmult_lt_r _ _ scaling HS). exact H. }
  assert (EQ : forall u v, (u * 2 ^ Z.of_nat l2 = v * 2 ^ Z.of_nat l1)%Z <-> cell_length scaling l1 * inject_Z u == cell_length scaling l2 * inject_Z v).
  { intros u v. pose proof (LT u v). pose proof (LT' u v). split.
    - intros E. destruct (Q_dec (cell_length scaling l1 * inject_Z u) (cell_length scaling l2 * inject_Z v)) as [[C|C]|C]; auto; exfalso; [apply H in C|apply H0 in C]; lia.
    - intros E. destruct (Z.lt_trichotomy (u * 2 ^ Z.of_nat l2) (v * 2 ^ Z.of_nat l1)) as [C|[C|C]]; auto; exfalso; [apply H in C|apply H0 in C]; lra. }
  assert (CA : forall k, (k <= n)%nat -> nth k (corner a) 0 = nth k origin 0 + cell_length scaling l1 * inject_Z (nth k p 0%Z)) by (intros; apply corner_nth with (n := n); auto).
  assert (CB : forall k, (k <= n)%nat -> nth k (corner b) 0 = nth k origin 0 + cell_length scaling l2 * inject_Z (nth k q 0%Z)) by (intros; apply corner_nth with (n := n); auto).
  unfold share_face. rewrite EQ, CA, CB by auto. cbn [cl_length make_cell a b]. rewrite inject_Z_plus. change (inject_Z 1) with 1. split.
  - intros [H1 H2]. split; [lra|]. intros k Hk Hne. destruct (H2 k Hk Hne) as [H3 H4]. apply LT in H3. apply LT' in H4. rewrite inject_Z_plus in H3, H4. change (inject_Z 1) with 1 in H3, H4.
    rewrite CA, CB by auto. split; lra.
  - intros [H1 H2]. split; [lra|]. intros k Hk Hne. destruct (H2 k Hk Hne) as [H3 H4]. rewrite CA, CB in H3, H4 by auto. split; [apply LT|apply LT']; rewrite inject_Z_plus; change (inject_Z 1) with 1; lra.
Qed.

(** corner(i) and center(i) are the entries of corner() and center(); the centre is the
    middle of the box; the centre of a face lies on it, and is the same from both sides. *)
Theorem C50_centers : forall n origin scaling l p i, length origin = S n -> 0 < scaling -> length p = S n -> let c := make_cell origin scaling l p i in
  (forall k, (k <= n)%nat -> nth k (corner c) 0 = corner_at c k /\ nth k (center c) 0 = center_at c k /\
     nth k (center c) 0 == nth k (corner c) 0 + cl_length c / 2) /\
  inside n c (center c) /\
  (forall d k, (d <= n)%nat -> (k <= n)%nat ->
     nth k (face_center c (unit_mult n d 1)) 0 == (if Nat.eqb k d then nth k (corner c) 0 + cl_length c else nth k (center c) 0) /\
     nth k (face_center c (unit_mult n d (-1))) 0 == (if Nat.eqb k d then nth k (corner c) 0 else nth k (center c) 0)) /\
  forall d k j, (d <= n)%nat -> (k <= n)%nat ->
     nth k (face_center c (unit_mult n d 1)) 0 == nth k (face_center (make_cell origin scaling l (vadd n p (unit_mult n d 1)) j) (unit_mult n d (-1))) 0.
Proof.
  intros n origin scaling l p i HO HS Hp c. pose proof (length_pos scaling l HS) as P.
  assert (CK : forall p i k, length p = S n -> (k <= n)%nat -> nth k (center (make_cell origin scaling l p i)) 0 == nth k (corner (make_cell origin scaling l p i)) 0 + cell_length scaling l / 2).
  { intros p' i' k Hp' Hk. rewrite center_nth with (n := n), corner_nth with (n := n) by auto. field. }
  assert (FC : forall p i d s k, length p = S n -> (d <= n)%nat -> (k <= n)%nat -> nth k (face_center (make_cell origin scaling l p i) (unit_mult n d s)) 0 ==
    nth k (center (make_cell origin scaling l p i)) 0 + (cell_length scaling l / 2) * inject_Z (if Nat.eqb k d then s else 0%Z)).
  { intros p' i' d s k Hp' Hd Hk. unfold face_center. rewrite <- (nth_unit n d s k Hk).
    rewrite (zip_nth Q Z Q (fun x d => x + cl_length (make_cell origin scaling l p' i') / 2 * inject_Z d) _ _ k 0 0%Z); [reflexivity| |rewrite unit_length; lia].
    unfold center. rewrite zip_length. cbn [cl_origin cl_indices make_cell]. rewrite HO, Hp'. lia. }
  split; [|split; [|split]].
  - intros k Hk. split; [apply corner_nth with (n := n); auto|]. split; [apply center_nth with (n := n); auto|]. apply CK; auto.
  - intros k Hk. unfold c. rewrite CK by auto. cbn [cl_length make_cell]. assert (E2 : cell_length scaling l / 2 * 2 == cell_length scaling l) by field. split; lra.
  - intros d k Hd Hk. unfold c. rewrite (FC p i d 1%Z k), (FC p i d (-1)%Z k) by auto. cbn [cl_length make_cell].
    destruct (Nat.eqb k d); [rewrite CK by auto; split; [change (inject_Z 1) with 1|change (inject_Z (-1)) with (-(1))]; field|]. change (inject_Z 0) with 0. split; ring.
  - intros d k j Hd Hk. unfold c. rewrite (FC p i d 1%Z k), (FC _ j d (-1)%Z k) by (auto; apply vadd_length). rewrite (CK p i k), (CK _ j k) by (auto; apply vadd_length).
    rewrite (corner_nth n origin scaling HO l p i k), (corner_nth n origin scaling HO l _ j k) by (auto; apply vadd_length). rewrite nth_vadd, nth_unit by auto. rewrite inject_Z_plus.
    destruct (Nat.eqb k d); [change (inject_Z 1) with 1; change (inject_Z (-1)) with (-(1))|change (inject_Z 0) with 0]; field.
Qed.

(** get_cell: the cell at the given coordinates, with its number in the mesh. *)
Theorem C50_get_cell : forall n m hist origin scaling, good_hist n m hist -> let c := client_ca n m hist true in
  forall l p, client_cell n m hist l p ->
  exists e, ca_get_cell n origin scaling c l p = Some e /\ cl_origin e = origin /\ cl_level e = l /\ cl_indices e = p /\
    cl_length e = scaling / inject_Z (2 ^ Z.of_nat l) /\ (0 <= cl_index e < ca_nb_cells c)%Z /\
    forall l' p' e', client_cell n m hist l' p' -> ca_get_cell n origin scaling c l' p' = Some e' -> cl_index e' = cl_index e -> l' = l /\ p' = p.
Proof.
  intros n m hist origin scaling G c l p Hp. pose proof (numbered_client n m hist G) as N.
  assert (M : forall l p, client_cell n m hist l p -> ca_mem n c l p) by (intros; apply client_mem; auto).
  destruct (numbered_index n c l p N (M _ _ Hp)) as (k & Ek & Hk). exists (make_cell origin scaling l p k). unfold ca_get_cell. rewrite Ek.
  split; [reflexivity|]. split; [reflexivity|]. split; [reflexivity|]. split; [reflexivity|]. split; [reflexivity|]. split; [exact Hk|].
  intros l' p' e' Hp' E' EI. destruct (numbered_index n c l' p' N (M _ _ Hp')) as (k' & Ek' & _). rewrite Ek' in E'. injection E' as <-. cbn in EI. subst k'.
  apply (numbered_inj n c l' p' l p k N); auto.
Qed.

(** ** The domain built on a box *)

Definition valid_box (n : nat) (bmin bmax : list Q) : Prop := length bmin = S n /\ length bmax = S n /\ forall k, (k <= n)%nat -> nth k bmin 0 < nth k bmax 0.

(** The region covered by the cells of the array. *)
Definition region (n level : nat) (origin : list Q) (scaling : Q) (a : lca) (x : list Q) : Prop :=
  exists p, lca_mem n a p /\ inside n (make_cell origin scaling level p 0) x.

Lemma box_length_nth : forall n bmin bmax k, length bmin = S n -> length bmax = S n -> (k <= n)%nat -> nth k (box_length bmin bmax) 0 = nth k bmax 0 - nth k bmin 0.
Proof. intros n bmin bmax k H1 H2 Hk. unfold box_length. apply (zip_nth Q Q Q (fun a b => b - a)); lia. Qed.
Lemma box_length_In : forall n bmin bmax x, length bmin = S n -> length bmax = S n -> In x (box_length bmin bmax) -> exists k, (k <= n)%nat /\ x = nth k bmax 0 - nth k bmin 0.
Proof.
  intros n bmin bmax x H1 H2 Hx. apply (In_nth _ _ 0) in Hx as (k & Hk & <-). unfold box_length in Hk. rewrite zip_length, H1, H2, Nat.min_id in Hk.
  exists k. split; [lia|]. apply (box_length_nth n); auto. lia.
Qed.

Definition extent (bmin bmax : list Q) (s : Q) (k : nat) : Q := inject_Z (Qceiling ((nth k bmax 0 - nth k bmin 0) / s)) * s.

Lemma domain_region : forall n level bmin bmax s, valid_box n bmin bmax -> 0 < s ->
  let a := lca_of_box n level (repeat 0%Z (S n))
    (map (fun x => truncate (x / cell_length s level)) (box_length bmin (zip Qplus bmin (approx_length (box_length bmin bmax) s)))) in
  a_level a = level /\ wf n a /\ forall x, region n level bmin s a x <-> forall k, (k <= n)%nat -> nth k bmin 0 <= nth k x 0 /\ nth k x 0 < nth k bmin 0 + extent bmin bmax s k.
Proof.
  intros n level bmin bmax s (H1 & H2 & HV) Hs a. pose proof (length_pos s level Hs) as P. pose proof (pow2_pos level) as PW.
  set (N := fun k => (Qceiling ((nth k bmax 0 - nth k bmin 0) / s)%Q * 2 ^ Z.of_nat level)%Z).
  assert (LL : length (box_length bmin bmax) = S n) by (unfold box_length; rewrite zip_length; lia).
  assert (EP : forall k, (k <= n)%nat -> nth k (map (fun x => truncate (x / cell_length s level)) (box_length bmin (zip Qplus bmin (approx_length (box_length bmin bmax) s)))) 0%Z = N k).
  { intros k Hk. assert (LA : length (zip Qplus bmin (approx_length (box_length bmin bmax) s)) = S n) by (rewrite zip_length; unfold approx_length; rewrite map_length; lia).
    rewrite (nth_indep _ 0%Z (truncate (0 / cell_length s level))) by (rewrite map_length; unfold box_length at 1; rewrite zip_length, LA, H1; lia).
    rewrite (map_nth (fun x => truncate (x / cell_length s level))). apply truncate_int. rewrite (box_length_nth n) by auto.
    rewrite (zip_nth Q Q Q Qplus bmin _ k 0 0) by (unfold approx_length; rewrite ?map_length; lia). unfold approx_length.
    rewrite (nth_indep (map _ _) 0 (inject_Z (Qceiling (0 / s)) * s)) by (rewrite map_length; lia).
    rewrite (map_nth (fun x => inject_Z (Qceiling (x / s)) * s)). rewrite (box_length_nth n) by auto. unfold N. rewrite inject_Z_mult. unfold cell_length. field. lra. }
  assert (CE : forall k, (k <= n)%nat -> (0 < Qceiling ((nth k bmax 0 - nth k bmin 0) / s)%Q)%Z).
  { intros k Hk. specialize (HV k Hk). rewrite Zlt_Qlt. change (inject_Z 0) with 0. pose proof (ceil_bounds (nth k bmax 0 - nth k bmin 0) s Hs) as [C _].
    set (c := inject_Z (Qceiling ((nth k bmax 0 - nth k bmin 0) / s))) in *. clearbody c. nra. }
  assert (W2 : (0 < 2 ^ Z.of_nat level)%Z) by (apply Z.pow_pos_nonneg; lia).
  destruct (C14_box_array n level (repeat 0%Z (S n)) (map (fun x => truncate (x / cell_length s level)) (box_length bmin (zip Qplus bmin (approx_length (box_length bmin bmax) s))))) as (A1 & A2 & A3 & _).
  { intros d Hd. rewrite nth_repeat, EP by auto. unfold N. specialize (CE d Hd). nia. }
  split; [exact A1|]. split; [exact A2|]. intros x. unfold region.
  assert (HN : forall k, (k <= n)%nat -> inject_Z (N k) * cell_length s level == extent bmin bmax s k).
  { intros k Hk. unfold N, extent. rewrite inject_Z_mult. unfold cell_length. field. lra. }
  split.
  - intros (p & Hp & Hin) k Hk. apply A3 in Hp as [Lp Hp]. specialize (Hp k Hk). rewrite nth_repeat, EP in Hp by auto.
    pose proof (proj1 (inside_slot n bmin s H1 level p 0%Z x Lp) Hin) as Hsl. destruct (Hsl k Hk) as [S1 S2].
    assert (Q1 : 0 <= inject_Z (nth k p 0%Z)) by (change 0 with (inject_Z 0); rewrite <- Zle_Qle; lia).
    assert (Q2 : inject_Z (nth k p 0%Z) + 1 <= inject_Z (N k)) by (change 1 with (inject_Z 1); rewrite <- inject_Z_plus, <- Zle_Qle; lia).
    rewrite <- HN by auto. split; nra.
  - intros H. destruct (containing n bmin s H1 Hs level x) as (p & Lp & Hp). exists p. split; [|apply Hp; auto]. apply A3. split; auto. intros k Hk.
    rewrite nth_repeat, EP by auto. assert (Hin : inside n (make_cell bmin s level p 0) x) by (apply Hp; auto).
    pose proof (proj1 (inside_slot n bmin s H1 level p 0%Z x Lp) Hin) as Hsl. destruct (Hsl k Hk) as [S1 S2]. destruct (H k Hk) as [G1 G2]. rewrite <- HN in G2 by auto.
    assert (Q1 : inject_Z 0 < inject_Z (nth k p 0%Z + 1)) by (rewrite inject_Z_plus; change (inject_Z 1) with 1; change (inject_Z 0) with 0; nra).
    assert (Q2 : inject_Z (nth k p 0%Z) < inject_Z (N k)) by nra. rewrite <- Zlt_Qlt in Q1, Q2. lia.
Qed.

(** With a given scaling factor: the domain covers the box and sticks out by less than
    one unit, whatever the level. *)
Theorem C51_domain_given : forall n bmin bmax scaling, valid_box n bmin bmax -> 0 < scaling ->
  exists ext : nat -> Q, (forall k, (k <= n)%nat -> nth k bmax 0 - nth k bmin 0 <= ext k /\ ext k < nth k bmax 0 - nth k bmin 0 + scaling) /\
  forall level fuel tol, exists a, lca_of_domain fuel n level bmin bmax tol scaling = Some (a, scaling) /\ a_level a = level /\ wf n a /\
    forall x, region n level bmin scaling a x <-> forall k, (k <= n)%nat -> nth k bmin 0 <= nth k x 0 /\ nth k x 0 < nth k bmin 0 + ext k.
Proof.
  intros n bmin bmax s HV Hs. exists (extent bmin bmax s). split; [intros k Hk; apply ceil_bounds; auto|]. intros level fuel tol.
  assert (B : Qle_bool s 0 = false) by (destruct (Qle_bool s 0) eqn:E; auto; apply Qle_bool_iff in E; lra).
  unfold lca_of_domain, approximate_box. rewrite B. cbn [negb fst snd]. eexists. split; [reflexivity|]. apply domain_region; auto.
Qed.

(** Without one: the loop ends, the scaling factor is the shortest side divided by the
    smallest power of two for which multiples of it approximate every side within the
    tolerance, and the domain covers the box and is within the tolerance. *)
Theorem C51_domain_fitted : forall n bmin bmax tol scaling, valid_box n bmin bmax -> 0 < tol -> scaling <= 0 ->
  exists s i m (ext : nat -> Q), 0 < s /\ s * inject_Z (2 ^ Z.of_nat i) == m /\
    (forall k, (k <= n)%nat -> m <= nth k bmax 0 - nth k bmin 0) /\ (exists k, (k <= n)%nat /\ m == nth k bmax 0 - nth k bmin 0) /\
    (forall k, (k <= n)%nat -> nth k bmax 0 - nth k bmin 0 <= ext k /\ ext k <= (1 + tol) * (nth k bmax 0 - nth k bmin 0)) /\
    (forall j s', (j < i)%nat -> s' * inject_Z (2 ^ Z.of_nat j) == m -> ~ forall k, (k <= n)%nat -> exists c : Z,
       nth k bmax 0 - nth k bmin 0 <= inject_Z c * s' /\ inject_Z c * s' <= (1 + tol) * (nth k bmax 0 - nth k bmin 0)) /\
  forall level fuel, (Pos.to_nat (Qden tol) < fuel)%nat ->
    exists a, lca_of_domain fuel n level bmin bmax tol scaling = Some (a, s) /\ a_level a = level /\ wf n a /\
    forall x, region n level bmin s a x <-> forall k, (k <= n)%nat -> nth k bmin 0 <= nth k x 0 /\ nth k x 0 < nth k bmin 0 + ext k.
Proof.
  intros n bmin bmax tol scaling HV Ht Hsc. pose proof HV as (H1 & H2 & HV3).
  set (lens := box_length bmin bmax). set (m := min_length bmin bmax).
  assert (LL : length lens = S n) by (unfold lens, box_length; rewrite zip_length; lia).
  assert (NK : forall k, (k <= n)%nat -> nth k lens 0 = nth k bmax 0 - nth k bmin 0) by (intros k Hk; apply (box_length_nth n); auto).
  assert (IK : forall k, (k <= n)%nat -> In (nth k bmax 0 - nth k bmin 0) lens) by (intros k Hk; rewrite <- NK by auto; apply nth_In; lia).
  assert (MM : (forall x, In x lens -> m <= x) /\ In m lens).
  { unfold m, min_length. fold lens. clear - LL. destruct lens as [|x xs]; [discriminate|]. destruct (min_from_spec xs x) as (A & B & C). split.
    - intros y [<-|Hy]; auto.
    - destruct C as [->|C]; [left|right]; auto. }
  destruct MM as [M1 M2]. assert (PX : forall x, In x lens -> 0 < x) by (intros x Hx; apply (box_length_In n) in Hx as (k & Hk & ->); auto; specialize (HV3 k Hk); lra).
  pose proof (PX m M2) as Pm.
  assert (B : Qle_bool scaling 0 = true) by (apply Qle_bool_iff; auto).
  set (J := Pos.to_nat (Qden tol)).
  assert (HB : forall x, In x lens -> halved J m <= tol * x).
  { intros x Hx. specialize (M1 x Hx). pose proof (halved_pow J m) as E. pose proof (tol_pow tol Ht) as T. fold J in T. pose proof (pow2_pos J) as PJ. pose proof (halved_pos J m Pm) as PH.
    set (w := inject_Z (2 ^ Z.of_nat J)) in *. set (h := halved J m) in *. clearbody w h. assert (G : h * 1 <= h * (tol * w)) by (apply Qmult_le_l; auto).
    assert (G2 : h * (tol * w) == tol * m) by (rewrite <- E; ring). assert (G3 : tol * m <= tol * x) by (apply Qmult_le_l; auto). lra. }
  destruct (halve_spec tol lens J (S J) m ltac:(lia) Pm HB) as (i & _ & _ & Hclose & Hmin).
  pose proof (halved_pos i m Pm) as Ps.
  exists (halved i m), i, m, (extent bmin bmax (halved i m)).
  split; [exact Ps|]. split; [apply halved_pow|]. split; [intros k Hk; apply M1, IK, Hk|]. split; [apply (box_length_In n) in M2 as (k & Hk & E); auto; exists k; split; auto; rewrite E; reflexivity|].
  split; [intros k Hk; split; [apply ceil_bounds; auto|]; pose proof (Hclose _ (IK k Hk)) as C; unfold close in C; unfold extent; lra|].
  split.
  - intros j s' Hj Es H. apply (Hmin j Hj). intros x Hx. apply (box_length_In n) in Hx as (k & Hk & ->); auto. destruct (H k Hk) as (c & C1 & C2).
    assert (E : s' == halved j m) by (pose proof (halved_pow j m) as E; pose proof (pow2_pos j); apply Qmult_inj_r with (inject_Z (2 ^ Z.of_nat j)); lra).
    rewrite E in C1, C2. unfold close. pose proof (halved_pos j m Pm) as Pj.
    set (y := nth k bmax 0 - nth k bmin 0) in *. assert (CL : (Qceiling (y / halved j m)%Q <= c)%Z).
    { rewrite <- (Qceiling_Z c). apply Qceiling_resp_le. apply Qle_shift_div_r; auto. }
    rewrite Zle_Qle in CL. set (cc := inject_Z (Qceiling (y / halved j m))) in *. clearbody cc. nra.
  - intros level fuel Hf. destruct (halve_spec tol lens J fuel m Hf Pm HB) as (i' & _ & E & Hclose' & Hmin').
    assert (i' = i). { destruct (Nat.lt_trichotomy i' i) as [C|[C|C]]; auto; exfalso; [apply (Hmin _ C)|apply (Hmin' _ C)]; auto. } subst i'.
    unfold lca_of_domain, approximate_box. rewrite B. cbn [negb]. fold lens m. rewrite E. cbn [fst snd]. eexists. split; [reflexivity|]. apply domain_region; auto.
Qed.

(** ** Examples *)
Example C50_example : let o := [-1; 1 # 2] in let c := make_cell o 3 2 [-3; 5]%Z 7 in
  map Qred (corner c) = [-13 # 4; 17 # 4] /\ Qred (cl_length c) = 3 # 4 /\ map Qred (center c) = [-23 # 8; 37 # 8] /\
  map Qred (face_center c [0; 1]%Z) = [-23 # 8; 5] /\ inside 1 c [-3; 9 # 2] /\ inside 1 (make_cell o 3 3 [-6; 10]%Z 0) [-3; 9 # 2].
Proof.
  cbv zeta. split; [vm_compute; reflexivity|]. split; [vm_compute; reflexivity|]. split; [vm_compute; reflexivity|]. split; [vm_compute; reflexivity|].
  split; intros [|[|k]] Hk; try lia; split; vm_compute; congruence.
Qed.

Lemma exBox_valid : valid_box 1 [-1; 0] [0; 7 # 5].
Proof. split; [reflexivity|]. split; [reflexivity|]. intros [|[|k]] Hk; [vm_compute; reflexivity|vm_compute; reflexivity|lia]. Qed.

(** Sides 1 and 1.4, tolerance 5%: the scaling factor is 1/16, for 1.4 is rounded to 23/16. *)
Example C51_example : valid_box 1 [-1; 0] [0; 7 # 5] /\ 0 < 1 # 20 /\
  option_map (fun '(a, s) => (Qred s, for_each_interval 1 a)) (lca_of_domain 21 1 0 [-1; 0] [0; 7 # 5] (1 # 20) 0) =
    Some (1 # 16, Some (map (fun y => (mkidx 0 16 (16 * y), [y])) (zrange 0 23))) /\
  option_map (fun '(a, s) => (Qred s, nb_cells a)) (lca_of_domain 21 1 3 [-1; 0] [0; 7 # 5] (1 # 20) 0) = Some (1 # 16, (128 * 184)%Z) /\
  option_map (fun '(a, s) => (Qred s, nb_cells a)) (lca_of_domain 21 1 3 [-1; 0] [0; 7 # 5] (1 # 20) (1 # 4)) = Some (1 # 4, (32 * 48)%Z).
Proof.
  split; [exact exBox_valid|]. split; [vm_compute; reflexivity|]. split; [vm_compute; reflexivity|]. split; vm_compute; reflexivity.
Qed.

Print Assumptions C50_containing_cell.
Print Assumptions C50_children_tile.
Print Assumptions C50_overlap.
Print Assumptions C50_shared_faces.
Print Assumptions C50_centers.
Print Assumptions C50_get_cell.
Print Assumptions C51_domain_given.
Print Assumptions C51_domain_fitted.
