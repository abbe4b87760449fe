(** Properties of the points and the connectivity written by save. *)
From Coq Require Import QArith Permutation.
From Verif Require Import Base SubsetModel ReconModel GeomModel IoModel.
Open Scope nat_scope.

(** The same point, as rational coordinates *)
Definition same_point (a b : list Q) : Prop := Forall2 Qeq a b.

Lemma point_eqb_spec : forall a b, point_eqb a b = true <-> same_point a b.
Proof.
  unfold same_point. induction a as [|x a IH]; intros [|y b]; cbn [point_eqb]; split; intros H; try discriminate H; try (inversion H; fail); try constructor.
  - apply andb_true_iff in H as [H _]. apply Qeq_bool_eq. exact H.
  - apply andb_true_iff in H as [_ H]. apply IH. exact H.
  - inversion H; subst. apply andb_true_iff. split; [apply Qeq_eq_bool; assumption|apply IH; assumption].
Qed.
Lemma same_point_sym : forall a b, same_point a b -> same_point b a.
Proof. intros a b H. induction H; constructor; [symmetry; assumption|assumption]. Qed.
Lemma same_point_refl : forall a, same_point a a.
Proof. induction a; constructor; [reflexivity|assumption]. Qed.

(** The entries are numbered in the order of insertion, are distinct and satisfy [P]. *)
Definition numbered (P : list Q -> Prop) (st : points * nat) : Prop :=
  snd st = length (fst st) /\ (forall k p j, nth_error (fst st) k = Some (p, j) -> j = k /\ P p) /\
  forall k1 k2 p1 p2, nth_error (fst st) k1 = Some (p1, k1) -> nth_error (fst st) k2 = Some (p2, k2) -> same_point p1 p2 -> k1 = k2.
Definition extends (st st' : points * nat) : Prop := forall k x, nth_error (fst st) k = Some x -> nth_error (fst st') k = Some x.
Definition has_number (st : points * nat) (a : list Q) (k : nat) : Prop := exists p, nth_error (fst st) k = Some (p, k) /\ same_point p a.

Lemma number_point_spec : forall P st a st' k, numbered P st -> P a -> number_point st a = (st', k) -> numbered P st' /\ extends st st' /\ has_number st' a k.
Proof.
  intros P [pts id] a st' k (N1 & N2 & N3) Pa E. cbn [fst snd] in *. unfold number_point in E. destruct (find (fun '(p, _) => point_eqb p a) pts) as [[p j]|] eqn:F.
  - injection E as <- <-. apply find_some in F as [Hin Heq]. apply point_eqb_spec in Heq. apply In_nth_error in Hin as [i Hi]. destruct (N2 i p j Hi) as [-> _]. split; [split; [exact N1|split; assumption]|]. split; [intros x y H; exact H|]. exists p. split; assumption.
  - injection E as <- <-. pose proof (find_none _ _ F) as NF. cbn [fst snd].
    assert (D : forall i p j, nth_error pts i = Some (p, j) -> ~ same_point p a). { intros i p j Hi S. apply point_eqb_spec in S. pose proof (NF (p, j) (nth_error_In _ _ Hi)) as Q. cbn in Q. congruence. }
    assert (X : forall i x, nth_error (pts ++ [(a, id)]) i = Some x -> nth_error pts i = Some x \/ i = id /\ x = (a, id)).
    { intros i x Hi. destruct (Nat.lt_ge_cases i (length pts)) as [Hl|Hl]; [left; rewrite nth_error_app1 in Hi by exact Hl; exact Hi|]. rewrite nth_error_app2 in Hi by exact Hl. destruct (i - length pts) as [|m] eqn:Em; [|cbn in Hi; destruct m; discriminate Hi]. injection Hi as <-. right. split; [lia|reflexivity]. }
    split; [|split].
    + split; [cbn [fst snd]; rewrite app_length; cbn [length]; lia|]. cbn [fst snd]. split.
      * intros i p j Hi. destruct (X i _ Hi) as [Hi' | [-> Hx]]; [apply (N2 i p j Hi')|]. injection Hx as -> ->. auto.
      * intros k1 k2 p1 p2 H1 H2 S. destruct (X k1 _ H1) as [H1' | [-> Hx1]]; destruct (X k2 _ H2) as [H2' | [-> Hx2]].
        -- apply (N3 k1 k2 p1 p2); assumption.
        -- injection Hx2 as ->. exfalso. apply (D _ _ _ H1' S).
        -- injection Hx1 as ->. exfalso. apply (D _ _ _ H2'). apply same_point_sym. exact S.
        -- reflexivity.
    + intros i x Hi. cbn [fst] in *. rewrite nth_error_app1; [exact Hi|]. apply nth_error_Some. congruence.
    + exists a. cbn [fst]. split; [|apply same_point_refl]. rewrite nth_error_app2 by lia. rewrite N1, Nat.sub_diag. reflexivity.
Qed.
Lemma extends_number : forall st st' a k, extends st st' -> has_number st a k -> has_number st' a k.
Proof. intros st st' a k X (p & H & S). exists p. split; [apply X; exact H|exact S]. Qed.
Lemma number_points_spec : forall P ps st st' ks, numbered P st -> Forall P ps -> number_points st ps = (st', ks) -> numbered P st' /\ extends st st' /\ Forall2 (has_number st') ps ks.
Proof.
  intros P. induction ps as [|a ps IH]; intros st st' ks N F E; cbn [number_points] in E; [injection E as <- <-; split; [exact N|split; [intros x y H; exact H|constructor]]|].
  destruct (number_point st a) as [s1 k] eqn:E1. destruct (number_points s1 ps) as [s2 ks'] eqn:E2. injection E as <- <-. inversion F as [|? ? Pa Pps]; subst. destruct (number_point_spec P st a s1 k N Pa E1) as (N1 & X1 & H1). destruct (IH s1 s2 ks' N1 Pps E2) as (N2 & X2 & H2). split; [exact N2|]. split; [intros x y H; apply X2, X1, H|]. constructor; [apply (extends_number s1); assumption|exact H2].
Qed.
Lemma number_cells_spec : forall P element cells st st' rows, numbered P st -> (forall c e, In c cells -> In e element -> P (vertex c e)) -> number_cells element st cells = (st', rows) ->
  numbered P st' /\ extends st st' /\ Forall2 (fun c ks => Forall2 (has_number st') (map (vertex c) element) ks) cells rows.
Proof.
  intros P element. induction cells as [|c cells IH]; intros st st' rows N F E; cbn [number_cells] in E; [injection E as <- <-; split; [exact N|split; [intros x y H; exact H|constructor]]|].
  destruct (number_points st (map (vertex c) element)) as [s1 ks] eqn:E1. destruct (number_cells element s1 cells) as [s2 rows'] eqn:E2. injection E as <- <-.
  destruct (number_points_spec P (map (vertex c) element) st s1 ks N) as (N1 & X1 & H1); [|exact E1|]. { apply Forall_forall. intros a Ha. apply in_map_iff in Ha as (e & <- & He). apply F; [left; reflexivity|exact He]. }
  destruct (IH s1 s2 rows' N1) as (N2 & X2 & H2); [intros x e Hx He; apply F; [right; exact Hx|exact He]|exact E2|]. split; [exact N2|]. split; [intros x y H; apply X2, X1, H|]. constructor; [|exact H2].
  clear - H1 X2. induction H1 as [|a k l l' H H1 IH]; constructor; [apply (extends_number s1); assumption|exact IH].
Qed.

Lemma set_coords_spec : forall coords k p, k < length coords -> exists out, set_coords coords k p = Some out /\ length out = length coords /\ nth_error out k = option_map (fun row => p ++ skipn (length p) row) (nth_error coords k) /\ forall j, j <> k -> nth_error out j = nth_error coords j.
Proof.
  induction coords as [|row coords IH]; intros k p Hk; [cbn in Hk; lia|]. destruct k as [|k]; cbn [set_coords].
  - eexists. split; [reflexivity|]. split; [reflexivity|]. split; [reflexivity|]. intros [|j] Hj; [contradiction|reflexivity].
  - destruct (IH k p ltac:(cbn [length] in Hk; lia)) as (out & E & L & K & J). rewrite E. eexists. split; [reflexivity|]. split; [cbn [length]; congruence|]. split; [exact K|]. intros [|j] Hj; [reflexivity|]. apply J. lia.
Qed.
Lemma write_spec : forall ps coords, NoDup (map snd ps) -> (forall p k, In (p, k) ps -> k < length coords) ->
  exists out, fold_opt (fun coords '(p, idx) => set_coords coords idx p) ps coords = Some out /\ length out = length coords /\
    (forall p k, In (p, k) ps -> nth_error out k = option_map (fun row => p ++ skipn (length p) row) (nth_error coords k)) /\ forall k, ~ In k (map snd ps) -> nth_error out k = nth_error coords k.
Proof.
  induction ps as [|[p k] ps IH]; intros coords N B; cbn [fold_opt]; [exists coords; split; [reflexivity|]; split; [reflexivity|]; split; [intros p k []|reflexivity]|].
  cbn [map snd] in N. inversion N as [|? ? Nk N']; subst. destruct (set_coords_spec coords k p (B p k ltac:(left; reflexivity))) as (c1 & E1 & L1 & K1 & J1). rewrite E1. destruct (IH c1 N') as (out & E & L & K & J); [intros q j Hq; rewrite L1; apply (B q j); right; exact Hq|]. exists out. split; [exact E|]. split; [congruence|]. split.
  - intros q j [Hq|Hq]; [injection Hq as <- <-; rewrite (J k Nk); exact K1|]. rewrite (K q j Hq), J1; [reflexivity|]. intros ->. apply Nk. apply in_map_iff. exists (q, k). auto.
  - intros j Hj. cbn [map snd In] in Hj. rewrite J by tauto. apply J1. intros ->. apply Hj. left. reflexivity.
Qed.

(** A point in space: the missing coordinates are 0. *)
Definition in_space (a : list Q) : list Q := a ++ repeat 0%Q (3 - length a).
(** The cells of a mesh in dimension n + 1 *)
Definition cells_of_dim (n : nat) (cells : list cell) : Prop := forall c, In c cells -> length (cl_origin c) = S n /\ length (cl_indices c) = S n.

(** The element has each vertex of the unit cell exactly once. *)
Theorem C83_element : forall n element, get_element n = Some element -> NoDup element /\ forall e, In e element <-> length e = S n /\ forall x, In x e -> x = 0%Z \/ x = 1%Z.
Proof.
  intros n element E. assert (B : forall x (e : list Z), (forall y, In y (x :: e) -> y = 0%Z \/ y = 1%Z) -> (x = 0%Z \/ x = 1%Z) /\ forall y, In y e -> y = 0%Z \/ y = 1%Z) by (intros x e H; split; [apply H; left; reflexivity|intros y Hy; apply H; right; exact Hy]).
  destruct n as [|[|[|n]]]; cbn [get_element] in E; try discriminate E; injection E as <-; (split; [repeat constructor; cbn [In]; intuition discriminate|]); intros e; split.
  1, 3, 5: intros H; cbn [In] in H; repeat destruct H as [<- | H]; try contradiction; (split; [reflexivity|]); cbn [In]; intros x Hx; repeat destruct Hx as [<- | Hx]; auto; contradiction.
  - intros [L H]. destruct e as [|x [|y e]]; try discriminate L. apply B in H as [[-> | ->] _]; cbn [In]; tauto.
  - intros [L H]. destruct e as [|x [|y [|z e]]]; try discriminate L. apply B in H as [Hx H]. apply B in H as [Hy _]. destruct Hx as [-> | ->]; destruct Hy as [-> | ->]; cbn [In]; tauto.
  - intros [L H]. destruct e as [|x [|y [|z [|w e]]]]; try discriminate L. apply B in H as [Hx H]. apply B in H as [Hy H]. apply B in H as [Hz _]. destruct Hx as [-> | ->]; destruct Hy as [-> | ->]; destruct Hz as [-> | ->]; cbn [In]; tauto.
Qed.

Lemma Forall2_length' : forall (A B : Type) (R : A -> B -> Prop) l l', Forall2 R l l' -> length l' = length l.
Proof. intros A B R l l' H. induction H; cbn [length]; congruence. Qed.
Lemma vertex_length : forall n c e, length (cl_origin c) = S n -> length (cl_indices c) = S n -> length e = S n -> length (vertex c e) = S n.
Proof. intros n c e H1 H2 H3. unfold vertex, corner, zip. rewrite map_length, combine_length, map_length, combine_length. lia. Qed.
Lemma pad : forall n (p : list Q), n < 3 -> length p = S n -> p ++ skipn (length p) [0; 0; 0]%Q = in_space p.
Proof. intros n p Hn L. unfold in_space. rewrite L. destruct n as [|[|[|n]]]; try lia; reflexivity. Qed.
Lemma same_in_space : forall a b, length a = length b -> (same_point (in_space a) (in_space b) <-> same_point a b).
Proof.
  intros a b L. unfold in_space. rewrite L. generalize (repeat 0%Q (3 - length b)) as r. intros r. unfold same_point. split; intros H.
  - revert b L H. induction a as [|x a IH]; intros [|y b] L H; try discriminate L; constructor; inversion H; subst; auto.
  - apply Forall2_app; [exact H|apply same_point_refl].
Qed.

(** For the cells of a mesh in dimension 1, 2 or 3, whatever the order of the map, the function
    gives for each cell, in the order of the cells, the numbers of the points which are its
    vertices, in the order of the element; no point is written twice and each point is a vertex
    of a cell. *)
Theorem C83_connectivity : forall order n cells, (forall l, Permutation (order l) l) -> n < 3 -> cells_of_dim n cells ->
  exists element coords connectivity, get_element n = Some element /\ extract_coords_and_connectivity order n cells = Some (coords, connectivity) /\
    length connectivity = length cells /\
    (forall k c i e, nth_error cells k = Some c -> nth_error element i = Some e ->
       exists row id p, nth_error connectivity k = Some row /\ length row = length element /\ nth_error row i = Some id /\ nth_error coords id = Some p /\ same_point p (in_space (vertex c e))) /\
    (forall i j p q, nth_error coords i = Some p -> nth_error coords j = Some q -> same_point p q -> i = j) /\
    (forall p, In p coords -> exists c e, In c cells /\ In e element /\ p = in_space (vertex c e)).
Proof.
  intros order n cells O Hn D. assert (exists element, get_element n = Some element) as [element He] by (destruct n as [|[|[|n]]]; [eexists; reflexivity..|lia]).
  destruct (C83_element n element He) as [_ Hel].
  set (P := fun a => exists c e, In c cells /\ In e element /\ a = vertex c e).
  assert (LP : forall a, P a -> length a = S n). { intros a (c & e & Hc & Hee & ->). destruct (D c Hc) as [D1 D2]. apply vertex_length; auto. apply Hel in Hee. tauto. }
  destruct (number_cells element ([], 0) cells) as [[pts id] rows] eqn:E.
  assert (N0 : numbered P ([], 0)). { split; [reflexivity|]. cbn [fst]. split; [intros k p j H; destruct k; discriminate H|intros k1 k2 p1 p2 H; destruct k1; discriminate H]. }
  destruct (number_cells_spec P element cells ([], 0) (pts, id) rows N0) as ((_ & N2 & N3) & _ & C); [intros c e Hc Hee; exists c, e; auto|exact E|]. cbn [fst] in *.
  assert (Ids : map snd pts = seq 0 (length pts)).
  { clear - N2. assert (G : forall (l : points) s, (forall k p j, nth_error l k = Some (p, j) -> j = s + k) -> map snd l = seq s (length l)).
    { induction l as [|[p j] l IH]; intros s H; [reflexivity|]. cbn [map snd length seq]. rewrite (H 0 p j eq_refl), Nat.add_0_r. f_equal. apply IH. intros k q i Hk. rewrite (H (S k) q i Hk). lia. }
    apply G. intros k p j H. apply (N2 k p j H). }
  destruct (write_spec (order pts) (repeat [0; 0; 0]%Q (length pts))) as (coords & Ew & Lw & Kw & _).
  { apply (Permutation_NoDup (l := map snd pts)); [apply Permutation_map, Permutation_sym, O|]. rewrite Ids. apply seq_NoDup. }
  { intros p k H. apply (Permutation_in _ (O pts)) in H. apply In_nth_error in H as [i Hi]. destruct (N2 i p k Hi) as [-> _]. rewrite repeat_length. apply nth_error_Some. congruence. }
  rewrite repeat_length in Lw.
  assert (K : forall k p j, nth_error pts k = Some (p, j) -> nth_error coords k = Some (in_space p) /\ P p).
  { intros k p j H. destruct (N2 k p j H) as [-> Pp]. split; [|exact Pp]. rewrite (Kw p k) by (apply (Permutation_in _ (Permutation_sym (O pts))); apply (nth_error_In _ _ H)). rewrite nth_error_repeat by (apply nth_error_Some; congruence). cbn [option_map]. rewrite (pad n p Hn (LP p Pp)). reflexivity. }
  assert (K' : forall k p, nth_error coords k = Some p -> exists q, nth_error pts k = Some (q, k) /\ p = in_space q /\ P q).
  { intros k p H. destruct (nth_error pts k) as [[q j]|] eqn:Hq; [|apply nth_error_None in Hq; assert (k < length coords) by (apply nth_error_Some; congruence); lia]. destruct (N2 k q j Hq) as [-> Pq]. destruct (K k q k Hq) as [Hc _]. rewrite H in Hc. injection Hc as ->. exists q. auto. }
  exists element, coords, rows. split; [exact He|]. split; [unfold extract_coords_and_connectivity; rewrite He, E, Ew; reflexivity|]. split; [|split; [|split]].
  - clear - C. induction C; cbn [length]; congruence.
  - intros k c i e Hk Hi. assert (G : exists row, nth_error rows k = Some row /\ Forall2 (has_number (pts, id)) (map (vertex c) element) row).
    { clear - C Hk. revert k Hk. induction C as [|x y l l' H C IH]; intros [|k] Hk; try discriminate Hk; [injection Hk as <-; exists y; auto|apply IH; exact Hk]. }
    destruct G as (row & Hrow & F). assert (Hv : nth_error (map (vertex c) element) i = Some (vertex c e)) by (rewrite nth_error_map, Hi; reflexivity).
    assert (G : exists m, nth_error row i = Some m /\ has_number (pts, id) (vertex c e) m).
    { clear - F Hv. revert i Hv. induction F as [|x y l l' H F IH]; intros [|i] Hv; try discriminate Hv; [injection Hv as ->; exists y; auto|apply IH; exact Hv]. }
    destruct G as (m & Hm & p & Hp & S). cbn [fst] in Hp. destruct (K m p m Hp) as [Hc Pp]. exists row, m, (in_space p). split; [exact Hrow|]. split; [apply Forall2_length' in F; rewrite map_length in F; auto|]. split; [exact Hm|]. split; [exact Hc|]. apply same_in_space; [|exact S]. clear - S. induction S; cbn [length]; congruence.
  - intros i j p q Hp Hq S. destruct (K' i p Hp) as (p0 & H1 & -> & P1). destruct (K' j q Hq) as (q0 & H2 & -> & P2). apply (N3 i j p0 q0 H1 H2). apply same_in_space; [rewrite (LP p0 P1), (LP q0 P2); reflexivity|exact S].
  - intros p Hp. apply In_nth_error in Hp as [k Hk]. destruct (K' k p Hk) as (q & _ & -> & (c & e & Hc & Hee & ->)). exists c, e. auto.
Qed.

(** Two cells have the same number for two of their vertices exactly if these are the same point:
    neighbours share their points, and cells which do not touch share none. *)
Theorem C83_shared : forall order n cells, (forall l, Permutation (order l) l) -> n < 3 -> cells_of_dim n cells ->
  exists element coords connectivity, get_element n = Some element /\ extract_coords_and_connectivity order n cells = Some (coords, connectivity) /\
  forall k1 k2 c1 c2 i1 i2 e1 e2, nth_error cells k1 = Some c1 -> nth_error cells k2 = Some c2 -> nth_error element i1 = Some e1 -> nth_error element i2 = Some e2 ->
  exists row1 row2 id1 id2, nth_error connectivity k1 = Some row1 /\ nth_error connectivity k2 = Some row2 /\ nth_error row1 i1 = Some id1 /\ nth_error row2 i2 = Some id2 /\
  (id1 = id2 <-> same_point (vertex c1 e1) (vertex c2 e2)).
Proof.
  intros order n cells O Hn D. destruct (C83_connectivity order n cells O Hn D) as (element & coords & connectivity & He & E & _ & V & U & _). exists element, coords, connectivity. split; [exact He|]. split; [exact E|].
  intros k1 k2 c1 c2 i1 i2 e1 e2 H1 H2 G1 G2. destruct (V k1 c1 i1 e1 H1 G1) as (row1 & id1 & p1 & R1 & _ & I1 & P1 & S1). destruct (V k2 c2 i2 e2 H2 G2) as (row2 & id2 & p2 & R2 & _ & I2 & P2 & S2).
  exists row1, row2, id1, id2. split; [exact R1|]. split; [exact R2|]. split; [exact I1|]. split; [exact I2|].
  assert (T : forall a b c, same_point a b -> same_point b c -> same_point a c). { intros a b c Hab. revert c. induction Hab as [|x y l l' Hxy Hab IH]; intros c Hbc; inversion Hbc; subst; constructor; [etransitivity; eassumption|apply IH; assumption]. }
  assert (L : forall k c i e, nth_error cells k = Some c -> nth_error element i = Some e -> length (vertex c e) = S n). { intros k c i e Hk Hi. destruct (D c (nth_error_In _ _ Hk)) as [D1 D2]. apply vertex_length; auto. apply (proj2 (C83_element n element He) e). apply (nth_error_In _ _ Hi). }
  assert (Q : length (vertex c1 e1) = length (vertex c2 e2)) by (rewrite (L k1 c1 i1 e1), (L k2 c2 i2 e2) by assumption; reflexivity). split; intros H.
  - subst id2. rewrite P1 in P2. injection P2 as <-. apply (same_in_space _ _ Q). apply (T _ p1); [apply same_point_sym; exact S1|exact S2].
  - apply (U id1 id2 p1 p2 P1 P2). apply (T _ _ _ S1). apply (T _ (in_space (vertex c2 e2))); [apply (same_in_space _ _ Q); exact H|apply same_point_sym; exact S2].
Qed.

(** A cell of level 0 and two cells of level 1 on its right, in dimension 2: eight points, one of
    which is in the middle of a side of the large cell. *)
Definition io_cells : list cell := [make_cell [0; 0]%Q 1 0 [0; 0]%Z 0; make_cell [0; 0]%Q 1 1 [2; 0]%Z 1; make_cell [0; 0]%Q 1 1 [2; 1]%Z 2].
Example C83_hypotheses : (forall l : points, Permutation (rev l) l) /\ cells_of_dim 1 io_cells.
Proof. split; [intros l; apply Permutation_sym, Permutation_rev|]. intros c [<- | [<- | [<- | []]]]; split; reflexivity. Qed.
Example C83_example : option_map (fun '(coords, connectivity) => (map (map Qred) coords, connectivity)) (extract_coords_and_connectivity (@rev _) 1 io_cells) =
  Some ([[0; 0; 0]; [1; 0; 0]; [1; 1; 0]; [0; 1; 0]; [3 # 2; 0; 0]; [3 # 2; 1 # 2; 0]; [1; 1 # 2; 0]; [3 # 2; 1; 0]]%Q, [[0; 1; 2; 3]; [1; 4; 5; 6]; [6; 5; 7; 2]]).
Proof. vm_compute. reflexivity. Qed.

Print Assumptions C83_element.
Print Assumptions C83_connectivity.
Print Assumptions C83_shared.
