(** Property C47: the interior interfaces. *)
From Verif Require Import Base IntervalModel Spec LoiModel LcaModel LcaSpec LcaProofs LcaProofs3 RowsProofs CellArrayModel CellArrayProofs
  PropsLca PropsCellArray SubsetModel TreeProofs SubsetSpec SubsetProofs2 PropsSubset StencilModel NumberingProofs StencilProofs PropsStencil
  MeshModel MeshProofs PropsMesh AdaptModel AdaptProofs TagProofs PropsAdapt GradModel GradProofs PropsGrad NumProofs InterfaceModel InterfaceProofs.
Open Scope Z_scope.

(** The cell [p1] of level [l1], that is the box of the points x with
    p1_k <= 2^l1 x_k < p1_k + 1, ends in direction [d] where the cell [p2] of level
    [l2] begins, and the two faces overlap. *)
Definition share_face (n d l1 : nat) (p1 : list Z) (l2 : nat) (p2 : list Z) : Prop :=
  (nth d p1 0 + 1) * 2 ^ Z.of_nat l2 = nth d p2 0 * 2 ^ Z.of_nat l1 /\
  forall k, (k <= n)%nat -> k <> d ->
    nth k p1 0 * 2 ^ Z.of_nat l2 < (nth k p2 0 + 1) * 2 ^ Z.of_nat l1 /\
    nth k p2 0 * 2 ^ Z.of_nat l1 < (nth k p1 0 + 1) * 2 ^ Z.of_nat l2.

Definition sides (f : iface) : list (nat * list Z) := map (fun e => (sc_level e, sc_coord e)) (fst f).

(** ** Arithmetic of faces *)
Lemma nth_unit : forall n d v k, (k <= n)%nat -> nth k (unit_mult n d v) 0 = if Nat.eqb k d then v else 0.
Proof. intros n d v k Hk. unfold unit_mult. apply (nth_map_seq (S n)). lia. Qed.
Lemma nth_neg : forall k v, nth k (neg v) 0 = - nth k v 0.
Proof. intros k v. unfold neg. change 0 with (- 0) at 1. apply map_nth. Qed.
Lemma unit_length : forall n d v, length (unit_mult n d v) = S n.
Proof. intros. unfold unit_mult. rewrite map_length, seq_length. auto. Qed.

Lemma pow_split : forall a b, (a <= b)%nat -> 2 ^ Z.of_nat b = 2 ^ Z.of_nat (b - a) * 2 ^ Z.of_nat a /\ 0 < 2 ^ Z.of_nat (b - a) /\ 0 < 2 ^ Z.of_nat a.
Proof.
  intros a b H. split; [rewrite <- Z.pow_add_r by lia; f_equal; lia|]. split; apply Z.pow_pos_nonneg; lia.
Qed.

Section Faces.
  Context (n d : nat) (Hd : (d <= n)%nat).
  Let dir := unit_mult n d 1.

  Lemma face_same : forall l p1 p2, length p1 = S n -> length p2 = S n -> (share_face n d l p1 l p2 <-> p2 = vadd n p1 dir).
  Proof.
    intros l p1 p2 H1 H2. unfold share_face. destruct (pow_split l l (le_n _)) as (_ & _ & P). split.
    - intros [Ed Ek]. apply (list_ext n); [auto|apply vadd_length|]. intros k Hk. rewrite nth_vadd by auto. unfold dir. rewrite nth_unit by auto.
      destruct (Nat.eqb_spec k d) as [->|Hne]; [nia|]. destruct (Ek k Hk Hne). nia.
    - intros ->. unfold dir. rewrite nth_vadd, nth_unit, Nat.eqb_refl by auto. split; auto. intros k Hk Hne. rewrite nth_vadd, nth_unit by auto.
      destruct (Nat.eqb_spec k d); [congruence|]. nia.
  Qed.

  (** The second cell is finer. *)
  Lemma face_fine : forall l1 p1 l2 p2, (l1 <= l2)%nat -> length p1 = S n -> length p2 = S n -> share_face n d l1 p1 l2 p2 ->
    ancestor (l2 - l1) (vadd n p2 (neg dir)) = p1.
  Proof.
    intros l1 p1 l2 p2 Hl H1 H2 [Ed Ek]. destruct (pow_split l1 l2 Hl) as (E & PJ & P). rewrite E in Ed. 
    apply (list_ext n); [rewrite ancestor_length; apply vadd_length|auto|]. intros k Hk. rewrite nth_ancestor, nth_vadd, nth_neg by auto. unfold dir. rewrite nth_unit by auto.
    destruct (Nat.eqb_spec k d) as [->|Hne].
    - symmetry. apply Z.div_unique with (2 ^ Z.of_nat (l2 - l1) - 1); [lia|]. nia.
    - destruct (Ek k Hk Hne) as [E1 E2]. rewrite E in E1, E2. symmetry. apply Z.div_unique with (nth k p2 0 - 2 ^ Z.of_nat (l2 - l1) * nth k p1 0); nia.
  Qed.
  Lemma face_fine_conv : forall l p1 p2, length p1 = S n -> length p2 = S n -> ancestor 1 (vadd n p2 (neg dir)) = p1 -> ancestor 1 p2 <> p1 ->
    share_face n d l p1 (S l) p2.
  Proof.
    intros l p1 p2 H1 H2 Ea Hne. assert (P : 0 < 2 ^ Z.of_nat l) by (apply Z.pow_pos_nonneg; lia).
    assert (N : forall k, (k <= n)%nat -> (nth k p2 0 + - (if Nat.eqb k d then 1 else 0)) / 2 = nth k p1 0).
    { intros k Hk. rewrite <- Ea, nth_ancestor, nth_vadd, nth_neg by auto. unfold dir. rewrite nth_unit by auto. reflexivity. }
    unfold share_face. rewrite Nat2Z.inj_succ, Z.pow_succ_r by lia.
    assert (K : forall k, (k <= n)%nat -> k <> d -> nth k p2 0 / 2 = nth k p1 0).
    { intros k Hk Hkd. rewrite <- N by auto. destruct (Nat.eqb_spec k d); [congruence|]. f_equal. lia. }
    split.
    - assert (Hmod : nth d p2 0 / 2 <> nth d p1 0).
      { intros E. apply Hne. apply (list_ext n); [rewrite ancestor_length; auto|auto|]. intros k Hk. rewrite nth_ancestor. change (2 ^ Z.of_nat 1) with 2.
        destruct (Nat.eq_dec k d) as [->|Hkd]; auto. }
      specialize (N d Hd). rewrite Nat.eqb_refl in N. assert (nth d p2 0 = 2 * (nth d p1 0 + 1)) by lia. nia.
    - intros k Hk Hkd. specialize (K k Hk Hkd). assert (2 * nth k p1 0 <= nth k p2 0 <= 2 * nth k p1 0 + 1) by lia. nia.
  Qed.

  (** The first cell is finer. *)
  Lemma face_coarse : forall l1 p1 l2 p2, (l2 <= l1)%nat -> length p1 = S n -> length p2 = S n -> share_face n d l1 p1 l2 p2 ->
    ancestor (l1 - l2) (vadd n p1 dir) = p2.
  Proof.
    intros l1 p1 l2 p2 Hl H1 H2 [Ed Ek]. destruct (pow_split l2 l1 Hl) as (E & PJ & P). rewrite E in Ed.
    apply (list_ext n); [rewrite ancestor_length; apply vadd_length|auto|]. intros k Hk. rewrite nth_ancestor, nth_vadd by auto. unfold dir. rewrite nth_unit by auto.
    destruct (Nat.eqb_spec k d) as [->|Hne].
    - symmetry. apply Z.div_unique with 0; [lia|]. nia.
    - destruct (Ek k Hk Hne) as [E1 E2]. rewrite E in E1, E2. symmetry. apply Z.div_unique with (nth k p1 0 - 2 ^ Z.of_nat (l1 - l2) * nth k p2 0); nia.
  Qed.
  Lemma face_coarse_conv : forall l p1 p2, length p1 = S n -> length p2 = S n -> ancestor 1 (vadd n p1 dir) = p2 -> ancestor 1 p1 <> p2 ->
    share_face n d (S l) p1 l p2.
  Proof.
    intros l p1 p2 H1 H2 Ea Hne. assert (P : 0 < 2 ^ Z.of_nat l) by (apply Z.pow_pos_nonneg; lia).
    assert (N : forall k, (k <= n)%nat -> (nth k p1 0 + (if Nat.eqb k d then 1 else 0)) / 2 = nth k p2 0).
    { intros k Hk. rewrite <- Ea, nth_ancestor, nth_vadd by auto. unfold dir. rewrite nth_unit by auto. reflexivity. }
    unfold share_face. rewrite Nat2Z.inj_succ, Z.pow_succ_r by lia.
    assert (K : forall k, (k <= n)%nat -> k <> d -> nth k p1 0 / 2 = nth k p2 0).
    { intros k Hk Hkd. rewrite <- N by auto. destruct (Nat.eqb_spec k d); [congruence|]. f_equal. lia. }
    split.
    - assert (Hmod : nth d p1 0 / 2 <> nth d p2 0).
      { intros E. apply Hne. apply (list_ext n); [rewrite ancestor_length; auto|auto|]. intros k Hk. rewrite nth_ancestor. change (2 ^ Z.of_nat 1) with 2.
        destruct (Nat.eq_dec k d) as [->|Hkd]; auto. }
      specialize (N d Hd). rewrite Nat.eqb_refl in N. assert (nth d p1 0 + 1 = 2 * nth d p2 0) by lia. nia.
    - intros k Hk Hkd. specialize (K k Hk Hkd). assert (2 * nth k p2 0 <= nth k p1 0 <= 2 * nth k p2 0 + 1) by lia. nia.
  Qed.
End Faces.

(** ** The mesh *)

(** The parent of a leaf lies in the region covered by the leaves, at the levels where
    there are coarser leaves. That is the case when the domain is a union of cells of
    the coarsest level. *)
Definition parents_covered (n K : nat) (cells : ca) : Prop :=
  forall l p q z, ca_mem n cells l p -> ca_mem n cells (S l) q -> length z = S n -> (l <= K)%nat -> ancestor (K - l) z = ancestor 1 q -> covered n cells K z.

Record interface_mesh (n d maxl : nat) (st : stencil) (cells : ca) : Prop := {
  im_wf : ca_wf n cells;
  im_level : forall l, (l <= c_max cells)%nat -> a_level (c_at cells l) = l;
  im_max : (maxl <= c_max cells)%nat;
  im_leaves : forall l p, ca_mem n cells l p -> (l <= maxl)%nat;
  im_range : forall l q k, ca_mem n cells l q -> (k <= n)%nat -> 2 * (nth k q 0 + 3) < 2 ^ 31 - 1;
  im_disjoint : no_overlap n cells;
  im_covered : parents_covered n maxl cells;
  im_dirs : In (unit_mult n d 1) st /\ In (unit_mult n d (-1)) st;
  im_unit : unit_steps n st;
  im_graded : is_graduated n cells st = Some true }.

(** The reference mesh contains the leaves and the cells of the computational
    stencil around each interface, at the finer of the two levels. *)
Record stencil_room (n d : nat) (ref cells : ca) (comput : stencil) : Prop := {
  sr_leaves : forall l p, ca_mem n cells l p -> ca_mem n ref l p;
  sr_same : forall l z, ca_mem n cells l z -> ca_mem n cells l (vadd n z (unit_mult n d 1)) -> fits_at n ref comput l z;
  sr_jump : forall l z, length z = S n -> ca_mem n cells l (ancestor 1 z) -> ca_mem n cells (S l) (vadd n z (unit_mult n d 1)) ->
    fits_at n ref comput (S l) z;
  sr_opposite : forall l z, length z = S n -> ca_mem n cells l (ancestor 1 z) -> ca_mem n cells (S l) (vadd n z (unit_mult n d (-1))) ->
    fits_at n ref (stencil_minus comput (unit_mult n d 1)) (S l) z }.

(** What a call must be for the interface between two leaves: the two leaves with
    their numbers in the reference mesh, and the stencil around the cell [o] which
    has the finer of the two levels, lies in the first leaf, and whose neighbour lies
    in the second. *)
Definition call_ok (n d : nat) (ref : ca) (comput : stencil) (f : iface) : Prop :=
  exists a b o, fst f = [a; b] /\
    cell_is n ref (sc_level a) (sc_coord a) a /\ cell_is n ref (sc_level b) (sc_coord b) b /\ length o = S n /\
    let L := Nat.max (sc_level a) (sc_level b) in
    ancestor (L - sc_level a) o = sc_coord a /\ ancestor (L - sc_level b) (vadd n o (unit_mult n d 1)) = sc_coord b /\
    Forall2 (fun v e => cell_is n ref L (vadd n o v) e) comput (snd f).

(** With two cells only the second clause of [fits_at] says nothing more. *)
Lemma fits_in_out : forall n d s ref l z, (d <= n)%nat -> s = 1 \/ s = -1 -> ca_mem n ref l z -> ca_mem n ref l (vadd n z (unit_mult n d s)) ->
  forall st, (forall v, In v st -> v = repeat 0 (S n) \/ v = unit_mult n d s) -> fits_at n ref st l z.
Proof.
  intros n d s ref l z Hd Hs H0 H1 st Hst. assert (Lz : length z = S n) by apply H0. destruct z as [|x yz]; [discriminate|]. split.
  - intros v Hv. destruct (Hst v Hv) as [->| ->]; auto. rewrite vadd_zero; auto. intros k _; apply nth_repeat.
  - intros v y Hv Hv0 Hy. cbn [hd tl]. destruct (Hst v Hv) as [->| ->].
    + rewrite nth_repeat in Hy. replace (x + y) with x by lia. auto.
    + rewrite nth_unit in Hy by lia. destruct (Nat.eqb_spec 0 d) as [E0|E0].
      * assert (y = 0 \/ y = s) as [->| ->] by lia; [rewrite Z.add_0_r; auto|].
        replace (x + s :: yz) with (vadd n (x :: yz) (unit_mult n d s)); [auto|]. apply (list_ext n); [apply vadd_length|cbn [length] in *; congruence|].
        intros k Hk. rewrite nth_vadd by auto. rewrite nth_unit, <- E0 by auto. destruct k; cbn [nth Nat.eqb]; lia.
      * replace (x + y) with x by lia. auto.
Qed.

Section Interfaces.
  Context (n d maxl : nat) (st comput : stencil) (ref cells : ca).
  Context (Hd : (d <= n)%nat) (HM : interface_mesh n d maxl st cells) (HR : stencil_room n d ref cells comput) (NR : numbered n ref).
  Context (HC : forall v, In v comput -> length v = S n) (HZ : In (repeat 0 (S n)) comput) (HDC : In (unit_mult n d 1) comput).
  Let dir := unit_mult n d 1.
  Let leaf := ca_mem n cells.

  Lemma neg_dir : neg dir = unit_mult n d (-1).
  Proof.
    apply (list_ext n); [unfold neg; rewrite map_length; apply unit_length|apply unit_length|]. intros k Hk. rewrite nth_neg. unfold dir. rewrite !nth_unit by auto.
    destruct (Nat.eqb k d); lia.
  Qed.
  Lemma neg_neg : neg (neg dir) = dir.
  Proof. unfold neg. rewrite map_map. rewrite <- (map_id dir) at 2. apply map_ext. intros; lia. Qed.
  Lemma add_neg : forall s z, length z = S n -> vadd n (vadd n z s) (neg s) = z.
  Proof. intros s z Hz. apply (list_ext n); [apply vadd_length|auto|]. intros k Hk. rewrite !nth_vadd, nth_neg by auto. lia. Qed.
  Lemma neg_add : forall s z, length z = S n -> vadd n (vadd n z (neg s)) s = z.
  Proof. intros s z Hz. apply (list_ext n); [apply vadd_length|auto|]. intros k Hk. rewrite !nth_vadd, nth_neg by auto. lia. Qed.
  Lemma leaf_length : forall l p, leaf l p -> length p = S n.
  Proof. intros l p H. apply H. Qed.

  Lemma graded : forall l l' p q s, leaf l p -> leaf l' q -> (l + 2 <= l')%nat -> s = dir \/ s = neg dir -> ancestor (l' - l) (vadd n q s) <> p.
  Proof.
    destruct HM as [W LV MX LE RG DJ CV [D1 D2] US GR].
    assert (R : range_ok n st cells).
    { split; [exact W|]. split; [exact LV|]. intros l q k Hq Hk. specialize (RG l q k Hq Hk). split; [lia|]. intros s Hs. pose proof (US s k Hs Hk). lia. }
    destruct (C34_exact n st cells R) as (b & Eb & Hb). rewrite GR in Eb. injection Eb as <-.
    intros l l' p q s Hp Hq Hl Hs. apply (proj1 Hb eq_refl l l' p q s); auto. destruct Hs as [->| ->]; [exact D1|rewrite neg_dir; exact D2].
  Qed.

  (** The runs of a level jump are one cell long or begin at an even coordinate. *)
  Lemma jump_parity : forall s l z, s = dir \/ s = neg dir -> length z = S n -> leaf l (ancestor 1 z) -> leaf (S l) (vadd n z s) ->
    (d = 0%nat -> ~ (leaf l (ancestor 1 (vadd n z dir)) /\ leaf (S l) (vadd n (vadd n z dir) s))) /\
    (d <> 0%nat -> nth 0 z 0 mod 2 = 1 ->
       let z' := vadd n z (unit_mult n 0 (-1)) in leaf l (ancestor 1 z') /\ leaf (S l) (vadd n z' s)).
  Proof.
    intros s l z Hs Lz Hp Hq. pose proof HM as [W LV MX LE RG DJ CV [D1 D2] US GR]. split.
    - intros Hd0 [Hp' Hq']. destruct Hs as [->| ->].
      + assert (l = S l); [|lia]. apply (DJ l (S l) _ _ Hp' Hq); [lia|]. f_equal. lia.
      + rewrite add_neg in Hq' by auto. assert (l = S l); [|lia]. apply (DJ l (S l) _ _ Hp Hq'); [lia|]. f_equal. lia.
    - intros Hd0 Hodd z'. assert (Lz' : length z' = S n) by apply vadd_length.
      assert (S0 : nth 0 s 0 = 0).
      { destruct Hs as [->| ->]; [|rewrite nth_neg]; unfold dir; rewrite nth_unit by lia; destruct (Nat.eqb_spec 0 d); congruence || lia. }
      assert (Hsib : forall w u, length w = S n -> (forall k, (k <= n)%nat -> nth k u 0 = nth k w 0 + (if Nat.eqb k 0 then -1 else 0)) -> length u = S n ->
        nth 0 w 0 mod 2 = 1 -> ancestor 1 u = ancestor 1 w).
      { intros w u Hw Hk Hu Ho. apply (list_ext n); rewrite ?ancestor_length; auto. intros k Hkn. rewrite !nth_ancestor, Hk by auto. change (2 ^ Z.of_nat 1) with 2.
        destruct (Nat.eqb_spec k 0) as [->|]; [lia|f_equal; lia]. }
      assert (Ez : ancestor 1 z' = ancestor 1 z).
      { apply Hsib; auto. intros k Hk. unfold z'. rewrite nth_vadd, nth_unit by auto. reflexivity. }
      assert (Eq : ancestor 1 (vadd n z' s) = ancestor 1 (vadd n z s)).
      { apply Hsib; try apply vadd_length; [|rewrite nth_vadd by lia; rewrite S0, Z.add_0_r; auto]. intros k Hk. unfold z'. rewrite !nth_vadd, nth_unit by auto. lia. }
      split; [rewrite Ez; auto|].
      assert (Hls : (S l <= maxl)%nat) by (apply (LE _ _ Hq)).
      destruct (corner_point n maxl (S l) (vadd n z' s) (neg s) (vadd_length _ _ _) Hls) as (zz & Lzz & Az & Bz).
      { intros k Hk. rewrite nth_neg. assert (-1 <= nth k s 0 <= 1); [|lia]. destruct Hs as [->| ->]; [apply (US dir k D1 Hk)|]. rewrite neg_dir. apply (US _ k D2 Hk). }
      destruct (CV l (ancestor 1 z) (vadd n z s) zz Hp Hq Lzz ltac:(lia)) as (l' & Hl' & Hleaf).
      { rewrite <- Eq, <- Az, ancestor_add. f_equal. lia. }
      destruct (Nat.lt_trichotomy l' (S l)) as [Hlt|[->|Hgt]].
      + exfalso. assert (l' = S l); [|lia]. apply (DJ l' (S l) _ _ Hleaf Hq); [lia|].
        replace (S l - l')%nat with (l - l' + 1)%nat by lia. rewrite <- ancestor_add, <- Eq, <- Az, !ancestor_add. f_equal. lia.
      + rewrite Az in Hleaf. exact Hleaf.
      + exfalso. specialize (Bz l' ltac:(lia)). rewrite add_neg in Bz by auto.
        apply (graded l l' _ _ (neg s) Hp Hleaf ltac:(lia)).
        * destruct Hs as [->| ->]; [auto|left; apply neg_neg].
        * rewrite <- Ez, <- Bz, ancestor_add. f_equal. lia.
  Qed.

  Lemma call_interval_cells : forall (calls : list (interval * list Z)) i yz x, In (i, yz) calls -> in_i i x -> In (x :: yz) (cells_of_calls calls).
  Proof. intros calls i yz x Hin Hx. apply cells_of_calls_In. exists i. split; auto. Qed.

  Lemma same_level_spec : forall l, (l <= c_max cells)%nat -> exists zs out, same_level n ref cells l dir comput = Some out /\ NoDup zs /\
    (forall z, In z zs <-> leaf l z /\ leaf l (vadd n z dir)) /\ Forall2 (same_call n ref l dir comput) zs out.
  Proof.
    intros l Hl. pose proof HM as [W LV MX LE RG DJ CV [D1 D2] US GR]. pose proof HR as [R1 R2 R3 R4].
    destruct (shifted_inter_spec n (c_at cells l) (c_at cells l) (neg dir) l) as (calls & E & V & ND & _ & M); auto.
    { intros q k Hq Hk. rewrite LV, Nat.sub_diag by auto. specialize (RG l q k (conj Hl Hq) Hk). change (2 ^ Z.of_nat 0) with 1. lia. }
    { intros q k Hq Hk. rewrite neg_dir. specialize (RG l q k (conj Hl Hq) Hk). pose proof (US _ k D2 Hk). lia. }
    assert (M' : forall z, In z (cells_of_calls calls) <-> leaf l z /\ leaf l (vadd n z dir)).
    { intros z. rewrite M, LV, Nat.sub_diag, ancestor_0 by auto. change (vopp (neg dir)) with (neg (neg dir)). rewrite neg_neg. unfold leaf, ca_mem.
      split; [intros (_ & H1 & H2); auto|intros ([_ H1] & [_ H2])]. spl; auto. apply H1. }
    assert (EL : s_ref (shifted_inter (c_at cells l) (c_at cells l) (neg dir)) = l) by (rewrite shifted_inter_level, LV by auto; lia).
    assert (EC : subset_calls n (shifted_inter (c_at cells l) (c_at cells l) (neg dir)) = Some calls).
    { rewrite shifted_inter_on, LV, Nat.max_id by auto. exact E. }
    unfold same_level, over_set. rewrite EC, EL.
    destruct (concat_calls_spec _ (same_call n ref l dir comput) (fun '(i, yz) => same_level_interval n ref dir comput (mkMI l i yz)) calls) as (out & Eo & F).
    { intros i yz Hin. destruct (V i yz Hin) as [V1 V2]. apply same_interval_spec; auto using unit_length.
      intros x Hx. destruct (proj1 (M' _) (call_interval_cells calls i yz x Hin Hx)) as [L1 L2].
      split; [apply (fits_in_out n d 1); auto; intros v [<-|[<-|[]]]; auto|apply R2; auto]. }
    exists (cells_of_calls calls), out. spl; auto.
  Qed.

  Lemma jump_calls : forall l s first co, (S l <= maxl)%nat -> s = dir \/ s = neg dir -> (forall v, In v co -> length v = S n) ->
    In (repeat 0 (S n)) co -> In s co ->
    (forall z, length z = S n -> leaf l (ancestor 1 z) -> leaf (S l) (vadd n z s) -> fits_at n ref co (S l) z) ->
    exists zs out, over_set n (on (shifted_inter (c_at cells l) (c_at cells (S l)) (neg s)) (S l)) (jump_interval n ref first (found co s) co) = Some out /\
      NoDup zs /\ (forall z, In z zs <-> length z = S n /\ leaf l (ancestor 1 z) /\ leaf (S l) (vadd n z s)) /\ Forall2 (jump_call n ref l first s co) zs out.
  Proof.
    intros l s first co Hl Hs Hco H0 Hsc HF. pose proof HM as [W LV MX LE RG DJ CV [D1 D2] US GR]. pose proof HR as [R1 R2 R3 R4].
    assert (NN : neg (neg s) = s) by (destruct Hs as [->| ->]; rewrite neg_neg; auto).
    destruct (shifted_inter_spec n (c_at cells l) (c_at cells (S l)) (neg s) (S l)) as (calls & E & V & ND & SEP & M); auto.
    { apply W. lia. } { apply W. lia. } { right. rewrite LV by lia. auto. } { apply LV. lia. }
    { intros q k Hq Hk. rewrite LV by lia. replace (S l - l)%nat with 1%nat by lia. change (2 ^ Z.of_nat 1) with 2.
      assert (Hc : (l <= c_max cells)%nat) by lia. specialize (RG l q k (conj Hc Hq) Hk). lia. }
    { intros q k Hq Hk. assert (Hc : (S l <= c_max cells)%nat) by lia. specialize (RG (S l) q k (conj Hc Hq) Hk).
      assert (-1 <= nth k (neg s) 0 <= 1); [|lia]. destruct Hs as [->| ->]; [rewrite neg_dir; apply (US _ k D2 Hk)|rewrite neg_neg; apply (US _ k D1 Hk)]. }
    assert (M' : forall z, In z (cells_of_calls calls) <-> length z = S n /\ leaf l (ancestor 1 z) /\ leaf (S l) (vadd n z s)).
    { intros z. rewrite M, LV by lia. replace (S l - l)%nat with 1%nat by lia. change (vopp (neg s)) with (neg (neg s)). rewrite NN. unfold leaf, ca_mem.
      split; [intros (H1 & H2 & H3)|intros (H1 & (_ & H2) & (_ & H3))]; auto. spl; auto; lia. }
    unfold over_set. rewrite E.
    destruct (concat_calls_spec _ (jump_call n ref l first s co) (fun '(i, yz) => jump_interval n ref first (found co s) co (mkMI (S l) i yz)) calls) as (out & Eo & F).
    { intros i yz Hin. destruct (V i yz Hin) as [V1 V2]. 
      assert (P : istart i mod 2 = 0 \/ iend i = istart i + 1).
      { assert (I0 : in_i i (istart i)) by (unfold in_i; lia).
        destruct (proj1 (M' _) (call_interval_cells calls i yz _ Hin I0)) as (L0 & L1 & L2).
        destruct (jump_parity s l _ Hs L0 L1 L2) as [P1 P2]. destruct (Nat.eq_dec d 0) as [Ed|Ed].
        - right. destruct (Z.eq_dec (iend i) (istart i + 1)) as [|Hne]; auto. exfalso. apply (P1 Ed).
          assert (I1 : in_i i (istart i + 1)) by (unfold in_i; lia).
          destruct (proj1 (M' _) (call_interval_cells calls i yz _ Hin I1)) as (L0' & L1' & L2').
          replace (vadd n (istart i :: yz) dir) with (istart i + 1 :: yz); auto.
          apply (list_ext n); [cbn [length]; congruence|apply vadd_length|]. intros k Hk. rewrite nth_vadd by auto. unfold dir. rewrite nth_unit, Ed by auto.
          destruct k; cbn [nth Nat.eqb]; lia.
        - left. pose proof (Z.mod_pos_bound (istart i) 2 ltac:(lia)). destruct (Z.eq_dec (istart i mod 2) 0); auto. exfalso.
          destruct (P2 Ed ltac:(cbn [nth]; lia)) as [Q1 Q2].
          assert (Ez : vadd n (istart i :: yz) (unit_mult n 0 (-1)) = istart i - 1 :: yz).
          { apply (list_ext n); [apply vadd_length|cbn [length]; congruence|]. intros k Hk. rewrite nth_vadd, nth_unit by auto. destruct k; cbn [nth Nat.eqb]; lia. }
          rewrite Ez in Q1, Q2. assert (Hz' : In (istart i - 1 :: yz) (cells_of_calls calls)) by (apply M'; spl; auto).
          apply cells_of_calls_In in Hz' as (j & Hj & Hjx). unfold in_i in Hjx. destruct (V j yz Hj) as [_ Vj].
          destruct (SEP i j yz Hin Hj) as [C|C]; [intros ->|..]; lia. }
      apply jump_interval_spec; auto. intros x Hx. destruct (proj1 (M' _) (call_interval_cells calls i yz x Hin Hx)) as (L0 & L1 & L2).
      split; [apply HF; auto|apply R1; auto]. }
    exists (cells_of_calls calls), out. spl; auto.
  Qed.

  Lemma level_jump_spec : forall l, exists zs out, level_jump n maxl ref cells l dir comput = Some out /\ NoDup zs /\
    (forall z, In z zs <-> length z = S n /\ leaf l (ancestor 1 z) /\ leaf (S l) (vadd n z dir)) /\ Forall2 (jump_call n ref l true dir comput) zs out.
  Proof.
    intros l. unfold level_jump. pose proof HR as [R1 R2 R3 R4]. destruct (Nat.leb_spec maxl l) as [C|Hl].
    { exists [], []. spl; auto; [constructor|]. intros z. split; [intros []|]. intros (_ & _ & H). apply (im_leaves _ _ _ _ _ HM) in H. lia. }
    apply jump_calls; auto.
  Qed.

  Lemma minus_In : forall v, In v (stencil_minus comput dir) <-> exists w, In w comput /\ v = vadd n w (neg dir).
  Proof.
    intros v. unfold stencil_minus. rewrite in_map_iff. split.
    - intros (w & <- & Hw). exists w. split; auto. apply add_vec_vadd; auto. rewrite neg_dir. apply unit_length.
    - intros (w & Hw & ->). exists w. split; auto. apply add_vec_vadd; auto. rewrite neg_dir. apply unit_length.
  Qed.

  Lemma opposite_spec : forall l, exists zs out, level_jump_opposite n maxl ref cells l dir comput = Some out /\ NoDup zs /\
    (forall z, In z zs <-> length z = S n /\ leaf l (ancestor 1 z) /\ leaf (S l) (vadd n z (neg dir))) /\
    Forall2 (jump_call n ref l false (neg dir) (stencil_minus comput dir)) zs out.
  Proof.
    intros l. unfold level_jump_opposite. pose proof HR as [R1 R2 R3 R4]. destruct (Nat.leb_spec maxl l) as [C|Hl].
    { exists [], []. spl; auto; [constructor|]. intros z. split; [intros []|]. intros (_ & _ & H). apply (im_leaves _ _ _ _ _ HM) in H. lia. }
    assert (E := jump_calls l (neg dir) false (stencil_minus comput dir) Hl (or_intror eq_refl)). rewrite neg_neg in E. apply E.
    - intros v Hv. apply minus_In in Hv as (w & _ & ->). apply vadd_length.
    - apply minus_In. exists dir. split; auto. symmetry. apply (list_ext n); [apply vadd_length|apply repeat_length|].
      intros k Hk. rewrite nth_vadd, nth_neg by auto. rewrite nth_repeat. lia.
    - apply minus_In. exists (repeat 0 (S n)). split; auto. symmetry. apply (list_ext n); [apply vadd_length|rewrite neg_dir; apply unit_length|].
      intros k Hk. rewrite nth_vadd by auto. rewrite nth_repeat. lia.
    - intros z L0 L1 L2. apply R4; auto. rewrite <- neg_dir. auto.
  Qed.

  Definition pair_at (l : nat) (p : list (nat * list Z)) : Prop :=
    exists l1 p1 l2 p2, p = [(l1, p1); (l2, p2)] /\ leaf l1 p1 /\ leaf l2 p2 /\ share_face n d l1 p1 l2 p2 /\ Nat.min l1 l2 = l.
  Definition g1 (l : nat) (z : list Z) := [(l, z); (l, vadd n z dir)].
  Definition g2 (l : nat) (z : list Z) := [(l, ancestor 1 z); (S l, vadd n z dir)].
  Definition g3 (l : nat) (z : list Z) := [(S l, vadd n z (neg dir)); (l, ancestor 1 z)].

  Lemma sides_same : forall l zs out, Forall2 (same_call n ref l dir comput) zs out -> map sides out = map (g1 l) zs.
  Proof.
    intros l zs out F. induction F as [|z f zs out Hc F IH]; auto. cbn [map]. f_equal; auto.
    destruct Hc as [(a & b & E & (A1 & A2 & _) & (B1 & B2 & _)) _]. unfold sides, g1. rewrite E. cbn [map]. congruence.
  Qed.
  Lemma sides_jump : forall l zs out, Forall2 (jump_call n ref l true dir comput) zs out -> map sides out = map (g2 l) zs.
  Proof.
    intros l zs out F. induction F as [|z f zs out Hc F IH]; auto. cbn [map]. f_equal; auto.
    destruct Hc as [(a & b & E & (A1 & A2 & _) & (B1 & B2 & _)) _]. unfold sides, g2. rewrite E. cbn [map]. congruence.
  Qed.
  Lemma sides_opposite : forall l co zs out, Forall2 (jump_call n ref l false (neg dir) co) zs out -> map sides out = map (g3 l) zs.
  Proof.
    intros l co zs out F. induction F as [|z f zs out Hc F IH]; auto. cbn [map]. f_equal; auto.
    destruct Hc as [(a & b & E & (A1 & A2 & _) & (B1 & B2 & _)) _]. unfold sides, g3. rewrite E. cbn [map]. congruence.
  Qed.
  Lemma Forall2_In_r : forall (A B : Type) (R : A -> B -> Prop) xs ys y, Forall2 R xs ys -> In y ys -> exists x, In x xs /\ R x y.
  Proof. intros A B R xs ys y F. induction F as [|x y' xs ys H F IH]; intros []; [subst; exists x; cbn; auto|]. destruct IH as (u & U1 & U2); auto. exists u. cbn; auto. Qed.

  Lemma NoDup_map_in : forall (A B : Type) (f : A -> B) xs, NoDup xs -> (forall a b, In a xs -> In b xs -> f a = f b -> a = b) -> NoDup (map f xs).
  Proof.
    intros A B f xs N. induction N as [|x xs Hx N IH]; intros H; cbn [map]; constructor.
    - intros Hin. apply in_map_iff in Hin as (y & E & Hy). apply Hx. replace x with y; auto. apply H; cbn; auto.
    - apply IH. intros a b Ha Hb. apply H; cbn; auto.
  Qed.

  Lemma Forall2_hd : forall (A B : Type) (R : A -> B -> Prop) x xs y ys, Forall2 R (x :: xs) (y :: ys) -> R x y /\ Forall2 R xs ys.
  Proof. intros A B R x xs y ys H. inversion H; auto. Qed.
  Lemma minus_cells : forall l z cs es, (forall v, In v cs -> length v = S n) ->
    Forall2 (fun v e => cell_is n ref l (vadd n z v) e) (map (fun v => add_vec v (neg dir)) cs) es ->
    Forall2 (fun v e => cell_is n ref l (vadd n (vadd n z (neg dir)) v) e) cs es.
  Proof.
    intros l z cs. induction cs as [|v cs IH]; intros es Hv F; cbn [map] in F; [inversion F; constructor|]. destruct es as [|e es]; [inversion F|].
    pose proof (proj1 (Forall2_hd _ _ _ _ _ _ _ F)) as H1. pose proof (proj2 (Forall2_hd _ _ _ _ _ _ _ F)) as H2. constructor; [|apply IH; auto; intros; apply Hv; right; auto].
    rewrite (add_vec_vadd n v (neg dir)) in H1; [|apply Hv; left; auto|unfold neg; rewrite map_length; apply unit_length].
    replace (vadd n (vadd n z (neg dir)) v) with (vadd n z (vadd n v (neg dir))); auto.
    apply (list_ext n); try apply vadd_length. intros k Hk. rewrite !nth_vadd by auto. lia.
  Qed.

  Lemma level_spec : forall l, (l <= c_max cells)%nat -> exists out, interfaces_of_level n maxl ref cells dir comput l = Some out /\
    NoDup (map sides out) /\ (forall p, In p (map sides out) <-> pair_at l p) /\ forall f, In f out -> call_ok n d ref comput f.
  Proof.
    intros l Hl. pose proof HM as [W LV MX LE RG DJ CV [D1 D2] US GR].
    destruct (same_level_spec l Hl) as (z1 & o1 & E1 & N1 & M1 & F1). destruct (level_jump_spec l) as (z2 & o2 & E2 & N2 & M2 & F2).
    destruct (opposite_spec l) as (z3 & o3 & E3 & N3 & M3 & F3).
    unfold interfaces_of_level. rewrite E1, E2, E3. eexists. split; [reflexivity|].
    rewrite !map_app, (sides_same _ _ _ F1), (sides_jump _ _ _ F2), (sides_opposite _ _ _ _ F3).
    assert (INJ : forall s a b, length a = S n -> length b = S n -> vadd n a s = vadd n b s -> a = b).
    { intros s a b Ha Hb E. rewrite <- (add_neg s a), <- (add_neg s b), E by auto. reflexivity. }
    split; [|split].
    - apply NoDup_app2; [|apply NoDup_app2|].
      + apply NoDup_map_in; auto. intros a b _ _ E. injection E; auto.
      + apply NoDup_map_in; auto. intros a b Ha Hb E. apply M2 in Ha as (La & _). apply M2 in Hb as (Lb & _). apply (INJ dir); auto. unfold g2 in E. congruence.
      + apply NoDup_map_in; auto. intros a b Ha Hb E. apply M3 in Ha as (La & _). apply M3 in Hb as (Lb & _). apply (INJ (neg dir)); auto. unfold g3 in E. congruence.
      + intros p H2 H3. apply in_map_iff in H2 as (a & <- & _). apply in_map_iff in H3 as (b & E & _). injection E as E _. lia.
      + intros p H2 H3. apply in_map_iff in H2 as (a & <- & _). apply in_app_iff in H3 as [H3|H3]; apply in_map_iff in H3 as (b & E & _).
        * assert (S l = l); [|lia]. unfold g1, g2 in E. congruence.
        * assert (S l = l); [|lia]. unfold g1, g3 in E. congruence.
    - intros p. rewrite !in_app_iff, !in_map_iff. split.
      + intros [(z & <- & Hz)|[(z & <- & Hz)|(z & <- & Hz)]].
        * apply M1 in Hz as [L1 L2]. exists l, z, l, (vadd n z dir). split; [reflexivity|]. split; [exact L1|]. split; [exact L2|]. split; [|lia].
          apply face_same; auto using vadd_length. apply (leaf_length _ _ L1).
        * apply M2 in Hz as (L0 & L1 & L2). exists l, (ancestor 1 z), (S l), (vadd n z dir). split; [reflexivity|]. split; [exact L1|]. split; [exact L2|]. split; [|lia].
          apply face_fine_conv; auto using vadd_length; [rewrite ancestor_length; auto|fold dir; rewrite add_neg; auto|].
          intros E. assert (l = S l); [|lia]. apply (DJ l (S l) _ _ L1 L2); [lia|]. rewrite <- E. f_equal. lia.
        * apply M3 in Hz as (L0 & L1 & L2). exists (S l), (vadd n z (neg dir)), l, (ancestor 1 z). split; [reflexivity|]. split; [exact L2|]. split; [exact L1|]. split; [|lia].
          apply face_coarse_conv; auto using vadd_length; [rewrite ancestor_length; auto|fold dir; rewrite neg_add; auto|].
          intros E. assert (l = S l); [|lia]. apply (DJ l (S l) _ _ L1 L2); [lia|]. rewrite <- E. f_equal. lia.
      + intros (l1 & p1 & l2 & p2 & -> & L1 & L2 & SF & Hm). pose proof (leaf_length _ _ L1) as Len1. pose proof (leaf_length _ _ L2) as Len2.
        destruct (Nat.lt_trichotomy l1 l2) as [Hlt|[->|Hgt]].
        * assert (l1 = l) by lia. subst l1. pose proof (face_fine n d Hd l p1 l2 p2 ltac:(lia) Len1 Len2 SF) as E. fold dir in E.
          destruct (Nat.eq_dec l2 (S l)) as [->|Hne]; [|exfalso; apply (graded l l2 p1 p2 (neg dir)); auto; lia].
          right. left. exists (vadd n p2 (neg dir)). replace (S l - l)%nat with 1%nat in E by lia. unfold g2. rewrite E, neg_add by auto. split; auto.
          apply M2. rewrite E, neg_add by auto. auto using vadd_length.
        * assert (l2 = l) by lia. subst l2. apply face_same in SF; auto. left. exists p1. unfold g1. fold dir in SF. rewrite <- SF. split; auto.
          apply M1. rewrite <- SF. auto.
        * assert (l2 = l) by lia. subst l2. pose proof (face_coarse n d Hd l1 p1 l p2 ltac:(lia) Len1 Len2 SF) as E. fold dir in E.
          destruct (Nat.eq_dec l1 (S l)) as [->|Hne]; [|exfalso; apply (graded l l1 p2 p1 dir); auto; lia].
          right. right. exists (vadd n p1 dir). replace (S l - l)%nat with 1%nat in E by lia. unfold g3. rewrite E, add_neg by auto. split; auto.
          apply M3. rewrite E, add_neg by auto. auto using vadd_length.
    - intros f Hf. rewrite !in_app_iff in Hf. destruct Hf as [Hf|[Hf|Hf]].
      + destruct (Forall2_In_r _ _ _ _ _ _ F1 Hf) as (z & Hz & (a & b & E & A & B) & C). apply M1 in Hz as [L1 L2].
        destruct A as (A1 & A2 & A3). destruct B as (B1 & B2 & B3). exists a, b, z. split; [exact E|]. split; [split; [auto|split; [auto|congruence]]|].
        split; [split; [auto|split; [auto|congruence]]|]. split; [apply (leaf_length _ _ L1)|]. cbv zeta. rewrite A1, B1, Nat.max_id, Nat.sub_diag, !ancestor_0.
        split; [auto|]. split; [auto|exact C].
      + destruct (Forall2_In_r _ _ _ _ _ _ F2 Hf) as (z & Hz & (a & b & E & A & B) & C). apply M2 in Hz as (L0 & L1 & L2).
        destruct A as (A1 & A2 & A3). destruct B as (B1 & B2 & B3). exists a, b, z. split; [exact E|]. split; [split; [auto|split; [auto|congruence]]|].
        split; [split; [auto|split; [auto|congruence]]|]. split; [exact L0|]. cbv zeta. rewrite A1, B1. replace (Nat.max l (S l)) with (S l) by lia.
        replace (S l - l)%nat with 1%nat by lia. rewrite Nat.sub_diag, ancestor_0.
        split; [auto|]. split; [auto|exact C].
      + destruct (Forall2_In_r _ _ _ _ _ _ F3 Hf) as (z & Hz & (a & b & E & A & B) & C). apply M3 in Hz as (L0 & L1 & L2).
        destruct A as (A1 & A2 & A3). destruct B as (B1 & B2 & B3). exists b, a, (vadd n z (neg dir)). split; [exact E|]. split; [split; [auto|split; [auto|congruence]]|].
        split; [split; [auto|split; [auto|congruence]]|]. split; [apply vadd_length|]. cbv zeta. rewrite A1, B1. replace (Nat.max (S l) l) with (S l) by lia.
        replace (S l - l)%nat with 1%nat by lia. rewrite Nat.sub_diag, ancestor_0. fold dir. rewrite neg_add by auto.
        split; [auto|]. split; [auto|]. unfold stencil_minus in C.
        apply minus_cells; auto.
  Qed.

  Lemma levels_fold : forall ls, NoDup ls -> (forall l, In l ls -> (l <= c_max cells)%nat) ->
    exists out, over_levels cells (interfaces_of_level n maxl ref cells dir comput) ls = Some out /\
      NoDup (map sides out) /\ (forall p, In p (map sides out) <-> exists l, In l ls /\ pair_at l p) /\ forall f, In f out -> call_ok n d ref comput f.
  Proof.
    induction ls as [|l ls IH]; intros N B.
    { exists []. split; [reflexivity|]. split; [constructor|]. split; [|intros f []]. intros p. split; [intros []|intros (l & [] & _)]. }
    inversion N as [|? ? Nl N']; subst. destruct (IH N') as (o2 & E2 & D2 & M2 & C2); [intros; apply B; right; auto|].
    assert (H1 : exists o1, (if lca_is_empty (c_at cells l) then Some [] else interfaces_of_level n maxl ref cells dir comput l) = Some o1 /\
      NoDup (map sides o1) /\ (forall p, In p (map sides o1) <-> pair_at l p) /\ forall f, In f o1 -> call_ok n d ref comput f).
    { destruct (lca_is_empty (c_at cells l)) eqn:E; [|apply level_spec; apply B; left; auto].
      exists []. split; [reflexivity|]. split; [constructor|]. split; [|intros f []]. intros p. split; [intros []|]. intros (l1 & p1 & l2 & p2 & _ & L1 & L2 & _ & Hm).
      assert (NE : forall q, ~ leaf l q).
      { intros q [Hl Hq]. assert (lca_is_empty (c_at cells l) = false); [|congruence]. apply (nonempty_mem n); [apply (im_wf _ _ _ _ _ HM); auto|exists q; auto]. }
      destruct (Nat.min_dec l1 l2) as [C|C]; rewrite C in Hm; subst; [apply (NE p1 L1)|apply (NE p2 L2)]. }
    destruct H1 as (o1 & E1 & D1 & M1 & C1). cbn [over_levels]. rewrite E1, E2. exists (o1 ++ o2). split; [reflexivity|]. rewrite map_app. split; [|split].
    - apply NoDup_app2; auto. intros p H1 H2. apply M1 in H1 as (l1 & p1 & l2 & p2 & -> & _ & _ & _ & Hm).
      apply M2 in H2 as (l' & Hl' & m1 & q1 & m2 & q2 & E & _ & _ & _ & Hm'). injection E as -> -> -> ->. apply Nl. congruence.
    - intros p. rewrite in_app_iff, M1, M2. cbn [In]. split.
      + intros [H|(l' & H1 & H2)]; [exists l; auto|exists l'; auto].
      + intros (l' & [<-|H1] & H2); [auto|right; exists l'; auto].
    - intros f Hf. apply in_app_iff in Hf as [Hf|Hf]; auto.
  Qed.

  Lemma interfaces_spec : exists out, for_each_interior_interface n maxl ref cells dir comput = Some out /\ NoDup (map sides out) /\
    (forall l1 p1 l2 p2, In [(l1, p1); (l2, p2)] (map sides out) <-> ca_mem n cells l1 p1 /\ ca_mem n cells l2 p2 /\ share_face n d l1 p1 l2 p2) /\
    forall f, In f out -> call_ok n d ref comput f.
  Proof.
    unfold for_each_interior_interface. destruct (levels_spec cells) as (S1 & S2 & S3).
    destruct (levels_fold (levels cells)) as (out & E & N & M & C); auto.
    { unfold levels. apply seq_NoDup. }
    exists out. split; [exact E|]. split; [exact N|]. split; [|exact C]. intros l1 p1 l2 p2. rewrite M. split.
    - intros (l & Hl & m1 & q1 & m2 & q2 & E' & L1 & L2 & SF & _). injection E' as -> -> -> ->. auto.
    - intros (L1 & L2 & SF). exists (Nat.min l1 l2). split; [|exists l1, p1, l2, p2; auto].
      assert (IN : forall l p, leaf l p -> In l (levels cells)).
      { intros l p [Hl Hp]. apply S3; auto. apply (nonempty_mem n); [apply (im_wf _ _ _ _ _ HM); auto|exists p; auto]. }
      destruct (Nat.min_dec l1 l2) as [C'|C']; rewrite C'; eauto.
  Qed.
End Interfaces.

(** ** The theorems *)

(** One direction: every pair of leaves sharing a face in that direction gets exactly
    one call, no other pair gets one, the cells given are the right ones. *)
Theorem C47_interior_interfaces : forall n d maxl st m hist comput cells, good_hist n m hist -> let ref := client_ca n m hist true in
  (d <= n)%nat -> interface_mesh n d maxl st cells -> stencil_room n d ref cells comput ->
  (forall v, In v comput -> length v = S n) -> In (repeat 0 (S n)) comput -> In (unit_mult n d 1) comput ->
  exists out, for_each_interior_interface n maxl ref cells (unit_mult n d 1) comput = Some out /\ NoDup (map sides out) /\
    (forall l1 p1 l2 p2, In [(l1, p1); (l2, p2)] (map sides out) <-> ca_mem n cells l1 p1 /\ ca_mem n cells l2 p2 /\ share_face n d l1 p1 l2 p2) /\
    forall f, In f out -> call_ok n d ref comput f.
Proof.
  intros n d maxl st m hist comput cells G ref Hd HM HR HC HZ HDC. apply (interfaces_spec n d maxl st); auto. apply numbered_client. exact G.
Qed.

(** The reference mesh contains the leaves and, beside every leaf whose neighbour is a
    coarser leaf, the child of that leaf which is adjacent. *)
Record ghosts (n : nat) (ref cells : ca) : Prop := {
  gh_leaves : forall l p, ca_mem n cells l p -> ca_mem n ref l p;
  gh_jump : forall d s l q, (d <= n)%nat -> s = 1 \/ s = -1 -> ca_mem n cells (S l) q -> ca_mem n cells l (ancestor 1 (vadd n q (unit_mult n d s))) ->
    ca_mem n ref (S l) (vadd n q (unit_mult n d s)) }.

Lemma ghosts_room : forall n d ref cells, (d <= n)%nat -> ghosts n ref cells -> stencil_room n d ref cells (in_out_stencil n (unit_mult n d 1)).
Proof.
  intros n d ref cells Hd [GL GJ].
  assert (back : forall z s, length z = S n -> vadd n (vadd n z (unit_mult n d s)) (unit_mult n d (- s)) = z).
  { intros z s Lz. apply (list_ext n); [apply vadd_length|auto|]. intros k Hk. rewrite !nth_vadd, !nth_unit by auto. destruct (Nat.eqb k d); lia. }
  constructor; [exact GL| | |].
  - intros l z H1 H2. apply (fits_in_out n d 1); auto. intros v [<-|[<-|[]]]; auto.
  - intros l z Lz H1 H2. apply (fits_in_out n d 1); auto; [|intros v [<-|[<-|[]]]; auto].
    pose proof (GJ d (-1) l _ Hd (or_intror eq_refl) H2) as H3. pose proof (back z 1 Lz) as B. change (- (1)) with (-1) in B. rewrite B in H3. auto.
  - intros l z Lz H1 H2. apply (fits_in_out n d (-1)); auto.
    + pose proof (GJ d 1 l _ Hd (or_introl eq_refl) H2) as H3. pose proof (back z (-1) Lz) as B. change (- (-1)) with 1 in B. rewrite B in H3. auto.
    + intros v Hv. apply (minus_In n d _ ref Hd) in Hv as (w & Hw & ->); [|intros u [<-|[<-|[]]]; auto using repeat_length, unit_length|right; left; auto].
      destruct Hw as [<-|[<-|[]]]; [right|left]; apply (list_ext n); rewrite ?vadd_length, ?unit_length, ?repeat_length; auto; intros k Hk;
        rewrite nth_vadd, nth_neg, ?nth_repeat, !nth_unit by auto; destruct (Nat.eqb k d); lia.
Qed.

Lemma share_face_dir : forall n d d' l1 p1 l2 p2, (d <= n)%nat -> (d' <= n)%nat -> share_face n d l1 p1 l2 p2 -> share_face n d' l1 p1 l2 p2 -> d = d'.
Proof.
  intros n d d' l1 p1 l2 p2 Hd Hd' [E K] [E' K']. destruct (Nat.eq_dec d d') as [|Hne]; auto. exfalso. destruct (K' d Hd Hne). lia.
Qed.

(** All directions (for_each_interior_interface without direction). *)
Theorem C47_all_directions : forall n maxl st m hist cells, good_hist n m hist -> let ref := client_ca n m hist true in
  (forall d, (d <= n)%nat -> interface_mesh n d maxl st cells) -> ghosts n ref cells ->
  exists out, interior_interfaces n maxl ref cells = Some out /\ NoDup (map sides out) /\
    (forall l1 p1 l2 p2, In [(l1, p1); (l2, p2)] (map sides out) <->
       ca_mem n cells l1 p1 /\ ca_mem n cells l2 p2 /\ exists d, (d <= n)%nat /\ share_face n d l1 p1 l2 p2) /\
    forall f, In f out -> exists d, (d <= n)%nat /\ call_ok n d ref (in_out_stencil n (unit_mult n d 1)) f.
Proof.
  intros n maxl st m hist cells G ref HM HG.
  assert (A : forall ds, NoDup ds -> (forall d, In d ds -> (d <= n)%nat) -> exists out,
    over_directions (fun d => for_each_interior_interface n maxl ref cells d (in_out_stencil n d)) (map (fun d => unit_mult n d 1) ds) = Some out /\
    NoDup (map sides out) /\
    (forall p, In p (map sides out) -> exists l1 p1 l2 p2, p = [(l1, p1); (l2, p2)]) /\
    (forall l1 p1 l2 p2, In [(l1, p1); (l2, p2)] (map sides out) <->
       ca_mem n cells l1 p1 /\ ca_mem n cells l2 p2 /\ exists d, In d ds /\ share_face n d l1 p1 l2 p2) /\
    forall f, In f out -> exists d, (d <= n)%nat /\ call_ok n d ref (in_out_stencil n (unit_mult n d 1)) f).
  { induction ds as [|d ds IH]; intros N B.
    { exists []. split; [reflexivity|]. split; [constructor|]. split; [intros p []|]. split; [|intros f []]. intros. split; [intros []|intros (_ & _ & d & [] & _)]. }
    inversion N as [|? ? Nd N']; subst. destruct IH as (o2 & E2 & D2 & P2 & M2 & C2); auto; [intros; apply B; right; auto|].
    assert (Hd : (d <= n)%nat) by (apply B; left; auto).
    destruct (C47_interior_interfaces n d maxl st m hist (in_out_stencil n (unit_mult n d 1)) cells G Hd (HM d Hd)) as (o1 & E1 & D1 & M1 & C1).
    { apply ghosts_room; auto. } { intros v [<-|[<-|[]]]; [apply repeat_length|apply unit_length]. } { left; auto. } { right; left; auto. }
    fold ref in E1, C1. cbn [map over_directions]. rewrite E1, E2. exists (o1 ++ o2). split; [reflexivity|]. rewrite map_app.
    assert (P1 : forall p, In p (map sides o1) -> exists l1 p1 l2 p2, p = [(l1, p1); (l2, p2)]).
    { intros p Hp. apply in_map_iff in Hp as (f & <- & Hf). destruct (C1 f Hf) as (a & b & o & E & _). unfold sides. rewrite E. cbn [map]. eauto 6. }
    split; [|split; [|split]].
    - apply NoDup_app2; auto. intros p H1 H2. destruct (P1 p H1) as (l1 & p1 & l2 & p2 & ->).
      apply M1 in H1 as (_ & _ & S1). apply M2 in H2 as (_ & _ & d' & Hd' & S2). apply Nd.
      rewrite (share_face_dir n d d' l1 p1 l2 p2); auto. apply B; right; auto.
    - intros p Hp. apply in_app_iff in Hp as [Hp|Hp]; auto.
    - intros l1 p1 l2 p2. rewrite in_app_iff, M1, M2. cbn [In]. split.
      + intros [(A1 & A2 & A3)|(A1 & A2 & d' & A3 & A4)]; (split; [auto|]; split; [auto|]); [exists d|exists d']; auto.
      + intros (A1 & A2 & d' & [<-|A3] & A4); [left; auto|right; split; [auto|]; split; [auto|]; exists d'; auto].
    - intros f Hf. apply in_app_iff in Hf as [Hf|Hf]; auto. exists d. auto. }
  destruct (A (seq 0 (S n))) as (out & E & N & _ & M & C); [apply seq_NoDup|intros d Hd; apply in_seq in Hd; lia|].
  exists out. split; [exact E|]. split; [exact N|]. split; [|exact C]. intros l1 p1 l2 p2. rewrite M. split.
  - intros (A1 & A2 & d & A3 & A4). apply in_seq in A3. split; [auto|]. split; [auto|]. exists d. split; [lia|auto].
  - intros (A1 & A2 & d & A3 & A4). split; [auto|]. split; [auto|]. exists d. split; [apply in_seq; lia|auto].
Qed.

(** ** Examples *)

(** The mesh of C31_example in a reference mesh with room around. *)
Definition roomHist (l : nat) : list lcl_call :=
  match l with 1%nat | 2%nat | 3%nat => map (fun y => AddI [y] (mk (-3) 11)) (zrange (-3) 11) | _ => [] end.
Definition roomRef : ca := client_ca 1 3 roomHist true.
Lemma roomHist_ok : good_hist 1 3 roomHist.
Proof. intros l Hl. split; [|apply adds_filled]; destruct l as [|[|[|[|l]]]]; try lia; vm_compute; repeat constructor. Qed.
Lemma roomRef_mem : forall l x y, (1 <= l <= 3)%nat -> -3 <= x < 11 -> -3 <= y < 11 -> ca_mem 1 roomRef l [x; y].
Proof.
  intros l x y Hl Hx Hy. apply client_mem; [apply roomHist_ok|]. split; [lia|]. split; [reflexivity|]. exists (AddI [y] (mk (-3) 11)). split.
  - assert (l = 1 \/ l = 2 \/ l = 3)%nat as [->|[->| ->]] by lia; apply in_map_iff; exists y; (split; [auto|apply zrange_In; lia]).
  - cbn. auto.
Qed.

Definition exLeaves : list (nat * list Z) := [(1%nat, [0; 0]); (1%nat, [1; 0]); (1%nat, [0; 1]); (2%nat, [2; 2]); (2%nat, [3; 2]); (2%nat, [2; 3]);
  (3%nat, [6; 6]); (3%nat, [7; 6]); (3%nat, [6; 7]); (3%nat, [7; 7])].
Lemma exMesh_leaf : forall l q, ca_mem 1 exMesh l q <-> In (l, q) exLeaves.
Proof.
  intros l q. destruct (ca_for_each_cell_spec 1 exMesh exMesh_wf) as (cs & C & [_ EN] & _). rewrite <- EN. vm_compute in C. injection C as <-. reflexivity.
Qed.
Ltac each H := repeat (destruct H as [H|H]; [let E := fresh in apply pair_equal_spec in H as [E <-]; try discriminate E; try subst|]); try solve [destruct H].
Lemma exMesh_box : forall l q, ca_mem 1 exMesh l q -> (1 <= l <= 3)%nat /\ exists x y, q = [x; y] /\ 0 <= x <= 7 /\ 0 <= y <= 7.
Proof.
  intros l q Hq. apply exMesh_leaf in Hq. cbn [In exLeaves] in Hq. each Hq; (split; [lia|]; do 2 eexists; split; [reflexivity|lia]).
Qed.

Lemma exMesh_interface : forall d, (d <= 1)%nat -> interface_mesh 1 d 3 star2 exMesh.
Proof.
  intros d Hd. constructor.
  - exact exMesh_wf.
  - intros l Hl. do 5 (destruct l as [|l]; [vm_compute; reflexivity|]). cbn in Hl. lia.
  - cbn. lia.
  - intros l p H. apply exMesh_box in H. lia.
  - intros l q k H Hk. apply exMesh_box in H as (_ & x & y & -> & Hx & Hy). destruct k as [|[|k]]; [..|lia]; cbn [nth]; lia.
  - eapply no_overlap_check; [exact exMesh_wf|vm_compute; reflexivity|vm_compute; reflexivity].
  - assert (A1 : forall x y, ancestor 1 [x; y] = [x / 2; y / 2]) by (intros; reflexivity).
    assert (C3 : forall x y, In [x; y] [[6; 6]; [7; 6]; [6; 7]; [7; 7]] -> covered 1 exMesh 3 [x; y]).
    { intros x y H. exists 3%nat. split; [lia|]. cbn [Nat.sub]. rewrite ancestor_0. apply exMesh_leaf. cbn [In exLeaves] in *. do 6 right. 
      destruct H as [H|[H|[H|[H|[]]]]]; injection H as <- <-; auto. }
    intros l p q z Hp Hq Lz Hl Ha. destruct z as [|x [|y [|? ?]]]; try discriminate Lz.
    assert (E : l = 1%nat /\ 4 <= x <= 7 /\ 4 <= y <= 7 \/ l = 2%nat /\ 6 <= x <= 7 /\ 6 <= y <= 7).
    { assert (l = 1 \/ l = 2)%nat as [->| ->] by (apply exMesh_box in Hp; apply exMesh_box in Hq; lia); [left|right]; (split; [auto|]).
      - assert (Hq' : ancestor 1 q = [1; 1]) by (apply exMesh_leaf in Hq; cbn [In exLeaves] in Hq; each Hq; reflexivity).
        rewrite Hq' in Ha. injection Ha as H1 H2. change (Z.pow_pos 2 2) with 4 in *. lia.
      - assert (Hq' : ancestor 1 q = [3; 3]) by (apply exMesh_leaf in Hq; cbn [In exLeaves] in Hq; each Hq; reflexivity).
        rewrite Hq' in Ha. injection Ha as H1 H2. change (Z.pow_pos 2 1) with 2 in *. lia. }
    assert (Hxy : 6 <= x <= 7 /\ 6 <= y <= 7 \/ (4 <= x <= 7 /\ 4 <= y <= 7 /\ (x < 6 \/ y < 6))) by lia. destruct Hxy as [[Hx Hy]|(Hx & Hy & Hxy)].
    + apply C3. assert (x = 6 \/ x = 7) as [->| ->] by lia; assert (y = 6 \/ y = 7) as [->| ->] by lia; cbn; tauto.
    + exists 2%nat. split; [lia|]. cbn [Nat.sub]. rewrite A1. apply exMesh_leaf.
      assert (x / 2 = 2 \/ x / 2 = 3) as Hx' by lia. assert (y / 2 = 2 \/ y / 2 = 3) as Hy' by lia. assert (x / 2 = 2 \/ y / 2 = 2) as Hxy' by lia.
      destruct Hx' as [E1|E1], Hy' as [E2|E2]; rewrite E1, E2 in *; try lia; cbn; tauto.
  - destruct d as [|[|d]]; [| |lia]; cbn; tauto.
  - intros s k Hs Hk. cbn [In star2] in Hs. assert (k = 0 \/ k = 1)%nat as [-> | ->] by lia; repeat (destruct Hs as [<-|Hs]; [cbn; lia|]); destruct Hs.
  - vm_compute. reflexivity.
Qed.

Lemma room_near : forall l q v, ca_mem 1 exMesh l q -> length v = 2%nat -> (forall k, -3 <= nth k v 0 <= 3) -> ca_mem 1 roomRef l (vadd 1 q v).
Proof.
  intros l q v Hq Lv Hv. apply exMesh_box in Hq as (Hl & x & y & -> & Hx & Hy). destruct v as [|a [|b [|? ?]]]; try discriminate Lv.
  pose proof (Hv 0%nat) as H0. pose proof (Hv 1%nat) as H1. cbn in H0, H1. change (vadd 1 [x; y] [a; b]) with [x + a; y + b]. apply roomRef_mem; lia.
Qed.
Lemma roomRef_ghosts : ghosts 1 roomRef exMesh.
Proof.
  split.
  - intros l p H. apply exMesh_box in H as (Hl & x & y & -> & Hx & Hy). apply roomRef_mem; lia.
  - intros d s l q Hd Hs Hq _. apply room_near; auto. intros k. destruct d as [|[|d]]; [| |lia]; destruct k as [|[|k]]; try (destruct Hs as [->| ->]; cbn; lia); cbn; destruct k; lia.
Qed.

(** The line stencil of four cells in direction 0. *)
Definition line4 : stencil := [[0; 0]; [1; 0]; [-1; 0]; [2; 0]].
Lemma roomRef_line : stencil_room 1 0 roomRef exMesh line4.
Proof.
  assert (FIT : forall l q v st, ca_mem 1 exMesh l q -> length v = 2%nat -> -1 <= nth 0 v 0 <= 1 -> nth 1 v 0 = 0 ->
    (forall w, In w st -> In w [[0; 0]; [1; 0]; [-1; 0]; [2; 0]; [-2; 0]]) -> fits_at 1 roomRef st l (vadd 1 q v)).
  { intros l q v st Hq Lv H0 H1 Hst. apply exMesh_box in Hq as (Hl & x & y & -> & Hx & Hy). destruct v as [|a [|b [|? ?]]]; try discriminate Lv.
    cbn in H0, H1. subst b. change (vadd 1 [x; y] [a; 0]) with [x + a; y + 0]. split.
    - intros w Hw. apply Hst in Hw. cbn [In] in Hw. 
      repeat (destruct Hw as [<-|Hw]; [unfold vadd; cbn [map seq nth]; apply roomRef_mem; lia|]). destruct Hw.
    - intros w u Hw _ Hu. apply Hst in Hw. cbn [hd tl]. apply roomRef_mem; [lia| |lia]. cbn [In] in Hw. repeat (destruct Hw as [<-|Hw]; [cbn in Hu; lia|]). destruct Hw. }
  assert (SUB : forall w, In w line4 -> In w [[0; 0]; [1; 0]; [-1; 0]; [2; 0]; [-2; 0]]) by (cbn; tauto).
  split.
  - apply roomRef_ghosts.
  - intros l z H _. replace z with (vadd 1 z [0; 0]); [apply FIT; auto; cbn; lia|]. apply vadd_zero; [apply H|]. intros [|[|k]] Hk; cbn; auto; lia.
  - intros l z Lz _ H. apply (FIT _ _ [-1; 0] line4) in H; auto; [|cbn; lia]. destruct z as [|x [|y [|? ?]]]; try discriminate Lz.
    unfold vadd in H. cbn [map seq nth unit_mult Nat.eqb] in H. replace (x + 1 + -1) with x in H by lia. replace (y + 0 + 0) with y in H by lia. exact H.
  - intros l z Lz _ H. apply (FIT _ _ [1; 0] (stencil_minus line4 [1; 0])) in H; auto; [|cbn; lia|cbn; tauto]. destruct z as [|x [|y [|? ?]]]; try discriminate Lz.
    unfold vadd in H. cbn [map seq nth unit_mult Nat.eqb] in H. replace (x + -1 + 1) with x in H by lia. replace (y + 0 + 0) with y in H by lia. exact H.
Qed.

Example C47_hypotheses : good_hist 1 3 roomHist /\ interface_mesh 1 0 3 star2 exMesh /\ stencil_room 1 0 roomRef exMesh line4 /\
  (forall v, In v line4 -> length v = 2%nat) /\ In (repeat 0 2) line4 /\ In (unit_mult 1 0 1) line4 /\
  (forall d, (d <= 1)%nat -> interface_mesh 1 d 3 star2 exMesh) /\ ghosts 1 roomRef exMesh.
Proof.
  split; [exact roomHist_ok|]. split; [apply exMesh_interface; lia|]. split; [exact roomRef_line|].
  split; [intros v Hv; cbn in Hv; repeat (destruct Hv as [<-|Hv]; [reflexivity|]); destruct Hv|].
  split; [left; reflexivity|]. split; [right; left; reflexivity|]. split; [exact exMesh_interface|exact roomRef_ghosts].
Qed.

(** The eight interfaces in direction 0; each of the two fine sides of a coarse face
    appears once. *)
Example C47_example : option_map (map sides) (for_each_interior_interface 1 3 roomRef exMesh [1; 0] line4) = Some
  [[(1%nat, [0; 0]); (1%nat, [1; 0])]; [(1%nat, [0; 1]); (2%nat, [2; 2])];
   [(1%nat, [0; 1]); (2%nat, [2; 3])]; [(2%nat, [2; 2]); (2%nat, [3; 2])];
   [(2%nat, [2; 3]); (3%nat, [6; 6])]; [(2%nat, [2; 3]); (3%nat, [6; 7])];
   [(3%nat, [6; 6]); (3%nat, [7; 6])]; [(3%nat, [6; 7]); (3%nat, [7; 7])]].
Proof. vm_compute. reflexivity. Qed.

(** On a mesh which is not graded the interfaces between leaves two levels apart are
    silently left out. *)
Theorem C47_ungraded_refuted : is_graduated 1 gradMesh star2 = Some false /\ ca_mem 1 gradMesh 1 [1; 0] /\ ca_mem 1 gradMesh 3 [4; 4] /\
  share_face 1 1 1 [1; 0] 3 [4; 4] /\
  exists out, for_each_interior_interface 1 3 roomRef gradMesh [0; 1] (in_out_stencil 1 [0; 1]) = Some out /\ ~ In [(1%nat, [1; 0]); (3%nat, [4; 4])] (map sides out).
Proof.
  assert (M : forall l p, client_cell 1 4 gradTree l p -> ca_mem 1 gradMesh l p).
  { intros l p H. apply client_mem; auto. intros k Hk. do 5 (destruct k as [|k]; [split; [repeat constructor|apply adds_filled; repeat constructor]|]). lia. }
  split; [vm_compute; reflexivity|]. split; [|split; [|split]].
  - apply M. split; [lia|]. split; [reflexivity|]. exists (AddI [0] (mk 0 2)). split; [left; reflexivity|]. cbn. unfold in_i. cbn. split; [reflexivity|lia].
  - apply M. split; [lia|]. split; [reflexivity|]. exists (AddI [4] (mk 4 6)). split; [left; reflexivity|]. cbn. unfold in_i. cbn. split; [reflexivity|lia].
  - split; [reflexivity|]. intros [|[|k]] Hk Hne; cbn; lia.
  - eexists. split; [vm_compute; reflexivity|]. cbn. intros H. repeat (destruct H as [H|H]; [discriminate H|]). exact H.
Qed.

(** When the parents of the fine leaves stick out of the domain a run may begin at an
    odd coordinate: the callback then gets two cells which do not touch (C45). *)
Definition oddHist (l : nat) : list lcl_call := match l with 1%nat => [AddI [0] (mk 0 2)] | 2%nat => [AddI [2] (mk 1 3)] | _ => [] end.
Definition oddMesh : ca := client_ca 1 2 oddHist true.
Theorem C47_unaligned_refuted : is_graduated 1 oddMesh star2 = Some true /\
  exists out, for_each_interior_interface 1 2 roomRef oddMesh [0; 1] (in_out_stencil 1 [0; 1]) = Some out /\
    In [(1%nat, [0; 0]); (2%nat, [2; 2])] (map sides out) /\ ~ share_face 1 1 1 [0; 0] 2 [2; 2].
Proof.
  split; [vm_compute; reflexivity|]. eexists. split; [vm_compute; reflexivity|]. split; [cbn; tauto|]. intros [_ H]. specialize (H 0%nat). cbn in H. lia.
Qed.

Print Assumptions C47_interior_interfaces.
Print Assumptions C47_all_directions.
