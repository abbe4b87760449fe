(** Property C52: the boundary interfaces. *)
From Verif Require Import Base IntervalModel Spec LoiModel LcaModel LcaSpec LcaProofs LcaProofs3 RowsProofs CellArrayModel CellArrayProofs
  PropsLca PropsCellArray SubsetModel TreeProofs SubsetSpec SubsetProofs2 PropsSubset StencilModel NumberingProofs StencilProofs PropsStencil
  MeshModel MeshProofs PropsMesh AdaptModel AdaptProofs TagProofs PropsAdapt GradModel GradProofs PropsGrad NumProofs InterfaceModel InterfaceProofs
  PropsInterface FluxModel BoundaryProofs.
Open Scope Z_scope.

(** The domain is given at a level not coarser than the leaves; the reference mesh
    contains the leaves at the boundary, their neighbours outside, and the cells of
    the computational stencil around the face. *)
Record boundary_mesh (n d : nat) (domain : lca) (ref cells : ca) (comput : stencil) : Prop := {
  bm_wf : ca_wf n cells;
  bm_level : forall l, (l <= c_max cells)%nat -> a_level (c_at cells l) = l;
  bm_domain : wf n domain;
  bm_finest : forall l p, ca_mem n cells l p -> (l <= a_level domain)%nat;
  bm_range : forall l q k, ca_mem n cells l q -> (k <= n)%nat -> nth k q 0 + 3 < 2 ^ 31 - 1;
  bm_drange : forall q k, lca_mem n domain q -> (k <= n)%nat -> nth k q 0 + 2 ^ Z.of_nat (a_level domain) + 3 < 2 ^ 31 - 1;
  bm_room : forall l z, ca_mem n cells l z -> outside n domain l (vadd n z (unit_mult n d 1)) ->
    ca_mem n ref l z /\ ca_mem n ref l (vadd n z (unit_mult n d 1)) /\ fits_at n ref comput l z;
  bm_opposite : forall l z, ca_mem n cells l z -> outside n domain l (vadd n z (unit_mult n d (-1))) ->
    ca_mem n ref l z /\ ca_mem n ref l (vadd n z (unit_mult n d (-1))) /\ fits_at n ref (stencil_minus comput (unit_mult n d 1)) l z }.

(** The call for the leaf at the boundary: the leaf with its number, and the stencil
    around the cell inside ([o] the leaf itself) or outside ([o] its neighbour). *)
Definition bcall_ok (n : nat) (ref : ca) (comput : stencil) (shift : list Z) (f : iface) : Prop :=
  exists a, fst f = [a] /\ cell_is n ref (sc_level a) (sc_coord a) a /\
    Forall2 (fun v e => cell_is n ref (sc_level a) (vadd n (vadd n (sc_coord a) shift) v) e) comput (snd f).

Section Boundary.
  Context (n d : nat) (domain : lca) (ref cells : ca) (comput : stencil).
  Context (Hd : (d <= n)%nat) (HB : boundary_mesh n d domain ref cells comput) (NR : numbered n ref).
  Context (HC : forall v, In v comput -> length v = S n) (HZ : In (repeat 0 (S n)) comput) (HDC : In (unit_mult n d 1) comput).
  Let dir := unit_mult n d 1.
  Let leaf := ca_mem n cells.

  Lemma unit_within : forall s k, s = 1 \/ s = -1 -> (k <= n)%nat -> -1 <= nth k (unit_mult n d s) 0 <= 1.
  Proof. intros s k Hs Hk. rewrite nth_unit by auto. destruct (Nat.eqb k d); lia. Qed.
  Lemma neg_unit : neg dir = unit_mult n d (-1).
  Proof. apply neg_unit_mult. Qed.

  Lemma direction_spec : forall l, (exists p, leaf l p) -> exists zs out, boundary_direction n ref cells domain l dir comput = Some out /\ NoDup zs /\
    (forall z, In z zs <-> leaf l z /\ outside n domain l (vadd n z dir)) /\ Forall2 (boundary_call n ref l comput) zs out.
  Proof.
    intros l [p Hp]. destruct HB as [W LV WD FN RG RD R1 R2]. apply boundary_level_spec; auto.
    - apply Hp.
    - apply (FN l p Hp).
    - intros k Hk. unfold dir. apply unit_within; auto.
    - intros z Hz Ho. destruct (R1 l z Hz Ho) as (A & B & C). split; auto. apply (fits_in_out n d 1); auto. intros v [<-|[<-|[]]]; auto.
  Qed.
  Lemma bopposite_spec : forall l, (exists p, leaf l p) -> exists zs out, boundary_opposite n ref cells domain l dir comput = Some out /\ NoDup zs /\
    (forall z, In z zs <-> leaf l z /\ outside n domain l (vadd n z (neg dir))) /\ Forall2 (boundary_call n ref l (stencil_minus comput dir)) zs out.
  Proof.
    intros l [p Hp]. destruct HB as [W LV WD FN RG RD R1 R2]. unfold boundary_opposite.
    pose proof (minus_In n d comput ref Hd HC HDC) as MI. fold dir in MI. apply boundary_level_spec; auto.
    - apply Hp.
    - apply (FN l p Hp).
    - rewrite neg_unit. apply unit_length.
    - rewrite neg_unit. intros k Hk. apply unit_within; auto.
    - intros v Hv. apply MI in Hv as (w & _ & ->). apply vadd_length.
    - apply MI. exists dir. split; auto. symmetry. apply (list_ext n); [apply vadd_length|apply repeat_length|].
      intros k Hk. rewrite nth_vadd, nth_neg by auto. rewrite nth_repeat. lia.
    - rewrite neg_unit. intros z Hz Ho. destruct (R2 l z Hz Ho) as (A & B & C). split; auto. apply (fits_in_out n d (-1)); auto. intros v [<-|[<-|[]]]; auto.
  Qed.

  (** What [got] contains for a level with leaves. *)
  Definition good_faces (shift : list Z) (l : nat) (o : list iface) (s : list Z) : Prop :=
    NoDup (map sides o) /\ (forall x, In x (map sides o) <-> exists p, x = [(l, p)] /\ leaf l p /\ outside n domain l (vadd n p s)) /\
    forall f, In f o -> bcall_ok n ref comput shift f.

  Lemma direction_got : forall l, (exists p, leaf l p) -> boundary_direction n ref cells domain l dir comput <> None /\
    good_faces (repeat 0 (S n)) l (got (boundary_direction n ref cells domain l dir comput)) dir.
  Proof.
    intros l Hl. destruct (direction_spec l Hl) as (zs & out & E & N & M & F). rewrite E. split; [discriminate|]. cbn [got].
    unfold good_faces. rewrite (boundary_sides _ _ _ _ _ _ F). split; [|split].
    - apply FinFun.Injective_map_NoDup; auto. intros a b Q. congruence.
    - intros x. rewrite in_map_iff. split; [intros (z & <- & Hz); exists z; split; auto; apply M; auto|intros (z & -> & Hz); exists z; split; auto; apply M; auto].
    - intros f Hf. destruct (Forall2_In_r _ _ _ _ _ _ F Hf) as (z & Hz & (a & Ea & A1 & A2 & A3) & Hc). apply M in Hz as [Hz _]. exists a. split; auto. split; [split; auto; split; auto; congruence|].
      rewrite A1, A2. rewrite (vadd_zero n z); [auto|apply Hz|intros k Hk; apply nth_repeat].
  Qed.
  Lemma opposite_got : forall l, (exists p, leaf l p) -> boundary_opposite n ref cells domain l dir comput <> None /\
    good_faces (neg dir) l (got (boundary_opposite n ref cells domain l dir comput)) (neg dir).
  Proof.
    intros l Hl. destruct (bopposite_spec l Hl) as (zs & out & E & N & M & F). rewrite E. split; [discriminate|]. cbn [got].
    unfold good_faces. rewrite (boundary_sides _ _ _ _ _ _ F). split; [|split].
    - apply FinFun.Injective_map_NoDup; auto. intros a b Q. congruence.
    - intros x. rewrite in_map_iff. split; [intros (z & <- & Hz); exists z; split; auto; apply M; auto|intros (z & -> & Hz); exists z; split; auto; apply M; auto].
    - intros f Hf. destruct (Forall2_In_r _ _ _ _ _ _ F Hf) as (z & Hz & (a & Ea & A1 & A2 & A3) & Hc). exists a. split; auto. split; [split; auto; split; auto; congruence|].
      rewrite A1, A2. apply (minus_cells n d comput ref cells Hd); auto.
  Qed.
End Boundary.

(** ** Faces *)

(** The leaf (l2, p2) lies on the side [s] of the cell (l, p) in direction [d]. *)
Definition touches (n d : nat) (s : Z) (l : nat) (p : list Z) (l2 : nat) (p2 : list Z) : Prop :=
  if s =? 1 then share_face n d l p l2 p2 else share_face n d l2 p2 l p.

Lemma touches_fine : forall n d s l p l2 p2, (d <= n)%nat -> s = 1 \/ s = -1 -> (l <= l2)%nat -> length p = S n -> length p2 = S n ->
  (touches n d s l p l2 p2 <-> ancestor (l2 - l) (vadd n p2 (unit_mult n d (- s))) = p /\ ancestor (l2 - l) p2 = vadd n p (unit_mult n d s)).
Proof.
  intros n d s l p l2 p2 Hd Hs Hl Lp L2. destruct (pow_split l l2 Hl) as (E & PJ & P).
  assert (K : forall f g : nat -> Z, (forall k, (k <= n)%nat -> f k = g k) <-> f d = g d /\ forall k, (k <= n)%nat -> k <> d -> f k = g k).
  { intros f g. split; [intros H; split; auto|]. intros [H1 H2] k Hk. destruct (Nat.eq_dec k d) as [->|]; auto. }
  assert (EX : forall a b, length a = S n -> length b = S n -> (a = b <-> forall k, (k <= n)%nat -> nth k a 0 = nth k b 0)).
  { intros a b La Lb. split; [intros -> k _; auto|apply list_ext; auto]. }
  rewrite (EX (ancestor _ _) p), (EX (ancestor _ p2) _); rewrite ?ancestor_length, ?vadd_length; auto.
  rewrite (K (fun k => nth k (ancestor (l2 - l) (vadd n p2 (unit_mult n d (- s)))) 0)), (K (fun k => nth k (ancestor (l2 - l) p2) 0)).
  rewrite !nth_ancestor, !nth_vadd, !nth_unit, Nat.eqb_refl by auto.
  unfold touches, share_face. rewrite E. set (J := 2 ^ Z.of_nat (l2 - l)) in *. set (B := 2 ^ Z.of_nat l) in *.
  assert (DIV : forall a b, a / J = b <-> b * J <= a < (b + 1) * J).
  { intros a b. split; [intros <-; pose proof (Z.div_mod a J ltac:(lia)); pose proof (Z.mod_pos_bound a J PJ); nia|].
    intros H. symmetry. apply Z.div_unique with (a - b * J); lia. }
  rewrite !DIV. destruct Hs as [->| ->]; cbn [Z.eqb].
  - split.
    + intros [H1 H2]. split; split; try nia.
      * intros k Hk Hne. rewrite !nth_ancestor, nth_vadd, nth_unit by auto. destruct (Nat.eqb_spec k d); [congruence|]. apply DIV. specialize (H2 k Hk Hne). nia.
      * intros k Hk Hne. rewrite !nth_ancestor, nth_vadd, nth_unit by auto. destruct (Nat.eqb_spec k d); [congruence|]. apply DIV. specialize (H2 k Hk Hne). nia.
    + intros [[H1 _] [H2 H3]]. split; [nia|]. intros k Hk Hne. specialize (H3 k Hk Hne). rewrite nth_ancestor, nth_vadd, nth_unit in H3 by auto.
      destruct (Nat.eqb_spec k d); [congruence|]. apply DIV in H3. nia.
  - split.
    + intros [H1 H2]. split; split; try nia.
      * intros k Hk Hne. rewrite !nth_ancestor, nth_vadd, nth_unit by auto. destruct (Nat.eqb_spec k d); [congruence|]. apply DIV. specialize (H2 k Hk Hne). nia.
      * intros k Hk Hne. rewrite !nth_ancestor, nth_vadd, nth_unit by auto. destruct (Nat.eqb_spec k d); [congruence|]. apply DIV. specialize (H2 k Hk Hne). nia.
    + intros [[H1 _] [H2 H3]]. split; [nia|]. intros k Hk Hne. specialize (H3 k Hk Hne). rewrite nth_ancestor, nth_vadd, nth_unit in H3 by auto.
      destruct (Nat.eqb_spec k d); [congruence|]. apply DIV in H3. nia.
Qed.
Lemma touches_sym : forall n d s l p l2 p2, s = 1 \/ s = -1 -> (touches n d s l p l2 p2 <-> touches n d (- s) l2 p2 l p).
Proof. intros n d s l p l2 p2 [->| ->]; unfold touches; cbn [Z.eqb Z.opp]; tauto. Qed.

(** ** Levels *)
Lemma level_leaf : forall n cells l, ca_wf n cells -> (forall l, (l <= c_max cells)%nat -> a_level (c_at cells l) = l) ->
  In l (levels cells) -> lca_is_empty (c_at cells l) = false -> exists p, ca_mem n cells l p.
Proof.
  intros n cells l W LV Hl He. destruct (levels_spec cells) as (_ & S2 & _). specialize (S2 l Hl).
  apply (nonempty_mem n) in He as (p & Hp); auto. exists p. split; auto.
Qed.
Lemma leaf_in_levels : forall n cells l p, ca_wf n cells -> ca_mem n cells l p -> In l (levels cells) /\ lca_is_empty (c_at cells l) = false.
Proof.
  intros n cells l p W [Hl Hp]. assert (E : lca_is_empty (c_at cells l) = false) by (apply (nonempty_mem n); eauto).
  split; auto. apply levels_spec; auto.
Qed.

Section Levels.
  Context (n : nat) (domain : lca) (ref cells : ca) (comput : stencil) (shift s : list Z) (F : nat -> list iface) (W : ca_wf n cells).
  Context (LV : forall l, (l <= c_max cells)%nat -> a_level (c_at cells l) = l).
  Context (HF : forall l, (exists p, ca_mem n cells l p) -> good_faces n domain ref cells comput shift l (F l) s).

  Lemma faces_of_levels : forall ls, NoDup ls -> (forall l, In l ls -> In l (levels cells)) ->
    let o := flat_map (fun l => if lca_is_empty (c_at cells l) then [] else F l) ls in
    NoDup (map sides o) /\
    (forall x, In x (map sides o) <-> exists l p, x = [(l, p)] /\ In l ls /\ ca_mem n cells l p /\ outside n domain l (vadd n p s)) /\
    forall f, In f o -> bcall_ok n ref comput shift f.
  Proof.
    induction ls as [|l ls IH]; intros N H; cbn [flat_map].
    { split; [constructor|]. split; [|intros f []]. intros x. split; [intros []|]. intros (l & p & _ & [] & _). }
    inversion N as [|? ? Nl N']; subst. destruct (IH N') as (I1 & I2 & I3); [intros; apply H; right; auto|].
    set (a := if lca_is_empty (c_at cells l) then [] else F l).
    assert (G : NoDup (map sides a) /\ (forall x, In x (map sides a) <-> exists p, x = [(l, p)] /\ ca_mem n cells l p /\ outside n domain l (vadd n p s)) /\
      forall f, In f a -> bcall_ok n ref comput shift f).
    { unfold a. destruct (lca_is_empty (c_at cells l)) eqn:E; [|apply HF; apply level_leaf; auto; apply H; left; auto].
      split; [constructor|]. split; [|intros f []]. intros x. split; [intros []|]. intros (p & _ & Hp & _). apply leaf_in_levels in Hp as [_ Hp]; auto. congruence. }
    clearbody a. destruct G as (G1 & G2 & G3). cbv zeta. rewrite map_app. split; [|split].
    - apply NoDup_app2; auto. intros x H1 H2. apply G2 in H1 as (p & -> & _). apply I2 in H2 as (l' & p' & E & Hl' & _). injection E as <- _. auto.
    - intros x. rewrite in_app_iff, G2, I2. split.
      + intros [(p & -> & Hp)|(l' & p & -> & Hl' & Hp)]; [exists l, p|exists l', p]; (split; [auto|]; split; [cbn; auto|auto]).
      + intros (l' & p & -> & [<-|Hl'] & Hp); [left; exists p; auto|right; exists l', p; auto].
    - intros f Hf. apply in_app_iff in Hf as [Hf|Hf]; auto.
  Qed.

  Lemma faces_all : let o := flat_map (fun l => if lca_is_empty (c_at cells l) then [] else F l) (levels cells) in
    NoDup (map sides o) /\
    (forall x, In x (map sides o) <-> exists l p, x = [(l, p)] /\ ca_mem n cells l p /\ outside n domain l (vadd n p s)) /\
    forall f, In f o -> bcall_ok n ref comput shift f.
  Proof.
    destruct (faces_of_levels (levels cells)) as (H1 & H2 & H3); [apply seq_NoDup|auto|]. split; [exact H1|]. split; [|exact H3]. intros x. rewrite H2. split.
    - intros (l & p & E & _ & H). exists l, p. auto.
    - intros (l & p & E & H). exists l, p. split; auto. split; auto. destruct H as [H _]. apply (leaf_in_levels n cells l p W H).
  Qed.
End Levels.

Lemma flat_map_app2 : forall (A B : Type) (f g : A -> list B) ls, Permutation (flat_map (fun x => f x ++ g x) ls) (flat_map f ls ++ flat_map g ls).
Proof.
  intros A B f g ls. induction ls as [|x ls IH]; cbn [flat_map app]; auto. rewrite IH, <- !app_assoc. apply Permutation_app_head.
  rewrite !app_assoc. apply Permutation_app_tail. apply Permutation_app_comm.
Qed.

(** ** The theorems *)

(** One direction: every leaf whose neighbour is outside of the domain gets exactly
    one call, no other leaf gets one, the cells given are the right ones. *)
Theorem C52_boundary_direction : forall n d m hist domain cells comput, good_hist n m hist -> let ref := client_ca n m hist true in
  (d <= n)%nat -> boundary_mesh n d domain ref cells comput ->
  (forall v, In v comput -> length v = S n) -> In (repeat 0 (S n)) comput -> In (unit_mult n d 1) comput ->
  exists out, boundary_interfaces_direction n ref cells domain (unit_mult n d 1) comput = Some out /\ NoDup (map sides out) /\
    (forall x, In x (map sides out) <-> exists l p, x = [(l, p)] /\ ca_mem n cells l p /\ outside n domain l (vadd n p (unit_mult n d 1))) /\
    forall f, In f out -> bcall_ok n ref comput (repeat 0 (S n)) f.
Proof.
  intros n d m hist domain cells comput G ref Hd HB HC HZ HDC. pose proof (numbered_client n m hist G) as NR. fold ref in NR.
  pose proof HB as [W LV _ _ _ _ _ _]. unfold boundary_interfaces_direction.
  pose proof (direction_got n d domain ref cells comput Hd HB NR HC HZ HDC) as DG.
  rewrite over_levels_got by (intros l Hl He; apply DG; apply level_leaf; auto).
  eexists. split; [reflexivity|]. apply faces_all; auto. intros l Hl. apply DG; auto.
Qed.

(** Both directions: the calls are those for the faces in the direction, with the
    stencil around the leaf, and those for the faces in the opposite direction, with
    the stencil around the neighbour outside. *)
Theorem C52_both_directions : forall n d m hist domain cells comput, good_hist n m hist -> let ref := client_ca n m hist true in
  (d <= n)%nat -> boundary_mesh n d domain ref cells comput ->
  (forall v, In v comput -> length v = S n) -> In (repeat 0 (S n)) comput -> In (unit_mult n d 1) comput ->
  exists out o1 o2, boundary_interfaces_both n ref cells domain (unit_mult n d 1) comput = Some out /\ Permutation out (o1 ++ o2) /\
    (NoDup (map sides o1) /\
     (forall x, In x (map sides o1) <-> exists l p, x = [(l, p)] /\ ca_mem n cells l p /\ outside n domain l (vadd n p (unit_mult n d 1))) /\
     forall f, In f o1 -> bcall_ok n ref comput (repeat 0 (S n)) f) /\
    (NoDup (map sides o2) /\
     (forall x, In x (map sides o2) <-> exists l p, x = [(l, p)] /\ ca_mem n cells l p /\ outside n domain l (vadd n p (unit_mult n d (-1)))) /\
     forall f, In f o2 -> bcall_ok n ref comput (unit_mult n d (-1)) f).
Proof.
  intros n d m hist domain cells comput G ref Hd HB HC HZ HDC. pose proof (numbered_client n m hist G) as NR. fold ref in NR.
  pose proof HB as [W LV _ _ _ _ _ _]. unfold boundary_interfaces_both.
  pose proof (direction_got n d domain ref cells comput Hd HB NR HC HZ HDC) as DG.
  pose proof (opposite_got n d domain ref cells comput Hd HB NR HC HDC) as OG.
  rewrite neg_unit_mult in OG. change (- (1)) with (-1) in OG.
  set (A := fun l => boundary_direction n ref cells domain l (unit_mult n d 1) comput) in *.
  set (B := fun l => boundary_opposite n ref cells domain l (unit_mult n d 1) comput) in *.
  rewrite over_levels_got.
  2:{ intros l Hl He. destruct (DG l (level_leaf n cells l W LV Hl He)) as [D1 _]. destruct (OG l (level_leaf n cells l W LV Hl He)) as [O1 _]. fold (A l) (B l).
      destruct (A l) eqn:E1; [|contradiction D1; exact E1]. destruct (B l) eqn:E2; [discriminate|contradiction O1; exact E2]. }
  eexists. exists (flat_map (fun l => if lca_is_empty (c_at cells l) then [] else got (A l)) (levels cells)).
  exists (flat_map (fun l => if lca_is_empty (c_at cells l) then [] else got (B l)) (levels cells)). split; [reflexivity|]. split; [|split].
  - etransitivity; [|apply flat_map_app2]. apply Permutation_refl'.
    assert (E : forall ls, (forall l, In l ls -> In l (levels cells)) -> flat_map (fun l => if lca_is_empty (c_at cells l) then [] else got (let* a := A l in let* b := B l in Some (a ++ b))) ls =
      flat_map (fun l => (if lca_is_empty (c_at cells l) then [] else got (A l)) ++ (if lca_is_empty (c_at cells l) then [] else got (B l))) ls); [|apply E; auto].
    induction ls as [|l ls IH]; intros H; auto. cbn [flat_map]. rewrite IH by (intros; apply H; right; auto). f_equal.
    destruct (lca_is_empty (c_at cells l)) eqn:E; auto. assert (Hl : In l (levels cells)) by (apply H; left; auto).
    destruct (DG l (level_leaf n cells l W LV Hl E)) as [D1 _]. destruct (OG l (level_leaf n cells l W LV Hl E)) as [O1 _].
    fold (A l) in D1. fold (B l) in O1. destruct (A l) as [a|]; [|congruence]. destruct (B l) as [b|]; [reflexivity|congruence].
  - apply faces_all; auto. intros l Hl. apply DG; auto.
  - apply faces_all; auto. intros l Hl. apply OG; auto.
Qed.

(** The leaves cover exactly the domain. *)
Definition covers (n : nat) (cells : ca) (domain : lca) : Prop :=
  forall z, lca_mem n domain z <-> length z = S n /\ covered n cells (a_level domain) z.
(** The domain is a union of cells of each level where there are leaves. *)
Definition aligned (n : nat) (cells : ca) (domain : lca) : Prop :=
  forall l p z z', ca_mem n cells l p -> lca_mem n domain z -> length z' = S n ->
    ancestor (a_level domain - l) z = ancestor (a_level domain - l) z' -> lca_mem n domain z'.

Lemma lca_mem_dec : forall n a, wf n a -> forall p, lca_mem n a p \/ ~ lca_mem n a p.
Proof.
  intros n a W p. destruct (for_each_interval_correct n a W) as (calls & _ & _ & H & _). rewrite <- H.
  destruct (in_dec (list_eq_dec Z.eq_dec) p (cells_of_calls calls)); auto.
Qed.
Lemma meets_ancestor : forall n l q M z, (l <= M)%nat -> length q = S n -> length z = S n -> (meets n l q M z <-> ancestor (M - l) z = q).
Proof.
  intros n l q M z Hl Lq Lz. destruct (pow_split l M Hl) as (E & PJ & P). unfold meets. rewrite E.
  set (J := 2 ^ Z.of_nat (M - l)) in *. set (B := 2 ^ Z.of_nat l) in *. split.
  - intros H. apply (list_ext n); rewrite ?ancestor_length; auto. intros k Hk. rewrite nth_ancestor. fold J. symmetry. specialize (H k Hk).
    apply Z.div_unique with (nth k z 0 - J * nth k q 0); nia.
  - intros <- k Hk. rewrite nth_ancestor. fold J. pose proof (Z.div_mod (nth k z 0) J ltac:(lia)). pose proof (Z.mod_pos_bound (nth k z 0) J PJ). nia.
Qed.

(** Each side of each leaf is on the boundary or shared with another leaf, not both. *)
Theorem C52_faces : forall n d s domain cells, (d <= n)%nat -> s = 1 \/ s = -1 -> wf n domain ->
  (forall l p, ca_mem n cells l p -> (l <= a_level domain)%nat) -> no_overlap n cells -> covers n cells domain -> aligned n cells domain ->
  forall l p, ca_mem n cells l p ->
    (outside n domain l (vadd n p (unit_mult n d s)) \/ exists l2 p2, ca_mem n cells l2 p2 /\ touches n d s l p l2 p2) /\
    (outside n domain l (vadd n p (unit_mult n d s)) -> forall l2 p2, ca_mem n cells l2 p2 -> ~ touches n d s l p l2 p2).
Proof.
  intros n d s domain cells Hd Hs WD FN DJ CV AL l p Hp. set (M := a_level domain) in *. set (q := vadd n p (unit_mult n d s)).
  assert (Lp : length p = S n) by apply Hp. assert (Lq : length q = S n) by apply vadd_length. pose proof (FN l p Hp) as Hl.
  assert (US : forall t k, t = 1 \/ t = -1 -> (k <= n)%nat -> -1 <= nth k (unit_mult n d t) 0 <= 1).
  { intros t k Ht Hk. rewrite nth_unit by auto. destruct (Nat.eqb k d); lia. }
  assert (Hs' : - s = 1 \/ - s = -1) by lia.
  assert (Eback : vadd n q (unit_mult n d (- s)) = p) by (apply unit_back; auto).
  split.
  - destruct (corner_point n M l q (unit_mult n d (- s)) Lq Hl) as (z & Lz & Az & Bz); [intros k Hk; apply US; auto|].
    destruct (lca_mem_dec n domain WD z) as [Hz|Hz].
    + right. apply CV in Hz as (_ & l2 & Hl2 & Hm). fold M in Hl2, Hm. exists l2, (ancestor (M - l2) z). split; [exact Hm|].
      destruct (Nat.le_gt_cases l l2) as [C|C].
      * apply touches_fine; auto; [rewrite ancestor_length; auto|]. split; [rewrite (Bz l2) by lia; exact Eback|]. rewrite ancestor_add.
        replace (l2 - l + (M - l2))%nat with (M - l)%nat by lia. exact Az.
      * assert (Q : ancestor (l - l2) q = ancestor (M - l2) z). { rewrite <- Az, ancestor_add. f_equal. lia. }
        apply touches_sym; auto. apply touches_fine; auto; [lia|rewrite ancestor_length; auto|]. rewrite Z.opp_involutive. fold q. split; [exact Q|].
        assert (NE : ancestor (l - l2) p <> ancestor (l - l2) q).
        { intros E. assert (l2 = l); [|lia]. apply (DJ l2 l _ _ Hm Hp); [lia|]. congruence. }
        rewrite <- Q. apply (list_ext n); [rewrite ancestor_length; auto|apply vadd_length|]. intros k Hk. rewrite nth_vadd, !nth_ancestor by auto. rewrite nth_unit by auto.
        set (J := 2 ^ Z.of_nat (l - l2)) in *. assert (PJ : 0 < J) by (apply Z.pow_pos_nonneg; lia).
        assert (Q' : forall k, (k <= n)%nat -> nth k q 0 = nth k p 0 + if Nat.eqb k d then s else 0) by (intros; unfold q; rewrite nth_vadd, nth_unit; auto).
        destruct (Nat.eqb_spec k d) as [->|Hne]; [|rewrite Q', (proj2 (Nat.eqb_neq k d)), !Z.add_0_r by auto; reflexivity].
        assert (Hne : nth d p 0 / J <> nth d q 0 / J).
        { intros E. apply NE. apply (list_ext n); rewrite ?ancestor_length; auto. intros j Hj. rewrite !nth_ancestor. fold J.
          destruct (Nat.eq_dec j d) as [->|Hj']; auto. rewrite Q', (proj2 (Nat.eqb_neq j d)), Z.add_0_r by auto. reflexivity. }
        rewrite Q', Nat.eqb_refl in * by auto. pose proof (Z.div_mod (nth d p 0) J ltac:(lia)). pose proof (Z.mod_pos_bound (nth d p 0) J PJ).
        pose proof (Z.div_mod (nth d p 0 + s) J ltac:(lia)). pose proof (Z.mod_pos_bound (nth d p 0 + s) J PJ). nia.
    + left. intros z' Hz' Hm. apply Hz. fold M in Hm. apply meets_ancestor in Hm; auto; [|apply Hz']. apply (AL l p z' z); auto. fold M. congruence.
  - intros Ho l2 p2 H2 HT. pose proof (FN l2 p2 H2) as Hl2. assert (L2 : length p2 = S n) by apply H2. destruct (Nat.le_gt_cases l l2) as [C|C].
    + apply touches_fine in HT as [_ HT]; auto. destruct (corner_point n M l2 p2 (unit_mult n d s) L2 Hl2) as (z & Lz & Az & _); [intros k Hk; apply US; auto|].
      apply (Ho z).
      * apply CV. split; auto. exists l2. split; auto. fold M. rewrite Az. exact H2.
      * apply meets_ancestor; auto. replace (a_level domain - l)%nat with (l2 - l + (M - l2))%nat by lia. rewrite <- ancestor_add, Az. exact HT.
    + apply touches_sym in HT; auto. apply touches_fine in HT as [HT _]; auto; [|lia]. rewrite Z.opp_involutive in HT. fold q in HT.
      destruct (corner_point n M l q (unit_mult n d s) Lq Hl) as (z & Lz & Az & _); [intros k Hk; apply US; auto|].
      apply (Ho z).
      * apply CV. split; auto. exists l2. split; auto. fold M. replace (ancestor (M - l2) z) with p2; [exact H2|].
        rewrite <- HT, <- Az, ancestor_add. f_equal. lia.
      * apply meets_ancestor; auto.
Qed.

(** ** Examples *)

(** The mesh of C47_example on its domain, the square [0, 8) x [0, 8) of level 3. *)
Definition exDomain : lca := client_lca 1 3 (map (fun y => AddI [y] (mk 0 8)) (zrange 0 8)).
Lemma exDomain_mem : forall z, lca_mem 1 exDomain z <-> exists x y, z = [x; y] /\ 0 <= x < 8 /\ 0 <= y < 8.
Proof.
  intros z. unfold exDomain. rewrite client_lca_mem by (apply Forall_forall; intros c Hc; apply in_map_iff in Hc as (y & <- & _); reflexivity). split.
  - intros (Lz & c & Hc & Ha). apply in_map_iff in Hc as (y & <- & Hy). apply zrange_In in Hy. destruct z as [|x [|y' [|? ?]]]; try discriminate Lz.
    cbn in Ha. destruct Ha as [E Hx]. injection E as ->. unfold in_i in Hx. cbn in Hx. exists x, y. auto.
  - intros (x & y & -> & Hx & Hy). split; [reflexivity|]. exists (AddI [y] (mk 0 8)). split; [apply in_map_iff; exists y; split; auto; apply zrange_In; lia|].
    cbn. unfold in_i. cbn. auto.
Qed.
Lemma exDomain_wf : wf 1 exDomain.
Proof.
  apply client_lca_wf.
  - apply Forall_forall; intros c Hc; apply in_map_iff in Hc as (y & <- & _); reflexivity.
  - apply adds_filled. apply Forall_forall; intros c Hc; apply in_map_iff in Hc as (y & <- & _); cbn; lia.
Qed.
Lemma exDomain_level : a_level exDomain = 3%nat.
Proof. vm_compute. reflexivity. Qed.

Lemma exCovers : covers 1 exMesh exDomain.
Proof.
  intros z. rewrite exDomain_mem. unfold covered. rewrite exDomain_level. split.
  - intros (x & y & -> & Hx & Hy). split; [reflexivity|].
    assert (A : forall k, ancestor k [x; y] = [x / 2 ^ Z.of_nat k; y / 2 ^ Z.of_nat k]) by reflexivity.
    destruct (Z_lt_dec x 4) as [X|X]; [exists 1%nat|destruct (Z_lt_dec y 4) as [Y|Y]; [exists 1%nat|destruct (Z_lt_dec x 6) as [X'|X']; [exists 2%nat|
      destruct (Z_lt_dec y 6) as [Y'|Y']; [exists 2%nat|exists 3%nat]]]]; (split; [lia|]); rewrite A; cbn [Nat.sub]; apply exMesh_leaf.
    + change (2 ^ Z.of_nat 2) with 4. assert (x / 4 = 0) as -> by lia. assert (y / 4 = 0 \/ y / 4 = 1) as [-> | ->] by lia; cbn; tauto.
    + change (2 ^ Z.of_nat 2) with 4. assert (x / 4 = 1) as -> by lia. assert (y / 4 = 0) as -> by lia; cbn; tauto.
    + change (2 ^ Z.of_nat 1) with 2. assert (x / 2 = 2) as -> by lia. assert (y / 2 = 2 \/ y / 2 = 3) as [-> | ->] by lia; cbn; tauto.
    + change (2 ^ Z.of_nat 1) with 2. assert (x / 2 = 3) as -> by lia. assert (y / 2 = 2) as -> by lia; cbn; tauto.
    + change (2 ^ Z.of_nat 0) with 1. rewrite !Z.div_1_r. assert (x = 6 \/ x = 7) as [-> | ->] by lia; assert (y = 6 \/ y = 7) as [-> | ->] by lia; cbn; tauto.
  - intros (Lz & l & Hl & Hm). destruct z as [|x [|y [|? ?]]]; try discriminate Lz. exists x, y. split; auto.
    assert (A : forall k, ancestor k [x; y] = [x / 2 ^ Z.of_nat k; y / 2 ^ Z.of_nat k]) by reflexivity. rewrite A in Hm. apply exMesh_leaf in Hm.
    cbn [In exLeaves] in Hm. 
    repeat (destruct Hm as [Hm|Hm]; [apply pair_equal_spec in Hm as [<- Hm]; injection Hm as H1 H2; cbn in H1, H2; change (Z.pow_pos 2 2) with 4 in *; change (Z.pow_pos 2 1) with 2 in *; lia|]).
    destruct Hm.
Qed.
Lemma exAligned : aligned 1 exMesh exDomain.
Proof.
  intros l p z z' Hp Hz Lz'. apply exMesh_box in Hp as [Hl _]. rewrite exDomain_level. apply exDomain_mem in Hz as (x & y & -> & Hx & Hy).
  destruct z' as [|x' [|y' [|? ?]]]; try discriminate Lz'. intros E. apply exDomain_mem. exists x', y'. split; auto.
  assert (A : forall a b k, ancestor k [a; b] = [a / 2 ^ Z.of_nat k; b / 2 ^ Z.of_nat k]) by reflexivity. rewrite !A in E. injection E as E1 E2.
  assert (l = 1 \/ l = 2 \/ l = 3)%nat as [->|[->| ->]] by lia; cbn [Nat.sub] in *;
    [change (2 ^ Z.of_nat 2) with 4 in *|change (2 ^ Z.of_nat 1) with 2 in *|change (2 ^ Z.of_nat 0) with 1 in *]; lia.
Qed.
Lemma exBoundary : forall d, (d <= 1)%nat -> boundary_mesh 1 d exDomain roomRef exMesh (in_out_stencil 1 (unit_mult 1 d 1)).
Proof.
  intros d Hd. assert (NEAR : forall l z t, ca_mem 1 exMesh l z -> t = 1 \/ t = -1 -> ca_mem 1 roomRef l z /\ ca_mem 1 roomRef l (vadd 1 z (unit_mult 1 d t))).
  { intros l z t Hz Ht. split; [apply roomRef_ghosts; auto|]. apply room_near; auto. intros k.
    destruct d as [|[|d]]; [| |lia]; destruct k as [|[|k]]; try (destruct Ht as [->| ->]; cbn; lia); cbn; destruct k; lia. }
  constructor.
  - exact exMesh_wf.
  - intros l Hl. do 5 (destruct l as [|l]; [vm_compute; reflexivity|]). cbn in Hl. lia.
  - exact exDomain_wf.
  - intros l p H. rewrite exDomain_level. apply exMesh_box in H. lia.
  - intros l q k H Hk. apply exMesh_box in H as (_ & x & y & -> & Hx & Hy). destruct k as [|[|k]]; [..|lia]; cbn [nth]; lia.
  - intros q k H Hk. rewrite exDomain_level. apply exDomain_mem in H as (x & y & -> & Hx & Hy). change (2 ^ Z.of_nat 3) with 8. destruct k as [|[|k]]; [..|lia]; cbn [nth]; lia.
  - intros l z Hz _. destruct (NEAR l z 1 Hz (or_introl eq_refl)) as [A B]. split; [auto|]. split; [auto|]. apply (fits_in_out 1 d 1); auto. intros v [<-|[<-|[]]]; auto.
  - intros l z Hz _. destruct (NEAR l z (-1) Hz (or_intror eq_refl)) as [A B]. split; [auto|]. split; [auto|]. apply (fits_in_out 1 d (-1)); auto.
    intros v Hv. destruct d as [|[|d]]; [| |lia]; cbn in Hv; destruct Hv as [<-|[<-|[]]]; auto.
Qed.

Example C52_hypotheses : good_hist 1 3 roomHist /\ (forall d, (d <= 1)%nat -> boundary_mesh 1 d exDomain roomRef exMesh (in_out_stencil 1 (unit_mult 1 d 1))) /\
  no_overlap 1 exMesh /\ covers 1 exMesh exDomain /\ aligned 1 exMesh exDomain.
Proof.
  split; [exact roomHist_ok|]. split; [exact exBoundary|]. split; [apply (exMesh_interface 0 ltac:(lia))|]. split; [exact exCovers|exact exAligned].
Qed.

(** The four leaves on the right side, of three levels, and the two on the left side. *)
Example C52_example :
  option_map (map sides) (boundary_interfaces_direction 1 roomRef exMesh exDomain [1; 0] (in_out_stencil 1 [1; 0])) =
    Some [[(1%nat, [1; 0])]; [(2%nat, [3; 2])]; [(3%nat, [7; 6])]; [(3%nat, [7; 7])]] /\
  option_map (map sides) (boundary_interfaces_both 1 roomRef exMesh exDomain [1; 0] (in_out_stencil 1 [1; 0])) =
    Some [[(1%nat, [1; 0])]; [(1%nat, [0; 0])]; [(1%nat, [0; 1])]; [(2%nat, [3; 2])]; [(3%nat, [7; 6])]; [(3%nat, [7; 7])]].
Proof. split; vm_compute; reflexivity. Qed.

(** When the neighbour of a leaf lies partly in the domain, without touching the leaf,
    that side of the leaf is neither interior nor boundary: its flux is forgotten. The
    domain is [0, 1/2) u [3/4, 1). *)
Definition gapHist (l : nat) : list lcl_call := match l with 1%nat => [AddI [] (mk 0 1)] | 2%nat => [AddI [] (mk 3 4)] | _ => [] end.
Definition gapMesh : ca := client_ca 0 2 gapHist true.
Definition gapDomain : lca := client_lca 0 2 [AddI [] (mk 0 2); AddI [] (mk 3 4)].
Definition gapRef : ca := client_ca 0 2 (fun l => match l with 1%nat | 2%nat => [AddI [] (mk (-2) 6)] | _ => [] end) true.
Theorem C52_unaligned_refuted : ca_mem 0 gapMesh 1 [0] /\ (forall l p, ca_mem 0 gapMesh l p <-> (l, p) = (1%nat, [0]) \/ (l, p) = (2%nat, [3])) /\
  boundary_interfaces_direction 0 gapRef gapMesh gapDomain [1] (in_out_stencil 0 [1]) =
    Some [([mkSC 2 [3] 13], [mkSC 2 [3] 13; mkSC 2 [4] 14])] /\
  for_each_interior_interface 0 2 gapRef gapMesh [1] (in_out_stencil 0 [1]) = Some [] /\
  forall l p, ca_mem 0 gapMesh l p -> ~ touches 0 0 1 1 [0] l p.
Proof.
  assert (GH : good_hist 0 2 gapHist).
  { intros k Hk. do 3 (destruct k as [|k]; [split; [repeat constructor|apply adds_filled; repeat constructor]|]). lia. }
  assert (E : forall l p, ca_mem 0 gapMesh l p <-> (l, p) = (1%nat, [0]) \/ (l, p) = (2%nat, [3])).
  { intros l p. destruct (ca_for_each_cell_spec 0 gapMesh) as (cs & C & [_ EN] & _); [apply (numbered_client 0 2 gapHist GH)|].
    rewrite <- EN. vm_compute in C. injection C as <-. cbn. split; [intros [H|[H|[]]]; auto|intros [H|H]; auto]. }
  split; [apply E; auto|]. split; [exact E|]. split; [vm_compute; reflexivity|]. split; [vm_compute; reflexivity|].
  intros l p H [T _]. apply E in H as [H|H]; injection H as -> ->; cbn in T; lia.
Qed.

Print Assumptions C52_boundary_direction.
Print Assumptions C52_both_directions.
Print Assumptions C52_faces.
Print Assumptions C52_unaligned_refuted.
