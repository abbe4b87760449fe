(** Proofs for the boundary conditions of a multiresolution mesh that fills a box. *)
From Coq Require Import QArith.
From Verif Require Import Base IntervalModel Spec LoiModel LcaModel LcaSpec LcaProofs RowsProofs CellArrayModel CellArrayProofs PropsLca PropsCellArray
  SubsetModel TreeProofs SubsetSpec SubsetProofs2 PropsSubset StencilModel StencilProofs PropsStencil MeshModel MeshProofs PropsMesh AdaptModel AdaptProofs TagProofs NumModel NumProofs PropsNum
  TransferProofs MrModel MrProofs PropsMr GhostModel GhostProofs.
Open Scope Z_scope.

(** ** Values of a field by coordinates *)
Lemma value_assign_same : forall u p q, length p <> 0%nat -> value_at (assign_at u p q) p = q.
Proof.
  intros u [|x y] q H; [exfalso; apply H; reflexivity|]. cbn [assign_at value_at write1]. rewrite Z.eqb_refl, (proj2 (zlist_eqb_eq y y) eq_refl). auto.
Qed.
Lemma value_assign_other : forall u p q r, r <> p -> value_at (assign_at u p q) r = value_at u r.
Proof.
  intros u [|x y] q [|x' y'] H; auto. cbn [assign_at value_at write1].
  destruct (Z.eqb_spec x' x) as [->|]; auto. destruct (zlist_eqb y' y) eqn:E; auto. apply zlist_eqb_eq in E as ->. exfalso. apply H. auto.
Qed.

Lemma add_vec_zero : forall n p, length p = S n -> add_vec p (repeat 0 (S n)) = p.
Proof.
  intros n p H. apply (list_ext n); auto; [rewrite add_vec_length; auto; rewrite repeat_length; auto|].
  intros k Hk. rewrite nth_add_vec by (rewrite repeat_length; auto). rewrite nth_repeat. lia.
Qed.
Lemma add_vec_vadd : forall n p v, length p = S n -> length v = S n -> add_vec p v = vadd n p v.
Proof.
  intros n p v Lp Lv. apply (list_ext n); [rewrite add_vec_length; lia|apply vadd_length|]. intros k Hk.
  rewrite nth_add_vec by lia. symmetry. apply nth_vadd. auto.
Qed.
Lemma add_vec_inj : forall n p p' v, length p = S n -> length p' = S n -> length v = S n -> add_vec p v = add_vec p' v -> p = p'.
Proof.
  intros n p p' v L1 L2 L3 E. apply (list_ext n); auto. intros k Hk. apply (f_equal (fun z => nth k z 0)) in E. rewrite !nth_add_vec in E by lia. lia.
Qed.

(** [u'] is [u] with the cells [p + t], for [p] in [D], set to [g p (u p)]. *)
Definition filled (D : list Z -> Prop) (t : list Z) (g : list Z -> Q -> Q) (u u' : field) : Prop :=
  (forall p, D p -> value_at u' (add_vec p t) = g p (value_at u p)) /\
  (forall q, (forall p, D p -> q <> add_vec p t) -> value_at u' q = value_at u q) /\
  (forall p, D p \/ ~ D p).

Lemma filled_none : forall D t g u, (forall p, ~ D p) -> filled D t g u u.
Proof. intros D t g u H. split; [intros p Hp; destruct (H p Hp)|]. split; auto. Qed.

Lemma filled_ext : forall D D' t g u u', (forall p, D p <-> D' p) -> filled D t g u u' -> filled D' t g u u'.
Proof.
  intros D D' t g u u' H (A & B & C). split; [intros p Hp; apply A; apply H; auto|]. split; [intros q Hq; apply B; intros p Hp; apply Hq; apply H; auto|].
  intros p. destruct (C p) as [X|X]; [left|right]; rewrite <- H; auto.
Qed.

(** Two successive fillings, along the same vector, of cells outside of [D] and [D']. *)
Lemma filled_union : forall (I : list Z -> Prop) n D D' t g u u1 u2, length t = S n ->
  (forall p, D p \/ D' p -> length p = S n /\ I p /\ ~ I (add_vec p t)) ->
  filled D t g u u1 -> filled D' t g u1 u2 -> filled (fun p => D p \/ D' p) t g u u2.
Proof.
  intros I n D D' t g u u1 u2 Lt H (A & B & C) (A' & B' & C').
  assert (K : forall p, D p \/ D' p -> value_at u1 p = value_at u p).
  { intros p Hp. apply B. intros p' Hp' ->. destruct (H p' (or_introl Hp')) as (_ & _ & X). apply X. apply H. auto. }
  split; [|split].
  - intros p Hp. destruct (C' p) as [X|X].
    + rewrite A' by auto. f_equal. apply K. auto.
    + assert (Dp : D p) by tauto. rewrite B'; [apply A; auto|]. intros p' Hp' E. apply X. replace p with p'; auto. symmetry.
      apply (add_vec_inj n p p' t); auto; apply H; auto.
  - intros q Hq. rewrite B' by (intros p Hp; apply Hq; auto). apply B. intros p Hp. apply Hq. auto.
  - intros p. destruct (C p), (C' p); tauto.
Qed.

(** ** One call per cell *)
Section Calls.
  Variables (n : nat) (reference : ca) (l : nat) (I : list Z -> Prop) (t : list Z) (g : list Z -> Q -> Q) (f : list Z -> list Q -> list (nat * Q)).
  Hypothesis Lt : length t = S n.
  Hypothesis Hf : forall p us, f p us = [(1%nat, g p (nth 0 us 0%Q))].

  Lemma stencil_call_spec : forall u p, length p = S n -> stored n reference l p = true -> stored n reference l (add_vec p t) = true ->
    stencil_call n reference l [repeat 0 (S n); t] f u p = Some (assign_at u (add_vec p t) (g p (value_at u p))).
  Proof.
    intros u p Lp S1 S2. unfold stencil_call. cbn [map forallb]. rewrite (add_vec_zero n) by auto. rewrite S1, S2. cbn [andb checked]. rewrite Hf. reflexivity.
  Qed.

  Lemma fold_calls_spec : forall ps u, (forall p, In p ps -> length p = S n /\ I p /\ ~ I (add_vec p t) /\
      stored n reference l p = true /\ stored n reference l (add_vec p t) = true) ->
    exists u', fold_cells (stencil_call n reference l [repeat 0 (S n); t] f) ps u = Some u' /\ filled (fun p => In p ps) t g u u'.
  Proof.
    induction ps as [|p ps IH]; intros u H.
    - exists u. split; auto. apply filled_none. intros p [].
    - cbn [fold_cells]. destruct (H p (or_introl eq_refl)) as (Lp & Ip & Op & S1 & S2). rewrite (stencil_call_spec u p Lp S1 S2).
      set (u1 := assign_at u (add_vec p t) (g p (value_at u p))).
      destruct (IH u1) as (u' & E & HF); [intros q Hq; apply H; right; auto|]. exists u'. split; auto.
      apply (filled_ext (fun q => p = q \/ In q ps)); [intros q; cbn [In]; tauto|].
      apply (filled_union I n _ _ t g u u1 u'); auto.
      + intros q Hq. destruct (H q Hq) as (A & B & C & _). auto.
      + split; [|split].
        * intros q <-. unfold u1. rewrite value_assign_same; auto. rewrite add_vec_length; lia.
        * intros q Hq. unfold u1. apply value_assign_other. apply Hq. auto.
        * intros q. destruct (list_eq_dec Z.eq_dec p q); auto.
  Qed.
End Calls.

Lemma row_cells_In : forall calls p, (forall i yz, In (i, yz) calls -> istep i = 1) ->
  (In p (flat_map (fun '(i, yz) => row_cells i yz) calls) <-> In p (cells_of_calls calls)).
Proof.
  intros calls p H. rewrite in_flat_map. destruct p as [|x y].
  - split; [|intros X; apply visited_In in X as (i & yz & x & _ & _ & E); discriminate].
    intros ([i yz] & _ & X). apply in_map_iff in X as (x & E & _). discriminate.
  - rewrite cells_of_calls_step by auto. split.
    + intros ([i yz] & Hin & X). apply in_map_iff in X as (x0 & E & Hx). injection E as -> ->. eauto.
    + intros (i & Hin & Hx). exists (i, y). split; auto. apply in_map_iff. eauto.
Qed.

Lemma bc_on_subset_spec : forall n reference l I t g f set calls u, length t = S n ->
  (forall p us, f p us = [(1%nat, g p (nth 0 us 0%Q))]) ->
  subset_calls n set = Some calls ->
  (forall p, In p (cells_of_calls calls) -> length p = S n /\ I p /\ ~ I (add_vec p t) /\
     stored n reference l p = true /\ stored n reference l (add_vec p t) = true) ->
  exists u', bc_on_subset n reference l set [repeat 0 (S n); t] f u = Some u' /\ filled (fun p => In p (cells_of_calls calls)) t g u u'.
Proof.
  intros n reference l I t g f set calls u Lt Hf E H. unfold bc_on_subset. rewrite E.
  assert (St : forall i yz, In (i, yz) calls -> istep i = 1) by (intros i yz Hin; eapply subset_calls_step; eauto).
  destruct (fold_calls_spec n reference l I t g f Lt Hf (flat_map (fun '(i, yz) => row_cells i yz) calls) u) as (u' & E' & HF).
  { intros p Hp. apply row_cells_In in Hp; auto. }
  exists u'. split; auto. eapply filled_ext; [|exact HF]. intros p. apply row_cells_In. auto.
Qed.

(** ** The sets, for a domain that is a box *)

(** [p] is in the box, and its neighbour in the direction [dir] is outside along every
    coordinate in which [dir] moves. *)
Definition crossing (n : nat) (lo hi : list Z) (l : nat) (dir p : list Z) : Prop :=
  inside n lo hi l p /\ forall k, (k <= n)%nat -> nth k dir 0 <> 0 ->
    ~ (nth k lo 0 * 2 ^ Z.of_nat l <= nth k p 0 + nth k dir 0 < nth k hi 0 * 2 ^ Z.of_nat l).

Definition is_box (n maxl : nat) (lo hi : list Z) (domain : lca) : Prop :=
  wf n domain /\ a_level domain = maxl /\ forall z, lca_mem n domain z <-> inside n lo hi maxl z.

Lemma moved_domain : forall n maxl lo hi domain l v e p, is_box n maxl lo hi domain -> (l <= maxl)%nat -> length p = S n ->
  (forall k, (k <= n)%nat -> nth k v 0 = - (2 ^ Z.of_nat (maxl - l) * nth k e 0)) ->
  (denotes n l p (translate v (NMesh domain)) <-> inside n lo hi l (vadd n p e)).
Proof.
  intros n maxl lo hi domain l v e p (W & L & M) Hl Lp Hv.
  rewrite (denotes_coarse n (translate v (NMesh domain)) p l maxl L Hl Lp). cbn [node_mesh node_vect translate].
  assert (P : 0 < 2 ^ Z.of_nat (maxl - l)) by (apply Z.pow_pos_nonneg; lia).
  assert (X : forall q, length q = S n -> (p = ancestor (maxl - l) (vadd n q v) <-> vadd n p e = ancestor (maxl - l) q)).
  { intros q Lq. assert (Y : forall k, (k <= n)%nat -> nth k (ancestor (maxl - l) (vadd n q v)) 0 = nth k (ancestor (maxl - l) q) 0 - nth k e 0).
    { intros k Hk. rewrite !nth_ancestor, nth_vadd, Hv by auto.
      replace (nth k q 0 + - (2 ^ Z.of_nat (maxl - l) * nth k e 0)) with (nth k q 0 + (- nth k e 0) * 2 ^ Z.of_nat (maxl - l)) by ring.
      rewrite Z.div_add by lia. lia. }
    split; intros E; apply (list_ext n); rewrite ?ancestor_length, ?vadd_length; auto; intros k Hk.
    - rewrite nth_vadd by auto. rewrite E, Y by auto. lia.
    - rewrite Y by auto. rewrite <- E, nth_vadd by auto. lia. }
  split.
  - intros (q & Hq & E). apply M in Hq. apply X in E; [|apply Hq]. rewrite E. replace maxl with (l + (maxl - l))%nat in Hq at 1 by lia.
    apply inside_ancestor in Hq. apply Hq.
  - intros H. destruct (descend (maxl - l) (vadd n p e)) as (z & Lz & Az). rewrite vadd_length in Lz. exists z. split.
    + apply M. replace maxl with (l + (maxl - l))%nat by lia. apply inside_ancestor. rewrite Az. auto.
    + apply X; auto.
Qed.

Lemma moved_ok : forall n maxl lo hi domain l v, is_box n maxl lo hi domain -> (l <= maxl)%nat -> (maxl < 30)%nat ->
  (forall k, (k <= n)%nat -> 2 * (Z.max 0 (nth k hi 0) * 2 ^ Z.of_nat maxl + 8) < 2 ^ 31 - 1) ->
  (forall k, (k <= n)%nat -> nth k v 0 <= 2 ^ Z.of_nat (maxl - l)) ->
  operand_ok n l (translate v (NMesh domain)).
Proof.
  intros n maxl lo hi domain l v (W & L & M) Hl Hm HB Hv. split; [exact I|]. split; [exact W|]. cbn [node_mesh node_vect translate].
  intros q k Hq Hk. rewrite L. replace (Z.max 0 (Z.of_nat l - Z.of_nat maxl)) with 0 by lia. rewrite nth_vadd by auto.
  apply M in Hq as [_ Hq]. specialize (Hq k Hk). specialize (HB k Hk). specialize (Hv k Hk).
  assert (2 ^ Z.of_nat (maxl - l) <= 2 ^ Z.of_nat maxl) by (apply Z.pow_le_mono_r; lia).
  assert (2 ^ Z.of_nat maxl <= 2 ^ 29) by (apply Z.pow_le_mono_r; lia).
  assert (0 < 2 ^ Z.of_nat maxl) by (apply Z.pow_pos_nonneg; lia).
  destruct (Z.le_gt_cases (nth k hi 0) 0).
  - nia.
  - assert (1 * 2 ^ Z.of_nat maxl <= nth k hi 0 * 2 ^ Z.of_nat maxl) by (apply Z.mul_le_mono_nonneg_r; lia). lia.
Qed.

Lemma domain_ok : forall n maxl lo hi domain l, is_box n maxl lo hi domain -> (l <= maxl)%nat ->
  (forall k, (k <= n)%nat -> 2 * (Z.max 0 (nth k hi 0) * 2 ^ Z.of_nat maxl + 8) < 2 ^ 31 - 1) ->
  operand_ok n l (NMesh domain).
Proof.
  intros n maxl lo hi domain l (W & L & M) Hl HB. split; [exact I|]. split; [exact W|]. cbn [node_mesh node_vect].
  intros q k Hq Hk. rewrite L. replace (Z.max 0 (Z.of_nat l - Z.of_nat maxl)) with 0 by lia. rewrite vadd_nil by apply Hq.
  apply M in Hq as [_ Hq]. specialize (Hq k Hk). specialize (HB k Hk). assert (0 < 2 ^ Z.of_nat maxl) by (apply Z.pow_pos_nonneg; lia). nia.
Qed.

Lemma box_denotes : forall n maxl lo hi domain l p, is_box n maxl lo hi domain -> (l <= maxl)%nat -> length p = S n ->
  (denotes n l p (NMesh domain) <-> inside n lo hi l p).
Proof.
  intros n maxl lo hi domain l p (W & L & M) Hl Lp. rewrite denotes_mesh_coarse by lia. rewrite L. split.
  - intros (z & Hz & ->). apply M in Hz. replace maxl with (l + (maxl - l))%nat in Hz at 1 by lia. apply inside_ancestor in Hz. apply Hz.
  - intros Hp. destruct (descend (maxl - l) p) as (z & Lz & Az). exists z. split; auto. apply M.
    replace maxl with (l + (maxl - l))%nat by lia. apply inside_ancestor. rewrite Az. split; auto. lia.
Qed.

Lemma cartesian_axis : forall n dir, length dir = S n -> is_cartesian dir = true ->
  exists d, (d <= n)%nat /\ Z.abs (nth d dir 0) = 1 /\ forall k, k <> d -> nth k dir 0 = 0.
Proof.
  intros n dir L H. destruct (cartesian_spec dir H) as (d & A & B & C & _). exists d. split; [lia|]. split; auto. lia.
Qed.

Lemma inside_moved : forall n lo hi l p k x e, inside n lo hi l p -> (k <= n)%nat ->
  (forall j, (j <= n)%nat -> nth j e 0 = if Nat.eqb j k then x else 0) ->
  (inside n lo hi l (vadd n p e) <-> nth k lo 0 * 2 ^ Z.of_nat l <= nth k p 0 + x < nth k hi 0 * 2 ^ Z.of_nat l).
Proof.
  intros n lo hi l p k x e [Lp Hp] Hk He. split.
  - intros [_ H]. specialize (H k Hk). rewrite nth_vadd, He, Nat.eqb_refl in H by auto. auto.
  - intros H. split; [apply vadd_length|]. intros j Hj. rewrite nth_vadd, He by auto. destruct (Nat.eqb_spec j k) as [->|]; auto. rewrite Z.add_0_r. auto.
Qed.

(** The cells of the sets of [boundary_set], on a level [l] not finer than the domain. *)
Lemma boundary_mem : forall n maxl lo hi domain l dir p, is_box n maxl lo hi domain -> (l <= maxl)%nat -> (n <= 2)%nat -> length p = S n ->
  length dir = S n -> (is_cartesian dir = false -> (1 <= n)%nat) ->
  (expr_mem n l (boundary_set n domain (2 ^ Z.of_nat (maxl - l)) dir) p <->
   crossing n lo hi l dir p /\ (is_cartesian dir = true \/ forall k, (k <= n)%nat -> nth k dir 0 <> 0)).
Proof.
  intros n maxl lo hi domain l dir p HB Hl Hn Lp Ld Hc. set (o := 2 ^ Z.of_nat (maxl - l)).
  assert (M : forall k, (k <= n)%nat -> (denotes n l p (translate (unit_mult n k (o * - nth k dir 0)) (NMesh domain)) <->
                      inside n lo hi l (vadd n p (unit_mult n k (nth k dir 0))))).
  { intros k Hk. apply (moved_domain n maxl); auto. intros j Hj. rewrite !nth_unit_mult by auto. destruct (Nat.eqb j k); fold o; ring. }
  unfold expr_mem, boundary_set. destruct (is_cartesian dir) eqn:EC.
  - cbn [tmap amap tsem aall aany l_node leaf_of]. rewrite (box_denotes n maxl lo hi) by auto.
    rewrite (moved_domain n maxl lo hi domain l _ dir p HB Hl Lp).
    2:{ intros k Hk. rewrite (nth_indep _ 0 (- o * 0)) by (rewrite map_length; lia). rewrite map_nth. fold o. ring. }
    destruct (cartesian_axis n dir Ld EC) as (d & Hd & A & Z0).
    assert (He : forall j, (j <= n)%nat -> nth j dir 0 = if Nat.eqb j d then nth d dir 0 else 0).
    { intros j Hj. destruct (Nat.eqb_spec j d) as [->|Hne]; auto. }
    split.
    + intros [Hp Ho]. split; [|auto]. split; auto. intros k Hk Hne X. apply Ho. apply (inside_moved n lo hi l p d (nth d dir 0)); auto.
      destruct (Nat.eq_dec k d) as [->|]; auto. exfalso. apply Hne. auto.
    + intros [[Hp Ho] _]. split; auto. intros X. apply (inside_moved n lo hi l p d (nth d dir 0)) in X; auto. apply (Ho d Hd); auto. lia.
  - assert (G : (denotes n l p (NMesh domain) /\ forall k, (k <= n)%nat -> ~ denotes n l p (translate (unit_mult n k (o * - nth k dir 0)) (NMesh domain))) <->
      (crossing n lo hi l dir p /\ (false = true \/ forall k, (k <= n)%nat -> nth k dir 0 <> 0))).
    { rewrite (box_denotes n maxl lo hi) by auto. split.
      - intros [Hp H]. assert (X : forall k, (k <= n)%nat -> ~ (nth k lo 0 * 2 ^ Z.of_nat l <= nth k p 0 + nth k dir 0 < nth k hi 0 * 2 ^ Z.of_nat l)).
        { intros k Hk X. apply (H k Hk). apply M; auto. apply (inside_moved n lo hi l p k (nth k dir 0)); auto. intros j Hj. apply nth_unit_mult. auto. }
        split; [split; auto|]. right. intros k Hk E. apply (X k Hk). rewrite E, Z.add_0_r. apply Hp. auto.
      - intros [[Hp Ho] [F|Hnz]]; [discriminate|]. split; auto. intros k Hk X. apply M in X; auto.
        apply (inside_moved n lo hi l p k (nth k dir 0)) in X; auto; [|intros j Hj; apply nth_unit_mult; auto]. apply (Ho k Hk); auto. }
    rewrite <- G. clear G M. specialize (Hc eq_refl).
    destruct n as [|[|[|n]]]; [lia| | |lia]; cbn [tmap amap tsem aall aany l_node leaf_of]; split.
    + intros [A B]. split; auto. intros k Hk. destruct k as [|[|k]]; [tauto|tauto|lia].
    + intros [A B]. split; auto. intros [X|X]; [apply (B 0%nat); auto|apply (B 1%nat); auto].
    + intros [A B]. split; auto. intros k Hk. destruct k as [|[|[|k]]]; [tauto|tauto|tauto|lia].
    + intros [A B]. split; auto. intros [X|[X|X]]; [apply (B 0%nat); auto|apply (B 1%nat); auto|apply (B 2%nat); auto].
Qed.

Lemma boundary_leaves : forall n maxl lo hi domain l dir, is_box n maxl lo hi domain -> (l <= maxl)%nat -> (maxl < 30)%nat -> length dir = S n ->
  (forall k, (k <= n)%nat -> -1 <= nth k dir 0 <= 1) ->
  (forall k, (k <= n)%nat -> 2 * (Z.max 0 (nth k hi 0) * 2 ^ Z.of_nat maxl + 8) < 2 ^ 31 - 1) ->
  (forall lf, tin lf (boundary_set n domain (2 ^ Z.of_nat (maxl - l)) dir) -> operand_ok n l (l_node lf) /\ a_level (node_mesh (l_node lf)) = maxl).
Proof.
  intros n maxl lo hi domain l dir HB Hl Hm Ld Hd Hh lf Hlf. set (o := 2 ^ Z.of_nat (maxl - l)) in *.
  assert (P : 0 < o) by (apply Z.pow_pos_nonneg; lia).
  assert (D0 : operand_ok n l (NMesh domain) /\ a_level domain = maxl) by (split; [eapply domain_ok; eauto|apply HB]).
  assert (T : forall v, (forall k, (k <= n)%nat -> nth k v 0 <= o) -> operand_ok n l (translate v (NMesh domain)) /\ a_level domain = maxl).
  { intros v Hv. split; [eapply moved_ok; eauto|apply HB]. }
  assert (U : forall j k, (j <= n)%nat -> nth j (unit_mult n k (o * - nth k dir 0)) 0 <= o).
  { intros j k Hj. rewrite nth_unit_mult by auto. destruct (Nat.eqb_spec j k) as [<-|]; [|lia]. specialize (Hd j Hj). nia. }
  unfold boundary_set in Hlf. destruct (is_cartesian dir).
  - cbn [tin ain] in Hlf. destruct Hlf as [->| ->]; cbn [l_node leaf_of node_mesh translate]; auto.
    apply T; intros k Hk; rewrite (nth_indep _ 0 (- o * 0)) by (rewrite map_length; lia); rewrite map_nth; specialize (Hd k Hk); nia.
  - destruct n as [|[|[|n]]]; cbn [tin ain] in Hlf; repeat (destruct Hlf as [Hlf|Hlf]); subst lf; cbn [l_node leaf_of node_mesh translate]; auto;
      apply T; intros k Hk; apply U; auto.
Qed.

(** Cells visited, when every operand is on the level [l] or a finer one. *)
Lemma level_calls : forall n l t, (forall lf, tin lf t -> operand_ok n l (l_node lf) /\ (l <= a_level (node_mesh (l_node lf)))%nat) ->
  exists calls, subset_calls n (subset_init l t) = Some calls /\
    forall p, In p (cells_of_calls calls) <-> length p = S n /\ expr_mem n l t p.
Proof.
  intros n l t H. assert (F : (l <= finest t)%nat).
  { unfold finest. pose proof (tlevel_in (tmap (fun lf => a_level (node_mesh (l_node lf))) t)) as X. apply tin_map in X as (lf & Hlf & ->). apply H. auto. }
  destruct (C18_levels n l t) as (calls & E & V & _ & _ & C).
  { intros lf Hlf. replace (Nat.min l (finest t)) with l by lia. apply H. auto. }
  exists calls. split; auto. intros p. split.
  - intros Hin. assert (Lp : length p = S n).
    { apply visited_In in Hin as (i & yz & x & Hin & _ & ->). cbn [length]. f_equal. apply (V i yz Hin). }
    split; auto. apply C; auto.
  - intros [Lp He]. apply C; auto.
Qed.

Fixpoint vlist_eqb (a b : list (list Z)) : bool :=
  match a, b with [], [] => true | x :: a, y :: b => zlist_eqb x y && vlist_eqb a b | _, _ => false end.
Lemma vectors_eqb : forall a b, vlist_eqb a b = true -> a = b.
Proof.
  induction a as [|x a IH]; intros [|y b] E; auto; try discriminate. cbn [vlist_eqb] in E. apply andb_true_iff in E as [E1 E2].
  apply zlist_eqb_eq in E1 as ->. f_equal. auto.
Qed.

(** ** The vector reached by the second cell of the stencil *)
Definition reached (n : nat) (dir : list Z) : list Z := nth 1 (convert_for_direction n (line_stencil n 0 2) dir) [].
Definition reachedb (n : nat) (dir : list Z) : bool :=
  let t := reached n dir in
  vlist_eqb (convert_for_direction n (line_stencil n 0 2) dir) [repeat 0 (S n); t] && Nat.eqb (length t) (S n) &&
  forallb (fun k => (nth k t 0 =? 0) || (nth k t 0 =? nth k dir 0)) (seq 0 (S n)) &&
  (forallb (Z.eqb 0) dir || negb (forallb (Z.eqb 0) t)) &&
  (negb (is_cartesian dir || Nat.leb n 1) || zlist_eqb t dir).
Lemma reached_check : forallb (fun n => forallb (reachedb n) (nested_loop (S n) (-1) 2)) [0; 1; 2]%nat = true.
Proof. vm_compute. reflexivity. Qed.

Lemma reached_spec : forall n dir, (n <= 2)%nat -> length dir = S n -> (forall k, (k <= n)%nat -> -1 <= nth k dir 0 <= 1) ->
  convert_for_direction n (line_stencil n 0 2) dir = [repeat 0 (S n); reached n dir] /\ length (reached n dir) = S n /\
  (forall k, (k <= n)%nat -> nth k (reached n dir) 0 = 0 \/ nth k (reached n dir) 0 = nth k dir 0) /\
  ((exists k, (k <= n)%nat /\ nth k dir 0 <> 0) -> exists k, (k <= n)%nat /\ nth k (reached n dir) 0 <> 0) /\
  (is_cartesian dir = true \/ (n <= 1)%nat -> reached n dir = dir).
Proof.
  intros n dir Hn Ld Hd. pose proof reached_check as X. rewrite forallb_forall in X. specialize (X n).
  assert (Hin : In n [0; 1; 2]%nat) by (cbn; lia). specialize (X Hin). rewrite forallb_forall in X. specialize (X dir).
  assert (Hdir : In dir (nested_loop (S n) (-1) 2)).
  { apply nested_loop_In. split; auto. apply forall_nth. intros k Hk. specialize (Hd k ltac:(lia)). lia. }
  specialize (X Hdir). unfold reachedb in X. rewrite !andb_true_iff in X. destruct X as ((((A & B) & C) & D) & F).
  apply Nat.eqb_eq in B. split; [|split; [exact B|split; [|split]]].
  - apply vectors_eqb. exact A.
  - intros k Hk. rewrite forallb_forall in C. specialize (C k ltac:(apply in_seq; lia)). apply orb_true_iff in C as [C|C]; apply Z.eqb_eq in C; auto.
  - intros (k & Hk & Hne). apply orb_true_iff in D as [D|D].
    + rewrite forallb_forall in D. exfalso. apply Hne. symmetry. apply Z.eqb_eq. apply D. apply nth_In. lia.
    + apply negb_true_iff in D. destruct (existsb (fun k => negb (nth k (reached n dir) 0 =? 0)) (seq 0 (S n))) eqn:E.
      * apply existsb_exists in E as (j & Hj & E). apply in_seq in Hj. exists j. split; [lia|]. intros X. rewrite X in E. discriminate.
      * exfalso. assert (Y : forallb (Z.eqb 0) (reached n dir) = true); [|rewrite Y in D; discriminate].
        apply forallb_forall. intros x Hx. apply (In_nth _ _ 0) in Hx as (j & Hj & <-). rewrite Z.eqb_sym. destruct (nth j (reached n dir) 0 =? 0) eqn:E0; auto.
        assert (Z0 : existsb (fun k => negb (nth k (reached n dir) 0 =? 0)) (seq 0 (S n)) = true); [|rewrite Z0 in E; discriminate].
        apply existsb_exists. exists j. split; [apply in_seq; lia|]. rewrite E0. auto.
  - intros H. apply orb_true_iff in F as [F|F]; [|apply zlist_eqb_eq; auto]. apply negb_true_iff in F. apply orb_false_iff in F as [F1 F2].
    destruct H as [H|H]; [congruence|]. apply Nat.leb_gt in F2. lia.
Qed.

Lemma cartesian_range : forall n dir, length dir = S n -> is_cartesian dir = true -> forall k, -1 <= nth k dir 0 <= 1.
Proof.
  intros n dir L H k. destruct (cartesian_axis n dir L H) as (d & Hd & A & B). destruct (Nat.eq_dec k d) as [->|Hk]; [lia|]. rewrite B by auto. lia.
Qed.

Lemma zero_dir : forall n dir, length dir = S n -> (forallb (Z.eqb 0) dir = false <-> exists k, (k <= n)%nat /\ nth k dir 0 <> 0).
Proof.
  intros n dir Ld. split.
  - intros H. destruct (existsb (fun x => negb (x =? 0)) dir) eqn:E.
    + apply existsb_exists in E as (x & Hx & E). apply (In_nth _ _ 0) in Hx as (k & Hk & <-). exists k. split; [lia|].
      apply negb_true_iff in E. apply Z.eqb_neq in E. auto.
    + exfalso. assert (Y : forallb (Z.eqb 0) dir = true); [|congruence]. apply forallb_forall. intros x Hx. rewrite Z.eqb_sym. destruct (x =? 0) eqn:E0; auto.
      assert (Z0 : existsb (fun x => negb (x =? 0)) dir = true); [|congruence]. apply existsb_exists. exists x. rewrite E0. auto.
  - intros (k & Hk & Hne). destruct (forallb (Z.eqb 0) dir) eqn:E; auto. rewrite forallb_forall in E. exfalso. apply Hne. symmetry. apply Z.eqb_eq.
    apply E. apply nth_In. lia.
Qed.

(** A cell outside is reached from one cell of the box, in one direction. *)
Lemma crossing_unique : forall n lo hi l dir dir' p p', length dir = S n -> length dir' = S n ->
  (forall k, (k <= n)%nat -> -1 <= nth k dir 0 <= 1) -> (forall k, (k <= n)%nat -> -1 <= nth k dir' 0 <= 1) ->
  crossing n lo hi l dir p -> crossing n lo hi l dir' p' -> add_vec p dir = add_vec p' dir' -> dir = dir' /\ p = p'.
Proof.
  intros n lo hi l dir dir' p p' Ld Ld' Hd Hd' [[Lp Hp] Ho] [[Lp' Hp'] Ho'] E.
  assert (X : forall k, (k <= n)%nat -> nth k dir 0 = nth k dir' 0).
  { intros k Hk. apply (f_equal (fun z => nth k z 0)) in E. rewrite !nth_add_vec in E by lia. specialize (Hd k Hk). specialize (Hd' k Hk).
    specialize (Hp k Hk). specialize (Hp' k Hk). specialize (Ho k Hk). specialize (Ho' k Hk).
    set (a := nth k lo 0 * 2 ^ Z.of_nat l) in *. set (b := nth k hi 0 * 2 ^ Z.of_nat l) in *. clearbody a b.
    destruct (Z.eq_dec (nth k dir 0) 0), (Z.eq_dec (nth k dir' 0) 0); lia. }
  assert (dir = dir') as <- by (apply (list_ext n); auto). split; auto. apply (add_vec_inj n p p' dir); auto.
Qed.

(** ** One level *)
Section Level.
  Variables (n l maxl : nat) (lo hi : list Z) (cells reference : ca) (domain : lca).
  Notation C := (c_at cells l).
  Notation R := (c_at reference l).
  Notation ins := (inside n lo hi l).
  Hypothesis Hn : (n <= 2)%nat.
  Hypothesis Hl : (l <= maxl)%nat.
  Hypothesis Hm : (maxl < 30)%nat.
  Hypothesis box : is_box n maxl lo hi domain.
  Hypothesis Hh : forall k, (k <= n)%nat -> 2 * (Z.max 0 (nth k hi 0) * 2 ^ Z.of_nat maxl + 8) < 2 ^ 31 - 1.
  Hypothesis WC : wf n C /\ a_level C = l.
  Hypothesis WR : wf n R /\ a_level R = l.
  Hypothesis RB : forall q k, lca_mem n R q -> (k <= n)%nat -> nth k q 0 + 4 < 2 ^ 31 - 1.
  Hypothesis CR : forall p, lca_mem n C p -> ins p /\ forall q, length q = S n -> near n 1 q p -> lca_mem n R q.
  Hypothesis inward : forall p dir t, length dir = S n -> length t = S n -> (forall k, (k <= n)%nat -> -1 <= nth k dir 0 <= 1) ->
    crossing n lo hi l dir p -> (forall k, (k <= n)%nat -> nth k t 0 = 0 \/ nth k t 0 = nth k dir 0) ->
    lca_mem n R (add_vec p dir) -> lca_mem n R (add_vec p t).

  Lemma outwards_two : forall dir k, nth k (outwards 2 dir) 0 = - nth k dir 0.
  Proof.
    intros dir k. unfold outwards. change (- Z.of_nat (Nat.div 2 2)) with (-1).
    change (nth k (map (Z.mul (-1)) dir) (-1 * 0) = - nth k dir 0). rewrite map_nth. lia.
  Qed.

  Lemma add_length : forall p v, length p = S n -> length v = S n -> length (add_vec p v) = S n.
  Proof. intros p v H1 H2. rewrite add_vec_length; lia. Qed.

  Lemma ref_moved : forall dir p, length p = S n -> length dir = S n ->
    (denotes n l p (translate (outwards 2 dir) (NMesh R)) <-> lca_mem n R (add_vec p dir)).
  Proof.
    intros dir p Lp Ld. pose proof (denotes_same n p (translate (outwards 2 dir) (NMesh R)) Lp) as X. cbn [node_mesh node_vect translate] in X.
    rewrite (proj2 WR) in X. rewrite X. replace (vadd n p (vopp (outwards 2 dir))) with (add_vec p dir); [tauto|].
    apply (list_ext n); [apply add_length; auto|apply vadd_length|]. intros k Hk. rewrite nth_add_vec, nth_vadd by lia. f_equal.
    unfold vopp. change 0 with (- 0) at 2. rewrite map_nth, outwards_two. lia.
  Qed.

  Lemma ref_moved_ok : forall dir, (forall k, (k <= n)%nat -> -1 <= nth k dir 0 <= 1) -> operand_ok n l (translate (outwards 2 dir) (NMesh R)).
  Proof.
    intros dir Hd. split; [exact I|]. split; [apply WR|]. cbn [node_mesh node_vect translate]. intros q k Hq Hk. rewrite (proj2 WR).
    replace (Z.max 0 (Z.of_nat l - Z.of_nat l)) with 0 by lia. rewrite nth_vadd, outwards_two by auto. pose proof (RB q k Hq Hk). specialize (Hd k Hk). lia.
  Qed.

  Lemma cells_ok : operand_ok n l (NMesh C).
  Proof.
    split; [exact I|]. split; [apply WC|]. cbn [node_mesh node_vect]. intros q k Hq Hk. rewrite (proj2 WC), vadd_nil by apply Hq.
    replace (Z.max 0 (Z.of_nat l - Z.of_nat l)) with 0 by lia. destruct (CR q Hq) as [_ X].
    pose proof (RB q k (X q (proj1 Hq) ltac:(intros j _; lia)) Hk). lia.
  Qed.

  (** A cell whose neighbour is across the boundary. *)
  Lemma crossing_out : forall dir t p, length t = S n -> crossing n lo hi l dir p ->
    (forall k, (k <= n)%nat -> nth k t 0 = 0 \/ nth k t 0 = nth k dir 0) -> (exists k, (k <= n)%nat /\ nth k t 0 <> 0) -> ~ ins (add_vec p t).
  Proof.
    intros dir t p Lt [Hp Ho] Ht (k & Hk & Hne) [_ X]. specialize (X k Hk). rewrite nth_add_vec in X by (rewrite (proj1 Hp); auto).
    destruct (Ht k Hk) as [E|E]; [auto|]. apply (Ho k Hk); congruence.
  Qed.

  Lemma stored_R : forall p, length p = S n -> (stored n reference l p = true <-> lca_mem n R p).
  Proof. intros p Lp. apply stored_mem; auto. apply WR. Qed.

  Lemma zero_In : forall p dir, length dir = S n -> (forall k, (k <= n)%nat -> -1 <= nth k dir 0 <= 1) -> crossing n lo hi l dir p ->
    lca_mem n R (add_vec p dir) -> lca_mem n R p.
  Proof.
    intros p dir Ld Hd Hc Hr. assert (Lp : length p = S n) by apply Hc. rewrite <- (add_vec_zero n p Lp).
    apply (inward p dir (repeat 0 (S n))); auto; [apply repeat_length|]. intros k _. left. apply nth_repeat.
  Qed.

  (** What the calls need, for a set of cells across the boundary. *)
  Lemma call_ready : forall dir t p, length dir = S n -> length t = S n -> (forall k, (k <= n)%nat -> -1 <= nth k dir 0 <= 1) ->
    (forall k, (k <= n)%nat -> nth k t 0 = 0 \/ nth k t 0 = nth k dir 0) -> (exists k, (k <= n)%nat /\ nth k t 0 <> 0) ->
    crossing n lo hi l dir p -> lca_mem n R (add_vec p dir) ->
    length p = S n /\ ins p /\ ~ ins (add_vec p t) /\ stored n reference l p = true /\ stored n reference l (add_vec p t) = true.
  Proof.
    intros dir t p Ld Lt Hd Ht He Hc Hr. assert (Lp : length p = S n) by apply Hc. split; auto. split; [apply Hc|]. split; [apply (crossing_out dir t p); auto|].
    rewrite !stored_R by (auto; apply add_length; auto). split; [apply (zero_In p dir); auto|apply (inward p dir t); auto].
  Qed.

  (** *** Boundary conditions of order 1 *)

  (** The region of a boundary condition on the domain: cells across the boundary. *)
  Definition region_ok (dir : list Z) (a : lca) : Prop :=
    length dir = S n /\ wf n a /\ a_level a = maxl /\ forall z, lca_mem n a z -> crossing n lo hi maxl dir z.

  Lemma region_crossing : forall dir a p, region_ok dir a -> (forall k, (k <= n)%nat -> -1 <= nth k dir 0 <= 1) -> length p = S n ->
    denotes n l p (NMesh a) -> crossing n lo hi l dir p.
  Proof.
    intros dir a p (Ld & W & L & H) Hd Lp D. rewrite denotes_mesh_coarse in D by lia. destruct D as (z & Hz & ->). rewrite L in *.
    apply H in Hz as [Hi Ho]. assert (E : maxl = (l + (maxl - l))%nat) by lia. split.
    - rewrite E in Hi at 1. apply inside_ancestor in Hi. apply Hi.
    - intros k Hk Hne X. apply (Ho k Hk Hne). specialize (Hd k Hk). destruct Hi as [_ Hi]. specialize (Hi k Hk). revert X Hi. rewrite nth_ancestor.
      assert (P : 2 ^ Z.of_nat maxl = 2 ^ Z.of_nat (maxl - l) * 2 ^ Z.of_nat l) by (rewrite <- Z.pow_add_r by lia; f_equal; lia). rewrite P.
      assert (P1 : 0 < 2 ^ Z.of_nat (maxl - l)) by (apply Z.pow_pos_nonneg; lia). pose proof (proj1 (div_iff (nth k z 0) _ _ P1) eq_refl) as D.
      set (A := 2 ^ Z.of_nat (maxl - l)) in *. set (B := 2 ^ Z.of_nat l) in *. clearbody A B. set (x := nth k z 0 / A) in *. clearbody x.
      set (a1 := nth k lo 0 * B). set (b1 := nth k hi 0 * B). replace (nth k lo 0 * (A * B)) with (a1 * A) by (unfold a1; ring).
      replace (nth k hi 0 * (A * B)) with (b1 * A) by (unfold b1; ring). clearbody a1 b1. intros X Hi. clear - X Hi D P1 Hd. nia.
  Qed.

  Lemma region_operand : forall dir a, region_ok dir a -> operand_ok n l (NMesh a).
  Proof.
    intros dir a (_ & W & L & H). split; [exact I|]. split; [exact W|]. cbn [node_mesh node_vect]. intros q k Hq Hk. rewrite L, vadd_nil by apply Hq.
    replace (Z.max 0 (Z.of_nat l - Z.of_nat maxl)) with 0 by lia. destruct (H q Hq) as [[_ Hi] _]. specialize (Hi k Hk). specialize (Hh k Hk).
    assert (0 < 2 ^ Z.of_nat maxl) by (apply Z.pow_pos_nonneg; lia). nia.
  Qed.

  Lemma apply_bc_direction_spec : forall minl dx b g dir a u, minl <> maxl -> bc_size b = 2%nat ->
    (forall v us, bc_apply b dx v us = [(1%nat, g v (nth 0 us 0%Q))]) ->
    is_cartesian dir = true -> region_ok dir a ->
    exists u', apply_bc_direction n cells reference minl maxl dx b l u dir a = Some u' /\
      filled (fun p => length p = S n /\ denotes n l p (NMesh a) /\ lca_mem n R (add_vec p dir)) dir (fun p => g (bc_value b l dir p)) u u'.
  Proof.
    intros minl dx b g dir a u Hne Hs Hg EC HR. pose proof HR as (Ld & Wa & La & Ha).
    pose proof (fun k (_ : (k <= n)%nat) => cartesian_range n dir Ld EC k) as Hd.
    destruct (reached_spec n dir Hn Ld Hd) as (ES & _ & _ & _ & ER). specialize (ER (or_introl EC)). rewrite ER in ES.
    assert (HT : exists k, (k <= n)%nat /\ nth k dir 0 <> 0) by (destruct (cartesian_axis n dir Ld EC) as (d & H1 & H2 & _); exists d; split; auto; lia).
    unfold apply_bc_direction. rewrite EC, Hs, ES. destruct (Nat.eqb_spec minl maxl) as [X|_]; [congruence|].
    set (bd := Nd Intersect (More (mesh_leaf C) (One (mesh_leaf a)))).
    assert (OB : forall lf, tin lf bd -> operand_ok n l (l_node lf) /\ (l <= a_level (node_mesh (l_node lf)))%nat).
    { intros lf Hlf. unfold bd in Hlf. cbn [tin ain] in Hlf. destruct Hlf as [->| ->]; cbn [l_node leaf_of node_mesh].
      - split; [apply cells_ok|]. rewrite (proj2 WC). lia.
      - split; [eapply region_operand; eauto|lia]. }
    destruct (level_calls n l bd OB) as (c1 & E1 & M1).
    assert (X1 : forall p, In p (cells_of_calls c1) <-> length p = S n /\ lca_mem n C p /\ denotes n l p (NMesh a)).
    { intros p. rewrite M1. split; intros [Lp X]; split; auto; unfold expr_mem, bd in *; cbn in *; rewrite (same_denotes n C l p (proj2 WC) Lp) in *; tauto. }
    assert (N1 : forall p, near n 1 (add_vec p dir) p \/ length p <> S n).
    { intros p. destruct (Nat.eq_dec (length p) (S n)) as [Lp|]; auto. left. intros k Hk. rewrite nth_add_vec by lia. specialize (Hd k Hk). lia. }
    assert (Y1 : forall p, lca_mem n C p -> lca_mem n R (add_vec p dir)).
    { intros p Hp. assert (Lp : length p = S n) by apply Hp. destruct (CR p Hp) as [_ X]. apply X; [apply add_length; auto|]. destruct (N1 p); tauto. }
    destruct (bc_on_subset_spec n reference l ins dir (fun p => g (bc_value b l dir p)) (fun p us => bc_apply b dx (bc_value b l dir p) us) (subset_init l bd) c1 u)
      as (u1 & F1 & G1); auto.
    { intros p Hp. apply X1 in Hp as (Lp & Hp & Hd'). apply (call_ready dir dir p); auto. eapply region_crossing; eauto. }
    rewrite F1.
    set (ig := Nd Intersect (More (moved_leaf (outwards 2 dir) R) (One (mesh_leaf a)))).
    destruct (level_calls n l (Nd Difference (More ig (One bd)))) as (c2 & E2 & M2).
    { intros lf Hlf. cbn [tin ain] in Hlf. destruct Hlf as [Hlf|Hlf]; [|apply OB; auto]. unfold ig in Hlf. cbn [tin ain] in Hlf.
      destruct Hlf as [->| ->]; cbn [l_node leaf_of node_mesh translate].
      - split; [apply ref_moved_ok; auto|]. rewrite (proj2 WR). lia.
      - split; [eapply region_operand; eauto|lia]. }
    assert (X2 : forall p, In p (cells_of_calls c2) <-> length p = S n /\ (lca_mem n R (add_vec p dir) /\ denotes n l p (NMesh a)) /\ ~ In p (cells_of_calls c1)).
    { intros p. rewrite M2, X1. split; intros [Lp X]; split; auto; unfold expr_mem, ig, bd in *; cbn in *;
        rewrite (same_denotes n C l p (proj2 WC) Lp), (ref_moved dir p Lp Ld) in *; tauto. }
    destruct (bc_on_subset_spec n reference l ins dir (fun p => g (bc_value b l dir p)) (fun p us => bc_apply b dx (bc_value b l dir p) us)
        (subset_init l (Nd Difference (More ig (One bd)))) c2 u1) as (u2 & F2 & G2); auto.
    { intros p Hp. apply X2 in Hp as (Lp & [Hp Hd'] & _). apply (call_ready dir dir p); auto. eapply region_crossing; eauto. }
    exists u2. split; auto. refine (filled_ext (fun p => In p (cells_of_calls c1) \/ In p (cells_of_calls c2)) _ _ _ _ _ _ (filled_union ins n _ _ dir _ u u1 u2 Ld _ G1 G2)).
    - intros p. rewrite X2. destruct (in_dec (list_eq_dec Z.eq_dec) p (cells_of_calls c1)) as [Hi|Hi].
      + pose proof (proj1 (X1 p) Hi) as (Lp & H1 & H2). specialize (Y1 p H1). tauto.
      + tauto.
    - intros p Hp. assert (Z1 : length p = S n /\ denotes n l p (NMesh a) /\ lca_mem n R (add_vec p dir)).
      { destruct Hp as [Hp|Hp]; [apply X1 in Hp as (Lp & H1 & H2); specialize (Y1 p H1); tauto|apply X2 in Hp; tauto]. }
      destruct Z1 as (Lp & H1 & H2). assert (Hc : crossing n lo hi l dir p) by (eapply region_crossing; eauto).
      split; auto. split; [apply Hc|]. apply (crossing_out dir dir p); auto.
  Qed.

  (** *** Extrapolation with two cells *)
  Lemma extrapolate_on_subset_spec : forall dir set u, length dir = S n -> (forall k, (k <= n)%nat -> -1 <= nth k dir 0 <= 1) ->
    (exists k, (k <= n)%nat /\ nth k dir 0 <> 0) ->
    (forall lf, tin lf set -> operand_ok n l (l_node lf) /\ (l <= a_level (node_mesh (l_node lf)))%nat) ->
    (forall p, length p = S n -> expr_mem n l set p -> crossing n lo hi l dir p) ->
    exists u', extrapolate_on_subset n cells reference 2 l dir set false u = Some u' /\
      filled (fun p => length p = S n /\ expr_mem n l set p /\ lca_mem n R (add_vec p dir)) (reached n dir) (fun _ x => x) u u'.
  Proof.
    intros dir set u Ld Hd HT OS HS. destruct (reached_spec n dir Hn Ld Hd) as (ES & Lt & Ht & Hnz & _). specialize (Hnz HT).
    set (t := reached n dir) in *. unfold extrapolate_on_subset. rewrite ES.
    set (bd := Nd Intersect (More (mesh_leaf C) (One set))). set (tr := moved_leaf (outwards 2 dir) R).
    assert (OB : forall lf, tin lf bd -> operand_ok n l (l_node lf) /\ (l <= a_level (node_mesh (l_node lf)))%nat).
    { intros lf Hlf. unfold bd in Hlf. cbn [tin ain] in Hlf. destruct Hlf as [->|Hlf]; [|apply OS; auto]. cbn [l_node leaf_of node_mesh].
      split; [apply cells_ok|]. rewrite (proj2 WC). lia. }
    assert (OT : forall lf, tin lf tr -> operand_ok n l (l_node lf) /\ (l <= a_level (node_mesh (l_node lf)))%nat).
    { intros lf Hlf. unfold tr in Hlf. cbn [tin] in Hlf. subst lf. cbn [l_node leaf_of node_mesh translate]. split; [apply ref_moved_ok; auto|]. rewrite (proj2 WR). lia. }
    destruct (level_calls n l (Nd Intersect (More tr (One bd)))) as (c1 & E1 & M1).
    { intros lf Hlf. cbn [tin ain] in Hlf. destruct Hlf; auto. }
    destruct (level_calls n l (Nd Difference (More (Nd Intersect (More tr (One set))) (One bd)))) as (c2 & E2 & M2).
    { intros lf Hlf. cbn [tin ain] in Hlf. destruct Hlf as [[Hlf|Hlf]|Hlf]; auto. }
    assert (X1 : forall p, In p (cells_of_calls c1) <-> length p = S n /\ lca_mem n R (add_vec p dir) /\ lca_mem n C p /\ expr_mem n l set p).
    { intros p. rewrite M1. split; intros [Lp X]; split; auto; unfold expr_mem, tr, bd in *; cbn in *;
        rewrite (same_denotes n C l p (proj2 WC) Lp), (ref_moved dir p Lp Ld) in *; tauto. }
    assert (X2 : forall p, In p (cells_of_calls c2) <-> length p = S n /\ (lca_mem n R (add_vec p dir) /\ expr_mem n l set p) /\ ~ (lca_mem n C p /\ expr_mem n l set p)).
    { intros p. rewrite M2. split; intros [Lp X]; split; auto; unfold expr_mem, tr, bd in *; cbn in *;
        rewrite (same_denotes n C l p (proj2 WC) Lp), (ref_moved dir p Lp Ld) in *; tauto. }
    assert (Hf : forall (p : list Z) us, extrapolation 2 us = [(1%nat, (fun (_ : list Z) x => x) p (nth 0 us 0%Q))]) by reflexivity.
    assert (Rdy : forall p, length p = S n -> lca_mem n R (add_vec p dir) -> expr_mem n l set p ->
      length p = S n /\ ins p /\ ~ ins (add_vec p t) /\ stored n reference l p = true /\ stored n reference l (add_vec p t) = true).
    { intros p Lp H1 H2. apply (call_ready dir t p); auto. }
    destruct (bc_on_subset_spec n reference l ins t (fun _ x => x) (fun _ us => extrapolation 2 us) _ c1 u Lt Hf E1) as (u1 & F1 & G1).
    { intros p Hp. apply X1 in Hp. apply Rdy; tauto. }
    destruct (bc_on_subset_spec n reference l ins t (fun _ x => x) (fun _ us => extrapolation 2 us) _ c2 u1 Lt Hf E2) as (u2 & F2 & G2).
    { intros p Hp. apply X2 in Hp. apply Rdy; tauto. }
    rewrite F1. exists u2. split; auto.
    refine (filled_ext (fun p => In p (cells_of_calls c1) \/ In p (cells_of_calls c2)) _ _ _ _ _ _ (filled_union ins n _ _ t _ u u1 u2 Lt _ G1 G2)).
    - intros p. rewrite X2. destruct (in_dec (list_eq_dec Z.eq_dec) p (cells_of_calls c1)) as [Hi|Hi].
      + pose proof (proj1 (X1 p) Hi). tauto.
      + rewrite X1 in *. tauto.
    - intros p Hp. destruct (Rdy p) as (A1 & A2 & A3 & _); auto; destruct Hp as [Hp|Hp]; [apply X1 in Hp|apply X2 in Hp|apply X1 in Hp|apply X2 in Hp|apply X1 in Hp|apply X2 in Hp]; tauto.
  Qed.


  Definition good_dir (dir : list Z) : Prop := length dir = S n /\ forall k, (k <= n)%nat -> -1 <= nth k dir 0 <= 1.
  Definition handled (diagonals : bool) (dir : list Z) : Prop :=
    (exists k, (k <= n)%nat /\ nth k dir 0 <> 0) /\ (diagonals = true -> is_cartesian dir = false).

  Lemma handled_dec : forall diag dir, length dir = S n ->
    (forallb (Z.eqb 0) dir || (diag && is_cartesian dir) = false <-> handled diag dir).
  Proof.
    intros diag dir Ld. rewrite orb_false_iff, (zero_dir n dir Ld), andb_false_iff. unfold handled. destruct diag; intuition congruence.
  Qed.

  Lemma not_axis_dim : forall dir, length dir = S n -> (forall k, (k <= n)%nat -> -1 <= nth k dir 0 <= 1) ->
    (exists k, (k <= n)%nat /\ nth k dir 0 <> 0) -> is_cartesian dir = false -> (1 <= n)%nat.
  Proof.
    intros dir Ld Hd (k & Hk & Hne) EC. clear - Ld Hd Hk Hne EC. destruct n as [|n']; [|lia]. exfalso. destruct dir as [|x [|y dir]]; try discriminate.
    specialize (Hd 0%nat ltac:(lia)). assert (k = 0%nat) as -> by lia. cbn [nth] in *. unfold is_cartesian in EC. cbn [fold_right] in EC.
    apply Z.eqb_neq in EC. lia.
  Qed.

  Lemma extrapolate_directions_spec : forall diag dirs u, (forall dir, In dir dirs -> good_dir dir) ->
    exists u', extrapolate_directions n cells reference domain 2 l diag false dirs u = Some u' /\
      (forall q, ins q \/ ~ lca_mem n R q -> value_at u' q = value_at u q) /\
      ((n <= 1)%nat -> forall q, (forall dir p, In dir dirs -> handled diag dir -> crossing n lo hi l dir p -> q <> add_vec p dir) -> value_at u' q = value_at u q) /\
      ((n <= 1)%nat -> forall dir p, In dir dirs -> handled diag dir -> crossing n lo hi l dir p -> lca_mem n R (add_vec p dir) ->
         value_at u' (add_vec p dir) = value_at u p).
  Proof.
    intros diag dirs. induction dirs as [|dir dirs IH]; intros u HG.
    - exists u. split; auto. split; auto. split; auto. intros _ dir p [].
    - cbn [extrapolate_directions]. destruct (HG dir (or_introl eq_refl)) as [Ld Hd].
      assert (HG' : forall d, In d dirs -> good_dir d) by (intros d H; apply HG; right; auto).
      destruct (forallb (Z.eqb 0) dir || (diag && is_cartesian dir)) eqn:EH.
      + destruct (IH u HG') as (u' & E & A & B & D). exists u'. split; auto. split; auto.
        assert (NH : ~ handled diag dir) by (intros X; apply handled_dec in X; auto; congruence). split.
        * intros Hn1 q Hq. apply B; auto. intros d p Hin. apply Hq. right. auto.
        * intros Hn1 d p [<-|Hin] Hh'; [contradiction|]. apply D; auto.
      + apply handled_dec in EH; auto. pose proof EH as [HT HC].
        replace (a_level domain) with maxl by (symmetry; apply box). rewrite Z.shiftl_1_l.
        assert (BM : forall p, length p = S n -> (expr_mem n l (boundary_set n domain (2 ^ Z.of_nat (maxl - l)) dir) p <->
                       crossing n lo hi l dir p /\ (is_cartesian dir = true \/ forall k, (k <= n)%nat -> nth k dir 0 <> 0))).
        { intros p Lp. apply boundary_mem; auto. intros EC. apply (not_axis_dim dir); auto. }
        destruct (extrapolate_on_subset_spec dir (boundary_set n domain (2 ^ Z.of_nat (maxl - l)) dir) u Ld Hd HT) as (u1 & E1 & F1 & F2 & F3).
        { intros lf Hlf. destruct (boundary_leaves n maxl lo hi domain l dir box Hl Hm Ld Hd Hh lf Hlf) as [H1 H2]. split; auto. lia. }
        { intros p Lp X. apply BM in X; auto. apply X. }
        rewrite E1. destruct (IH u1 HG') as (u' & E & A & B & D). exists u'. split; auto.
        destruct (reached_spec n dir Hn Ld Hd) as (_ & Lt & Ht & Hnz & HE). specialize (Hnz HT).
        assert (K : forall q, ins q \/ ~ lca_mem n R q -> value_at u1 q = value_at u q).
        { intros q Hq. apply F2. intros p (Lp & Hp & Hr) ->. apply BM in Hp as [Hp _]; auto. destruct Hq as [Hq|Hq].
          - revert Hq. apply (crossing_out dir (reached n dir) p); auto.
          - apply Hq. apply (inward p dir (reached n dir)); auto. }
        split; [intros q Hq; rewrite A by auto; apply K; auto|]. split.
        * intros Hn1 q Hq. rewrite B; auto; [|intros d p Hin; apply Hq; right; auto]. apply F2. intros p (Lp & Hp & Hr). apply BM in Hp as [Hp _]; auto.
          rewrite HE by auto. apply Hq; auto. left. auto.
        * intros Hn1 d p Hin Hhd Hc Hr. assert (Lp : length p = S n) by apply Hc.
          destruct (in_dec (list_eq_dec Z.eq_dec) d dirs) as [Hi|Hi].
          -- rewrite (D Hn1 d p Hi Hhd Hc Hr). apply K; auto. left. apply Hc.
          -- destruct Hin as [<-|Hin]; [|contradiction]. rewrite B; auto.
             ++ rewrite <- HE by auto. apply F1. split; auto. split; auto. apply BM; auto. split; auto.
                destruct (is_cartesian dir) eqn:EC; auto. right. intros k Hk E0.
                assert (n = 1%nat) as -> by (pose proof (not_axis_dim dir Ld Hd HT EC); lia).
                destruct dir as [|x [|y [|z dir]]]; try discriminate. destruct HT as (j & Hj & Hne).
                pose proof (Hd 0%nat ltac:(lia)) as X0. pose proof (Hd 1%nat ltac:(lia)) as X1. unfold is_cartesian in EC. cbn [fold_right] in EC. apply Z.eqb_neq in EC.
                destruct k as [|[|k]]; [| |lia]; destruct j as [|[|j]]; try lia; cbn [nth] in *; lia.
             ++ intros d p' Hin Hhd' Hc' E2. destruct (HG' d Hin) as [Ld' Hd']. destruct (crossing_unique n lo hi l dir d p p' Ld Ld' Hd Hd' Hc Hc' E2) as [<- _]. contradiction.
  Qed.

  (** *** All the boundary conditions *)

  (** The value given to a ghost by a condition with a stencil of two cells, from the
      value of the condition and the one of the cell. *)
  Definition ghost_value (b : bc) (dx v x : Q) : Q := match bc_apply b dx v [x] with [(_, q)] => q | _ => 0%Q end.
  Definition two_cells (b : bc) : Prop :=
    bc_size b = 2%nat /\ forall dx v us, bc_apply b dx v us = [(1%nat, ghost_value b dx v (nth 0 us 0%Q))].

  Notation entry := (bc * (list Z * lca))%type.
  Definition entries (bs : list bc) : list entry := flat_map (fun b => map (pair b) (bc_region b)) bs.

  Fixpoint apply_entries (minl : nat) (dx : Q) (es : list entry) (u : field) : option field :=
    match es with
    | [] => Some u
    | (b, (dir, a)) :: es => let* u := apply_bc_direction n cells reference minl maxl dx b l u dir a in apply_entries minl dx es u
    end.
  Lemma apply_entries_app : forall minl dx es es' u, apply_entries minl dx (es ++ es') u = let* u := apply_entries minl dx es u in apply_entries minl dx es' u.
  Proof.
    intros minl dx es. induction es as [|[b [dir a]] es IH]; intros es' u; cbn [apply_entries app]; auto.
    destruct (apply_bc_direction _ _ _ _ _ _ _ _ _ _ _); auto.
  Qed.
  Lemma apply_bcs_entries : forall minl dx bs u, apply_bcs n cells reference minl maxl dx bs l u = apply_entries minl dx (entries bs) u.
  Proof.
    intros minl dx bs. induction bs as [|b bs IH]; intros u; auto. cbn [apply_bcs entries flat_map]. fold (entries bs). rewrite apply_entries_app.
    assert (E : forall reg u, apply_bc_impl n cells reference minl maxl dx b l reg u = apply_entries minl dx (map (pair b) reg) u).
    { induction reg as [|[dir a] reg IHr]; intros u0; auto. cbn [apply_bc_impl map apply_entries]. destruct (apply_bc_direction _ _ _ _ _ _ _ _ _ _ _); auto. }
    rewrite E. destruct (apply_entries _ _ _ _); auto.
  Qed.

  Definition hit (e : entry) (p : list Z) : Prop :=
    let '(b, (dir, a)) := e in is_cartesian dir = true /\ length p = S n /\ denotes n l p (NMesh a) /\ lca_mem n R (add_vec p dir).
  Definition entry_ok (e : entry) : Prop := two_cells (fst e) /\ (is_cartesian (fst (snd e)) = true -> region_ok (fst (snd e)) (snd (snd e))).

  Lemma hit_crossing : forall b dir a p, entry_ok (b, (dir, a)) -> hit (b, (dir, a)) p -> crossing n lo hi l dir p /\ length dir = S n /\ forall k, (k <= n)%nat -> -1 <= nth k dir 0 <= 1.
  Proof.
    intros b dir a p [_ HE] (EC & Lp & Hd & _). cbn [fst snd] in HE. specialize (HE EC). assert (Ld : length dir = S n) by exact (proj1 HE).
    assert (X : forall k, (k <= n)%nat -> -1 <= nth k dir 0 <= 1) by (intros k _; apply (cartesian_range n dir); auto).
    split; [|split; auto]. eapply region_crossing; eauto.
  Qed.

  Lemma apply_entries_spec : forall minl dx es u, minl <> maxl -> (forall e, In e es -> entry_ok e) ->
    exists u', apply_entries minl dx es u = Some u' /\
      (forall q, ins q \/ ~ lca_mem n R q -> value_at u' q = value_at u q) /\
      (forall q, (forall b dir a p, In (b, (dir, a)) es -> hit (b, (dir, a)) p -> q <> add_vec p dir) -> value_at u' q = value_at u q) /\
      (forall pre b dir a post p, es = pre ++ (b, (dir, a)) :: post -> hit (b, (dir, a)) p ->
         (forall b' a', In (b', (dir, a')) post -> ~ hit (b', (dir, a')) p) ->
         value_at u' (add_vec p dir) = ghost_value b dx (bc_value b l dir p) (value_at u p)) /\
      (forall e p, In e es -> hit e p \/ ~ hit e p).
  Proof.
    intros minl dx es. induction es as [|[b [dir a]] es IH]; intros u Hne HE.
    - exists u. split; auto. split; auto. split; auto. split; [intros pre b dir a post p E; destruct pre; discriminate|intros e p []].
    - cbn [apply_entries]. pose proof (HE _ (or_introl eq_refl)) as HE0.
      assert (HE' : forall e, In e es -> entry_ok e) by (intros e He; apply HE; right; auto).
      assert (S1 : exists u1, apply_bc_direction n cells reference minl maxl dx b l u dir a = Some u1 /\
        (forall p, hit (b, (dir, a)) p -> value_at u1 (add_vec p dir) = ghost_value b dx (bc_value b l dir p) (value_at u p)) /\
        (forall q, (forall p, hit (b, (dir, a)) p -> q <> add_vec p dir) -> value_at u1 q = value_at u q) /\
        (forall p, hit (b, (dir, a)) p \/ ~ hit (b, (dir, a)) p)).
      { destruct HE0 as [[Hs Hg] Hr]. cbn [fst snd] in *. destruct (is_cartesian dir) eqn:EC.
        - destruct (apply_bc_direction_spec minl dx b (ghost_value b dx) dir a u Hne Hs (Hg dx) EC (Hr eq_refl)) as (u1 & E1 & A1 & B1 & C1).
          exists u1. split; auto. unfold hit. rewrite EC. split; [intros p H; apply A1; tauto|]. split; [intros q H; apply B1; intros p X; apply H; tauto|].
          intros p. destruct (C1 p); tauto.
        - exists u. unfold apply_bc_direction. rewrite EC. split; auto. unfold hit. rewrite EC. split; [intros p [X _]; discriminate|]. split; auto.
          intros p. right. intros [X _]. discriminate. }
      destruct S1 as (u1 & E1 & A1 & B1 & C1). rewrite E1. destruct (IH u1 Hne HE') as (u' & E & A & B & D & F). exists u'. split; auto.
      assert (K : forall q, ins q \/ ~ lca_mem n R q -> value_at u1 q = value_at u q).
      { intros q Hq. apply B1. intros p Hp ->. destruct (hit_crossing b dir a p HE0 Hp) as (Hc & Ld & Hd). destruct Hp as (EC & Lp & H1 & H2).
        destruct Hq as [Hq|Hq]; [|contradiction]. revert Hq. apply (crossing_out dir dir p); auto.
        destruct (cartesian_axis n dir Ld EC) as (d & X1 & X2 & _); exists d; split; auto; lia. }
      split; [intros q Hq; rewrite A by auto; apply K; auto|]. split; [|split].
      + intros q Hq. rewrite B by (intros b' dir' a' p Hin; apply Hq; right; auto). apply B1. intros p Hp. apply (Hq b dir a p); auto. left. auto.
      + intros pre b0 dir0 a0 post p EQ Hp Hlast. destruct pre as [|e pre].
        * cbn [app] in EQ. injection EQ as <- <- <- <-. rewrite B; [apply A1; auto|].
          intros b' dir' a' p' Hin Hp' X. destruct (hit_crossing b dir a p HE0 Hp) as (Hc & Ld & Hd).
          destruct (hit_crossing b' dir' a' p' (HE' _ Hin) Hp') as (Hc' & Ld' & Hd').
          destruct (crossing_unique n lo hi l dir dir' p p' Ld Ld' Hd Hd' Hc Hc' X) as [<- <-]. apply (Hlast b' a'); auto.
        * cbn [app] in EQ. apply (f_equal (@tl _)) in EQ as EQ'. cbn [tl] in EQ'. rewrite (D pre b0 dir0 a0 post p EQ' Hp Hlast). f_equal. apply K.
          left. assert (Hin : In (b0, (dir0, a0)) es) by (rewrite EQ'; apply in_or_app; right; left; auto).
             destruct (hit_crossing b0 dir0 a0 p (HE' _ Hin) Hp) as [Hc _]. apply Hc.
      + intros e p [<-|Hin]; auto.
  Qed.

  (** *** update_bc, with the default widths *)
  Lemma max_size : forall bs, (forall b, In b bs -> bc_size b = 2%nat) -> forall m0, fold_left Nat.max (map bc_size bs) m0 = match bs with [] => m0 | _ => Nat.max m0 2 end.
  Proof.
    induction bs as [|b bs IH]; intros H m0; auto. cbn [map fold_left]. rewrite IH by (intros; apply H; right; auto). rewrite (H b) by (left; auto). destruct bs; lia.
  Qed.

  Lemma all_dirs : forall dir, In dir (nested_loop (S n) (-1) 2) <-> good_dir dir.
  Proof.
    intros dir. clear - dir. rewrite nested_loop_In, forall_nth. unfold good_dir. split; intros [A B]; split; auto; intros k Hk; specialize (B k ltac:(lia)); lia.
  Qed.

  Lemma update_bc_spec : forall minl dx bs v, minl <> maxl -> (forall b, In b bs -> two_cells b) -> (forall e, In e (entries bs) -> entry_ok e) ->
    exists v', update_bc n cells reference domain minl maxl 1 1 dx bs l v = Some v' /\
      (forall k, k <> l -> v' k = v k) /\
      (forall q, ins q \/ ~ lca_mem n R q -> value_at (v' l) q = value_at (v l) q) /\
      ((n <= 1)%nat ->
        (forall dir p, good_dir dir -> handled (match bs with [] => false | _ => true end) dir -> crossing n lo hi l dir p -> lca_mem n R (add_vec p dir) ->
           value_at (v' l) (add_vec p dir) = value_at (v l) p) /\
        (forall pre b dir a post p, entries bs = pre ++ (b, (dir, a)) :: post -> hit (b, (dir, a)) p ->
           (forall b' a', In (b', (dir, a')) post -> ~ hit (b', (dir, a')) p) ->
           value_at (v' l) (add_vec p dir) = ghost_value b (dx l) (bc_value b l dir p) (value_at (v l) p)) /\
        (forall e p, In e (entries bs) -> hit e p \/ ~ hit e p)).
  Proof.
    intros minl dx bs v Hne HB HE. unfold update_bc. cbn [Nat.ltb Nat.leb andb Nat.max seq extrapolate_layers Nat.mul Nat.add].
    rewrite apply_bcs_entries. destruct (apply_entries_spec minl (dx l) (entries bs) (v l) Hne HE) as (u1 & E1 & A1 & B1 & D1 & F1). rewrite E1.
    rewrite max_size by (intros b Hb; apply HB; auto). unfold apply_extrapolation. rewrite (proj1 (proj2 box)), (proj2 (Nat.leb_le l maxl) Hl). cbn [checked].
    assert (ED : (match Nat.div (match bs with [] => 0%nat | _ => Nat.max 0 2 end) 2 with O => false | S _ => true end) = match bs with [] => false | _ => true end)
      by (destruct bs; reflexivity).
    cbn [Nat.leb Nat.mul Nat.add]. cbv beta. rewrite ED. clear ED.
    set (diag := match bs with [] => false | _ => true end).
    destruct (extrapolate_directions_spec diag (nested_loop (S n) (-1) 2) u1) as (u2 & E2 & A2 & B2 & D2); [intros dir; apply all_dirs|]. rewrite E2.
    exists (upd v l u2). split; auto. split; [intros k Hk; unfold upd; destruct (Nat.eqb_spec k l); congruence|].
    assert (EL : upd v l u2 l = u2) by (unfold upd; rewrite Nat.eqb_refl; auto). rewrite EL.
    split; [intros q Hq; rewrite A2 by auto; apply A1; auto|]. intros Hn1. split; [|split; auto].
    - intros dir p Hg Hh' Hc Hr. rewrite D2 by (auto; apply all_dirs; auto). apply A1. left. apply Hc.
    - intros pre b dir a post p EQ Hp Hlast. assert (Hin : In (b, (dir, a)) (entries bs)) by (rewrite EQ; apply in_or_app; right; left; auto).
      destruct (hit_crossing b dir a p (HE _ Hin) Hp) as (Hc & Ld & Hd). rewrite B2; auto; [eapply D1; eauto|].
      intros dir' p' Hin' Hh' Hc' X. apply all_dirs in Hin' as [Ld' Hd']. destruct (crossing_unique n lo hi l dir dir' p p' Ld Ld' Hd Hd' Hc Hc' X) as [<- <-].
      assert (EB : diag = true) by (unfold diag; destruct bs; [destruct Hin|auto]). destruct Hh' as [_ Hh']. specialize (Hh' EB). destruct Hp as [EC _]. congruence.
  Qed.
End Level.
