(** The loop of [graduation] on a mesh that fills a box: the final tags are the least ones
    closed under its rules, they are consistent, and the mesh built from them is graded. *)
From Coq Require Import QArith.
From Verif Require Import Base IntervalModel Spec IntervalProofs LoiModel LcaModel LcaSpec LcaProofs RowsProofs CellArrayModel CellArrayProofs PropsLca PropsCellArray
  SubsetModel TreeProofs SubsetSpec SubsetProofs2 PropsSubset StencilModel NumberingProofs StencilProofs PropsStencil MeshModel MeshProofs
  NumModel NumProofs NumSpec PropsNum AdaptModel AdaptProofs TagProofs PropsAdapt TransferProofs PropsTransfer MrModel MrProofs PropsMr
  GhostModel GhostProofs PropsGhost BcProofs HartenModel HartenProofs HartenProofs2 AmrModel AmrProofs.
Open Scope Z_scope.

(** ** Vocabulary *)

(** No leaf is two levels or more finer than a leaf that one of its neighbours by the
    stencil lies in. *)
Definition graded_by (n : nat) (stencil : list (list Z)) (cells : ca) : Prop :=
  forall l l' p q s, ca_mem n cells l p -> ca_mem n cells l' q -> (l + 2 <= l')%nat -> In s stencil -> ancestor (l' - l) (vadd n q s) <> p.

(** [v] is [s] with some components replaced by 0. *)
Definition sub_step (n : nat) (v s : list Z) : Prop := length v = S n /\ forall k, (k <= n)%nat -> nth k v 0 = 0 \/ nth k v 0 = nth k s 0.
(** A step along one axis. *)
Definition axis_step (n : nat) (v : list Z) : Prop :=
  length v = S n /\ exists a, (a <= n)%nat /\ (nth a v 0 = 1 \/ nth a v 0 = -1) /\ forall k, (k <= n)%nat -> k <> a -> nth k v 0 = 0.
(** [s] is [v] with some of the components equal to 0 replaced by those of [e]. *)
Definition filled (n : nat) (v e s : list Z) : Prop := forall k, (k <= n)%nat -> nth k s 0 = nth k v 0 \/ nth k v 0 = 0 /\ nth k s 0 = nth k e 0.
Definition signs (n : nat) (e : list Z) : Prop := length e = S n /\ forall k, (k <= n)%nat -> nth k e 0 = 1 \/ nth k e 0 = -1.
(** Unit steps, among which all the steps along the axes and, with a step, the ones with fewer
    components, or these steps with their components equal to 0 filled by any signs. The stars,
    the boxes and the stencils of the diagonals are such stencils. *)
Record step_stencil (n : nat) (stencil : list (list Z)) : Prop := {
  ss_length : forall s, In s stencil -> length s = S n;
  ss_unit : forall s k, In s stencil -> (k <= n)%nat -> -1 <= nth k s 0 <= 1;
  ss_moves : forall s, In s stencil -> exists k, (k <= n)%nat /\ nth k s 0 <> 0;
  ss_axis : forall v e, axis_step n v -> signs n e -> exists s, In s stencil /\ filled n v e s;
  ss_sub : forall s v e, In s stencil -> sub_step n v s -> (exists k, (k <= n)%nat /\ nth k v 0 <> 0) -> signs n e -> exists s', In s' stencil /\ filled n v e s' }.

(** A cell stays in its group when the signs point to its siblings. *)
Definition toward (n : nat) (p : list Z) : list Z := map (fun k => if Z.even (nth k p 0) then 1 else -1) (seq 0 (S n)).
Lemma nth_toward : forall n p k, (k <= n)%nat -> nth k (toward n p) 0 = if Z.even (nth k p 0) then 1 else -1.
Proof.
  intros n p k Hk. unfold toward. rewrite nth_indep with (d' := (fun k => if Z.even (nth k p 0) then 1 else -1) 0%nat) by (rewrite map_length, seq_length; lia).
  rewrite (map_nth (fun k => if Z.even (nth k p 0) then 1 else -1)), seq_nth by lia. auto.
Qed.
Lemma toward_signs : forall n p, signs n (toward n p).
Proof. intros n p. split; [unfold toward; rewrite map_length, seq_length; auto|]. intros k Hk. rewrite nth_toward by auto. destruct (Z.even (nth k p 0)); auto. Qed.
Lemma filled_parent : forall n p v s, length p = S n -> filled n v (toward n p) s -> ancestor 1 (vadd n p s) = ancestor 1 (vadd n p v).
Proof.
  intros n p v s Lp F. apply (list_ext n); [rewrite ancestor_length; apply vadd_length|rewrite ancestor_length; apply vadd_length|]. intros k Hk.
  rewrite !nth_ancestor, !nth_vadd by auto. destruct (F k Hk) as [->|[-> ->]]; auto. rewrite nth_toward by auto. change (2 ^ Z.of_nat 1) with 2.
  pose proof (Zmod_even (nth k p 0)) as X. destruct (Z.even (nth k p 0)); lia.
Qed.

(** The mesh graduation works on: [gw] is graduation_width. *)
Record amr_input (n m minl maxl : nat) (gw : Z) (stencil : list (list Z)) (cells reference : ca) (lo hi : list Z) : Prop := {
  ai_dim : (n <= 2)%nat;
  ai_top : (maxl <= m)%nat;
  ai_cmax : c_max cells = m /\ c_max reference = m;
  ai_cells : forall l, (l <= m)%nat -> wf n (c_at cells l) /\ a_level (c_at cells l) = l;
  ai_ref : forall l, (l <= m)%nat -> wf n (c_at reference l) /\ a_level (c_at reference l) = l;
  ai_range : forall l q, ca_mem n cells l q -> (minl <= l <= maxl)%nat;
  ai_tiles : tiles n cells lo hi;
  ai_graded : graded_by n stencil cells;
  ai_stencil : step_stencil n stencil;
  ai_width : 1 <= gw;
  ai_near : forall l q p, ca_mem n cells l q -> length p = S n -> near n gw p q -> ca_mem n reference l p;
  ai_bound : forall l p k, ca_mem n reference l p -> (k <= n)%nat -> 2 * (nth k p 0 + 3) < 2 ^ 31 - 1 }.

(** The leaves to refine and the cells to keep: the least sets with the initial marks and
    closed under the rules of the graduation. *)
Section Closure.
  Variables (n : nat) (gw : Z) (stencil : list (list Z)) (cells reference : ca) (t : tfield).
  Inductive to_refine : nat -> list Z -> Prop :=
  | refine_given : forall l q, Z.testbit (tg t l q) 2 = true -> to_refine l q
  | refine_pulled : forall l q f s, ca_mem n cells l q -> ca_mem n cells (S l) f -> In s stencil -> ancestor 1 (vadd n f s) = q -> to_refine (S l) f -> to_refine l q.
  Inductive to_keep : nat -> list Z -> Prop :=
  | keep_given : forall l q, Z.testbit (tg t l q) 0 = true -> to_keep l q
  | keep_parent : forall l f, ca_mem n cells (S l) f -> ca_mem n reference l (ancestor 1 f) -> to_keep l (ancestor 1 f)
  | keep_near : forall l q p, ca_mem n cells (S l) p -> to_refine (S l) p -> near n gw q p -> to_keep (S l) q
  | keep_sibling : forall l q f c, ca_mem n cells (S l) f -> ancestor 1 f = ancestor 1 q -> length c = S n -> ancestor 1 c = ancestor 1 q -> to_keep (S l) c -> to_keep (S l) q
  | keep_pulled : forall l q f s, ca_mem n cells l q -> ca_mem n cells (S l) f -> In s stencil -> ancestor 1 (vadd n f s) = q -> to_keep (S l) f -> to_keep l q.
End Closure.

Section Mesh.
  Variables (n m minl maxl : nat) (gw : Z) (stencil : list (list Z)) (cells reference : ca) (lo hi : list Z).
  Hypothesis HI : amr_input n m minl maxl gw stencil cells reference lo hi.
  Notation leaf := (ca_mem n cells).
  Notation ref := (ca_mem n reference).

  Lemma am_leaf_at : forall l p, (l <= m)%nat -> (leaf l p <-> lca_mem n (c_at cells l) p).
  Proof. intros l p Hl. unfold ca_mem. rewrite (proj1 (ai_cmax _ _ _ _ _ _ _ _ _ _ HI)). tauto. Qed.
  Lemma am_ref_at : forall l p, (l <= m)%nat -> (ref l p <-> lca_mem n (c_at reference l) p).
  Proof. intros l p Hl. unfold ca_mem. rewrite (proj2 (ai_cmax _ _ _ _ _ _ _ _ _ _ HI)). tauto. Qed.
  Lemma am_leaf_ref : forall l p, leaf l p -> ref l p.
  Proof. intros l p H. apply (ai_near _ _ _ _ _ _ _ _ _ _ HI l p); auto; [apply H|]. intros k Hk. pose proof (ai_width _ _ _ _ _ _ _ _ _ _ HI). lia. Qed.
  Lemma am_near1 : forall l q p, leaf l q -> length p = S n -> near n 1 p q -> ref l p.
  Proof. intros l q p Hq Lp N. apply (ai_near _ _ _ _ _ _ _ _ _ _ HI l q); auto. intros k Hk. specialize (N k Hk). pose proof (ai_width _ _ _ _ _ _ _ _ _ _ HI). lia. Qed.
  Lemma am_stored : forall l p, (l <= m)%nat -> length p = S n -> (stored n reference l p = true <-> ref l p).
  Proof. intros l p Hl Lp. rewrite am_ref_at by auto. apply stored_mem; auto. apply (ai_ref _ _ _ _ _ _ _ _ _ _ HI). auto. Qed.
  Lemma am_leaf_bound : forall l p k, leaf l p -> (k <= n)%nat -> 2 * (nth k p 0 + 3) < 2 ^ 31 - 1.
  Proof. intros l p k H Hk. apply (ai_bound _ _ _ _ _ _ _ _ _ _ HI l p k); auto. apply am_leaf_ref. auto. Qed.
  Lemma am_bound1 : forall l p k, ref l p -> (k <= n)%nat -> nth k p 0 + 3 < 2 ^ 31 - 1.
  Proof. intros l p k H Hk. pose proof (ai_bound _ _ _ _ _ _ _ _ _ _ HI l p k H Hk). lia. Qed.
  Lemma sibling_near : forall c q, length c = S n -> length q = S n -> ancestor 1 c = ancestor 1 q -> near n 1 c q.
  Proof.
    intros c q Lc Lq E k Hk. assert (X : nth k (ancestor 1 c) 0 = nth k (ancestor 1 q) 0) by congruence. rewrite !nth_ancestor in X. change (2 ^ Z.of_nat 1) with 2 in X. lia.
  Qed.

  Definition parent_of_leaf (l : nat) (p : list Z) : Prop := exists q, leaf (S l) q /\ ancestor 1 q = p.
  Lemma parent_length : forall l p, parent_of_leaf l p -> length p = S n.
  Proof. intros l p (q & Hq & <-). rewrite ancestor_length. apply Hq. Qed.

  (** *** The four sets *)
  Lemma leaf_operand : forall l w, (l <= m)%nat -> (w <= S l)%nat -> operand_ok n w (NMesh (c_at cells l)).
  Proof.
    intros l w Hl Hw. destruct (ai_cells _ _ _ _ _ _ _ _ _ _ HI l Hl) as [W L]. split; [exact I|]. split; [exact W|]. intros q k Hq Hk. cbn [node_mesh node_vect] in *. rewrite L.
    rewrite vadd_nil by apply Hq. apply am_leaf_at in Hq; auto. pose proof (am_leaf_bound _ _ _ Hq Hk). apply am_leaf_ref in Hq. pose proof (am_bound1 _ _ _ Hq Hk).
    assert (Z.max 0 (Z.of_nat w - Z.of_nat l) = 0 \/ Z.max 0 (Z.of_nat w - Z.of_nat l) = 1) as [-> | ->] by lia; lia.
  Qed.
  Lemma ref_operand : forall l w, (l <= m)%nat -> (w <= S l)%nat -> operand_ok n w (NMesh (c_at reference l)).
  Proof.
    intros l w Hl Hw. destruct (ai_ref _ _ _ _ _ _ _ _ _ _ HI l Hl) as [W L]. split; [exact I|]. split; [exact W|]. intros q k Hq Hk. cbn [node_mesh node_vect] in *. rewrite L.
    rewrite vadd_nil by apply Hq. apply am_ref_at in Hq; auto. pose proof (ai_bound _ _ _ _ _ _ _ _ _ _ HI _ _ _ Hq Hk). pose proof (am_bound1 _ _ _ Hq Hk).
    assert (Z.max 0 (Z.of_nat w - Z.of_nat l) = 0 \/ Z.max 0 (Z.of_nat w - Z.of_nat l) = 1) as [-> | ->] by lia; lia.
  Qed.

  Lemma parent_set : forall l, (S l <= maxl)%nat -> exists calls,
    subset_calls n (on (inter (c_at cells (S l)) (c_at reference l)) l) = Some calls /\
    (forall i yz, In (i, yz) calls -> length yz = n) /\ forall p, In p (cells_of_calls calls) <-> parent_of_leaf l p /\ ref l p.
  Proof.
    intros l Hl. pose proof (ai_top _ _ _ _ _ _ _ _ _ _ HI). destruct (ai_cells _ _ _ _ _ _ _ _ _ _ HI (S l) ltac:(lia)) as [Wc Lc].
    destruct (ai_ref _ _ _ _ _ _ _ _ _ _ HI l ltac:(lia)) as [Wa La]. unfold inter. rewrite on_make_op. set (t := Nd Intersect _).
    destruct (set_calls n l t) as (calls & E & V & C).
    { intros lf Hlf. unfold t in Hlf |- *. cbn [tin ain] in Hlf. destruct Hlf as [-> | ->]; cbn [l_node leaf_of]; [apply leaf_operand|apply ref_operand]; lia. }
    exists calls. split; auto. split; [intros i yz Hin; apply (V i yz Hin)|]. intros p. rewrite C. unfold expr_mem, t. cbn. split.
    - intros (Lp & H1 & H2). apply denotes_mesh_coarse in H1; [|lia|auto]. apply denotes_mesh_fine in H2; [|lia|auto]. destruct H1 as (q & Hq & E1).
      rewrite La, Nat.sub_diag, ancestor_0 in H2. rewrite Lc in E1. replace (S l - l)%nat with 1%nat in E1 by lia. rewrite am_ref_at by lia. split; auto. exists q. rewrite am_leaf_at by lia. auto.
    - intros [(q & Hq & <-) Hr]. assert (Lq : length (ancestor 1 q) = S n) by (rewrite ancestor_length; apply Hq). split; auto. split.
      + apply denotes_mesh_coarse; [lia|auto|]. exists q. rewrite Lc. replace (S l - l)%nat with 1%nat by lia. split; auto. rewrite <- am_leaf_at by lia. auto.
      + apply denotes_mesh_fine; [lia|auto|]. rewrite La, Nat.sub_diag, ancestor_0. rewrite <- am_ref_at by lia. auto.
  Qed.
  Lemma leaf_set : forall l, (l <= maxl)%nat -> exists calls, subset_calls n (inter (c_at cells l) (c_at cells l)) = Some calls /\
    (forall i yz, In (i, yz) calls -> length yz = n) /\ forall p, In p (cells_of_calls calls) <-> leaf l p.
  Proof.
    intros l Hl. pose proof (ai_top _ _ _ _ _ _ _ _ _ _ HI). destruct (ai_cells _ _ _ _ _ _ _ _ _ _ HI l ltac:(lia)) as [Wc Lc].
    assert (B : below_max n (c_at cells l)).
    { intros q k Hq Hk. rewrite <- am_leaf_at in Hq by lia. pose proof (am_leaf_bound _ _ _ Hq Hk). apply am_leaf_ref in Hq. pose proof (am_bound1 _ _ _ Hq Hk). lia. }
    destruct (inter_calls n (c_at cells l) (c_at cells l) l) as (calls & E & V & C); auto. exists calls. split; auto. split.
    - intros i yz Hin. apply (V i yz Hin).
    - intros p. rewrite C, am_leaf_at by lia. tauto.
  Qed.
  Lemma group_set : forall l, (S l <= maxl)%nat -> exists calls,
    subset_calls n (on (inter (c_at cells (S l)) (c_at cells (S l))) l) = Some calls /\
    (forall i yz, In (i, yz) calls -> length yz = n) /\ forall p, In p (cells_of_calls calls) <-> parent_of_leaf l p.
  Proof.
    intros l Hl. pose proof (ai_top _ _ _ _ _ _ _ _ _ _ HI). destruct (ai_cells _ _ _ _ _ _ _ _ _ _ HI (S l) ltac:(lia)) as [Wc Lc].
    unfold inter. rewrite on_make_op. set (t := Nd Intersect _).
    destruct (set_calls n l t) as (calls & E & V & C).
    { intros lf Hlf. unfold t in Hlf |- *. cbn [tin ain] in Hlf. destruct Hlf as [-> | ->]; cbn [l_node leaf_of]; apply leaf_operand; lia. }
    exists calls. split; auto. split; [intros i yz Hin; apply (V i yz Hin)|]. intros p. rewrite C. unfold expr_mem, t. cbn. split.
    - intros (Lp & H1 & _). apply denotes_mesh_coarse in H1; [|lia|auto]. destruct H1 as (q & Hq & E1).
      rewrite Lc in E1. replace (S l - l)%nat with 1%nat in E1 by lia. exists q. rewrite am_leaf_at by lia. auto.
    - intros (q & Hq & <-). assert (Lq : length (ancestor 1 q) = S n) by (rewrite ancestor_length; apply Hq). split; auto.
      assert (D : denotes n l (ancestor 1 q) (NMesh (c_at cells (S l)))); [|auto].
      apply denotes_mesh_coarse; [lia|auto|]. exists q. rewrite Lc. replace (S l - l)%nat with 1%nat by lia. split; auto. rewrite <- am_leaf_at by lia. auto.
  Qed.
  Lemma pull_set : forall l s, (S l <= maxl)%nat -> In s stencil -> exists calls,
    subset_calls n (on (make_op Intersect (More (moved_leaf s (c_at cells (S l))) (One (mesh_leaf (c_at cells l))))) (S l)) = Some calls /\
    (forall i yz, In (i, yz) calls -> length yz = n /\ istart i < iend i) /\
    forall p, In p (cells_of_calls calls) <-> length p = S n /\ leaf (S l) (add_vec p (opposite s)) /\ leaf l (ancestor 1 p).
  Proof.
    intros l s Hl Hs. pose proof (ai_top _ _ _ _ _ _ _ _ _ _ HI). pose proof (ss_length _ _ (ai_stencil _ _ _ _ _ _ _ _ _ _ HI) s Hs) as Ls.
    pose proof (ss_unit _ _ (ai_stencil _ _ _ _ _ _ _ _ _ _ HI) s) as Us.
    destruct (ai_cells _ _ _ _ _ _ _ _ _ _ HI (S l) ltac:(lia)) as [Wc Lc]. destruct (ai_cells _ _ _ _ _ _ _ _ _ _ HI l ltac:(lia)) as [Wa La].
    rewrite on_make_op. set (t := Nd Intersect _).
    assert (F : finest t = S l) by (unfold finest, t; cbn; rewrite La, Lc; lia).
    destruct (set_calls n (S l) t) as (calls & E & V & C).
    { intros lf Hlf. rewrite F. unfold t in Hlf. cbn [tin ain] in Hlf. destruct Hlf as [-> | ->]; cbn [l_node leaf_of]; [|apply leaf_operand; lia].
      unfold operand_ok; cbn [simple node_mesh node_vect translate]. split; [exact I|]. split; [exact Wc|]. intros q k Hq Hk. rewrite Lc, nth_vadd by auto.
      rewrite Nat.min_id, Z.sub_diag. rewrite <- am_leaf_at in Hq by lia. pose proof (am_leaf_bound _ _ _ Hq Hk). specialize (Us k Hs Hk). apply am_leaf_ref in Hq. pose proof (am_bound1 _ _ _ Hq Hk). change (Z.max 0 0) with 0. lia. }
    exists calls. split; auto. split; auto. intros p. rewrite C.
    assert (X : length p = S n -> (expr_mem n (S l) t p <-> leaf (S l) (add_vec p (opposite s)) /\ leaf l (ancestor 1 p))); [|tauto].
    intros Lp. unfold expr_mem, t. cbn. rewrite denotes_mesh_fine by lia. rewrite La. replace (S l - l)%nat with 1%nat by lia. rewrite <- am_leaf_at by lia.
    rewrite (denotes_fine n _ _ (S l) (S l)) by (auto; cbn [node_mesh translate]; lia). cbn [node_mesh node_vect translate]. rewrite Nat.sub_diag, ancestor_0.
    assert (Y : (exists q, lca_mem n (c_at cells (S l)) q /\ vadd n q s = p) <-> leaf (S l) (add_vec p (opposite s))); [|rewrite Y; tauto].
    split.
    - intros (q & Hq & <-). rewrite <- BcProofs.add_vec_vadd by (auto; apply Hq). rewrite (add_opposite n) by (auto; apply Hq). apply am_leaf_at; auto; lia.
    - intros Hq. exists (add_vec p (opposite s)). rewrite <- am_leaf_at by lia. split; auto.
      rewrite <- BcProofs.add_vec_vadd by (auto; apply Hq). apply (opposite_add n); auto.
  Qed.

  (** In dimension 1 each interval of the last set has one cell. *)
  Lemma single_cell : forall l s calls i yz, (S l <= maxl)%nat -> In s stencil -> n = 0%nat ->
    (forall i yz, In (i, yz) calls -> length yz = n /\ istart i < iend i) ->
    (forall p, In p (cells_of_calls calls) <-> length p = S n /\ leaf (S l) (add_vec p (opposite s)) /\ leaf l (ancestor 1 p)) ->
    In (i, yz) calls -> iend i = istart i + 1.
  Proof.
    intros l s calls i yz Hl Hs -> V C Hin. destruct (V _ _ Hin) as [Ly Vi]. destruct yz; [|discriminate].
    destruct (Z.eq_dec (iend i) (istart i + 1)) as [|Hne]; auto. exfalso.
    pose proof (ss_length _ _ (ai_stencil _ _ _ _ _ _ _ _ _ _ HI) s Hs) as Ls. destruct s as [|s0 [|]]; try discriminate.
    pose proof (ss_unit _ _ (ai_stencil _ _ _ _ _ _ _ _ _ _ HI) _ 0%nat Hs ltac:(lia)) as Us. cbn [nth] in Us.
    destruct (ss_moves _ _ (ai_stencil _ _ _ _ _ _ _ _ _ _ HI) _ Hs) as (k & Hk & Ms). assert (k = 0)%nat by lia. subst k. cbn [nth] in Ms.
    set (x := istart i) in *.
    assert (P0 : In [x] (cells_of_calls calls)) by (apply visited_In; exists i, [], x; split; [auto|split; [unfold in_i; lia|auto]]).
    assert (P1 : In [x + 1] (cells_of_calls calls)) by (apply visited_In; exists i, [], (x + 1); split; [auto|split; [unfold in_i; lia|auto]]).
    apply C in P0 as (_ & A0 & B0). apply C in P1 as (_ & A1 & B1). cbn in A0, A1, B0, B1.
    destruct (ai_tiles _ _ _ _ _ _ _ _ _ _ HI) as (NO & _).
    assert (s0 = 1 \/ s0 = -1) as [-> | ->] by lia.
    - replace (x + 1 + - (1)) with x in A1 by lia. pose proof (NO l (S l) _ _ B0 A1 ltac:(lia)) as Y. replace (S l - l)%nat with 1%nat in Y by lia. specialize (Y eq_refl). lia.
    - replace (x + - -1) with (x + 1) in A0 by lia. pose proof (NO l (S l) _ _ B1 A0 ltac:(lia)) as Y. replace (S l - l)%nat with 1%nat in Y by lia. specialize (Y eq_refl). lia.
  Qed.

  (** *** One level *)
  Definition pulled_by (t : tfield) (l : nat) (j : Z) (q : list Z) : Prop :=
    leaf l q /\ exists f s, leaf (S l) f /\ In s stencil /\ ancestor 1 (vadd n f s) = q /\ Z.testbit (tg t (S l) f) j = true.
  Definition level_step (l : nat) (t t' : tfield) : Prop := exists t1 t2 t3,
    marks n l 0 (fun p => parent_of_leaf l p /\ ref l p) t t1 /\
    marks n (S l) 0 (fun q => exists p, leaf (S l) p /\ near n gw q p /\ Z.testbit (tg t (S l) p) 2 = true) t1 t2 /\
    marks n (S l) 0 (fun q => parent_of_leaf l (ancestor 1 q) /\ in_group t2 l q) t2 t3 /\
    sets n l (fun j q => flagged j /\ pulled_by t3 l j q) t3 t'.

  Lemma step_spec : forall l t, (S l <= maxl)%nat -> exists t', graduation_step n gw stencil cells reference t (S l) = Some t' /\ level_step l t t'.
  Proof.
    intros l t Hl. pose proof (ai_top _ _ _ _ _ _ _ _ _ _ HI). pose proof (ai_width _ _ _ _ _ _ _ _ _ _ HI) as Hg. unfold graduation_step. cbn [Nat.pred].
    destruct (parent_set l Hl) as (c1 & EC1 & V1 & C1). destruct (leaf_set (S l) Hl) as (c2 & EC2 & V2 & C2). destruct (group_set l Hl) as (c3 & EC3 & V3 & C3).
    destruct (keep_spec n reference l _ c1 t EC1 V1) as (t1 & E1 & M1).
    { intros p Hp. apply C1 in Hp as [P R]. apply am_stored; [lia|eapply parent_length; eauto|auto]. }
    rewrite E1. set (vs := nested_loop (S n) (- gw) (gw + 1)).
    assert (VS : forall v, In v vs <-> length v = S n /\ forall k, (k <= n)%nat -> - gw <= nth k v 0 <= gw).
    { intros v. unfold vs. rewrite nested_loop_In. split; intros [L F]; split; auto.
      - intros k Hk. rewrite Forall_forall in F. specialize (F (nth k v 0)). assert (In (nth k v 0) v) by (apply nth_In; lia). specialize (F H0). lia.
      - apply Forall_forall. intros x Hx. apply (In_nth _ _ 0) in Hx as (k & Hk & <-). specialize (F k ltac:(lia)). lia. }
    destruct (spread_spec n reference (S l) vs 2 0 ltac:(lia) ltac:(lia) ltac:(lia) (fun v Hv => proj1 (proj1 (VS v) Hv)) _ c2 t1 EC2 V2) as (t2 & E2 & M2).
    { intros p v Hp Hv. apply C2 in Hp. apply VS in Hv as [Lv Bv]. assert (Lp : length p = S n) by apply Hp.
      apply am_stored; [lia|apply moved_length; auto|]. apply (ai_near _ _ _ _ _ _ _ _ _ _ HI _ p); auto; [apply moved_length; auto|]. intros k Hk.
      rewrite nth_add_vec by lia. specialize (Bv k Hk). lia. }
    unfold keep_around_op. fold vs. change flag_refine with (2 ^ 2). change flag_keep with (2 ^ 0). rewrite E2.
    destruct (together_spec n reference l _ c3 t2 EC3 V3) as (t3 & E3 & M3).
    { intros c Lc Hc. apply C3 in Hc as (q & Hq & Ea). apply am_stored; [lia|auto|]. apply (am_near1 _ q); auto. apply sibling_near; auto. apply Hq. }
    rewrite E3.
    destruct (fold_sets n l _ (fun t s => apply_tags n (on (make_op Intersect (More (moved_leaf s (c_at cells (S l))) (One (mesh_leaf (c_at cells l))))) (S l)) (graduate_op n reference (S l) s) t)
      (fun s t j q => flagged j /\ leaf l q /\ exists f, leaf (S l) f /\ ancestor 1 (vadd n f s) = q /\ Z.testbit (tg t (S l) f) j = true) stencil t3) as (t4 & E4 & M4).
    - intros s t0 Hs. destruct (pull_set l s Hl Hs) as (c4 & EC4 & V4 & C4). pose proof (ss_length _ _ (ai_stencil _ _ _ _ _ _ _ _ _ _ HI) s Hs) as Ls.
      destruct (graduate_spec n reference l s _ c4 t0 EC4 Ls V4) as (t' & E' & M').
      + intros i yz Hin Hn. eapply single_cell; eauto.
      + intros p Hp. apply C4 in Hp as (Lp & H1 & H2). split; [apply am_stored; [lia|apply H1|apply am_leaf_ref; auto]|apply am_stored; [lia|rewrite ancestor_length; auto|apply am_leaf_ref; auto]].
      + exists t'. split; auto. eapply sets_weaken; [|exact M']. intros j q Hj Lq. cbn beta. split.
        * intros (F & p & Hp & Hb & ->). apply C4 in Hp as (Lp & H1 & H2). split; auto. split; auto. exists (add_vec p (opposite s)). split; auto. split; auto.
          rewrite <- BcProofs.add_vec_vadd by (auto; apply H1). rewrite (opposite_add n); auto.
        * intros (F & Hq & f & Hf & Ea & Hb). split; auto. assert (Lf : length f = S n) by apply Hf. exists (add_vec f s). rewrite (add_opposite n) by auto.
          split; [|split; auto; rewrite (BcProofs.add_vec_vadd n); auto]. apply C4. rewrite (add_opposite n) by auto. split; [apply moved_length; auto|]. split; auto.
          rewrite (BcProofs.add_vec_vadd n) by auto. rewrite Ea. auto.
    - intros s t0 t0' E j q Hin M Hj Lq. assert (X : forall f, leaf (S l) f -> (Z.testbit (tg t0' (S l) f) j = true <-> Z.testbit (tg t0 (S l) f) j = true)).
      { intros f Hf. apply (sets_other n l _ t0 t0' (S l)) with (1 := M); [lia|apply Hf|auto]. }
      split; intros (F & Hq & f & Hf & Ea & Hb); (split; [auto|split; [auto|]]); exists f; (split; [auto|split; [auto|apply X; auto]]).
    - exists t4. split; auto. exists t1, t2, t3. split.
      { eapply marks_weaken; [|exact M1]. intros p Lp. apply C1. }
      split.
      { eapply marks_weaken; [|exact M2]. intros q Lq. cbn beta.
        assert (BT : forall p, leaf (S l) p -> (Z.testbit (tg t1 (S l) p) 2 = true <-> Z.testbit (tg t (S l) p) 2 = true)).
        { intros p Hp. rewrite (M1 (S l) p 2 ltac:(apply Hp) ltac:(lia)). split; auto. intros [|(? & _)]; auto. lia. }
        split.
        - intros (p & v & Hp & Hv & Hb & ->). apply C2 in Hp. apply VS in Hv as [Lv Bv]. exists p. split; auto. split; [|apply BT; auto]. assert (Lp : length p = S n) by apply Hp.
          intros k Hk. rewrite nth_add_vec by lia. specialize (Bv k Hk). lia.
        - intros (p & Hp & Np & Hb). assert (Lp : length p = S n) by apply Hp. exists p, (add_vec q (opposite p)). rewrite C2.
          assert (Lo : length (opposite p) = S n) by (rewrite opposite_length; auto).
          assert (Lm : length (add_vec q (opposite p)) = S n) by (apply moved_length; auto).
          split; auto. split; [apply VS; split; auto; intros k Hk; rewrite nth_add_vec, nth_opposite by lia; specialize (Np k Hk); lia|]. split; [apply BT; auto|].
          apply (list_ext n); [auto|apply moved_length; auto|]. intros k Hk. rewrite !nth_add_vec, nth_opposite by lia. lia. }
      split.
      { eapply marks_weaken; [|exact M3]. intros q Lq. cbn beta. rewrite C3. tauto. }
      eapply sets_weaken; [|exact M4]. intros j q Hj Lq. unfold pulled_by. split.
      + intros (s & Hs & F & Hq & f & Hf & Ea & Hb). split; auto. split; auto. exists f, s. auto.
      + intros (F & Hq & f & s & Hf & Hs & Ea & Hb). exists s. split; auto. split; auto. split; auto. exists f. auto.
  Qed.

  (** *** All the levels *)
  Lemma states : forall t, exists T, graduation n maxl gw stencil cells reference t = Some (T 0%nat) /\ T maxl = t /\ forall l, (l < maxl)%nat -> level_step l (T (S l)) (T l).
  Proof.
    intros t. destruct (fold_states (graduation_step n gw stencil cells reference) level_step 0 maxl t) as (T & E & T1 & T2).
    { intros l t0 Hl. apply step_spec. lia. }
    exists T. split; auto. split; auto. intros l Hl. apply T2. lia.
  Qed.

  (** What a step does to each level, given the flags of the level above. *)
  Lemma step_other : forall l t t' l' p j, level_step l t t' -> l' <> l -> l' <> S l -> length p = S n -> 0 <= j ->
    (Z.testbit (tg t' l' p) j = true <-> Z.testbit (tg t l' p) j = true).
  Proof.
    intros l t t' l' p j (t1 & t2 & t3 & M1 & M2 & M3 & M4) H1 H2 Lp Hj.
    rewrite (M4 l' p j Lp Hj), (M3 l' p j Lp Hj), (M2 l' p j Lp Hj), (M1 l' p j Lp Hj). split; auto.
    intros [[[[X|(X & _)]|(X & _)]|(X & _)]|(X & _)]; auto; lia.
  Qed.
  (** The coarse level of a step. *)
  Lemma step_coarse : forall l t t' p j, level_step l t t' -> length p = S n -> 0 <= j ->
    (Z.testbit (tg t' l p) j = true <-> Z.testbit (tg t l p) j = true \/ (j = 0 /\ parent_of_leaf l p /\ ref l p) \/ (flagged j /\ pulled_by t' l j p)).
  Proof.
    intros l t t' p j (t1 & t2 & t3 & M1 & M2 & M3 & M4) Lp Hj.
    rewrite (M4 l p j Lp Hj), (M3 l p j Lp Hj), (M2 l p j Lp Hj), (M1 l p j Lp Hj).
    assert (X : pulled_by t' l j p <-> pulled_by t3 l j p).
    { unfold pulled_by. split; intros (Hp & f & s & Hf & Hs & E & Hb); split; auto; exists f, s; (split; [auto|split; [auto|split; [auto|]]]);
        [apply (sets_other n l _ t3 t' (S l)) with (1 := M4) in Hb|apply (sets_other n l _ t3 t' (S l)) with (1 := M4)]; auto; try apply Hf; lia. }
    rewrite X. split.
    - intros [[[[Y|(_ & Y)]|(Y & _)]|(Y & _)]|(_ & Y)]; auto; lia.
    - intros [Y|[(-> & Y)|Y]]; auto. left. left. left. right. auto.
  Qed.
  (** The fine level. *)
  Lemma step_fine_2 : forall l t t' p j, level_step l t t' -> length p = S n -> 0 <= j -> j <> 0 ->
    (Z.testbit (tg t' (S l) p) j = true <-> Z.testbit (tg t (S l) p) j = true).
  Proof.
    intros l t t' p j (t1 & t2 & t3 & M1 & M2 & M3 & M4) Lp Hj Hj2.
    rewrite (M4 (S l) p j Lp Hj), (M3 (S l) p j Lp Hj), (M2 (S l) p j Lp Hj), (M1 (S l) p j Lp Hj). split; auto.
    intros [[[[Y|(_ & Y & _)]|(_ & Y & _)]|(_ & Y & _)]|(Y & _)]; auto; lia.
  Qed.
  Definition kept_before (l : nat) (t : tfield) (q : list Z) : Prop :=
    K t (S l) q \/ exists p, leaf (S l) p /\ near n gw q p /\ Z.testbit (tg t (S l) p) 2 = true.
  Lemma step_fine_0 : forall l t t' q, level_step l t t' -> length q = S n ->
    (K t' (S l) q <-> kept_before l t q \/ (parent_of_leaf l (ancestor 1 q) /\ exists c, length c = S n /\ ancestor 1 c = ancestor 1 q /\ kept_before l t c)).
  Proof.
    intros l t t' q (t1 & t2 & t3 & M1 & M2 & M3 & M4) Lq. unfold K.
    assert (K2 : forall c, length c = S n -> (K t2 (S l) c <-> kept_before l t c)).
    { intros c Lc. unfold K, kept_before, K. rewrite (M2 (S l) c 0 Lc ltac:(lia)), (M1 (S l) c 0 Lc ltac:(lia)). split.
      - intros [[X|(X & _)]|(_ & _ & X)]; auto; lia.
      - intros [X|X]; auto. }
    rewrite (M4 (S l) q 0 Lq ltac:(lia)), (M3 (S l) q 0 Lq ltac:(lia)). fold (K t2 (S l) q). rewrite (K2 q Lq). unfold in_group. split.
    - intros [[X|(_ & _ & X1 & (c & Lc & Ac & X2))]|(X & _)]; auto; [|lia]. right. split; auto. exists c. split; [congruence|]. split; auto. apply K2; auto. congruence.
    - intros [X|(X1 & c & Lc & Ac & X2)]; auto. left. right. split; auto. split; auto. split; auto. exists c. split; [congruence|]. split; auto. apply K2; auto.
  Qed.

  Section States.
    Variables (t : tfield) (T : nat -> tfield).
    Hypothesis T1 : T maxl = t.
    Hypothesis T2 : forall l, (l < maxl)%nat -> level_step l (T (S l)) (T l).
    Notation t' := (T 0%nat).

    Lemma later : forall l L p j, (L < l)%nat -> (l <= maxl)%nat -> length p = S n -> 0 <= j -> (Z.testbit (tg (T 0%nat) l p) j = true <-> Z.testbit (tg (T L) l p) j = true).
    Proof.
      intros l L. induction L as [|L IH]; intros p j HL Hl Lp Hj; [tauto|]. rewrite (IH p j ltac:(lia) Hl Lp Hj).
      apply (step_other L (T (S L)) (T L)); auto; try lia. apply T2. lia.
    Qed.
    Lemma earlier_aux : forall d l p j, (l + d <= maxl)%nat -> (forall L, (l <= L < l + d)%nat -> forall l', l' = l -> True) -> length p = S n -> 0 <= j ->
      forall l0, (l0 < l)%nat -> (Z.testbit (tg (T l) l0 p) j = true <-> Z.testbit (tg (T (l + d)%nat) l0 p) j = true).
    Proof.
      induction d as [|d IH]; intros l p j Hd _ Lp Hj l0 Hl0; [rewrite Nat.add_0_r; tauto|].
      rewrite (IH l p j ltac:(lia) ltac:(auto) Lp Hj l0 Hl0). replace (l + S d)%nat with (S (l + d)) by lia.
      apply (step_other (l + d) (T (S (l + d))) (T (l + d)%nat)); auto; try lia. apply T2. lia.
    Qed.
    Lemma earlier : forall l L p j, (l < L)%nat -> (L <= maxl)%nat -> length p = S n -> 0 <= j -> (Z.testbit (tg (T L) l p) j = true <-> Z.testbit (tg t l p) j = true).
    Proof.
      intros l L p j Hl HL Lp Hj. rewrite (earlier_aux (maxl - L) L p j ltac:(lia) ltac:(auto) Lp Hj l Hl). replace (L + (maxl - L))%nat with maxl by lia. rewrite T1. tauto.
    Qed.
    Lemma above : forall l L p j, (maxl < l)%nat -> (L <= maxl)%nat -> length p = S n -> 0 <= j -> (Z.testbit (tg (T L) l p) j = true <-> Z.testbit (tg t l p) j = true).
    Proof.
      intros l L p j Hl HL Lp Hj. remember (maxl - L)%nat as d eqn:Ed. revert L HL Ed. induction d as [|d IH]; intros L HL Ed.
      - assert (L = maxl) by lia. subst L. rewrite T1. tauto.
      - rewrite <- (IH (S L)) by lia. apply (step_other L (T (S L)) (T L)); auto; try lia. apply T2. lia.
    Qed.

    (** Bits other than keep. *)
    Lemma final_bit : forall l p j, length p = S n -> 0 <= j -> j <> 0 ->
      (Z.testbit (tg t' l p) j = true <-> Z.testbit (tg t l p) j = true \/ (j = 2 /\ pulled_by t' l j p)).
    Proof.
      intros l p j Lp Hj Hj0. destruct (Nat.lt_ge_cases l maxl) as [Hl|Hl].
      - assert (E1 : Z.testbit (tg t' l p) j = true <-> Z.testbit (tg (T l) l p) j = true).
        { destruct l as [|l]; [tauto|]. rewrite (later (S l) l p j) by (auto; lia). apply (step_fine_2 l (T (S l)) (T l)); auto. apply T2. lia. }
        rewrite E1, (step_coarse l (T (S l)) (T l) p j (T2 l Hl) Lp Hj), (earlier l (S l) p j) by (auto; lia).
        assert (X : pulled_by (T l) l j p <-> pulled_by t' l j p).
        { unfold pulled_by. split; intros (Hp & f & s & Hf & Hs & E & Hb); split; auto; exists f, s; (split; [auto|split; [auto|split; [auto|]]]);
            [apply (later (S l) l f j)|apply (later (S l) l f j) in Hb]; auto; try lia; apply Hf. }
        rewrite X. unfold flagged. split; [intros [Y|[(Y & _)|([Y|Y] & Z0)]]; auto; contradiction|intros [Y|(Y & Z0)]; auto].
      - assert (P : ~ pulled_by t' l j p). { intros (_ & f & s & Hf & _). apply (ai_range _ _ _ _ _ _ _ _ _ _ HI) in Hf. lia. }
        assert (E1 : Z.testbit (tg t' l p) j = true <-> Z.testbit (tg t l p) j = true); [|rewrite E1; tauto].
        destruct (Nat.eq_dec l maxl) as [->|Hne]; [|apply above; auto; lia].
        assert (EL : maxl = 0%nat \/ exists L, maxl = S L) by (destruct maxl as [|L]; eauto). destruct EL as [EL|(L & EL)].
        + rewrite EL in T1 |- *. rewrite T1. tauto.
        + rewrite <- T1, EL. rewrite (later (S L) L p j) by (auto; lia). apply (step_fine_2 L (T (S L)) (T L)); auto. apply T2. lia.
    Qed.

    (** keep of the levels that can be coarsened. *)
    Definition base (l : nat) (q : list Z) : Prop :=
      K t l q \/ (parent_of_leaf l q /\ ref l q) \/ pulled_by t' l 0 q.
    Definition widened (l : nat) (q : list Z) : Prop :=
      base l q \/ exists p, leaf l p /\ near n gw q p /\ Z.testbit (tg t' l p) 2 = true.

    Lemma base_spec : forall l q, (l <= maxl)%nat -> length q = S n -> (K (T l) l q <-> base l q).
    Proof.
      intros l q Hl Lq. unfold base, K. destruct (Nat.eq_dec l maxl) as [->|Hne].
      - rewrite T1. split; auto. intros [X|[((f & Hf & _) & _)|(_ & f & s & Hf & _)]]; auto; apply (ai_range _ _ _ _ _ _ _ _ _ _ HI) in Hf; lia.
      - assert (Hl' : (l < maxl)%nat) by lia. rewrite (step_coarse l (T (S l)) (T l) q 0 (T2 l Hl') Lq ltac:(lia)), (earlier l (S l) q 0) by (auto; lia).
        assert (X : pulled_by (T l) l 0 q <-> pulled_by t' l 0 q).
        { unfold pulled_by. split; intros (Hp & f & s & Hf & Hs & E & Hb); split; auto; exists f, s; (split; [auto|split; [auto|split; [auto|]]]);
            [apply (later (S l) l f 0)|apply (later (S l) l f 0) in Hb]; auto; try lia; apply Hf. }
        rewrite X. unfold flagged. split; [intros [Y|[(_ & Y)|(_ & Y)]]; auto|intros [Y|[Y|Y]]; auto].
    Qed.
    Lemma final_keep : forall l q, (S l <= maxl)%nat -> length q = S n ->
      (K t' (S l) q <-> widened (S l) q \/ (parent_of_leaf l (ancestor 1 q) /\ exists c, length c = S n /\ ancestor 1 c = ancestor 1 q /\ widened (S l) c)).
    Proof.
      intros l q Hl Lq. assert (KB : forall c, length c = S n -> (kept_before l (T (S l)) c <-> widened (S l) c)).
      { intros c Lc. unfold kept_before, widened. rewrite base_spec by auto.
        assert (X : forall p, leaf (S l) p -> (Z.testbit (tg (T (S l)) (S l) p) 2 = true <-> Z.testbit (tg t' (S l) p) 2 = true)).
        { intros p Hp. assert (Lp : length p = S n) by apply Hp. rewrite (later (S l) l p 2) by (auto; lia). symmetry. apply (step_fine_2 l (T (S l)) (T l)); auto; lia. }
        split; (intros [Y|(p & Hp & N & Hb)]; [auto|right; exists p; split; auto; split; auto; apply X; auto]). }
      unfold K at 1. rewrite (later (S l) l q 0) by (auto; lia). fold (K (T l) (S l) q). rewrite (step_fine_0 l (T (S l)) (T l) q (T2 l ltac:(lia)) Lq), (KB q Lq). split.
      - intros [X|(X & c & Lc & Ac & Y)]; auto. right. split; auto. exists c. split; auto. split; auto. apply KB; auto.
      - intros [X|(X & c & Lc & Ac & Y)]; auto. right. split; auto. exists c. split; auto. split; auto. apply KB; auto.
    Qed.

    (** *** The final flags are the closure. *)
    Lemma refine_closure : forall l q, length q = S n -> (Z.testbit (tg t' l q) 2 = true <-> to_refine n stencil cells t l q).
    Proof.
      intros l q Lq. split.
      - remember (maxl - l)%nat as d eqn:Ed. revert l q Lq Ed. induction d as [d IH] using lt_wf_ind. intros l q Lq Ed H.
        apply final_bit in H; auto; try lia. destruct H as [H|(_ & Hq & f & s & Hf & Hs & E & Hb)]; [apply refine_given; auto|].
        apply (refine_pulled _ _ _ _ l q f s); auto. pose proof (ai_range _ _ _ _ _ _ _ _ _ _ HI _ _ Hf). apply (IH (maxl - S l)%nat); auto; try lia. apply Hf.
      - intros H. revert Lq. induction H as [l q H|l q f s Hq Hf Hs E H IH]; intros Lq; apply final_bit; auto; try lia. right. split; auto. split; auto. exists f, s. split; auto. split; auto. split; auto. apply IH. apply Hf.
    Qed.
    Lemma K_zero : forall q, (0 <= maxl)%nat -> length q = S n -> (K t' 0 q <-> base 0 q).
    Proof. intros q Hl Lq. apply base_spec; auto. Qed.
    Lemma keep_above : forall l q, (maxl < l)%nat -> length q = S n -> (K t' l q <-> K t l q).
    Proof. intros l q Hl Lq. apply above; auto; lia. Qed.

    Lemma keep_closure : forall l q, length q = S n -> (K t' l q <-> to_keep n gw stencil cells reference t l q).
    Proof.
      intros l q Lq. split.
      - remember (maxl - l)%nat as d eqn:Ed. revert l q Lq Ed. induction d as [d IH] using lt_wf_ind. intros l q Lq Ed H.
        destruct (Nat.lt_ge_cases maxl l) as [Hl|Hl]; [apply keep_given; apply keep_above in H; auto|].
        assert (B : forall c, length c = S n -> base l c -> to_keep n gw stencil cells reference t l c).
        { intros c Lc [X|[((f & Hf & <-) & Hr)|(Hc & f & s & Hf & Hs & E & Hb)]]; [apply keep_given; auto|apply keep_parent; auto|].
          apply (keep_pulled _ _ _ _ _ _ l c f s); auto. pose proof (ai_range _ _ _ _ _ _ _ _ _ _ HI _ _ Hf). apply (IH (maxl - S l)%nat); auto; try lia. apply Hf. }
        destruct l as [|l]; [apply B; auto; apply K_zero; auto; lia|].
        assert (W : forall c, length c = S n -> widened (S l) c -> to_keep n gw stencil cells reference t (S l) c).
        { intros c Lc [X|(p & Hp & N & Hb)]; auto. apply (keep_near _ _ _ _ _ _ l c p); auto. apply refine_closure; auto. apply Hp. }
        apply final_keep in H; auto; try lia. destruct H as [H|((f & Hf & Ef) & c & Lc & Ac & H)]; auto. apply (keep_sibling _ _ _ _ _ _ l q f c); auto.
      - intros H. revert Lq. induction H as [l q H|l f Hf Hr|l q p Hp Hr N|l q f c Hf Ef Lc Ac H IH|l q f s Hq Hf Hs E H IH]; intros Lq.
        + destruct (Nat.lt_ge_cases maxl l) as [Hl|Hl]; [apply keep_above; auto|]. destruct l as [|l]; [apply K_zero; auto; left; auto|]. apply final_keep; auto. left. left. left. auto.
        + pose proof (ai_range _ _ _ _ _ _ _ _ _ _ HI _ _ Hf). assert (X : base l (ancestor 1 f)) by (right; left; split; auto; exists f; auto).
          destruct l as [|l]; [apply K_zero; auto; lia|]. apply final_keep; auto; [lia|]. left. left. auto.
        + pose proof (ai_range _ _ _ _ _ _ _ _ _ _ HI _ _ Hp). apply final_keep; auto; [lia|]. left. right. exists p. split; auto. split; auto. apply refine_closure; auto. apply Hp.
        + pose proof (ai_range _ _ _ _ _ _ _ _ _ _ HI _ _ Hf). specialize (IH Lc). apply final_keep in IH; auto; [|lia]. apply final_keep; auto; [lia|]. right. split; [exists f; auto|].
          destruct IH as [X|(_ & c' & Lc' & Ac' & X)]; [exists c; auto|]. exists c'. split; auto. split; auto. congruence.
        + pose proof (ai_range _ _ _ _ _ _ _ _ _ _ HI _ _ Hf). assert (X : base l q).
          { right. right. split; auto. exists f, s. split; auto. split; auto. split; auto. apply IH. apply Hf. }
          destruct l as [|l]; [apply K_zero; auto; lia|]. apply final_keep; auto; [lia|]. left. left. auto.
    Qed.
    Lemma other_bits : forall l q j, length q = S n -> 0 <= j -> j <> 0 -> j <> 2 -> Z.testbit (tg t' l q) j = Z.testbit (tg t l q) j.
    Proof.
      intros l q j Lq Hj H0 H2. pose proof (final_bit l q j Lq Hj H0) as X. destruct (Z.testbit (tg t' l q) j), (Z.testbit (tg t l q) j); auto; exfalso.
      - destruct (proj1 X eq_refl) as [Y|(Y & _)]; [discriminate|contradiction].
      - assert (false = true) by (apply X; auto). discriminate.
    Qed.
  End States.
End Mesh.
