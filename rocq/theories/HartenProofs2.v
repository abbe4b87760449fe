(** The sets visited by the graduation on a graded mesh that fills a box, and the steps of the
    graduation as relations between tags. *)
From Coq Require Import QArith.
From Verif Require Import Base IntervalModel Spec IntervalProofs LoiModel LcaModel LcaSpec LcaProofs RowsProofs CellArrayModel CellArrayProofs PropsLca PropsCellArray
  SubsetModel TreeProofs SubsetSpec SubsetProofs2 PropsSubset StencilModel NumberingProofs StencilProofs PropsStencil MeshModel MeshProofs
  NumModel NumProofs NumSpec PropsNum AdaptModel AdaptProofs TagProofs PropsAdapt TransferProofs PropsTransfer MrModel MrProofs PropsMr
  GhostModel GhostProofs PropsGhost BcProofs HartenModel HartenProofs.
Open Scope Z_scope.

Lemma pass_ext : forall n m (C C' : list Z -> Prop) t t', (forall p, length p = S n -> (C p <-> C' p)) -> pass n m C t t' -> pass n m C' t t'.
Proof.
  intros n m C C' t t' H (P1 & P2 & P3 & P4 & P5 & P6 & P7 & P8 & P9).
  assert (HA : forall p, length p = S n -> (C (ancestor 1 p) <-> C' (ancestor 1 p))) by (intros p Lp; apply H; rewrite ancestor_length; auto).
  split; [exact P1|]. split; [intros p Lp HC; apply P2; auto; rewrite H; auto|]. split; [intros p Lp HC; apply P3; auto; rewrite HA; auto|].
  split; [exact P4|]. split; [intros p Lp HC; apply P5; auto; rewrite HA; auto|]. split; [exact P6|].
  split; [intros p Lp HC; apply P7; auto; rewrite H; auto|]. split; [exact P8|]. intros p Lp. rewrite <- (H p Lp). auto.
Qed.

Definition diag (n : nat) (d : list Z) : Prop := length d = S n /\ forall k, (k <= n)%nat -> nth k d 0 = 1 \/ nth k d 0 = -1.
Lemma grad_stencil_In : forall n d, (n <= 2)%nat -> (In d (grad_stencil n 1) <-> diag n d).
Proof.
  intros n d Hn. unfold diag. split.
  - intros H. assert (n = 0 \/ n = 1 \/ n = 2)%nat as [->|[->| ->]] by lia; cbn [grad_stencil map box_dir Z.mul] in H; cbn in H;
      intuition (subst; try reflexivity); (destruct k as [|[|[|k]]]; cbn [nth]; lia).
  - intros [L D]. assert (n = 0 \/ n = 1 \/ n = 2)%nat as [->|[->| ->]] by lia.
    + destruct d as [|a [|]]; try discriminate. destruct (D 0%nat ltac:(lia)) as [E|E]; cbn [nth] in E; subst; cbn; auto.
    + destruct d as [|a [|b [|]]]; try discriminate. destruct (D 0%nat ltac:(lia)) as [E|E], (D 1%nat ltac:(lia)) as [E1|E1]; cbn [nth] in E, E1; subst; cbn; auto.
    + destruct d as [|a [|b [|c [|]]]]; try discriminate.
      destruct (D 0%nat ltac:(lia)) as [E|E], (D 1%nat ltac:(lia)) as [E1|E1], (D 2%nat ltac:(lia)) as [E2|E2]; cbn [nth] in E, E1, E2; subst; cbn; auto 10.
Qed.

Lemma opposite_length : forall d, length (opposite d) = length d.
Proof. intros. apply map_length. Qed.
Lemma nth_opposite : forall d k, nth k (opposite d) 0 = - nth k d 0.
Proof. intros. unfold opposite. change 0 with (Z.opp 0) at 1. apply map_nth. Qed.
Lemma opposite_diag : forall n d, diag n d -> diag n (opposite d).
Proof. intros n d [L D]. split; [rewrite opposite_length; auto|]. intros k Hk. rewrite nth_opposite. destruct (D k Hk); lia. Qed.
Lemma moved_length : forall n p d, length p = S n -> length d = S n -> length (add_vec p d) = S n.
Proof. intros. rewrite add_vec_length; lia. Qed.
Lemma add_opposite : forall n p d, length p = S n -> length d = S n -> add_vec (add_vec p d) (opposite d) = p.
Proof.
  intros n p d Lp Ld. pose proof (opposite_length d) as Lo. pose proof (moved_length n p d Lp Ld) as Lm.
  apply (list_ext n); [apply moved_length; lia|auto|]. intros k Hk. rewrite !nth_add_vec, nth_opposite by lia. lia.
Qed.
Lemma opposite_add : forall n p d, length p = S n -> length d = S n -> add_vec (add_vec p (opposite d)) d = p.
Proof.
  intros n p d Lp Ld. pose proof (opposite_length d) as Lo. pose proof (moved_length n p (opposite d) Lp ltac:(lia)) as Lm.
  apply (list_ext n); [apply moved_length; lia|auto|]. intros k Hk. rewrite !nth_add_vec, nth_opposite by lia. lia.
Qed.

(** A subset with its operands in range. *)
Lemma set_calls : forall n ref t, operands_ok n ref t -> exists calls, subset_calls n (subset_init ref t) = Some calls /\
  (forall i yz, In (i, yz) calls -> length yz = n /\ istart i < iend i) /\
  forall p, In p (cells_of_calls calls) <-> length p = S n /\ expr_mem n ref t p.
Proof.
  intros n ref t HO. destruct (C18_levels n ref t HO) as (calls & E & V & _ & _ & C). exists calls. split; auto. split; auto. intros p. split.
  - intros Hin. assert (Lp : length p = S n).
    { apply visited_In in Hin as (i & yz & x & Hin & _ & ->). cbn [length]. f_equal. apply (V i yz Hin). }
    split; auto. apply C; auto.
  - intros [Lp He]. apply C; auto.
Qed.

(** The states of a loop over the levels from the finest to the coarsest. *)
Lemma fold_states : forall (f : tfield -> nat -> option tfield) (R : nat -> tfield -> tfield -> Prop) a c t,
  (forall l t, (a <= l < a + c)%nat -> exists t', f t (S l) = Some t' /\ R l t t') ->
  exists T, fold_tags f (rev (seq (S a) c)) t = Some (T a) /\ T (a + c)%nat = t /\ forall l, (a <= l < a + c)%nat -> R l (T (S l)) (T l).
Proof.
  intros f R a c. induction c as [|c IH]; intros t H.
  - exists (fun _ => t). split; auto. split; auto. intros; lia.
  - rewrite seq_S, rev_app_distr. cbn [rev app fold_tags]. replace (S a + c)%nat with (S (a + c)) by lia.
    destruct (H (a + c)%nat t ltac:(lia)) as (t1 & E1 & R1). rewrite E1. destruct (IH t1) as (T & E & T1 & T2); [intros; apply H; lia|].
    exists (fun k => if Nat.eqb k (a + S c) then t else T k). split; [destruct (Nat.eqb_spec a (a + S c)); [lia|auto]|].
    split; [rewrite Nat.eqb_refl; auto|]. intros l Hl. destruct (Nat.eqb_spec l (a + S c)); [lia|].
    destruct (Nat.eqb_spec (S l) (a + S c)) as [El|Hl']; [assert (l = a + c)%nat as -> by lia; rewrite T1; auto|apply T2; lia].
Qed.

Section Mesh.
  Variables (n m minl maxl : nat) (w : Z) (s : nat) (cells : ca) (lo hi : list Z) (r : mr_mesh) (domain : lca).
  Hypothesis HI : ghost_input n m minl maxl w s cells lo hi.
  Hypothesis HR : update_sub_mesh n m minl maxl w (Z.of_nat s) cells = Some r.
  Hypothesis HB : is_box n maxl lo hi domain.

  Notation leaf := (ca_mem n cells).
  Notation ref := (ca_mem n (r_all r)).

  Lemma hm_top : (maxl <= m)%nat.
  Proof. exact (in_top _ _ _ _ _ _ _ (gi_in _ _ _ _ _ _ _ _ _ HI)). Qed.
  Lemma hm_range : forall l q, leaf l q -> (minl <= l <= maxl)%nat.
  Proof. exact (gi_range _ _ _ _ _ _ _ _ _ HI). Qed.
  Lemma hm_tiles : tiles n cells lo hi.
  Proof. exact (gi_tiles _ _ _ _ _ _ _ _ _ HI). Qed.
  Lemma hm_graded : graded_box n cells.
  Proof. exact (proj1 (proj2 (proj2 (proj2 HI)))). Qed.
  Lemma hm_ref_wf : forall l, (l <= m)%nat -> wf n (c_at (r_all r) l) /\ a_level (c_at (r_all r) l) = l.
  Proof.
    intros l Hl. destruct (proj1 (contents n m minl maxl w s cells lo hi r HI HR) (r_all r)) as (W & E & L); auto. split; auto. apply W. lia.
  Qed.
  Lemma hm_cells_wf : forall l, (l <= m)%nat -> wf n (c_at cells l) /\ a_level (c_at cells l) = l.
  Proof.
    intros l Hl. pose proof (gi_in _ _ _ _ _ _ _ _ _ HI) as X. split; [|apply (in_level _ _ _ _ _ _ _ X); auto].
    apply (in_wf _ _ _ _ _ _ _ X). rewrite (in_max _ _ _ _ _ _ _ X). auto.
  Qed.
  Lemma hm_ref_at : forall l p, (l <= m)%nat -> (ref l p <-> lca_mem n (c_at (r_all r) l) p).
  Proof. intros l p Hl. apply (at_level n m minl maxl w s cells lo hi r HI HR); auto. Qed.
  Lemma hm_leaf_at : forall l p, (l <= m)%nat -> (leaf l p <-> lca_mem n (c_at cells l) p).
  Proof. intros l p Hl. apply (at_level n m minl maxl w s cells lo hi r HI HR); auto. Qed.
  Lemma hm_bound : forall l p k, ref l p -> (k <= n)%nat -> 2 * (nth k p 0 + 3) < 2 ^ 31 - 1 /\ nth k p 0 + 3 < 2 ^ 31 - 1.
  Proof. exact (all_bound n m minl maxl w s cells lo hi r HI HR). Qed.
  Lemma leaf_ref : forall l p, leaf l p -> ref l p.
  Proof. intros l p H. apply (all_wanted n m minl maxl w s cells lo hi r HI HR). apply (leaf_wanted n m minl maxl w s cells lo hi HI). auto. Qed.

  Lemma ref_stored : forall l p, (l <= m)%nat -> length p = S n -> (stored n (r_all r) l p = true <-> ref l p).
  Proof. intros l p Hl Lp. rewrite hm_ref_at by auto. apply stored_mem; auto. apply hm_ref_wf. auto. Qed.
  Lemma leaf_near : forall l q p, leaf l q -> length p = S n -> near n 1 p q -> ref l p.
  Proof.
    intros l q p Hq Lp N. destruct (C54_leaf_stencils n m minl maxl w (Z.of_nat s) cells r (gi_in _ _ _ _ _ _ _ _ _ HI) (gi_ne _ _ _ _ _ _ _ _ _ HI) HR l q Hq) as (A & _).
    - apply hm_tiles.
    - apply A; auto. intros k Hk. specialize (N k Hk). assert (1 <= w) by apply HI. lia.
  Qed.
  Lemma parent_ref : forall l q, leaf (S l) q -> ref l (ancestor 1 q).
  Proof.
    intros l q Hq. destruct (C54_leaf_stencils n m minl maxl w (Z.of_nat s) cells r (gi_in _ _ _ _ _ _ _ _ _ HI) (gi_ne _ _ _ _ _ _ _ _ _ HI) HR _ q Hq) as (_ & A & _).
    - apply hm_tiles.
    - replace l with (S l - 1)%nat by lia. apply A; [rewrite ancestor_length; apply Hq|lia|]. intros k Hk. lia.
  Qed.
  Lemma family_ref : forall l q c, leaf (S l) q -> length c = S n -> ancestor 1 c = ancestor 1 q -> ref (S l) c.
  Proof.
    intros l q c Hq Lc E.
    destruct (C54_projection_closed n m minl maxl w (Z.of_nat s) cells r lo hi (gi_in _ _ _ _ _ _ _ _ _ HI) (gi_ne _ _ _ _ _ _ _ _ _ HI) hm_tiles HR l c) as [A _]; auto.
    rewrite E. apply (proj_split n m minl maxl w s cells lo hi r HI HR). split; [apply parent_ref; auto|]. pose proof (hm_range _ _ Hq). split; [lia|].
    exists (S l), q. split; [lia|]. split; auto. f_equal. lia.
  Qed.

  (** A cell with a leaf among its children. *)
  Definition has_leaf (l : nat) (p : list Z) : Prop := exists q, leaf (S l) q /\ ancestor 1 q = p.
  Lemma handled_leaf : forall l p, (S l <= maxl)%nat -> (TagProofs.handled n cells (r_all r) l p <-> has_leaf l p).
  Proof.
    intros l p Hl. pose proof hm_top. unfold TagProofs.handled, has_leaf. split.
    - intros (_ & q & Hq & E). exists q. rewrite hm_leaf_at by lia. auto.
    - intros (q & Hq & E). split; [rewrite <- hm_ref_at by lia; rewrite <- E; apply parent_ref; auto|]. exists q. rewrite <- hm_leaf_at by lia. auto.
  Qed.

  (** *** maximum *)
  Lemma maximum_tags_spec : forall l t, (S l <= maxl)%nat -> exists t', maximum_tags n (r_all r) cells t (S l) = Some t' /\ pass n l (has_leaf l) t t'.
  Proof.
    intros l t Hl. pose proof hm_top. destruct (hm_cells_wf (S l) ltac:(lia)) as [Wc Lc]. destruct (hm_ref_wf l ltac:(lia)) as [Wa La].
    assert (Bq : forall q k, lca_mem n (c_at cells (S l)) q \/ lca_mem n (c_at (r_all r) l) q -> (k <= n)%nat -> nth k q 0 + 3 < 2 ^ 31 - 1).
    { intros q k [Hq|Hq] Hk; [rewrite <- hm_leaf_at in Hq by lia; apply leaf_ref in Hq|rewrite <- hm_ref_at in Hq by lia]; eapply hm_bound; eauto. }
    destruct (maximum_level_spec n cells (r_all r) t l Wc Lc Wa La Bq) as (t' & E & P).
    exists t'. split; [|eapply pass_ext; [|exact P]; intros p Lp; apply handled_leaf; lia].
    assert (X : Nat.min l (Nat.max (S l) l) = l) by lia.
    destruct (inter_spec n (c_at cells (S l)) (c_at (r_all r) l) l Wc Wa) as (calls & EC & V & _ & _ & M).
    - rewrite Lc, La, X. intros q k Hq Hk. rewrite Lc. replace (Z.max 0 (Z.of_nat l - Z.of_nat (S l))) with 0 by lia.
      pose proof (Bq q k (or_introl Hq) Hk). lia.
    - rewrite Lc, La, X. intros q k Hq Hk. rewrite La, Z.sub_diag. pose proof (Bq q k (or_intror Hq) Hk). change (Z.max 0 0) with 0. lia.
    - unfold maximum_level in E. unfold maximum_tags, apply_tags. cbn [Nat.pred] in E |- *. rewrite EC in E |- *. injection E as <-.
      assert (CC : forall p, In p (cells_of_calls calls) -> length p = S n /\ has_leaf l p).
      { intros p Hp. assert (Lp : length p = S n).
        { apply visited_In in Hp as (i & yz & x & Hin & _ & ->). cbn [length]. f_equal. apply (V i yz Hin). }
        split; auto. apply M in Hp; auto. destruct Hp as (_ & Hp & _). rewrite denotes_mesh_coarse in Hp by lia. destruct Hp as (q & Hq & ->).
        exists q. rewrite Lc. replace (S l - l)%nat with 1%nat by lia. split; auto. apply hm_leaf_at; auto. lia. }
      assert (ST : forall i yz, In (i, yz) calls -> istep i = 1) by (intros i yz; eapply subset_calls_step; eauto).
      clear - CC ST V HI HR Hl H. revert t CC ST V. unfold maximum_calls. induction calls as [|[i yz] calls IH]; intros t CC ST V; [reflexivity|].
      cbn [fold_calls fold_left].
      assert (RC : forall x, In x (strided i) -> In (x :: yz) (cells_of_calls ((i, yz) :: calls))).
      { intros x Hx. apply cells_of_calls_step; auto. exists i. split; auto. left. auto. }
      assert (C1 : forallb (stored n (r_all r) (S l)) (projection_reads i yz) = true).
      { apply forallb_forall. intros c Hc. apply in_flat_map in Hc as (x & Hx & Hc). apply in_map_iff in Hc as ([cx cyz] & <- & Hc).
        apply children_In in Hc as (Hc1 & Hc2 & Hc3). destruct (CC _ (RC x Hx)) as [Lx (q & Hq & Eq)].
        assert (Lcc : length (cx :: cyz) = S n) by (cbn [length] in Lx |- *; lia).
        apply ref_stored; [lia|auto|]. apply (family_ref l q); auto. rewrite Eq. cbn [ancestor map]. change (2 ^ Z.of_nat 1) with 2. f_equal; auto. }
      assert (C2 : forallb (stored n (r_all r) l) (row_cells i yz) = true).
      { apply forallb_forall. intros c Hc. apply in_map_iff in Hc as (x & <- & Hx). destruct (CC _ (RC x Hx)) as [Lx (q & Hq & Eq)].
        apply ref_stored; [lia|auto|]. rewrite <- Eq. apply parent_ref. auto. }
      rewrite C1, C2. cbn [andb checked]. apply IH.
      + intros p Hp. apply CC. apply visited_In in Hp as (i0 & yz0 & x & Hin & Hx & ->). apply visited_In. exists i0, yz0, x. split; [right; auto|auto].
      + intros i0 yz0 Hin. apply (ST i0 yz0). right. auto.
      + intros i0 yz0 Hin. apply (V i0 yz0). right. auto.
  Qed.

  Lemma hm_dim : (n <= 2)%nat.
  Proof. apply HI. Qed.

  (** *** balance_2to1 *)
  Definition is_ref (l : nat) (p : list Z) : Prop := ca_mem n (r_all r) l p.
  Lemma has_leaf_length : forall l p, has_leaf l p -> length p = S n.
  Proof. intros l p (q & Hq & <-). rewrite ancestor_length. apply Hq. Qed.
  Lemma has_leaf_ref : forall l p, has_leaf l p -> ref l p.
  Proof. intros l p (q & Hq & <-). apply parent_ref. auto. Qed.

  Lemma balance_set_spec : forall l s0, (S l <= maxl)%nat -> diag n s0 ->
    exists calls, subset_calls n (on (make_op Intersect (More (mesh_leaf (c_at cells (S l))) (One (moved_leaf s0 (c_at (r_all r) l))))) l) = Some calls /\
      (forall i yz, In (i, yz) calls -> length yz = n /\ istart i < iend i) /\
      forall p, In p (cells_of_calls calls) <-> has_leaf l p /\ ref l (add_vec p (opposite s0)).
  Proof.
    intros l s0 Hl Hs. pose proof hm_top. destruct (hm_cells_wf (S l) ltac:(lia)) as [Wc Lc]. destruct (hm_ref_wf l ltac:(lia)) as [Wa La].
    destruct Hs as [Ls Ds]. rewrite on_make_op. set (t := Nd Intersect _).
    assert (F : finest t = S l) by (unfold finest, t; cbn; rewrite La, Lc; lia).
    destruct (set_calls n l t) as (calls & E & V & C).
    { intros lf Hlf. rewrite F. replace (Nat.min l (S l)) with l by lia. unfold t in Hlf. cbn [tin ain] in Hlf.
      destruct Hlf as [->| ->]; cbn [l_node leaf_of]; unfold operand_ok; cbn [simple node_mesh node_vect translate];
        (split; [exact I|]); (split; [auto|]); intros q k Hq Hk; rewrite ?La, ?Lc.
      - rewrite vadd_nil by apply Hq. replace (Z.max 0 (Z.of_nat l - Z.of_nat (S l))) with 0 by lia.
        apply hm_leaf_at in Hq; [|lia]. apply leaf_ref in Hq. pose proof (hm_bound _ _ _ Hq Hk). lia.
      - rewrite nth_vadd by auto. replace (Z.max 0 (Z.of_nat l - Z.of_nat l)) with 0 by lia.
        apply hm_ref_at in Hq; [|lia]. pose proof (hm_bound _ _ _ Hq Hk). destruct (Ds k Hk); lia. }
    exists calls. split; auto. split; auto. intros p. rewrite C. unfold expr_mem, t. cbn.
    split.
    - intros (Lp & H1 & H2). apply denotes_mesh_coarse in H1; [|lia|auto]. destruct H1 as (q & Hq & ->).
      rewrite (denotes_fine n _ _ l l) in H2 by (auto; cbn [node_mesh translate]; lia). destruct H2 as (a & Ha & Ea). cbn [node_mesh node_vect translate] in Ha, Ea.
      rewrite Nat.sub_diag, ancestor_0 in Ea. rewrite Lc in *. replace (S l - l)%nat with 1%nat in * by lia. split.
      + exists q. split; auto. rewrite hm_leaf_at by lia. auto.
      + rewrite <- Ea, <- add_vec_vadd by (auto; apply Ha). rewrite (add_opposite n) by (auto; apply Ha). rewrite hm_ref_at by lia. auto.
    - intros [(q & Hq & <-) Ha]. assert (Lq : length (ancestor 1 q) = S n) by (rewrite ancestor_length; apply Hq). split; auto. split.
      + apply denotes_mesh_coarse; [lia|auto|]. exists q. rewrite Lc. replace (S l - l)%nat with 1%nat by lia. split; auto. rewrite <- hm_leaf_at by lia. auto.
      + rewrite (denotes_fine n _ _ l l) by (auto; cbn [node_mesh translate]; lia). exists (add_vec (ancestor 1 q) (opposite s0)).
        cbn [node_mesh node_vect translate]. rewrite Nat.sub_diag, ancestor_0. split; [rewrite <- hm_ref_at by lia; auto|].
        rewrite <- add_vec_vadd by (auto; apply Ha). apply (opposite_add n); auto.
  Qed.

  (** The cells of level [l] that have a parent of leaves diagonally next to them. *)
  Definition beside_leaves (l : nat) (q : list Z) : Prop := ref l q /\ exists d, diag n d /\ has_leaf l (add_vec q d).

  Definition coarse_spread (l : nat) (t t' : tfield) : Prop := exists t1, pass n l (has_leaf l) t t1 /\ grows n l 0 (beside_leaves l) t1 t' /\
    forall q d, ref l q -> diag n d -> has_leaf l (add_vec q d) -> K t1 l (add_vec q d) -> K t' l q.

  Lemma coarsening_step_spec : forall l t, (S l <= maxl)%nat -> exists t', coarsening_step n 1 cells (r_all r) t (S l) = Some t' /\ coarse_spread l t t'.
  Proof.
    intros l t Hl. pose proof hm_top. destruct (maximum_tags_spec l t Hl) as (t1 & E1 & P1). unfold coarsening_step. rewrite E1. cbn [Nat.pred].
    destruct (fold_grows n l 0 _ (fun t s0 => apply_tags n (on (make_op Intersect (More (mesh_leaf (c_at cells (S l))) (One (moved_leaf s0 (c_at (r_all r) l))))) l)
        (balance_op n (r_all r) l s0) t) (beside_leaves l)
      (fun s0 t t' => forall q, length q = S n -> ref l q -> has_leaf l (add_vec q s0) -> K t l (add_vec q s0) -> K t' l q) (grad_stencil n 1) t1) as (t' & E' & G & L).
    - intros s0 t0 Hs. apply grad_stencil_In in Hs; [|apply hm_dim]. destruct (balance_set_spec l s0 Hl Hs) as (calls & EC & V & C). destruct Hs as [Ls Ds].
      destruct (balance_spec n (r_all r) l s0 _ calls t0 EC) as (t2 & E2 & G2 & K2); auto.
      { intros i yz Hin. apply (V i yz Hin). }
      { intros p Hp. apply C in Hp as [H1 H2]. pose proof (has_leaf_length _ _ H1) as Lp. split; apply ref_stored; auto; try lia.
        - apply has_leaf_ref. auto.
        - rewrite add_vec_length; rewrite ?opposite_length; lia. }
      exists t2. split; auto. split.
      + eapply grows_weaken; [|exact G2]. intros q Lq (p & Hp & ->). apply C in Hp as [H1 H2]. split; auto. exists s0. split; [split; auto|].
        rewrite (opposite_add n); auto. apply has_leaf_length in H1. auto.
      + intros q Lq Hq HL HK. specialize (K2 (add_vec q s0)). rewrite (add_opposite n) in K2 by auto. apply K2; auto. apply C. rewrite (add_opposite n) by auto. auto.
    - intros s0 t0 t2 t3 t4 G1 HX G2 q Lq Hq HL HK. apply has_leaf_length in HL as Lm. apply (G2 l q 0 Lq ltac:(lia)). apply HX; auto.
      apply (G1 l _ 0 Lm ltac:(lia)). auto.
    - exists t'. split; auto. exists t1. split; auto. split; auto. intros q d Hq Hd HL HK. apply (L d); auto; [apply grad_stencil_In; auto; apply hm_dim|apply Hq].
  Qed.

  (** *** extend and make_graduation *)
  Lemma box1_In : forall v, In v (box1 n) <-> length v = S n /\ forall k, (k <= n)%nat -> -1 <= nth k v 0 <= 1.
  Proof.
    intros v. unfold box1. rewrite nested_loop_In. split; intros [L F]; split; auto.
    - intros k Hk. rewrite Forall_forall in F. specialize (F (nth k v 0)). assert (In (nth k v 0) v) by (apply nth_In; lia). specialize (F H). lia.
    - apply Forall_forall. intros x Hx. apply (In_nth _ _ 0) in Hx as (k & Hk & <-). specialize (F k ltac:(lia)). lia.
  Qed.
  Lemma leaf_calls : forall l, (l <= maxl)%nat -> exists calls, subset_calls n (inter (c_at cells l) (c_at cells l)) = Some calls /\
    (forall i yz, In (i, yz) calls -> length yz = n /\ istart i < iend i) /\ forall p, In p (cells_of_calls calls) <-> leaf l p.
  Proof.
    intros l Hl. pose proof hm_top. destruct (hm_cells_wf l ltac:(lia)) as [Wc Lc].
    assert (B : below_max n (c_at cells l)).
    { intros q k Hq Hk. rewrite <- hm_leaf_at in Hq by lia. apply leaf_ref in Hq. pose proof (hm_bound _ _ _ Hq Hk). lia. }
    destruct (inter_calls n (c_at cells l) (c_at cells l) l) as (calls & E & V & C); auto. exists calls. split; auto. split.
    - exact V.
    - intros p. rewrite C, hm_leaf_at by lia. tauto.
  Qed.

  Lemma graduation_set_spec : forall l s0, (S l <= maxl)%nat -> diag n s0 ->
    exists calls, subset_calls n (on (make_op Intersect (More (moved_leaf s0 (c_at cells (S l))) (More (mesh_leaf (c_at (r_all r) l)) (One (mesh_leaf domain))))) (S l)) = Some calls /\
      (forall i yz, In (i, yz) calls -> length yz = n /\ istart i < iend i) /\
      forall p, In p (cells_of_calls calls) <-> length p = S n /\ leaf (S l) (add_vec p (opposite s0)) /\ ref l (ancestor 1 p) /\ inside n lo hi (S l) p.
  Proof.
    intros l s0 Hl Hs. pose proof hm_top. destruct (hm_cells_wf (S l) ltac:(lia)) as [Wc Lc]. destruct (hm_ref_wf l ltac:(lia)) as [Wa La].
    assert (HD : forall k, (k <= n)%nat -> 2 * (Z.max 0 (nth k hi 0) * 2 ^ Z.of_nat maxl + 8) < 2 ^ 31 - 1).
    { intros k Hk. pose proof (proj2 (proj2 (proj2 (proj2 (proj2 (proj2 (proj2 (proj2 HI)))))))) as X. specialize (X k Hk). assert (1 <= w) by apply HI. lia. }
    destruct Hs as [Ls Ds]. rewrite on_make_op. set (t := Nd Intersect _). pose proof (proj1 (proj2 HB)) as Ld.
    assert (F : finest t = maxl) by (unfold finest, t; cbn; rewrite La, Lc, Ld; lia).
    destruct (set_calls n (S l) t) as (calls & E & V & C).
    { intros lf Hlf. rewrite F. replace (Nat.min (S l) maxl) with (S l) by lia. unfold t in Hlf. cbn [tin ain] in Hlf.
      destruct Hlf as [->|[->| ->]]; cbn [l_node leaf_of]; [| |apply (domain_ok n maxl lo hi); auto];
        unfold operand_ok; cbn [simple node_mesh node_vect translate];
        (split; [exact I|]); (split; [auto|]); intros q k Hq Hk; rewrite ?La, ?Lc.
      - rewrite nth_vadd by auto. replace (Z.max 0 (Z.of_nat (S l) - Z.of_nat (S l))) with 0 by lia.
        rewrite <- hm_leaf_at in Hq by lia. apply leaf_ref in Hq. pose proof (hm_bound _ _ _ Hq Hk). destruct (Ds k Hk); lia.
      - rewrite vadd_nil by apply Hq. replace (Z.max 0 (Z.of_nat (S l) - Z.of_nat l)) with 1 by lia.
        rewrite <- hm_ref_at in Hq by lia. pose proof (hm_bound _ _ _ Hq Hk). lia. }
    exists calls. split; auto. split; auto. intros p. rewrite C.
    assert (X : length p = S n -> (expr_mem n (S l) t p <-> leaf (S l) (add_vec p (opposite s0)) /\ ref l (ancestor 1 p) /\ inside n lo hi (S l) p)).
    { intros Lp. unfold expr_mem, t. cbn. rewrite (box_denotes n maxl lo hi domain) by auto. rewrite denotes_mesh_fine by lia. rewrite La.
      replace (S l - l)%nat with 1%nat by lia. rewrite <- hm_ref_at by lia.
      rewrite (denotes_fine n _ _ (S l) (S l)) by (auto; cbn [node_mesh translate]; lia). cbn [node_mesh node_vect translate]. rewrite Nat.sub_diag, ancestor_0.
      assert (Y : (exists q, lca_mem n (c_at cells (S l)) q /\ vadd n q s0 = p) <-> leaf (S l) (add_vec p (opposite s0))); [|rewrite Y; tauto].
      split.
      - intros (q & Hq & <-). rewrite <- add_vec_vadd by (auto; apply Hq). rewrite (add_opposite n) by (auto; apply Hq). apply hm_leaf_at; auto; lia.
      - intros Hq. exists (add_vec p (opposite s0)). rewrite <- hm_leaf_at by lia. split; auto.
        rewrite <- add_vec_vadd by (auto; apply Hq). apply (opposite_add n); auto. }
    tauto.
  Qed.

  (** The cells of level [l] that become to be refined: [p] of the level above is next to a
      leaf diagonally, is in the box, and has keep. *)
  Definition pulled (l : nat) (t : tfield) (q : list Z) : Prop :=
    exists p d, length p = S n /\ diag n d /\ leaf (S l) (add_vec p d) /\ ref l (ancestor 1 p) /\ inside n lo hi (S l) p /\ K t (S l) p /\ q = ancestor 1 p.
  Definition beside_refined (l : nat) (t : tfield) (q : list Z) : Prop :=
    exists p, leaf l p /\ near n 1 q p /\ Z.testbit (tg t l p) 2 = true.

  Definition refine_spread (l : nat) (t t' : tfield) : Prop :=
    exists t1, marks n (S l) 0 (beside_refined (S l) t) t t1 /\ marks n l 2 (pulled l t1) t1 t'.

  Lemma refinement_step_spec : forall l t, (S l <= maxl)%nat -> exists t', refinement_step n 1 domain cells (r_all r) t (S l) = Some t' /\ refine_spread l t t'.
  Proof.
    intros l t Hl. pose proof hm_top. unfold refinement_step. cbn [Nat.pred].
    destruct (leaf_calls (S l) ltac:(lia)) as (calls & EC & V & C).
    destruct (spread_spec n (r_all r) (S l) (box1 n) 2 0 ltac:(lia) ltac:(lia) ltac:(lia) (fun v Hv => proj1 (proj1 (box1_In v) Hv)) _ calls t EC) as (t1 & E1 & M1).
    { intros i yz Hin. apply (V i yz Hin). }
    { intros p v Hp Hv. apply C in Hp. apply box1_In in Hv as [Lv Bv]. assert (Lp : length p = S n) by apply Hp.
      apply ref_stored; [lia|apply moved_length; auto|]. apply (leaf_near _ p); auto; [apply moved_length; auto|]. intros k Hk.
      rewrite nth_add_vec by lia. specialize (Bv k Hk). lia. }
    unfold extend. change flag_refine with (2 ^ 2). change flag_keep with (2 ^ 0). rewrite E1.
    assert (M1' : marks n (S l) 0 (beside_refined (S l) t) t t1).
    { eapply marks_weaken; [|exact M1]. intros q Lq. cbn beta. split.
      - intros (p & v & Hp & Hv & Hb & ->). apply C in Hp. apply box1_In in Hv as [Lv Bv]. exists p. split; auto. split; auto. assert (Lp : length p = S n) by apply Hp.
        intros k Hk. rewrite nth_add_vec by lia. specialize (Bv k Hk). lia.
      - intros (p & Hp & Np & Hb). assert (Lp : length p = S n) by apply Hp. exists p, (add_vec q (opposite p)). rewrite C.
        assert (Lo : length (opposite p) = S n) by (rewrite opposite_length; auto).
        assert (Lm : length (add_vec q (opposite p)) = S n) by (apply moved_length; auto).
        split; auto. split; [apply box1_In; split; auto; intros k Hk; rewrite nth_add_vec, nth_opposite by lia; specialize (Np k Hk); lia|]. split; auto.
        apply (list_ext n); [auto|apply moved_length; auto|]. intros k Hk. rewrite !nth_add_vec, nth_opposite by lia. lia. }
    clear M1. destruct (fold_marks n l 2 _ (fun t s0 => apply_tags n
        (on (make_op Intersect (More (moved_leaf s0 (c_at cells (S l))) (More (mesh_leaf (c_at (r_all r) l)) (One (mesh_leaf domain))))) (S l))
        (graduation_op n (r_all r) (S l)) t)
      (fun s0 t q => exists p, length p = S n /\ leaf (S l) (add_vec p (opposite s0)) /\ ref l (ancestor 1 p) /\ inside n lo hi (S l) p /\ K t (S l) p /\ q = ancestor 1 p)
      (grad_stencil n 1) t1) as (t' & E' & M2).
    - intros s0 t0 Hs. apply grad_stencil_In in Hs; [|apply hm_dim]. destruct (graduation_set_spec l s0 Hl Hs) as (calls' & EC' & V' & C'). destruct Hs as [Ls Ds].
      destruct (graduation_spec n (r_all r) l _ calls' t0 EC' V') as (t2 & E2 & G2).
      { intros p Hp. apply C' in Hp as (Lp & H1 & H2 & H3). split; apply ref_stored; auto; try lia.
        - apply (leaf_near _ (add_vec p (opposite s0))); auto. intros k Hk. rewrite nth_add_vec, nth_opposite by (rewrite opposite_length; lia). destruct (Ds k Hk); lia.
        - rewrite ancestor_length. auto. }
      exists t2. split; auto. eapply marks_weaken; [|exact G2]. intros q Lq. split.
      + intros (p & Hp & HK & Eq). apply C' in Hp. exists p. tauto.
      + intros (p & Hp). exists p. rewrite C'. tauto.
    - intros s0 t0 t2 E q Hin M Lq. assert (X : forall p, length p = S n -> (K t2 (S l) p <-> K t0 (S l) p)).
      { intros p Lp. unfold K. rewrite (M (S l) p 0 Lp ltac:(lia)). split; auto. intros [X|(X & _)]; auto. lia. }
      split; intros (p & Lp & H1 & H2 & H3 & H4 & H5); exists p; (split; [auto|split; [auto|split; [auto|split; [auto|split; [apply X; auto|auto]]]]]).
    - exists t'. split; auto. exists t1. split; auto. eapply marks_weaken; [|exact M2]. intros q Lq. split.
      + intros (s0 & Hs & p & Lp & H1 & H2 & H3 & H4 & H5). apply grad_stencil_In in Hs; [|apply hm_dim]. exists p, (opposite s0). split; auto. split; [apply opposite_diag; auto|]. auto.
      + intros (p & d & Lp & Hd & H1 & H2). exists (opposite d). split; [apply grad_stencil_In; [apply hm_dim|apply opposite_diag; auto]|]. exists p.
        replace (opposite (opposite d)) with d; [tauto|]. unfold opposite. rewrite map_map. rewrite <- (map_id d) at 1. apply map_ext. intros. lia.
  Qed.

  (** *** The loops *)
  Lemma graduate_states : forall t, exists A B t',
    graduate_tags n minl maxl 1 domain cells (r_all r) t = Some t' /\ final_maximum n maxl cells (r_all r) (B minl) = Some t' /\
    A maxl = t /\ (forall l, (l < maxl)%nat -> coarse_spread l (A (S l)) (A l)) /\
    B maxl = A 0%nat /\ (forall l, (minl <= l < maxl)%nat -> refine_spread l (B (S l)) (B l)).
  Proof.
    intros t. destruct (fold_states (coarsening_step n 1 cells (r_all r)) coarse_spread 0 maxl t) as (A & EA & A1 & A2).
    { intros l t0 Hl. apply coarsening_step_spec. lia. }
    assert (Hmm : (minl <= maxl)%nat) by (destruct (proj1 (proj2 (proj2 (proj2 (proj2 (proj2 (proj2 (proj2 HI)))))))) as (l & q & Hq); apply hm_range in Hq; lia).
    destruct (fold_states (refinement_step n 1 domain cells (r_all r)) refine_spread minl (maxl - minl) (A 0%nat)) as (B & EB & B1 & B2).
    { intros l t0 Hl. apply refinement_step_spec. lia. }
    destruct (fold_states (maximum_tags n (r_all r) cells) (fun l => pass n l (has_leaf l)) 0 maxl (B minl)) as (D & ED & D1 & D2).
    { intros l t0 Hl. apply maximum_tags_spec. lia. }
    exists A, B, (D 0%nat). replace (minl + (maxl - minl))%nat with maxl in * by lia.
    unfold graduate_tags, coarsening_graduation, refinement_graduation. rewrite EA, EB. unfold final_maximum. rewrite ED.
    split; auto. split; auto. split; auto. split; [intros; apply A2; lia|]. split; auto.
  Qed.
End Mesh.
