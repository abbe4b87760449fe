(** The sub-meshes of an AMR mesh that fills a box. *)
From Coq Require Import QArith.
From Verif Require Import Base IntervalModel Spec IntervalProofs LoiModel LcaModel LcaSpec InitProofs LcaProofs RowsProofs CellArrayModel CellArrayProofs PropsLca PropsCellArray
  SubsetModel TreeProofs SubsetSpec SubsetProofs2 PropsSubset StencilModel NumberingProofs StencilProofs MeshModel MeshProofs PropsMesh
  AdaptModel AdaptProofs TagProofs PropsAdapt MrModel MrProofs PropsMr GhostModel BcProofs HartenModel AmrModel AmrProofs2.
Open Scope Z_scope.

(** ** What the sub-meshes should hold *)

(** The cells to project. *)
Inductive to_project (n : nat) (w : Z) (cells : ca) : nat -> list Z -> Prop :=
| project_margin : forall l p, length p = S n -> margin n w cells l (ancestor 1 p) -> split_at n cells l (ancestor 1 p) -> ~ ca_mem n cells l (ancestor 1 p) ->
    to_project n w cells (S l) p
| project_child : forall l p, length p = S n -> to_project n w cells l (ancestor 1 p) -> ~ ca_mem n cells l (ancestor 1 p) -> to_project n w cells (S l) p.
Lemma project_inv : forall n w cells l p, to_project n w cells (S l) p -> ~ ca_mem n cells l (ancestor 1 p) /\
  ((margin n w cells l (ancestor 1 p) /\ split_at n cells l (ancestor 1 p)) \/ to_project n w cells l (ancestor 1 p)).
Proof. intros n w cells l p H. inversion H; subst; tauto. Qed.
(** The cells to predict: the margin of the leaves inside the box that no leaf of this level
    or finer fills; none at the coarsest level. *)
Definition to_predict (n : nat) (w : Z) (cells : ca) (lo hi : list Z) (l : nat) (p : list Z) : Prop :=
  margin n w cells l p /\ ~ split_at n cells l p /\ ~ ca_mem n cells l p /\ inside n lo hi l p /\ exists l' q, (l' < l)%nat /\ ca_mem n cells l' q.
(** The ghosts: the margin and the cells around the parents of the cells to predict. *)
Definition amr_ghost (n : nat) (w s : Z) (cells : ca) (lo hi : list Z) (l : nat) (p : list Z) : Prop :=
  margin n w cells l p \/ (length p = S n /\ exists h, to_predict n w cells lo hi (S l) h /\ near n s p (ancestor 1 h)).

(** [d]: the level of the domain; [w]: ghost_width; [s]: prediction_order. *)
Record amr_sub_input (n m minl maxl : nat) (w s : Z) (d : nat) (domain : lca) (cells : ca) (lo hi : list Z) : Prop := {
  si_in : mr_input n m minl maxl w s cells;
  si_tiles : tiles n cells lo hi;
  si_box : is_box n d lo hi domain;
  si_low : forall l q, ca_mem n cells l q -> (1 <= l)%nat;
  si_small : forall l q k, ca_mem n cells l q -> (k <= n)%nat -> 2 * (Z.max 0 (nth k q 0) + w + s + 8) < 2 ^ 31 - 1;
  si_domain : forall q k, lca_mem n domain q -> (k <= n)%nat -> (nth k q 0 + 2) * 2 ^ Z.of_nat (maxl - d) + 1 < 2 ^ 31 - 1 }.

Lemma box_denotes_any : forall n d lo hi domain l p, is_box n d lo hi domain -> length p = S n -> (denotes n l p (NMesh domain) <-> inside n lo hi l p).
Proof.
  intros n d lo hi domain l p HB Lp. destruct (Nat.le_gt_cases l d) as [Hl|Hl]; [apply (box_denotes n d lo hi domain); auto|].
  destruct HB as (W & L & M). rewrite denotes_mesh_fine by lia. rewrite M, L. replace l with (d + (l - d))%nat at 2 by lia. rewrite inside_ancestor. tauto.
Qed.

Lemma top_nonempty : forall n c a, ca_wf n c -> (a < max_level c)%nat -> exists q, ca_mem n c (max_level c) q.
Proof.
  intros n c a W Ha.
  assert (X : forall l, (l <= c_max c)%nat -> max_level_from l c = 0%nat \/ ((max_level_from l c <= l)%nat /\ lca_is_empty (c_at c (max_level_from l c)) = false)).
  { induction l as [|l IH]; intros Hl; cbn [max_level_from].
    - destruct (lca_is_empty (c_at c 0)) eqn:E; cbn [negb]; auto.
    - destruct (lca_is_empty (c_at c (S l))) eqn:E; cbn [negb]; [|right; split; [lia|exact E]]. destruct (IH ltac:(lia)) as [X|[X Y]]; auto. }
  destruct (X (c_max c) ltac:(lia)) as [Y|[Y Z]]; [unfold max_level in Ha; lia|]. fold (max_level c) in *. apply (nonempty_mem n) in Z as (q & Hq); [|apply W; auto]. exists q. split; auto.
Qed.

(** The calls of an expression kept as an array. *)
Lemma array_of_calls : forall n l calls, (forall i yz, In (i, yz) calls -> length yz = n /\ istart i < iend i) ->
  wf n (lca_of_calls n l calls) /\ a_level (lca_of_calls n l calls) = l /\ forall p, lca_mem n (lca_of_calls n l calls) p <-> In p (cells_of_calls calls).
Proof.
  intros n l calls V. destruct (spread_calls n (fun i yz => [AddI yz i]) (fun q p => p = q) calls (self_spreads n) V) as [S1 S2].
  assert (E : flat_map (fun '(i, yz) => [AddI yz i]) calls = map (fun '(i, yz) => AddI yz i) calls) by (clear; induction calls as [|[i yz] calls IH]; cbn; [auto|f_equal; auto]).
  rewrite E in S1, S2. set (cl := fun _ : nat => map (fun '(i, yz) => AddI yz i) calls).
  assert (O : list_ok n cl) by (intros k; exact S1). destruct (list_lca n cl l O) as (A1 & A2 & A3). change (lca_of_calls n l calls) with (client_lca n l (cl l)).
  split; auto. split; auto. intros p. rewrite A3. split.
  - intros [Lp A]. apply S2 in A as (q & Hq & ->); auto.
  - intros Hp. assert (Lp : length p = S n) by (apply visited_In in Hp as (i & yz & x & Hin & _ & ->); cbn [length]; f_equal; apply (V i yz Hin)).
    split; auto. apply S2; auto. exists p. auto.
Qed.

Section Contents.
  Variables (n m minl maxl : nat) (w s : Z) (d : nat) (domain : lca) (cells : ca) (lo hi : list Z).
  Hypothesis HI : amr_sub_input n m minl maxl w s d domain cells lo hi.
  Notation leaf := (ca_mem n cells).
  Notation split := (split_at n cells).
  Notation proj := (to_project n w cells).
  Notation pred := (to_predict n w cells lo hi).
  Notation ghost := (amr_ghost n w s cells lo hi).

  Lemma ms_wf : ca_wf n cells.
  Proof. apply (in_wf _ _ _ _ _ _ _ (si_in _ _ _ _ _ _ _ _ _ _ _ HI)). Qed.
  Lemma ms_max : c_max cells = m.
  Proof. apply (in_max _ _ _ _ _ _ _ (si_in _ _ _ _ _ _ _ _ _ _ _ HI)). Qed.
  Lemma ms_top : (maxl <= m)%nat.
  Proof. apply (in_top _ _ _ _ _ _ _ (si_in _ _ _ _ _ _ _ _ _ _ _ HI)). Qed.
  Lemma ms_level : forall l, (l <= m)%nat -> a_level (c_at cells l) = l.
  Proof. apply (in_level _ _ _ _ _ _ _ (si_in _ _ _ _ _ _ _ _ _ _ _ HI)). Qed.
  Lemma ms_range : forall l q, leaf l q -> (minl <= l <= maxl)%nat.
  Proof. apply (in_range _ _ _ _ _ _ _ (si_in _ _ _ _ _ _ _ _ _ _ _ HI)). Qed.
  Lemma ms_levels : forall l q, leaf l q -> (min_level cells <= l <= max_level cells)%nat.
  Proof. intros l q Hq. apply (leaf_levels _ _ _ _ _ _ _ (si_in _ _ _ _ _ _ _ _ _ _ _ HI) _ _ Hq). Qed.
  Lemma ms_sizes : 0 <= w /\ 0 <= s.
  Proof. split; [apply (in_w _ _ _ _ _ _ _ (si_in _ _ _ _ _ _ _ _ _ _ _ HI))|apply (in_s _ _ _ _ _ _ _ (si_in _ _ _ _ _ _ _ _ _ _ _ HI))]. Qed.

  Lemma project_inside : forall l p, proj l p -> leaf l p \/ split l p.
  Proof.
    intros l p H. induction H as [l p Lp HM HS NL|l p Lp HP IH NL].
    - apply (child_split n minl maxl cells lo hi (si_tiles _ _ _ _ _ _ _ _ _ _ _ HI) ms_range); auto.
    - destruct IH as [IH|IH]; [contradiction|]. apply (child_split n minl maxl cells lo hi (si_tiles _ _ _ _ _ _ _ _ _ _ _ HI) ms_range); auto.
  Qed.
  Lemma project_length : forall l p, proj l p -> length p = S n.
  Proof. intros l p H. destruct H; auto. Qed.
  Lemma project_level : forall l p, proj l p -> (min_level cells < l <= max_level cells)%nat.
  Proof.
    intros l p H. induction H as [l p Lp (_ & q & Hq & _) (l' & q' & Hl' & Hq' & _) NL|l p Lp HP IH NL]; [apply ms_levels in Hq, Hq'; lia|].
    apply project_inside in HP as [HP|(l' & q' & Hl' & Hq' & _)]; [contradiction|]. apply ms_levels in Hq'. lia.
  Qed.
  (** Bounds of the coordinates. *)
  Lemma leaf_or_split_bound : forall l p k, leaf l p \/ split l p -> (k <= n)%nat -> 2 * (Z.max 0 (nth k p 0) + w + s + 8) < 2 ^ 31 - 1.
  Proof.
    intros l p k H Hk. destruct H as [H|(l' & q & Hl & Hq & ->)]; [apply (si_small _ _ _ _ _ _ _ _ _ _ _ HI l); auto|].
    pose proof (si_small _ _ _ _ _ _ _ _ _ _ _ HI l' q k Hq Hk). pose proof (anc_le (l' - l) q k). lia.
  Qed.
  Lemma margin_small : forall l p k, margin n w cells l p -> (k <= n)%nat -> 2 * (Z.max 0 (nth k p 0) + s + 8) < 2 ^ 31 - 1.
  Proof.
    intros l p k (_ & q & Hq & N) Hk. pose proof (leaf_or_split_bound l q k (or_introl Hq) Hk). specialize (N k Hk). pose proof ms_sizes. lia.
  Qed.

  Lemma ms_leaf_at : forall l p, (l <= m)%nat -> (lca_mem n (c_at cells l) p <-> leaf l p).
  Proof. intros l p Hl. unfold ca_mem. rewrite ms_max. tauto. Qed.
  Lemma mesh_operand : forall L a k, wf n a -> a_level a = k -> (L <= k)%nat -> (forall q j, lca_mem n a q -> (j <= n)%nat -> nth j q 0 + 3 < 2 ^ 31 - 1) -> operand_ok n L (NMesh a).
  Proof.
    intros L a k W Ea Hk B. split; [exact I|]. split; auto. cbn [node_mesh node_vect]. intros q j Hq Hj. rewrite Ea, vadd_nil by apply Hq. replace (Z.max 0 (Z.of_nat L - Z.of_nat k)) with 0 by lia.
    specialize (B q j Hq Hj). lia.
  Qed.
  Lemma predict_level : forall l p, pred l p -> (min_level cells < l <= max_level cells)%nat.
  Proof. intros l p ((_ & q & Hq & _) & _ & _ & _ & l' & q' & Hl' & Hq'). apply ms_levels in Hq, Hq'. lia. Qed.
  Lemma self_on_calls : forall a l, wf n a -> a_level a = S l -> (forall q k, lca_mem n a q -> (k <= n)%nat -> nth k q 0 + 3 < 2 ^ 31 - 1) ->
    exists calls, subset_calls n (on (inter a a) l) = Some calls /\ valid_calls n calls /\ forall p, In p (cells_of_calls calls) <-> exists q, lca_mem n a q /\ p = ancestor 1 q.
  Proof.
    intros a l W La B. assert (X : Nat.min l (Nat.max (S l) (S l)) = l) by lia.
    assert (FT : fits n l a) by (intros q k Hq Hk; rewrite La; replace (Z.max 0 (Z.of_nat l - Z.of_nat (S l))) with 0 by lia; specialize (B q k Hq Hk); lia).
    destruct (inter_spec n a a l W W) as (calls & E & V & _ & _ & M); [rewrite La, X; auto|rewrite La, X; auto|].
    exists calls. split; auto. split; [intros i yz Hin; destruct (V i yz Hin) as (? & ? & _); auto|]. intros p. rewrite M. split.
    - intros (Hp & H & _). apply denotes_mesh_coarse in H as (q & Hq & ->); [|lia|auto]. exists q. split; auto. f_equal. lia.
    - intros (q & Hq & ->). assert (Hp : length (ancestor 1 q) = S n) by (rewrite ancestor_length; apply Hq). split; auto. rewrite denotes_mesh_coarse by lia.
      assert (Y : exists q0, lca_mem n a q0 /\ ancestor 1 q = ancestor (a_level a - l) q0) by (exists q; split; auto; f_equal; lia). auto.
  Qed.
  Lemma pred_ghosts_spec : forall pr k a cl, (forall l, wf n (pr l) /\ a_level (pr l) = l) -> (forall l p, lca_mem n (pr l) p <-> pred l p) -> (1 <= a)%nat -> list_ok n cl ->
    exists cl', pred_ghosts n s pr (seq a k) cl = Some cl' /\ list_ok n cl' /\
      forall l p, length p = S n -> (adds (cl' l) p <-> adds (cl l) p \/ ((a <= S l < a + k)%nat /\ exists h, pred (S l) h /\ near n s p (ancestor 1 h))).
  Proof.
    intros pr. pose proof ms_sizes as [Hw Hs]. induction k as [|k IH]; intros a cl W M Ha O; cbn [seq pred_ghosts].
    - exists cl. split; auto. split; auto. intros l p Lp. split; auto. intros [H|[H _]]; [auto|lia].
    - destruct a as [|a]; [lia|]. destruct (W (S a)) as [W1 W2]. destruct (self_on_calls (pr (S a)) a W1 W2) as (calls & E & V & C).
      { intros q j Hq Hj. apply M in Hq as [Hq _]. pose proof (margin_small (S a) q j Hq Hj). lia. }
      rewrite E. destruct (spread_calls n _ _ calls (ghost_spreads n s Hs) V) as [S1 S2].
      destruct (IH (S (S a)) (add_calls cl a (flat_map (fun '(i, yz) => ghost_calls n s i yz) calls)) W M) as (cl' & E' & O' & M'); [lia|apply add_calls_ok; auto|].
      exists cl'. split; auto. split; auto. intros l p Lp. rewrite M', add_calls_adds, S2 by auto. split.
      + intros [[H|(-> & q & Hq & N)]|[H1 H2]]; [auto| |right; split; [lia|auto]]. right. split; [lia|]. apply C in Hq as (h & Hh & ->). exists h. split; auto. apply M. auto.
      + intros [H|[H1 (h & Hh & N)]]; [auto|]. destruct (Nat.eq_dec l a) as [->|Hne]; [|right; split; [lia|eauto]]. left. right. split; auto. exists (ancestor 1 h). split; auto. apply C. exists h. split; auto. apply M. auto.
  Qed.
  Lemma ghost_small : forall l p k, ghost l p -> (k <= n)%nat -> 2 * (nth k p 0 + 3) < 2 ^ 31 - 1.
  Proof.
    intros l p k H Hk. pose proof ms_sizes. destruct H as [H|(_ & h & (H & _) & N)].
    - pose proof (margin_small l p k H Hk). lia.
    - pose proof (margin_small (S l) h k H Hk). specialize (N k Hk). pose proof (anc_le 1 h k). lia.
  Qed.
  Lemma ghost_level : forall l p, ghost l p -> (min_level cells <= l <= max_level cells)%nat.
  Proof.
    intros l p [(_ & q & Hq & _)|(_ & h & H & _)]; [apply ms_levels in Hq; lia|]. apply predict_level in H. lia.
  Qed.
  Lemma amr_all_spec : forall gh pr, (forall l, (l <= m)%nat -> wf n (c_at gh l) /\ a_level (c_at gh l) = l /\ forall p, lca_mem n (c_at gh l) p <-> ghost l p) ->
    (forall l, wf n (pr l) /\ a_level (pr l) = l) -> (forall l p, lca_mem n (pr l) p <-> proj l p) ->
    forall k a al, (a + k <= S m)%nat -> (forall l, wf n (al l) /\ a_level (al l) = l) -> 
    exists al', amr_all n gh pr (seq a k) al = Some al' /\ (forall l, wf n (al' l) /\ a_level (al' l) = l) /\
      (forall l p, (a <= l < a + k)%nat -> (lca_mem n (al' l) p <-> ghost l p \/ proj l p)) /\ (forall l, ~ (a <= l < a + k)%nat -> al' l = al l).
  Proof.
    intros gh pr G W M. induction k as [|k IH]; intros a al Hk WA; cbn [seq amr_all].
    - exists al. split; auto. split; auto. split; [lia|auto].
    - destruct (G a ltac:(lia)) as (Wg & Lg & Mg). destruct (W a) as (Wp & Lp).
      set (t := Nd Union (More (mesh_leaf (c_at gh a)) (One (mesh_leaf (pr a))))).
      change (make_op Union (More (mesh_leaf (c_at gh a)) (One (mesh_leaf (pr a))))) with (subset_init (common_level t) t).
      assert (F : finest t = a) by (unfold finest, t; cbn; rewrite Lg, Lp; lia).
      assert (CL : common_level t = a) by (unfold common_level, t; cbn; rewrite Lg, Lp; lia). rewrite CL.
      assert (HO : operands_ok n a t).
      { intros lf Hlf. rewrite F, Nat.min_id. unfold t in Hlf. cbn [tin ain] in Hlf.
        destruct Hlf as [->| ->]; cbn [l_node leaf_of]; eapply mesh_operand; eauto; intros q j Hq Hj.
        - apply Mg in Hq. pose proof (ghost_small a q j Hq Hj). pose proof (anc_le 0 q j). lia.
        - apply M, project_inside in Hq. pose proof ms_sizes. pose proof (leaf_or_split_bound a q j Hq Hj). lia. }
      destruct (C18_levels n a t HO) as (calls & E & V & _ & _ & C). rewrite E.
      destruct (array_of_calls n a calls V) as (A1 & A2 & A3).
      assert (X : forall p, In p (cells_of_calls calls) <-> ghost a p \/ proj a p).
      { assert (Y : forall p, length p = S n -> (expr_mem n a t p <-> ghost a p \/ proj a p)).
        { intros p Hp. unfold expr_mem, t. cbn. rewrite !(same_denotes n _ a) by auto. rewrite Mg, M. tauto. }
        intros p. split.
        - intros Hin. assert (Hp : length p = S n) by (apply visited_In in Hin as (i & yz & x & Hin & _ & ->); cbn [length]; f_equal; apply (V i yz Hin)). apply Y, C; auto.
        - intros H. assert (Hp : length p = S n) by (destruct H as [[[H _]|[H _]]|H]; auto; apply project_length in H; auto). apply C, Y; auto. }
      destruct (IH (S a) (upd al a (lca_of_calls n a calls))) as (al' & E' & W' & M' & O'); [lia| |].
      + intros l. destruct (Nat.eq_dec l a) as [->|Hne]; [rewrite upd_same; auto|rewrite upd_other; auto].
      + exists al'. split; auto. split; auto. split.
        * intros l p Hl. destruct (Nat.eq_dec l a) as [->|Hne]; [|apply M'; lia]. rewrite O' by lia. rewrite upd_same, A3. apply X.
        * intros l Hl. rewrite O' by lia. apply upd_other. lia.
  Qed.

  Variables (ghosts : ca) (u : nat -> lca).
  Hypothesis HG : forall l, (l <= m)%nat -> wf n (c_at ghosts l) /\ a_level (c_at ghosts l) = l /\ forall p, lca_mem n (c_at ghosts l) p <-> margin n w cells l p.
  Hypothesis HU : forall l, wf n (u l) /\ a_level (u l) = l /\ forall p, (min_level cells <= l)%nat -> (lca_mem n (u l) p <-> split l p).
  Hypothesis HUB : forall l p k, lca_mem n (u l) p -> (k <= n)%nat -> nth k p 0 + 3 < 2 ^ 31 - 1.

  Lemma proj_calls : forall pr l, (min_level cells <= l < max_level cells)%nat -> wf n (pr l) -> a_level (pr l) = l -> (forall p, lca_mem n (pr l) p <-> proj l p) ->
    exists calls, subset_calls n (proj_set ghosts cells u pr (S l)) = Some calls /\ (forall i yz, In (i, yz) calls -> length yz = n /\ istart i < iend i) /\
      forall p, In p (cells_of_calls calls) <-> proj (S l) p.
  Proof.
    intros pr l Hl Wp Lp Mp. pose proof (max_level_m _ _ _ _ _ _ _ (si_in _ _ _ _ _ _ _ _ _ _ _ HI)) as MX.
    destruct (HG l ltac:(lia)) as (Wg & Lg & Mg). destruct (HU l) as (Wu & Lu & Mu). pose proof (ms_level l ltac:(lia)) as Lc. assert (Wc : wf n (c_at cells l)) by (apply ms_wf; rewrite ms_max; lia).
    pose proof ms_sizes as [Hw Hs].
    unfold proj_set. rewrite on_make_op. set (t := Nd Difference _). cbn [Nat.pred] in t.
    assert (F : finest t = l) by (unfold finest, t; cbn; rewrite Lg, Lu, Lp, Lc; lia).
    assert (HO : operands_ok n (S l) t).
    { intros lf Hlf. rewrite F. replace (Nat.min (S l) l) with l by lia. unfold t in Hlf. cbn [tin ain] in Hlf.
      assert (X : lf = leaf_of (NMesh (c_at ghosts l)) \/ lf = leaf_of (NMesh (u l)) \/ lf = leaf_of (NMesh (pr l)) \/ lf = leaf_of (NMesh (c_at cells l))) by tauto.
      destruct X as [->|[->|[->| ->]]]; cbn [l_node leaf_of]; eapply mesh_operand; eauto; intros q j Hq Hj.
      - apply Mg in Hq. pose proof (margin_small l q j Hq Hj). lia.
      - apply Mp, project_inside in Hq. pose proof (leaf_or_split_bound l q j Hq Hj). lia.
      - apply ms_leaf_at in Hq; [|lia]. pose proof (leaf_or_split_bound l q j (or_introl Hq) Hj). lia. }
    destruct (C18_levels n (S l) t HO) as (calls & E & V & _ & _ & C). exists calls. split; auto. split; auto.
    assert (X : forall p, length p = S n -> (expr_mem n (S l) t p <-> proj (S l) p)).
    { intros p Hp. unfold expr_mem, t. cbn. rewrite !denotes_mesh_fine by lia. rewrite Lg, Lu, Lp, Lc. replace (S l - l)%nat with 1%nat by lia. rewrite Mg, Mu, Mp by lia. rewrite ms_leaf_at by lia. split.
      - intros [[[H1 H2]|H] H3]; [apply project_margin|apply project_child]; auto.
      - intros H. apply project_inv in H. tauto. }
    intros p. split.
    - intros Hin. assert (Hp : length p = S n) by (apply visited_In in Hin as (i & yz & x & Hin & _ & ->); cbn [length]; f_equal; apply (V i yz Hin)). apply X, C; auto.
    - intros H. pose proof (project_length _ _ H) as Hp. apply C, X; auto.
  Qed.

  Lemma amr_proj_spec : forall k a pr, (min_level cells <= a)%nat -> (a + k <= max_level cells)%nat ->
    (forall l, wf n (pr l) /\ a_level (pr l) = l) -> (forall l p, lca_mem n (pr l) p <-> (l <= a)%nat /\ proj l p) ->
    exists pr', amr_proj n ghosts cells u (seq (S a) k) pr = Some pr' /\ (forall l, wf n (pr' l) /\ a_level (pr' l) = l) /\
      forall l p, lca_mem n (pr' l) p <-> (l <= a + k)%nat /\ proj l p.
  Proof.
    induction k as [|k IH]; intros a pr Ha Hk W M; cbn [seq amr_proj].
    - exists pr. split; auto. split; auto. intros l p. rewrite M, Nat.add_0_r. tauto.
    - destruct (proj_calls pr a ltac:(lia)) as (calls & E & V & C); [apply W|apply W|intros p; rewrite M; split; [tauto|auto]|]. rewrite E.
      destruct (array_of_calls n (S a) calls V) as (A1 & A2 & A3).
      destruct (IH (S a) (upd pr (S a) (lca_of_calls n (S a) calls))) as (pr' & R); [lia|lia| | |].
      + intros l. destruct (Nat.eq_dec l (S a)) as [->|Hne]; [rewrite upd_same; auto|rewrite upd_other; auto].
      + intros l p. destruct (Nat.eq_dec l (S a)) as [->|Hne]; [rewrite upd_same, A3, C; split; [auto|tauto]|rewrite upd_other, M by auto]. split; intros [X Y]; split; auto; lia.
      + exists pr'. replace (a + S k)%nat with (S a + k)%nat by lia. exact R.
  Qed.

  Lemma pred_calls : forall l, (min_level cells < l <= max_level cells)%nat ->
    exists calls, subset_calls n (pred_set ghosts cells u domain l) = Some calls /\ (forall i yz, In (i, yz) calls -> length yz = n /\ istart i < iend i) /\
      forall p, In p (cells_of_calls calls) <-> pred l p.
  Proof.
    intros l Hl. pose proof (max_level_m _ _ _ _ _ _ _ (si_in _ _ _ _ _ _ _ _ _ _ _ HI)) as MX.
    destruct (HG l ltac:(lia)) as (Wg & Lg & Mg). destruct (HU l) as (Wu & Lu & Mu). pose proof (ms_level l ltac:(lia)) as Lc. assert (Wc : wf n (c_at cells l)) by (apply ms_wf; rewrite ms_max; lia).
    pose proof (si_box _ _ _ _ _ _ _ _ _ _ _ HI) as (Wd & Ld & Md). pose proof ms_sizes as [Hw Hs].
    assert (LM : (l <= maxl)%nat).
    { destruct (top_nonempty n cells (min_level cells) ms_wf ltac:(lia)) as (q & Hq). apply ms_range in Hq. lia. }
    unfold pred_set. rewrite on_make_op. set (t := Nd Intersect _).
    assert (F : finest t = Nat.max l d) by (unfold finest, t; cbn; rewrite Lg, Lu, Lc, Ld; lia).
    assert (HO : operands_ok n l t).
    { intros lf Hlf. rewrite F. replace (Nat.min l (Nat.max l d)) with l by lia. unfold t in Hlf. cbn [tin ain] in Hlf.
      assert (X : lf = leaf_of (NMesh (c_at ghosts l)) \/ lf = leaf_of (NMesh (u l)) \/ lf = leaf_of (NMesh (c_at cells l)) \/ lf = leaf_of (NMesh domain)) by tauto.
      destruct X as [->|[->|[->| ->]]]; cbn [l_node leaf_of]; [eapply mesh_operand; eauto; intros q j Hq Hj..|].
      - apply Mg in Hq. pose proof (margin_small l q j Hq Hj). lia.
      - apply ms_leaf_at in Hq; [|lia]. pose proof (leaf_or_split_bound l q j (or_introl Hq) Hj). lia.
      - split; [exact I|]. split; auto. cbn [node_mesh node_vect]. intros q j Hq Hj. rewrite vadd_nil, Ld by apply Hq. pose proof (si_domain _ _ _ _ _ _ _ _ _ _ _ HI q j Hq Hj) as B.
        destruct (Z.le_gt_cases 0 (nth j q 0 + 2)) as [P|P].
        + assert (2 ^ Z.max 0 (Z.of_nat l - Z.of_nat d) <= 2 ^ Z.of_nat (maxl - d)) by (apply Z.pow_le_mono_r; lia). nia.
        + assert (0 < 2 ^ Z.max 0 (Z.of_nat l - Z.of_nat d)) by (apply Z.pow_pos_nonneg; lia). nia. }
    destruct (C18_levels n l t HO) as (calls & E & V & _ & _ & C). exists calls. split; auto. split; auto.
    assert (EX : exists l' q, (l' < l)%nat /\ leaf l' q).
    { destruct (top_nonempty n cells (min_level cells) ms_wf ltac:(lia)) as (q & [Q1 Q2]). destruct (min_level_spec cells) as (_ & Y & _).
      destruct (Y (max_level cells)) as [Y1 Y2]; [auto|apply (nonempty_mem n); [apply ms_wf; auto|eauto]|]. apply (nonempty_mem n) in Y2 as (q' & Hq'); [|apply ms_wf; auto].
      exists (min_level cells), q'. split; [lia|]. split; auto. }
    assert (X : forall p, length p = S n -> (expr_mem n l t p <-> pred l p)).
    { intros p Hp. unfold expr_mem, t. cbn. rewrite (box_denotes_any n d lo hi domain l p (si_box _ _ _ _ _ _ _ _ _ _ _ HI) Hp). rewrite !(same_denotes n _ l) by auto. rewrite Mg, Mu by lia. rewrite ms_leaf_at by lia. unfold to_predict. tauto. }
    intros p. split.
    - intros Hin. assert (Hp : length p = S n) by (apply visited_In in Hin as (i & yz & x & Hin & _ & ->); cbn [length]; f_equal; apply (V i yz Hin)). apply X, C; auto.
    - intros H. assert (Hp : length p = S n) by apply H. apply C, X; auto.
  Qed.

  Lemma amr_pred_spec : forall k a pr, (min_level cells <= a)%nat -> (a + k <= max_level cells)%nat ->
    (forall l, wf n (pr l) /\ a_level (pr l) = l) -> (forall l p, lca_mem n (pr l) p <-> (l <= a)%nat /\ pred l p) ->
    exists pr', amr_pred n ghosts cells u domain (seq (S a) k) pr = Some pr' /\ (forall l, wf n (pr' l) /\ a_level (pr' l) = l) /\
      forall l p, lca_mem n (pr' l) p <-> (l <= a + k)%nat /\ pred l p.
  Proof.
    induction k as [|k IH]; intros a pr Ha Hk W M; cbn [seq amr_pred].
    - exists pr. split; auto. split; auto. intros l p. rewrite M, Nat.add_0_r. tauto.
    - destruct (pred_calls (S a) ltac:(lia)) as (calls & E & V & C). rewrite E.
      destruct (array_of_calls n (S a) calls V) as (A1 & A2 & A3).
      destruct (IH (S a) (upd pr (S a) (lca_of_calls n (S a) calls))) as (pr' & R); [lia|lia| | |].
      + intros l. destruct (Nat.eq_dec l (S a)) as [->|Hne]; [rewrite upd_same; auto|rewrite upd_other; auto].
      + intros l p. destruct (Nat.eq_dec l (S a)) as [->|Hne]; [rewrite upd_same, A3, C; split; [auto|tauto]|rewrite upd_other, M by auto]. split; intros [X Y]; split; auto; lia.
      + exists pr'. replace (a + S k)%nat with (S a + k)%nat by lia. exact R.
  Qed.

End Contents.

(** What [update_sub_mesh_impl] builds. *)
Theorem amr_contents : forall n m minl maxl w s d domain cells lo hi, amr_sub_input n m minl maxl w s d domain cells lo hi ->
  exists r, amr_sub_mesh n m minl maxl w s domain cells = Some r /\
    (forall c, c = a_ghosts r \/ c = a_proj r \/ c = a_pred r \/ c = a_all r -> ca_wf n c /\ c_max c = m /\ forall l, (l <= m)%nat -> a_level (c_at c l) = l) /\
    forall l p, (ca_mem n (a_ghosts r) l p <-> amr_ghost n w s cells lo hi l p) /\ (ca_mem n (a_proj r) l p <-> to_project n w cells l p) /\
      (ca_mem n (a_pred r) l p <-> to_predict n w cells lo hi l p) /\ (ca_mem n (a_all r) l p <-> amr_ghost n w s cells lo hi l p \/ to_project n w cells l p).
Proof.
  intros n m minl maxl w s d domain cells lo hi HI. pose proof (si_in _ _ _ _ _ _ _ _ _ _ _ HI) as H. pose proof H as (HW & Hm & Hmm & HL & Hw & Hs & HR & HB).
  unfold amr_sub_mesh. destruct (ca_calls_spec n cells HW) as (calls & E & V & M). rewrite E.
  destruct (add_ghosts_spec n w calls (fun _ => []) Hw V) as [G1 G2]; [intros l; apply calls_ok_nil|].
  set (cl0 := add_ghosts n w calls (fun _ => [])) in *.
  assert (G3 : forall l p, length p = S n -> (adds (cl0 l) p <-> margin n w cells l p)).
  { intros l p Hp. rewrite G2 by auto. split.
    - intros [A|(i & yz & x & Hin & Hx & HN)]; [destruct (adds_nil p A)|]. split; auto. exists (x :: yz). split; auto. apply M. eauto.
    - intros (_ & q & Hq & HN). right. destruct q as [|x yz]; [destruct Hq as [_ [Hq _]]; discriminate|].
      apply M in Hq as (i & Hin & Hx). eauto 6. }
  set (ghosts := ca_of_cl n m (cl_run n cl0) false).
  assert (GG : forall l, (l <= m)%nat -> wf n (c_at ghosts l) /\ a_level (c_at ghosts l) = l /\ forall p, lca_mem n (c_at ghosts l) p <-> margin n w cells l p).
  { intros l _. change (c_at ghosts l) with (client_lca n l (cl0 l)). destruct (list_lca n cl0 l G1) as (A1 & A2 & A3). split; auto. split; auto. intros p. rewrite A3.
    split; [intros [Hp A]; apply G3; auto|intros A; assert (Hp : length p = S n) by apply A; split; auto; apply G3; auto]. }
  destruct (C25_union n minl maxl cells) as (u & EU & WU & MU).
  { intros l Hl. split; [apply HW; lia|apply HL; lia]. }
  { intros l q k Hl Hq Hk. assert (LC : (l <= c_max cells)%nat) by lia. pose proof (HB l q k (conj LC Hq) Hk). lia. }
  rewrite EU.
  assert (MLO : forall l q, ca_mem n cells l q -> (min_level cells <= l <= max_level cells)%nat) by (intros l q Hq; apply (leaf_levels n m minl maxl w s cells H l q Hq)).
  assert (SU : forall l p, lca_mem n (u l) p -> split_at n cells l p).
  { intros l p Hp. apply MU in Hp as (_ & l' & q & Hl' & Hq & ->). exists l', q. split; [lia|]. split; auto. split; auto. lia. }
  assert (HU : forall l, wf n (u l) /\ a_level (u l) = l /\ forall p, (min_level cells <= l)%nat -> (lca_mem n (u l) p <-> split_at n cells l p)).
  { intros l. split; [apply WU|]. split; [apply WU|]. intros p Hl. split; auto. intros (l' & q & Hl' & Hq & ->). apply MU.
    assert (MM : (Nat.pred minl <= l)%nat).
    { destruct (min_level_spec cells) as (_ & Y & _). destruct Hq as [Q1 Q2]. destruct (Y l') as [Y1 Y2]; [auto|apply (nonempty_mem n); [apply HW; auto|eauto]|].
      apply (nonempty_mem n) in Y2 as (q' & Hq'); [|apply HW; auto]. assert (Z : ca_mem n cells (min_level cells) q') by (split; auto). apply HR in Z. lia. }
    split; auto. exists l', q. pose proof (HR l' q Hq). split; [lia|]. split; auto. apply Hq. }
  assert (HUB : forall l p k, lca_mem n (u l) p -> (k <= n)%nat -> nth k p 0 + 3 < 2 ^ 31 - 1).
  { intros l p k Hp Hk. apply SU in Hp. pose proof (leaf_or_split_bound n m minl maxl w s d domain cells lo hi HI l p k (or_intror Hp) Hk). lia. }
  assert (EM : forall l, wf n (lca_empty l) /\ a_level (lca_empty l) = l /\ forall p, ~ lca_mem n (lca_empty l) p).
  { intros l. assert (N : lca_no_cells n (lca_empty l)) by (split; auto). split; [left; auto|]. split; auto. intros p. apply no_cells_mem. auto. }
  assert (PL : forall l p, to_project n w cells l p -> (min_level cells < l <= max_level cells)%nat) by (intros l p; apply (project_level n m minl maxl w s d domain cells lo hi HI)).
  assert (QL : forall l p, to_predict n w cells lo hi l p -> (min_level cells < l <= max_level cells)%nat) by (intros l p; apply (predict_level n m minl maxl w s d domain cells lo hi HI)).
  assert (BP : exists pr, amr_proj n ghosts cells u (seq (S (min_level cells)) (max_level cells - min_level cells)) lca_empty = Some pr /\ (forall l, wf n (pr l) /\ a_level (pr l) = l) /\
    forall l p, lca_mem n (pr l) p <-> to_project n w cells l p).
  { destruct (Nat.le_gt_cases (min_level cells) (max_level cells)) as [HL'|HL'].
    - destruct (amr_proj_spec n m minl maxl w s d domain cells lo hi HI ghosts u GG HU HUB (max_level cells - min_level cells) (min_level cells) lca_empty) as (pr & E1 & W1 & M1); [lia|lia|intros l; split; apply (EM l)| |].
      + intros l p. split; [intros X; destruct (proj2 (proj2 (EM l)) p X)|intros [X Y]; apply PL in Y; lia].
      + exists pr. split; auto. split; auto. intros l p. rewrite M1. split; [tauto|]. intros X. split; auto. apply PL in X. lia.
    - replace (max_level cells - min_level cells)%nat with 0%nat by lia. exists lca_empty. split; [reflexivity|]. split; [intros l; split; apply (EM l)|].
      intros l p. split; [intros X; destruct (proj2 (proj2 (EM l)) p X)|intros Y; apply PL in Y; lia]. }
  destruct BP as (pr & EP & WP & MP). rewrite EP.
  assert (BQ : exists pd, amr_pred n ghosts cells u domain (seq (S (min_level cells)) (max_level cells - min_level cells)) lca_empty = Some pd /\ (forall l, wf n (pd l) /\ a_level (pd l) = l) /\
    forall l p, lca_mem n (pd l) p <-> to_predict n w cells lo hi l p).
  { destruct (Nat.le_gt_cases (min_level cells) (max_level cells)) as [HL'|HL'].
    - destruct (amr_pred_spec n m minl maxl w s d domain cells lo hi HI ghosts u GG HU HUB (max_level cells - min_level cells) (min_level cells) lca_empty) as (pd & E1 & W1 & M1); [lia|lia|intros l; split; apply (EM l)| |].
      + intros l p. split; [intros X; destruct (proj2 (proj2 (EM l)) p X)|intros [X Y]; apply QL in Y; lia].
      + exists pd. split; auto. split; auto. intros l p. rewrite M1. split; [tauto|]. intros X. split; auto. apply QL in X. lia.
    - replace (max_level cells - min_level cells)%nat with 0%nat by lia. exists lca_empty. split; [reflexivity|]. split; [intros l; split; apply (EM l)|].
      intros l p. split; [intros X; destruct (proj2 (proj2 (EM l)) p X)|intros Y; apply QL in Y; lia]. }
  destruct BQ as (pd & EQ & WQ & MQ). rewrite EQ.
  assert (L1 : (1 <= min_level cells)%nat).
  { destruct (min_level cells) as [|k] eqn:EK; [|lia]. exfalso. destruct (lca_is_empty (c_at cells 0)) eqn:EE.
    - unfold min_level in EK. cbn [min_level_from] in EK. revert EK. rewrite EE. cbn [negb].
      assert (X : forall k a, (0 < a)%nat -> min_level_from a k cells <> 0%nat) by (induction k as [|k IH]; intros a Ha; cbn [min_level_from]; [lia|destruct (negb _); [lia|apply IH; lia]]). apply X. lia.
    - apply (nonempty_mem n) in EE as (q & Hq); [|apply HW; lia]. assert (X : ca_mem n cells 0 q) by (split; [lia|auto]). apply (si_low _ _ _ _ _ _ _ _ _ _ _ HI) in X. lia. }
  destruct (pred_ghosts_spec n m minl maxl w s d domain cells lo hi HI pd (S (max_level cells) - min_level cells) (min_level cells) cl0 WQ MQ L1 G1) as (cl1 & E1 & O1 & M1). rewrite E1.
  set (gh := ca_of_cl n m (cl_run n cl1) false).
  assert (GH : forall l, (l <= m)%nat -> wf n (c_at gh l) /\ a_level (c_at gh l) = l /\ forall p, lca_mem n (c_at gh l) p <-> amr_ghost n w s cells lo hi l p).
  { intros l _. change (c_at gh l) with (client_lca n l (cl1 l)). destruct (list_lca n cl1 l O1) as (A1 & A2 & A3). split; auto. split; auto. intros p. rewrite A3.
    split.
    - intros [Hp A]. apply M1 in A as [A|(_ & h & A1' & A2')]; auto; [left; apply G3; auto|]. right. split; auto. exists h. auto.
    - intros A. assert (Hp : length p = S n) by (destruct A as [[A _]|[A _]]; auto). split; auto. apply M1; auto. destruct A as [A|(_ & h & A1' & A2')]; [left; apply G3; auto|].
      right. split; [|eauto]. apply QL in A1'. lia. }
  pose proof (max_level_m n m minl maxl w s cells H) as MX.
  assert (GL : forall l p, amr_ghost n w s cells lo hi l p -> (min_level cells <= l <= max_level cells)%nat) by (intros l p; apply (ghost_level n m minl maxl w s d domain cells lo hi HI)).
  destruct (amr_all_spec n m minl maxl w s d domain cells lo hi HI gh pr GH WP MP (S (max_level cells) - min_level cells) (min_level cells) lca_empty) as (al & EA & WA & MA & OA).
  { destruct (Nat.le_gt_cases (min_level cells) (S (max_level cells))); [lia|]. replace (S (max_level cells) - min_level cells)%nat with 0%nat by lia.
    assert (Z : forall k a, (a + k <= S (c_max cells))%nat -> (min_level_from a k cells <= S (c_max cells))%nat) by (induction k as [|k IH]; intros a Ha; cbn [min_level_from]; [lia|destruct (negb _); [lia|apply IH; lia]]).
    specialize (Z (S (c_max cells)) 0%nat ltac:(lia)). unfold min_level. lia. }
  { intros l. split; apply (EM l). }
  rewrite EA. eexists. split; [reflexivity|]. cbn [a_ghosts a_proj a_pred a_all]. split.
  - intros c Hc. assert (X : forall f : nat -> lca, (forall l, wf n (f l) /\ a_level (f l) = l) -> ca_wf n (mkCa m f) /\ c_max (mkCa m f) = m /\ forall l, (l <= m)%nat -> a_level (c_at (mkCa m f) l) = l).
    { intros f Hf. split; [intros l _; apply Hf|]. split; [reflexivity|]. intros l _. apply Hf. }
    destruct Hc as [->|[->|[->| ->]]]; auto. split; [intros l Hl; apply (GH l Hl)|]. split; [reflexivity|]. intros l Hl. apply (GH l Hl).
  - intros l p. unfold ca_mem. cbn [c_max c_at]. change (c_max gh) with m.
    assert (LM : forall k, (min_level cells <= k <= max_level cells)%nat -> (k <= m)%nat) by lia.
    split; [|split; [|split]].
    + split; [intros [X Y]; apply (GH l X); auto|]. intros X. assert (Hl : (l <= m)%nat) by (apply GL in X; lia). split; auto. apply (GH l Hl). auto.
    + rewrite MP. split; [tauto|]. intros X. split; auto. apply PL in X. lia.
    + rewrite MQ. split; [tauto|]. intros X. split; auto. apply QL in X. lia.
    + split.
      * intros [X Y]. destruct (le_lt_dec (min_level cells) l) as [H1|H1]; [destruct (le_lt_dec l (max_level cells)) as [H2|H2]|].
        -- apply MA in Y; auto. lia.
        -- rewrite OA in Y by lia. destruct (proj2 (proj2 (EM l)) p Y).
        -- rewrite OA in Y by lia. destruct (proj2 (proj2 (EM l)) p Y).
      * intros X. assert (Hl : (min_level cells <= l <= max_level cells)%nat) by (destruct X as [X|X]; [apply GL in X; auto|apply PL in X; lia]). split; [lia|]. apply MA; auto. lia.
Qed.
