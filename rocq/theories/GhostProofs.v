(** Proofs for the update of the ghosts: the operators, one level at a time. *)
From Coq Require Import QArith.
From Verif Require Import Base IntervalModel Spec LoiModel LcaModel LcaSpec LcaProofs RowsProofs CellArrayModel CellArrayProofs PropsLca PropsCellArray
  SubsetModel TreeProofs SubsetSpec SubsetProofs2 PropsSubset StencilModel MeshModel MeshProofs PropsMesh AdaptModel AdaptProofs TagProofs NumModel NumProofs PropsNum
  TransferProofs MrModel MrProofs GhostModel.
Open Scope Z_scope.
Notation strided := IntervalModel.strided.

(** ** The storage *)
Lemma stored_mem : forall n c l p, wf n (c_at c l) -> length p = S n -> (stored n c l p = true <-> lca_mem n (c_at c l) p).
Proof.
  intros n c l p W Lp. destruct p as [|x yz]; [discriminate|]. assert (Ly : length yz = n) by (cbn in Lp; lia).
  unfold stored, ca_get_index, get_index. split.
  - intros H. destruct (get_interval n (c_at c l) (x :: yz)) as [r|] eqn:E; [|discriminate].
    exact (proj1 (get_interval_maximal n (c_at c l) x yz r W Ly E)).
  - intros H. destruct (get_interval_mem n (c_at c l) x yz W H) as (r & E & _). rewrite E. auto.
Qed.

(** ** The operators *)
Lemma projection_ghost_spec : forall n reference level u i yz, istep i = 1 -> (length yz <= 2)%nat ->
  (forall x, In x (strided i) -> stored n reference (Nat.pred level) (x :: yz) = true /\
     forall cx cyz, In (cx, cyz) (children x yz) -> stored n reference level (cx :: cyz) = true) ->
  exists ws, projection_ghost n reference level u i yz = Some ws /\
    (forall x y q, In (x, y, q) ws -> is_mean u x y q) /\
    forall x y, In (x, y) (map fst ws) <-> y = yz /\ In x (strided i).
Proof.
  intros n reference level u i yz Hst Hl H. destruct (projection_op_spec u i yz Hst Hl) as (ws & E & R & D).
  exists ws. unfold projection_ghost.
  assert (X : forallb (stored n reference level) (projection_reads i yz) && forallb (stored n reference (Nat.pred level)) (row_cells i yz) = true).
  { apply andb_true_iff. split; apply forallb_forall; intros p Hp.
    - unfold projection_reads in Hp. apply in_flat_map in Hp as (x & Hx & Hp). apply in_map_iff in Hp as ([cx cyz] & <- & Hc). apply (H x Hx). auto.
    - unfold row_cells in Hp. apply in_map_iff in Hp as (x & <- & Hx). apply H. auto. }
  rewrite X. auto.
Qed.

Lemma ancestor_shiftr : forall p, map (fun y => Z.shiftr y 1) p = ancestor 1 p.
Proof. intros. unfold ancestor. apply map_ext. intros. apply Z.shiftr_div_pow2. lia. Qed.

Lemma add_vec_length : forall p v, length p = length v -> length (add_vec p v) = length p.
Proof. intros p v H. unfold add_vec. rewrite map_length, combine_length. lia. Qed.
Lemma nth_add_vec : forall p v k, length p = length v -> nth k (add_vec p v) 0 = nth k p 0 + nth k v 0.
Proof.
  induction p as [|a p IH]; intros [|b v] k H; try discriminate; [destruct k; auto|]. destruct k as [|k]; [reflexivity|].
  cbn [add_vec combine map nth]. apply IH. cbn in H. lia.
Qed.

Lemma box_offsets : forall n (s : nat) a p, length a = S n ->
  (In p (map (add_vec a) (nested_loop (S n) (- Z.of_nat s) (Z.of_nat s + 1))) <-> length p = S n /\ near n (Z.of_nat s) p a).
Proof.
  intros n s a p La. rewrite in_map_iff. split.
  - intros (v & <- & Hv). apply nested_loop_In in Hv as [Lv Fv]. rewrite add_vec_length by lia. split; auto.
    intros k Hk. rewrite nth_add_vec by lia. rewrite forall_nth in Fv. specialize (Fv k ltac:(lia)). lia.
  - intros [Lp H]. exists (map (fun k => nth k p 0 - nth k a 0) (seq 0 (S n))).
    assert (L : length (map (fun k => nth k p 0 - nth k a 0) (seq 0 (S n))) = S n) by (rewrite map_length, seq_length; auto).
    assert (N : forall k, (k <= n)%nat -> nth k (map (fun k => nth k p 0 - nth k a 0) (seq 0 (S n))) 0 = nth k p 0 - nth k a 0).
    { intros k Hk. rewrite (nth_indep _ 0 (nth 0 p 0 - nth 0 a 0)) by lia. rewrite (map_nth (fun k => nth k p 0 - nth k a 0)), seq_nth by lia. f_equal. }
    split.
    + apply (list_ext n); auto; [rewrite add_vec_length; lia|]. intros k Hk. rewrite nth_add_vec by lia. rewrite N by auto. lia.
    + apply nested_loop_In. split; auto. apply forall_nth. intros k Hk. rewrite N by lia. specialize (H k ltac:(lia)). lia.
Qed.

Lemma prediction_ghost_spec : forall n order reference level u i yz, istep i = 1 -> (n <= 2)%nat -> length yz = n ->
  (forall x, In x (strided i) -> stored n reference level (x :: yz) = true /\
     forall p, length p = S n -> near n (Z.of_nat order) p (ancestor 1 (x :: yz)) -> stored n reference (Nat.pred level) p = true) ->
  exists ws, prediction_ghost n order reference level u i yz = Some ws /\
    (forall x y q, In (x, y, q) ws -> is_predicted order u x y q) /\
    forall x y, In (x, y) (map fst ws) <-> y = yz /\ In x (strided i).
Proof.
  intros n order reference level u i yz Hst Hn Hl H. destruct (C39_level_based_is_cellwise order u i yz Hst) as (ws & E & _ & D & R); [lia|].
  exists ws. unfold prediction_ghost.
  assert (X : forallb (stored n reference (Nat.pred level)) (prediction_reads n order i yz) && forallb (stored n reference level) (row_cells i yz) = true).
  { apply andb_true_iff. split; apply forallb_forall; intros p Hp.
    - unfold prediction_reads in Hp. apply in_flat_map in Hp as (x & Hx & Hp). rewrite ancestor_shiftr in Hp.
      apply box_offsets in Hp as [Lp Np]; [|rewrite ancestor_length; cbn; lia]. apply (H x Hx); auto.
    - unfold row_cells in Hp. apply in_map_iff in Hp as (x & <- & Hx). apply H. auto. }
  rewrite X. cbn [checked]. split; auto. split.
  - intros x y q Hin. destruct (R x y q Hin) as (ws' & E' & Hin'). exists ws'. split; auto.
    pose proof (in_map fst _ _ Hin) as Hf. cbn [fst] in Hf. apply D in Hf as [-> _].
    replace (ancestor 1 yz) with (map (fun y => y / 2) yz) by reflexivity. auto.
  - intros x y. rewrite D. split; intros [-> Hx]; split; auto; apply strided_In; auto.
Qed.

(** ** What a predicted value depends on *)

Lemma bump_length : forall d t yz, length (bump d t yz) = length yz.
Proof. induction d; intros t [|y yz]; cbn; auto. Qed.
Lemma nth_bump : forall d t yz k, nth k (bump d t yz) 0 = nth k yz 0 + (if Nat.eqb k d && Nat.ltb k (length yz) then t else 0).
Proof.
  induction d as [|d IH]; intros t yz k; destruct yz as [|y yz]; cbn [bump].
  - destruct k; cbn; rewrite ?andb_false_r; lia.
  - destruct k; cbn; lia.
  - destruct k; cbn; rewrite ?andb_false_r; lia.
  - destruct k as [|k]; cbn [nth]; [cbn; lia|]. rewrite IH. reflexivity.
Qed.

(** The coordinates other than those in [ds] are unchanged; those in [ds] move by [order] at most. *)
Definition along (order : Z) (ds : list nat) (p q : list Z) : Prop :=
  length p = length q /\ forall k, (In k ds -> Z.abs (nth k p 0 - nth k q 0) <= order) /\ (~ In k ds -> nth k p 0 = nth k q 0).

Lemma cmove_along : forall order d t x yz, Z.abs t <= order -> 0 <= order -> along order [d] (fst (cmove d t x yz) :: snd (cmove d t x yz)) (x :: yz).
Proof.
  intros order d t x yz Ht Ho. destruct d as [|d]; cbn [cmove fst snd].
  - split; auto. intros [|k]; cbn [nth In]; split; intros H; try lia; exfalso; apply H; auto.
  - split; [cbn; rewrite bump_length; auto|]. intros [|k]; cbn [nth In]; (split; intros H); try lia.
    + rewrite nth_bump. destruct H as [H|[]]. injection H as ->. rewrite Nat.eqb_refl. destruct (Nat.ltb _ _); cbn [andb]; lia.
    + rewrite nth_bump. destruct (Nat.eqb_spec k d) as [->|]; [exfalso; apply H; auto|]. cbn [andb]. lia.
Qed.

Lemma Qc_local : forall order c d (e e' : cexpr) k s x yz, (1 <= s)%nat -> (s + k <= order)%nat ->
  (forall t x' yz', (1 <= t <= order)%nat -> along (Z.of_nat order) [d] (x' :: yz') (x :: yz) -> (e t x' yz' == e' t x' yz')%Q) ->
  (Qc c d k s e x yz == Qc c d k s e' x yz)%Q.
Proof.
  intros order c d e e' k. induction k as [|k IH]; intros s x yz Hs Hk H; cbn [Qc].
  - rewrite !(H s) by (try apply cmove_along; lia). reflexivity.
  - rewrite !(H (S s)) by (try apply cmove_along; lia). rewrite (IH (S s)) by (auto; lia). reflexivity.
Qed.

Lemma along_trans : forall order d ds p q r, ~ In d ds -> along order ds p q -> along order [d] q r -> along order (d :: ds) p r.
Proof.
  intros order d ds p q r Hd [L1 H1] [L2 H2]. split; [congruence|]. intros k. destruct (H1 k) as [A1 B1], (H2 k) as [A2 B2]. cbn [In] in *. split.
  - intros [<-|Hk].
    + rewrite B1 by auto. apply A2. auto.
    + rewrite <- B2 by (intros [<-|[]]; auto). apply A1. auto.
  - intros Hk. rewrite B1, B2; auto. intros [<-|[]]. auto.
Qed.

Lemma Qc_of_local : forall order u u' ds s x yz, (1 <= s <= order)%nat -> NoDup ds ->
  (forall x' yz', along (Z.of_nat order) ds (x' :: yz') (x :: yz) -> (u x' yz' == u' x' yz')%Q) ->
  (Qc_of order ds u s x yz == Qc_of order ds u' s x yz)%Q.
Proof.
  intros order u u' ds. induction ds as [|d ds IH]; intros s x yz Hs ND H.
  - apply H. split; auto. intros k. split; [intros []|auto].
  - unfold Qc_of. cbn [fold_right]. fold (Qc_of order ds u). fold (Qc_of order ds u').
    inversion ND as [|? ? N1 N2]; subst. apply (Qc_local order); [lia|lia|]. intros t x' yz' Ht Ha. apply IH; auto.
    intros x2 yz2 Ha2. apply H. eapply along_trans; eauto.
Qed.

Lemma terms_NoDup : forall dim order ds, In ds (terms dim order) -> NoDup ds /\ forall k, In k ds -> (k < dim)%nat.
Proof.
  intros dim order ds H. unfold terms in H. destruct order; [destruct H|].
  destruct dim as [|[|[|[|dim]]]]; cbn [In] in H; repeat destruct H as [<-|H]; try destruct H;
    (split; [repeat constructor; cbn; lia|cbn; lia]).
Qed.

Lemma csum_ext : forall l l' acc acc', (acc == acc')%Q -> Forall2 (fun a b => fst a = fst b /\ (snd a == snd b)%Q) l l' -> (csum acc l == csum acc' l')%Q.
Proof.
  intros l l' acc acc' H F. revert acc acc' H. induction F as [|[s q] [s' q'] l l' [E1 E2] F IH]; intros acc acc' H; auto. cbn [fst snd] in *. subst s'.
  cbn [csum]. apply IH. destruct s; rewrite H, E2; reflexivity.
Qed.

Lemma pred_cell_local : forall sgs order u u' par x yz,
  (forall x' yz', length yz' = length yz -> near (length yz) (Z.of_nat order) (x' :: yz') (x :: yz) -> (u x' yz' == u' x' yz')%Q) ->
  (pred_cell sgs order u par x yz == pred_cell sgs order u' par x yz)%Q.
Proof.
  intros sgs order u u' par x yz H. unfold pred_cell. apply csum_ext.
  - apply H; auto. intros k Hk. lia.
  - assert (G : forall ds, In ds (terms (S (length yz)) order) -> (Qc_of order ds u 1%nat x yz == Qc_of order ds u' 1%nat x yz)%Q).
    { intros ds Hds. destruct (terms_NoDup _ _ _ Hds) as [ND Hk].
      assert (Ho : (1 <= order)%nat) by (destruct order; [destruct Hds|lia]). apply Qc_of_local; [lia|auto|].
      intros x' yz' [L A]. apply H; [cbn in L; lia|]. intros k _. destruct (A k) as [A1 A2].
      destruct (in_dec Nat.eq_dec k ds) as [Hi|Hi]; [auto|rewrite A2 by auto; lia]. }
    revert G. generalize (terms (S (length yz)) order) (sgs par). induction l as [|ds l IH]; intros sg G.
    + destruct sg; constructor.
    + destruct sg as [|b sg]; cbn [map combine]; constructor; [cbn; split; auto; apply G; left; auto|apply IH; intros; apply G; right; auto].
Qed.

(** Two predicted values agree when the fields agree around the parent. *)
Lemma predicted_local : forall n order u u' x y q q', length y = n ->
  (forall p, length p = S n -> near n (Z.of_nat order) p (ancestor 1 (x :: y)) -> (value_at u p == value_at u' p)%Q) ->
  is_predicted order u x y q -> is_predicted order u' x y q' -> (q == q')%Q.
Proof.
  intros n order u u' x y q q' Ly H (ws & E & Hin) (ws' & E' & Hin').
  rewrite prediction_true_spec in E, E' by reflexivity. injection E as <-. injection E' as <-.
  apply in_flat_map in Hin as (par & Hp & Hin). apply in_map_iff in Hin as (x1 & E1 & H1).
  apply in_flat_map in Hin' as (par' & Hp' & Hin'). apply in_map_iff in Hin' as (x2 & E2 & H2).
  rewrite strided_one in H1, H2. destruct H1 as [<-|[]], H2 as [<-|[]].
  apply pair_equal_spec in E1 as [E1 <-]. apply pair_equal_spec in E2 as [E2 <-].
  apply pair_equal_spec in E1 as [E1 E1']. apply pair_equal_spec in E2 as [E2 E2'].
  assert (par = par') as <-.
  { apply (parities_In (S (length (ancestor 1 y)))) in Hp. apply (parities_In (S (length (ancestor 1 y)))) in Hp'. destruct par as [|b par], par' as [|b' par']; try discriminate. cbn [length] in Hp, Hp'.
    unfold finer in E1, E2. cbn [hd tl] in *. f_equal; [destruct b, b'; cbn [bz] in *; auto; lia|].
    assert (E3 : fine_row (ancestor 1 y) par = fine_row (ancestor 1 y) par') by congruence. clear - E3 Hp Hp'. rename E3 into E1'.
    assert (La : length (ancestor 1 y) = length par) by lia. assert (Lb : length (ancestor 1 y) = length par') by lia.
    revert par par' La Lb E1' Hp Hp'. generalize (ancestor 1 y). intros l. induction l as [|a l IH]; intros par par' La Lb E _ _.
    - destruct par, par'; auto; discriminate.
    - destruct par as [|b par], par' as [|b' par']; try discriminate. unfold fine_row in E. cbn [combine map] in E.
      pose proof (f_equal (hd 0) E) as E0. pose proof (f_equal (@tl Z) E) as E1. cbn [hd tl] in E0, E1.
      f_equal; [destruct b, b'; cbn [bz] in E0; auto; lia|]. apply IH; cbn in *; auto. }
  apply pred_cell_local. intros x' yz' L' N. rewrite ancestor_length in L', N. rewrite Ly in *.
  apply (H (x' :: yz')); [cbn; lia|]. rewrite ancestor_cons. change (2 ^ Z.of_nat 1) with 2. auto.
Qed.

Lemma mean_local : forall u u' x y q q', (forall cx cy, In (cx, cy) (children x y) -> (u cx cy == u' cx cy)%Q) ->
  is_mean u x y q -> is_mean u' x y q' -> (q == q')%Q.
Proof.
  intros u u' x y q q' H M M'. unfold is_mean in *.
  assert (E : (qsum (map (fun c => u (fst c) (snd c)) (children x y)) == qsum (map (fun c => u' (fst c) (snd c)) (children x y)))%Q).
  { revert H. generalize (children x y). intros l. induction l as [|[a b] l IH]; intros H; [reflexivity|]. cbn [map qsum fold_right fst snd].
    change (fold_right Qplus 0%Q) with qsum. rewrite IH by (intros; apply H; right; auto). rewrite (H a b) by (left; auto). reflexivity. }
  rewrite E, <- M' in M. assert (P : ~ (inject_Z (2 ^ Z.of_nat (S (length y))) == 0)%Q).
  { intros X. assert (0 < 2 ^ Z.of_nat (S (length y))) by (apply Z.pow_pos_nonneg; lia). unfold Qeq in X. cbn [inject_Z Qnum Qden] in X. lia. }
  apply Qmult_inj_r in M; auto.
Qed.

(** ** The loops over the levels *)
Lemma fits_le : forall n a l, below_max n a -> (l <= a_level a)%nat -> fits n l a.
Proof.
  intros n a l H Hl q k Hq Hk. replace (Z.max 0 (Z.of_nat l - Z.of_nat (a_level a))) with 0 by lia. pose proof (H q k Hq Hk). lia.
Qed.

Lemma is_mean_same : forall u u' x y q, (forall cx cy, In (cx, cy) (children x y) -> u cx cy = u' cx cy) -> is_mean u x y q -> is_mean u' x y q.
Proof.
  intros u u' x y q H M. unfold is_mean in *. rewrite M. replace (map (fun c => u (fst c) (snd c)) (children x y)) with (map (fun c => u' (fst c) (snd c)) (children x y)); [reflexivity|].
  apply map_ext_in. intros [a b] Hin. symmetry. auto.
Qed.

Section Levels.
  Variables (n order m minl maxl : nat) (cells : ca) (r : mr_mesh) (sub : lca) (bc : nat -> lfield -> option lfield) (dom : nat -> list Z -> Prop).
  Notation all l p := (lca_mem n (c_at (r_all r) l) p).
  Notation proj l p := (lca_mem n (c_at (r_proj r) l) p).
  Notation leaf l p := (lca_mem n (c_at cells l) p).

  Hypothesis dim : (n <= 2)%nat.
  Hypothesis top : (maxl <= m)%nat.
  Hypothesis wfs : forall c l, c = cells \/ c = r_proj r \/ c = r_all r -> (l <= m)%nat -> wf n (c_at c l) /\ a_level (c_at c l) = l.
  Hypothesis wf_sub : wf n sub /\ a_level sub = maxl /\ below_max n sub.
  Hypothesis proj_all : forall l p, (l <= m)%nat -> proj l p -> all l p.
  Hypothesis leaf_all : forall l p, (l <= m)%nat -> leaf l p -> all l p.
  Hypothesis all_small : forall l p k, (l <= m)%nat -> all l p -> (k <= n)%nat -> 2 * (nth k p 0 + 3) < 2 ^ 31 - 1 /\ nth k p 0 + 3 < 2 ^ 31 - 1.
  Hypothesis proj_kids : forall l p, (S l <= m)%nat -> length p = S n -> proj l (ancestor 1 p) -> all (S l) p.
  Hypothesis sub_dom : forall l p, (l <= maxl)%nat -> length p = S n -> (denotes n l p (NMesh sub) <-> dom l p).

  (** The cells of level [l] computed by prediction. *)
  Definition topredict (l : nat) (p : list Z) : Prop :=
    all l p /\ ~ leaf l p /\ ~ proj l p /\ dom l p /\ all (Nat.pred l) (ancestor 1 p).

  Lemma small_below : forall c l, c = cells \/ c = r_proj r \/ c = r_all r -> (l <= m)%nat -> below_max n (c_at c l).
  Proof.
    intros c l Hc Hl q k Hq Hk. apply (all_small l q k Hl); auto. destruct Hc as [->|[->| ->]]; auto.
  Qed.

  Lemma projection_step_spec : forall v l, (S l <= m)%nat -> exists v', projection_step n r v (S l) = Some v' /\
    (forall k, k <> l -> v' k = v k) /\
    forall x y, (proj l (x :: y) /\ is_mean (v (S l)) x y (v' l x y)) \/ (~ proj l (x :: y) /\ v' l x y = v l x y).
  Proof.
    intros v l Hl. assert (Hl' : (l <= m)%nat) by lia. unfold projection_step. cbn [Nat.pred].
    destruct (wfs (r_all r) (S l)) as [Wa La]; auto. destruct (wfs (r_proj r) l) as [Wp Lp]; auto. destruct (wfs (r_all r) l) as [Wa' La']; auto.
    destruct (inter_spec n (c_at (r_all r) (S l)) (c_at (r_proj r) l) l Wa Wp) as (calls & E & V & _ & _ & M).
    { rewrite La, Lp. replace (Nat.min l (Nat.max (S l) l)) with l by lia.
      apply fits_le; [apply small_below; auto|lia]. }
    { rewrite La, Lp. replace (Nat.min l (Nat.max (S l) l)) with l by lia.
      apply fits_le; [apply small_below; auto|lia]. }
    assert (HC : forall p, In p (cells_of_calls calls) <-> proj l p).
    { intros p. rewrite M. split.
      - intros (Hp & _ & D). apply (same_denotes n _ l p Lp Hp). auto.
      - intros Hp. assert (Lq : length p = S n) by apply Hp. split; auto. split; [|apply same_denotes; auto].
        rewrite denotes_mesh_coarse by lia. rewrite La. replace (S l - l)%nat with 1%nat by lia.
        destruct (descend 1 p) as (z & Lz & Az). exists z. split; auto. apply proj_kids; [auto|lia|]. rewrite Az. auto. }
    destruct (apply_op_spec n l (on (inter (c_at (r_all r) (S l)) (c_at (r_proj r) l)) l) (projection_ghost n (r_all r) (S l) (v (S l))) v calls
        (fun i yz x y => y = yz /\ In x (strided i)) (fun x y q => is_mean (v (S l)) x y q) E) as (v1 & E1 & F1 & P1).
    { intros i yz Hin. destruct (V i yz Hin) as (H1 & _ & H2). apply projection_ghost_spec; auto; [lia|].
      intros x Hx. assert (Hp : proj l (x :: yz)).
      { apply HC. apply cells_of_calls_step; [intros i' yz' H'; apply (V i' yz' H')|]. eauto. }
      cbn [Nat.pred]. split.
      - apply stored_mem; auto. cbn. lia.
      - intros cx cyz Hc. apply children_In in Hc as (Ec & L & A). apply stored_mem; auto; [cbn; lia|]. apply proj_kids; auto; [cbn; lia|].
        rewrite ancestor_cons. change (2 ^ Z.of_nat 1) with 2. rewrite Ec, A. auto. }
    exists v1. split; auto. split; auto. intros x y.
    assert (X : (exists i yz, In (i, yz) calls /\ y = yz /\ In x (strided i)) <-> proj l (x :: y)).
    { rewrite <- HC, cells_of_calls_step by (intros i yz Hin; apply (V i yz Hin)). split; [intros (i & yz & H1 & -> & H2)|intros (i & H1 & H2)]; eauto. }
    rewrite <- X. apply P1.
  Qed.

  Lemma predicted_set_spec : forall l, (1 <= l <= maxl)%nat ->
    exists calls, subset_calls n (predicted_set cells r sub l) = Some calls /\
      (forall i yz, In (i, yz) calls -> length yz = n /\ istart i < iend i) /\
      forall p, In p (cells_of_calls calls) <-> topredict l p.
  Proof.
    intros l Hl. unfold predicted_set. rewrite on_make_op. set (t := Nd Intersect _).
    destruct (wfs (r_all r) l) as [Wa La]; [auto|lia|]. destruct (wfs (r_proj r) l) as [Wp Lp]; [auto|lia|].
    destruct (wfs (r_all r) (Nat.pred l)) as [Wa' La']; [auto|lia|]. destruct (wfs cells l) as [Wc Lc]; [auto|lia|].
    destruct wf_sub as (Ws & Ls & Bs).
    assert (F : finest t = maxl) by (unfold finest, t; cbn; rewrite La, Lp, Lc, La', Ls; lia).
    assert (HO : operands_ok n l t).
    { intros lf Hlf. rewrite F. replace (Nat.min l maxl) with l by lia. unfold t in Hlf. cbn [tin ain] in Hlf.
      destruct Hlf as [[->|[->| ->]]|[->| ->]]; cbn [l_node leaf_of]; unfold operand_ok; cbn [simple node_mesh node_vect];
        (split; [exact I|]); (split; [auto|]); intros q k Hq Hk; rewrite ?La, ?Lp, ?Lc, ?La', ?Ls, vadd_nil by apply Hq.
      - replace (Z.max 0 (Z.of_nat l - Z.of_nat l)) with 0 by lia. pose proof (small_below (r_all r) l ltac:(auto) ltac:(lia) q k Hq Hk). lia.
      - replace (Z.max 0 (Z.of_nat l - Z.of_nat l)) with 0 by lia. pose proof (small_below cells l ltac:(auto) ltac:(lia) q k Hq Hk). lia.
      - replace (Z.max 0 (Z.of_nat l - Z.of_nat l)) with 0 by lia. pose proof (small_below (r_proj r) l ltac:(auto) ltac:(lia) q k Hq Hk). lia.
      - replace (Z.max 0 (Z.of_nat l - Z.of_nat maxl)) with 0 by lia. pose proof (Bs q k Hq Hk). lia.
      - replace (Z.max 0 (Z.of_nat l - Z.of_nat (Nat.pred l))) with 1 by lia. pose proof (all_small (Nat.pred l) q k ltac:(lia) Hq Hk). lia. }
    destruct (C18_levels n l t HO) as (calls & E & V & _ & _ & C). exists calls. split; auto. split; auto.
    assert (X : forall p, length p = S n -> (expr_mem n l t p <-> topredict l p)).
    { intros p Lq. unfold expr_mem, t, topredict. cbn. rewrite !same_denotes, sub_dom by (auto; lia). rewrite denotes_mesh_fine by lia.
      rewrite La'. replace (l - Nat.pred l)%nat with 1%nat by lia. tauto. }
    intros p. split.
    - intros Hin. assert (Hp : length p = S n).
      { apply visited_In in Hin as (i & yz & x & Hin & _ & ->). cbn [length]. f_equal. apply (V i yz Hin). }
      apply X; auto. apply C; auto.
    - intros Ht. assert (Hp : length p = S n) by apply Ht. apply C; auto. apply X; auto.
  Qed.

  (** The cells around the parent of a cell to predict are stored. *)
  Definition stencil_at (l : nat) : Prop := forall p q, topredict l p -> length q = S n -> near n (Z.of_nat order) q (ancestor 1 p) -> all (Nat.pred l) q.

  Lemma predict_spec : forall v l, (1 <= l <= maxl)%nat -> stencil_at l -> exists v',
    apply_op n l (predicted_set cells r sub l) (prediction_ghost n order (r_all r) l (v (Nat.pred l))) v = Some v' /\
    (forall k, k <> l -> v' k = v k) /\
    forall x y, (topredict l (x :: y) /\ is_predicted order (v (Nat.pred l)) x y (v' l x y)) \/ (~ topredict l (x :: y) /\ v' l x y = v l x y).
  Proof.
    intros v l Hl HS. destruct (predicted_set_spec l Hl) as (calls & E & V & HC).
    destruct (wfs (r_all r) l) as [Wa La]; [auto|lia|]. destruct (wfs (r_all r) (Nat.pred l)) as [Wa' La']; [auto|lia|].
    assert (V1 : forall i yz, In (i, yz) calls -> istep i = 1) by (intros i yz Hin; eapply subset_calls_step; eauto).
    destruct (apply_op_spec n l (predicted_set cells r sub l) (prediction_ghost n order (r_all r) l (v (Nat.pred l))) v calls
        (fun i yz x y => y = yz /\ In x (strided i)) (fun x y q => is_predicted order (v (Nat.pred l)) x y q) E) as (v1 & E1 & F1 & P1).
    { intros i yz Hin. destruct (V i yz Hin) as (H1 & _). apply prediction_ghost_spec; eauto.
      intros x Hx. assert (Hp : topredict l (x :: yz)) by (apply HC; apply cells_of_calls_step; eauto). split.
      - apply stored_mem; auto; [cbn; lia|apply Hp].
      - intros p Lq Np. apply stored_mem; auto. apply (HS (x :: yz)); auto. }
    exists v1. split; auto. split; auto. intros x y.
    assert (X : (exists i yz, In (i, yz) calls /\ y = yz /\ In x (strided i)) <-> topredict l (x :: y)).
    { rewrite <- HC, cells_of_calls_step by eauto. split; [intros (i & yz & H1 & -> & H2)|intros (i & H1 & H2)]; eauto. }
    rewrite <- X. apply P1.
  Qed.

  (** *** First loop *)
  Lemma projection_loop : forall c a v, (a + c <= m)%nat -> exists v', fold_levels (projection_step n r) (rev (seq (S a) c)) v = Some v' /\
    (forall l, (l < a \/ a + c <= l)%nat -> v' l = v l) /\
    forall l x y, (a <= l < a + c)%nat ->
      (proj l (x :: y) /\ is_mean (v' (S l)) x y (v' l x y)) \/ (~ proj l (x :: y) /\ v' l x y = v l x y).
  Proof.
    induction c as [|c IH]; intros a v Hc.
    - exists v. split; auto. split; auto. intros; lia.
    - rewrite seq_S, rev_app_distr. cbn [rev app fold_levels]. replace (S a + c)%nat with (S (a + c)) by lia.
      destruct (projection_step_spec v (a + c)) as (v1 & E1 & F1 & P1); [lia|]. rewrite E1.
      destruct (IH a v1) as (v2 & E2 & F2 & P2); [lia|]. exists v2. split; auto. split.
      + intros l Hl. rewrite F2, F1 by lia. auto.
      + intros l x y Hl. destruct (Nat.eq_dec l (a + c)) as [->|Hne].
        * rewrite !F2 by lia. rewrite (F1 (S (a + c))) by lia. apply P1.
        * destruct (P2 l x y) as [H|[H1 H2]]; [lia|left; auto|right]. split; auto. rewrite H2, F1 by lia. auto.
  Qed.

  (** *** The boundary conditions *)

  (** Boundary conditions change only stored cells outside the domain, on their level. *)
  Definition bc_outside : Prop := forall l u, (l <= maxl)%nat -> exists v, bc l u = Some v /\ (forall k, k <> l -> v k = u k) /\
    forall x y, dom l (x :: y) \/ ~ all l (x :: y) -> v l x y = u l x y.

  (** [b] is what the boundary conditions make of [a] on level [l]. *)
  Definition bc_done (l : nat) (a b : field) : Prop := exists u v, bc l u = Some v /\ u l = a /\ v l = b.

  Hypothesis HB : bc_outside.

  Lemma bc_done_same : forall l a b x y, (l <= maxl)%nat -> bc_done l a b -> dom l (x :: y) \/ ~ all l (x :: y) -> b x y = a x y.
  Proof.
    intros l a b x y Hl (u & v & E & <- & <-) H. destruct (HB l u Hl) as (v' & E' & _ & S). rewrite E in E'. injection E' as <-. auto.
  Qed.

  Lemma bc_step : forall l u, (l <= maxl)%nat -> exists v, bc l u = Some v /\ (forall k, k <> l -> v k = u k) /\ bc_done l (u l) (v l).
  Proof. intros l u Hl. destruct (HB l u Hl) as (v & E & F & _). exists v. split; auto. split; auto. exists u, v. auto. Qed.

  (** *** Second loop *)
  Lemma prediction_loop : forall c a v, (a + c <= maxl)%nat -> (forall l, (a < l <= a + c)%nat -> stencil_at l) ->
    exists v', fold_levels (prediction_step n order bc cells r sub) (seq (S a) c) v = Some v' /\
    (forall l, (l <= a \/ a + c < l)%nat -> v' l = v l) /\
    forall l, (a < l <= a + c)%nat -> exists mid, bc_done l mid (v' l) /\
      forall x y, (topredict l (x :: y) /\ is_predicted order (v' (Nat.pred l)) x y (mid x y)) \/ (~ topredict l (x :: y) /\ mid x y = v l x y).
  Proof.
    induction c as [|c IH]; intros a v Hc HS.
    - exists v. split; auto. split; auto. intros; lia.
    - rewrite seq_S, fold_levels_app. destruct (IH a v) as (v1 & E1 & F1 & P1); [lia|intros; apply HS; lia|]. rewrite E1.
      replace (S a + c)%nat with (S (a + c)) by lia. cbn [fold_levels]. unfold prediction_step.
      destruct (predict_spec v1 (S (a + c))) as (v2 & E2 & F2 & P2); [lia|apply HS; lia|]. rewrite E2.
      destruct (bc_step (S (a + c)) v2) as (v3 & E3 & F3 & B3); [lia|]. rewrite E3.
      exists v3. split; auto. split.
      + intros l Hl. rewrite F3, F2, F1 by lia. auto.
      + intros l Hl. destruct (Nat.eq_dec l (S (a + c))) as [->|Hne].
        * exists (v2 (S (a + c))). split; auto. intros x y. cbn [Nat.pred] in *. rewrite (F3 (a + c)%nat), (F2 (a + c)%nat) by lia.
          rewrite <- (F1 (S (a + c))) by lia. apply P2.
        * destruct (P1 l) as (mid & H1 & H2); [lia|]. exists mid. rewrite (F3 l), (F2 l), (F3 (Nat.pred l)), (F2 (Nat.pred l)) by lia. auto.
  Qed.

  (** *** The whole update *)
  Notation lmin := (min_level (r_all r)).
  Notation lmax := (max_level (r_all r)).
  Hypothesis levels : (lmin <= lmax <= maxl)%nat.
  Hypothesis HS : forall l, (lmin < l <= lmax)%nat -> stencil_at l.
  Hypothesis split_dom : forall l p, (lmin <= l < lmax)%nat -> length p = S n -> proj l (ancestor 1 p) -> dom (S l) p /\ ~ topredict (S l) p.
  Hypothesis proj_dom : forall l p, (l <= m)%nat -> proj l p -> dom l p /\ (lmin <= l < lmax)%nat.

  Lemma update_spec : forall u, exists v, update_ghost_mr n order bc cells r sub u = Some v /\
    (forall l x y, (l <= m)%nat -> proj l (x :: y) -> is_mean (v (S l)) x y (v l x y)) /\
    (forall l x y, (lmin < l <= lmax)%nat -> topredict l (x :: y) -> is_predicted order (v (Nat.pred l)) x y (v l x y)) /\
    (forall l x y, dom l (x :: y) -> ~ proj l (x :: y) -> ~ ((lmin < l <= lmax)%nat /\ topredict l (x :: y)) -> v l x y = u l x y) /\
    (forall l x y, (lmax < l)%nat \/ ~ all l (x :: y) -> v l x y = u l x y) /\
    (forall l, (lmin <= l <= lmax)%nat -> exists pre, bc_done l pre (v l) /\ forall x y, dom l (x :: y) -> pre x y = v l x y).
  Proof.
    intros u. unfold update_ghost_mr.
    destruct (projection_loop (lmax - lmin) lmin u) as (v1 & E1 & F1 & P1); [lia|]. cbv zeta. rewrite E1. replace (lmin + (lmax - lmin))%nat with lmax in * by lia.
    assert (X2 : exists v2, (if Nat.ltb 0 lmin && negb (Nat.eqb lmin lmax) then bc (Nat.pred lmin) v1 else Some v1) = Some v2 /\
      (forall k, (k + 1)%nat <> lmin -> v2 k = v1 k) /\ forall l x y, dom l (x :: y) \/ ~ all l (x :: y) -> v2 l x y = v1 l x y).
    { destruct (Nat.ltb 0 lmin && negb (Nat.eqb lmin lmax)) eqn:Ec; [|exists v1; auto].
      apply andb_prop in Ec as [Ec _]. apply Nat.ltb_lt in Ec. destruct (HB (Nat.pred lmin) v1) as (v2 & E2 & F2 & S2); [lia|].
      exists v2. split; auto. split; [intros k Hk; apply F2; lia|]. intros l x y H.
      destruct (Nat.eq_dec l (Nat.pred lmin)) as [->|Hne]; [apply S2; auto|rewrite F2; auto]. }
    destruct X2 as (v2 & E2 & F2 & S2). rewrite E2.
    destruct (bc_step lmin v2) as (v3 & E3 & F3 & B3); [lia|]. rewrite E3.
    destruct (prediction_loop (lmax - lmin) lmin v3) as (v & E & F & P); [lia|intros; apply HS; lia|]. replace (lmin + (lmax - lmin))%nat with lmax in * by lia.
    exists v. split; auto.
    assert (G3 : forall l x y, dom l (x :: y) \/ ~ all l (x :: y) -> v3 l x y = v1 l x y).
    { intros l x y H. rewrite <- S2 by auto. destruct (Nat.eq_dec l lmin) as [->|Hne]; [|rewrite F3; auto].
      apply (bc_done_same lmin); auto; lia. }
    assert (G : forall l x y, dom l (x :: y) \/ ~ all l (x :: y) -> ~ ((lmin < l <= lmax)%nat /\ topredict l (x :: y)) -> v l x y = v1 l x y).
    { intros l x y H Ht. rewrite <- G3 by auto. destruct (Nat.le_gt_cases l lmin) as [Hle|Hgt]; [rewrite F by lia; auto|].
      destruct (Nat.le_gt_cases l lmax) as [Hle2|Hgt2]; [|rewrite F by lia; auto].
      destruct (P l) as (mid & H1 & H2); [lia|]. rewrite (bc_done_same l mid _ x y) by (auto; lia).
      destruct (H2 x y) as [[H3 _]|[_ H3]]; auto. exfalso. apply Ht. split; auto; lia. }
    split; [|split; [|split; [|split]]].
    - intros l x y Hl Hp. destruct (proj_dom l (x :: y) Hl Hp) as [Hd Hl2].
      assert (Lp : length (x :: y) = S n) by apply Hp.
      destruct (P1 l x y Hl2) as [[_ Hm]|[Hn _]]; [|contradiction].
      rewrite (G l x y); auto; [|intros (_ & _ & _ & Hn & _); auto].
      eapply is_mean_same; [|exact Hm]. intros cx cy Hc. apply children_In in Hc as (Ec & Lc & Ac).
      destruct (split_dom l (cx :: cy)) as [D1 D2]; auto; [cbn in *; lia| |].
      + rewrite ancestor_cons. change (2 ^ Z.of_nat 1) with 2. rewrite Ec, Ac. auto.
      + symmetry. apply G; auto. intros [_ Ht]; auto.
    - intros l x y Hl Ht. destruct (P l) as (mid & H1 & H2); [lia|].
      rewrite (bc_done_same l mid _ x y); auto; [|lia|left; apply Ht]. destruct (H2 x y) as [[_ H3]|[H3 _]]; auto. contradiction.
    - intros l x y Hd Hp Ht. rewrite G by auto. destruct (Nat.le_gt_cases lmin l) as [Hle|Hgt]; [|rewrite F1 by lia; auto].
      destruct (Nat.le_gt_cases lmax l) as [Hle2|Hgt2]; [rewrite F1 by lia; auto|].
      destruct (P1 l x y) as [[H _]|[_ H]]; [lia|contradiction|auto].
    - intros l x y [Ha|Ha]; [rewrite F, F3, F2, F1 by lia; auto|]. rewrite G; auto; [|intros [_ Ht]; apply Ha; apply Ht].
      destruct (Nat.le_gt_cases lmin l) as [Hle|Hgt]; [|rewrite F1 by lia; auto].
      destruct (Nat.le_gt_cases lmax l) as [Hle2|Hgt2]; [rewrite F1 by lia; auto|].
      destruct (P1 l x y) as [[H _]|[_ H]]; [lia| |auto]. exfalso. apply Ha. apply proj_all; auto. lia.
    - intros l Hl. assert (X : exists pre, bc_done l pre (v l)).
      { destruct (Nat.eq_dec l lmin) as [->|Hne]; [exists (v2 lmin); rewrite F by lia; auto|]. destruct (P l) as (mid & H1 & _); [lia|eauto]. }
      destruct X as (pre & B). exists pre. split; auto. intros x y Hd. symmetry. apply (bc_done_same l); auto. lia.
  Qed.
End Levels.
