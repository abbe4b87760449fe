(** Proofs about the traversal of interior interfaces. *)
From Verif Require Import Base IntervalModel Spec LoiModel LcaModel LcaSpec LcaProofs LcaProofs3 RowsProofs CellArrayModel CellArrayProofs
  PropsLca PropsCellArray SubsetModel TreeProofs SubsetSpec SubsetProofs2 PropsSubset StencilModel NumberingProofs StencilProofs PropsStencil
  MeshModel MeshProofs PropsMesh AdaptModel AdaptProofs TagProofs PropsAdapt GradModel GradProofs PropsGrad InterfaceModel.
Open Scope Z_scope.

(** ** The sets *)
Lemma shifted_inter_spec : forall n a b v ref, wf n a -> wf n b -> a_level a = ref \/ S (a_level a) = ref -> a_level b = ref ->
  (forall q k, lca_mem n a q -> (k <= n)%nat -> (nth k q 0 + 2) * 2 ^ Z.of_nat (ref - a_level a) + 1 < 2 ^ 31 - 1) ->
  (forall q k, lca_mem n b q -> (k <= n)%nat -> nth k q 0 + nth k v 0 + 3 < 2 ^ 31 - 1) ->
  exists calls, subset_calls n (on (shifted_inter a b v) ref) = Some calls /\
    (forall i yz, In (i, yz) calls -> length yz = n /\ istart i < iend i) /\ NoDup (cells_of_calls calls) /\
    (forall i j yz, In (i, yz) calls -> In (j, yz) calls -> i <> j -> iend i < istart j \/ iend j < istart i) /\
    forall p, In p (cells_of_calls calls) <-> length p = S n /\ lca_mem n a (ancestor (ref - a_level a) p) /\ lca_mem n b (vadd n p (vopp v)).
Proof.
  intros n a b v ref Wa Wb La Lb Ba Bb. unfold shifted_inter. rewrite on_make_op.
  set (t := Nd Intersect (More (Lf (leaf_of (NMesh a))) (One (Lf (leaf_of (NTrans v (NMesh b))))))).
  assert (F : finest t = ref) by (transitivity (Nat.max (a_level a) (a_level b)); [reflexivity|lia]).
  assert (HO : operands_ok n ref t).
  { intros lf Hlf. rewrite F, Nat.min_id. unfold t in Hlf. cbn [tin ain] in Hlf.
    destruct Hlf as [->| ->]; cbn [l_node leaf_of]; unfold operand_ok; cbn [simple node_mesh node_vect]; spl; auto; intros q k Hq Hk.
    - rewrite vadd_nil by apply Hq. replace (Z.max 0 (Z.of_nat ref - Z.of_nat (a_level a))) with (Z.of_nat (ref - a_level a)) by lia. auto.
    - rewrite nth_vadd by auto. rewrite Lb. replace (Z.max 0 (Z.of_nat ref - Z.of_nat ref)) with 0 by lia. specialize (Bb q k Hq Hk). lia. }
  destruct (C18_levels n ref t HO) as (calls & E & V & N & S & M). exists calls. rewrite F in S. destruct (S (le_n _)) as [_ G].
  split; auto. split; auto. split; auto. split; auto.
  assert (KEY : forall p, length p = Datatypes.S n -> (In p (cells_of_calls calls) <-> lca_mem n a (ancestor (ref - a_level a) p) /\ lca_mem n b (vadd n p (vopp v)))).
  { intros p Lp. rewrite (M p Lp). unfold expr_mem, t. cbn [tmap tsem]. 
    assert (E1 : denotes n ref p (NMesh a) <-> lca_mem n a (ancestor (ref - a_level a) p)) by (apply denotes_mesh_fine; [lia|auto]).
    assert (E2 : denotes n ref p (NTrans v (NMesh b)) <-> lca_mem n b (vadd n p (vopp v)))
      by (rewrite <- Lb; apply (denotes_same n p (NTrans v (NMesh b)) Lp)).
    split; [intros [H1 H2]|intros [H1 H2]]; split; first [apply E1|apply E2]; auto. }
  intros p. split.
  - intros Hp. assert (Lp : length p = Datatypes.S n).
    { unfold cells_of_calls in Hp. apply in_flat_map in Hp as ([i yz] & Hin & Hp). apply in_map_iff in Hp as (x & <- & _).
      cbn [length]. f_equal. apply (V i yz Hin). }
    split; auto. apply KEY; auto.
  - intros [Lp H]. apply KEY; auto.
Qed.

Lemma shifted_inter_level : forall a b v, s_ref (shifted_inter a b v) = Nat.max (a_level a) (a_level b).
Proof. reflexivity. Qed.
Lemma shifted_inter_on : forall a b v, shifted_inter a b v = on (shifted_inter a b v) (Nat.max (a_level a) (a_level b)).
Proof. intros. unfold shifted_inter. rewrite on_make_op. reflexivity. Qed.

(** ** Sets and lists of cells *)
Lemma Forall2_app_ : forall (A B : Type) (R : A -> B -> Prop) a b c d, Forall2 R a c -> Forall2 R b d -> Forall2 R (a ++ b) (c ++ d).
Proof. intros A B R a b c d H1 H2. induction H1; cbn [app]; auto. Qed.

Lemma concat_calls_spec : forall (A : Type) (R : list Z -> A -> Prop) f calls,
  (forall i yz, In (i, yz) calls -> exists out, f (i, yz) = Some out /\ Forall2 R (map (fun x => x :: yz) (zrange (istart i) (iend i))) out) ->
  exists out, concat_calls f calls = Some out /\ Forall2 R (cells_of_calls calls) out.
Proof.
  intros A R f calls. induction calls as [|[i yz] calls IH]; intros H; [exists []; split; auto; constructor|].
  destruct (H i yz) as (o1 & E1 & R1); [left; auto|]. destruct IH as (o2 & E2 & R2); [intros; apply H; right; auto|].
  exists (o1 ++ o2). cbn [concat_calls]. rewrite E1, E2. split; auto. unfold cells_of_calls. cbn [flat_map]. apply Forall2_app_; auto.
Qed.

Lemma Forall2_nth_ : forall (A B : Type) (R : A -> B -> Prop) a b, length a = length b ->
  (forall k x y, nth_error a k = Some x -> nth_error b k = Some y -> R x y) -> Forall2 R a b.
Proof.
  intros A B R a. induction a as [|x a IH]; intros [|y b] L H; try discriminate; [constructor|]. constructor.
  - apply (H 0%nat); auto.
  - apply IH; [cbn in L; lia|]. intros k. apply (H (S k)).
Qed.

Lemma zrange_nth : forall a b k x, nth_error (zrange a b) k = Some x -> x = a + Z.of_nat k /\ Z.of_nat k < b - a.
Proof.
  intros a b k x H. unfold zrange in H. rewrite nth_error_map in H.
  destruct (nth_error (seq 0 (Z.to_nat (b - a))) k) as [j|] eqn:E; [|discriminate]. cbn in H. injection H as <-.
  assert (L : (k < length (seq 0 (Z.to_nat (b - a))))%nat) by (apply nth_error_Some; congruence). rewrite seq_length in L.
  rewrite (nth_error_nth' _ 0%nat) in E by (rewrite seq_length; auto). rewrite seq_nth in E by auto. injection E as <-. cbn [Nat.add]. lia.
Qed.
Lemma zrange_length : forall a b, length (zrange a b) = Z.to_nat (b - a).
Proof. intros. unfold zrange. rewrite map_length, seq_length. auto. Qed.

(** ** Cells handed to the callback *)
Definition cell_is (n : nat) (ref : ca) (l : nat) (p : list Z) (e : scell) : Prop :=
  sc_level e = l /\ sc_coord e = p /\ ca_get_index n ref l p = Some (sc_index e).

(** The translates of [z] by the stencil are in the reference mesh, and so are the
    cells between [z] and the ones on its row. *)
Definition fits_at (n : nat) (ref : ca) (s : stencil) (l : nat) (z : list Z) : Prop :=
  (forall v, In v s -> ca_mem n ref l (vadd n z v)) /\
  (forall v x, In v s -> (forall k, (1 <= k <= n)%nat -> nth k v 0 = 0) -> Z.min 0 (nth 0 v 0) <= x <= Z.max 0 (nth 0 v 0) ->
     ca_mem n ref l (hd 0 z + x :: tl z)).

Lemma fits_stencil : forall n ref s l i yz, (forall v, In v s -> length v = S n) -> In (repeat 0 (S n)) s -> length yz = n -> istart i < iend i ->
  (forall x, in_i i x -> fits_at n ref s l (x :: yz)) -> stencil_fits n ref s (mkMI l i yz).
Proof.
  intros n ref s l i yz H1 H2 H3 H4 H5. unfold stencil_fits. cbn [mi_i mi_index mi_level].
  split; auto. split; auto. split; auto. split; auto. split.
  - intros v x Hv Hx. apply (proj1 (H5 x Hx)); auto.
  - intros v x Hv H0 Hx. apply (proj2 (H5 (istart i) ltac:(unfold in_i; lia)) v x Hv H0 Hx).
Qed.

(** The cells of a sliding stencil. *)
Lemma slide_cells : forall n ref s l i yz, numbered n ref -> stencil_fits n ref s (mkMI l i yz) ->
  exists es, stencil_init n ref s (mkMI l i yz) = Some es /\
    forall k, Z.of_nat k < iend i - istart i ->
      Forall2 (fun v e => cell_is n ref l (vadd n (istart i + Z.of_nat k :: yz) v) e) s (map (move_cell (Z.of_nat k) (Z.of_nat k)) es).
Proof.
  intros n ref s l i yz N F. destruct (init_spec n ref s _ N F) as (es & E & A). exists es. split; auto. intros k Hk.
  apply Forall2_nth_; [rewrite map_length; clear - A; induction A; cbn; auto|]. intros id v e Hv He.
  rewrite nth_error_map in He. destruct (nth_error es id) as [e0|] eqn:E0; [|discriminate]. cbn in He. injection He as <-.
  destruct (moved_entry n ref s _ N F v e0 (Z.of_nat k)) as (M1 & M2 & M3).
  - eapply nth_error_In; eauto.
  - cbn [mi_i]. lia.
  - clear - A Hv E0. revert id v e0 Hv E0. induction A as [|a b sa sb Hab A IH]; intros id v e0 Hv He; [destruct id; discriminate|].
    destruct id; cbn [nth_error] in *; [injection Hv as <-; injection He as <-; exact Hab|exact (IH id v e0 Hv He)].
  - cbn [mi_i mi_index mi_level] in *. unfold cell_is. rewrite M2 in *. auto.
Qed.

(** ** Interfaces between cells of one level *)
Definition same_call (n : nat) (ref : ca) (l : nat) (dir : list Z) (comput : stencil) (z : list Z) (f : iface) : Prop :=
  (exists a b, fst f = [a; b] /\ cell_is n ref l z a /\ cell_is n ref l (vadd n z dir) b) /\
  Forall2 (fun v e => cell_is n ref l (vadd n z v) e) comput (snd f).

Lemma same_interval_spec : forall n ref l dir comput i yz, numbered n ref -> length dir = S n ->
  (forall v, In v comput -> length v = S n) -> In (repeat 0 (S n)) comput -> length yz = n -> istart i < iend i ->
  (forall x, in_i i x -> fits_at n ref (in_out_stencil n dir) l (x :: yz) /\ fits_at n ref comput l (x :: yz)) ->
  exists out, same_level_interval n ref dir comput (mkMI l i yz) = Some out /\
    Forall2 (same_call n ref l dir comput) (map (fun x => x :: yz) (zrange (istart i) (iend i))) out.
Proof.
  intros n ref l dir comput i yz N Ld Hc Hz Ly Hi HF.
  assert (F1 : stencil_fits n ref (in_out_stencil n dir) (mkMI l i yz)).
  { apply fits_stencil; auto; [|left; auto|intros x Hx; apply (HF x Hx)]. intros v [<-|[<-|[]]]; auto using repeat_length. }
  assert (F2 : stencil_fits n ref comput (mkMI l i yz)) by (apply fits_stencil; auto; intros x Hx; apply (HF x Hx)).
  destruct (slide_cells _ _ _ _ _ _ N F1) as (e1 & E1 & C1). destruct (slide_cells _ _ _ _ _ _ N F2) as (e2 & E2 & C2).
  unfold same_level_interval, for_each_stencil_sliding. rewrite E1, E2. cbn [mi_i]. eexists. split; [reflexivity|].
  apply Forall2_nth_. { rewrite map_length, zrange_length. symmetry. etransitivity; [apply combine_length|]. rewrite !slide_length. lia. }
  intros k z f Hz' Hf. rewrite nth_error_map in Hz'. destruct (nth_error (zrange (istart i) (iend i)) k) as [x|] eqn:Ex; [|discriminate].
  cbn in Hz'. injection Hz' as <-. apply zrange_nth in Ex as [-> Hk].
  assert (Ef : f = (map (move_cell (Z.of_nat k) (Z.of_nat k)) e1, map (move_cell (Z.of_nat k) (Z.of_nat k)) e2)).
  { assert (K : (k < Z.to_nat (iend i - istart i))%nat) by lia.
    assert (G : forall (A B : Type) (a : list A) (b : list B) k x y, nth_error a k = Some x -> nth_error b k = Some y -> nth_error (combine a b) k = Some (x, y)).
    { clear. intros A B a. induction a as [|x a IH]; intros [|y b] [|k] u w; cbn; try discriminate; [congruence|apply IH]. }
    pose proof (eq_trans (eq_sym Hf) (G _ _ _ _ _ _ _ (slide_nth _ e1 k K) (slide_nth _ e2 k K))) as Q. injection Q as ->. auto. }
  subst f. split; cbn [fst snd]; [|apply C2; auto]. specialize (C1 k Hk). unfold in_out_stencil in C1.
  inversion C1 as [|v0 y l0 l1 R1 C1' Q1 Q2]; subst. inversion C1' as [|v1 y0 l2 l3 R2 C1'' Q3 Q4]; subst. inversion C1''; subst.
  exists y, y0. split; [congruence|]. split; auto. rewrite vadd_zero in R1; [exact R1|cbn [length]; congruence|]. intros [|j] _; [auto|]. cbn [nth]. apply nth_repeat.
Qed.

(** ** Level jumps *)
Lemma jump_slide_nth : forall first k j es id, (id < k)%nat ->
  nth_error (jump_slide first k j es) id = Some (jump_cells first (ljump_steps id j), map (move_cell (Z.of_nat id) (Z.of_nat id)) es).
Proof.
  assert (M : forall j es, map (move_cell (Z.of_nat j) (Z.of_nat j)) (stencil_move_next es) = map (move_cell (Z.of_nat (S j)) (Z.of_nat (S j))) es).
  { intros j es. unfold stencil_move_next. rewrite map_map. apply map_ext. intros [l p i]. unfold move_cell. cbn [sc_level sc_coord sc_index].
    f_equal; [|lia]. destruct p; auto. f_equal. lia. }
  intros first. induction k as [|k IH]; intros j es id H; [lia|]. cbn [jump_slide]. destruct id.
  - cbn [nth_error ljump_steps]. f_equal. f_equal. rewrite <- (map_id es) at 1. apply map_ext. intros [l p i]. unfold move_cell. cbn [sc_level sc_coord sc_index].
    f_equal; [|lia]. destruct p; auto. f_equal. lia.
  - cbn [nth_error ljump_steps]. rewrite IH by lia. rewrite M. auto.
Qed.
Lemma jump_slide_length : forall first k j es, length (jump_slide first k j es) = k.
Proof. intros first. induction k; intros; cbn [jump_slide length]; auto. Qed.

Definition jump_call (n : nat) (ref : ca) (l : nat) (first : bool) (dir : list Z) (comput : stencil) (z : list Z) (f : iface) : Prop :=
  (exists a b, fst f = (if first then [a; b] else [b; a]) /\ cell_is n ref l (ancestor 1 z) a /\ cell_is n ref (S l) (vadd n z dir) b) /\
  Forall2 (fun v e => cell_is n ref (S l) (vadd n z v) e) comput (snd f).

Lemma find_from_spec : forall p s id, (exists v, In v s /\ p v = true) -> exists k v, find_from p id s = Some (id + k)%nat /\ nth_error s k = Some v /\ p v = true.
Proof.
  intros p s. induction s as [|w s IH]; intros id (v & Hv & Hp); [destruct Hv|]. cbn [find_from]. destruct (p w) eqn:E.
  - exists 0%nat, w. rewrite Nat.add_0_r. auto.
  - destruct Hv as [->|Hv]; [congruence|]. destruct (IH (S id)) as (k & u & E1 & E2 & E3); [eauto|]. exists (S k), u.
    rewrite Nat.add_succ_r. auto.
Qed.
Lemma list_eqb_Z : forall a b, list_eqb Z.eqb a b = true <-> a = b.
Proof.
  induction a as [|x a IH]; intros [|y b]; cbn [list_eqb]; try (split; [discriminate|congruence] || tauto).
  rewrite andb_true_iff, Z.eqb_eq, IH. split; [intros [-> ->]; auto|intros H; injection H; auto].
Qed.
Lemma found_spec : forall s v, In v s -> nth_error s (found s v) = Some v.
Proof.
  intros s v Hv. unfold found, find_vector. destruct (find_from_spec (fun w => list_eqb Z.eqb w v) s 0) as (k & u & E & Hk & Hu).
  - exists v. split; auto. apply list_eqb_Z. auto.
  - rewrite E. cbn [Nat.add]. apply list_eqb_Z in Hu. subst u. auto.
Qed.

Lemma jump_interval_spec : forall n ref l first dir comput i yz, numbered n ref -> In dir comput ->
  (forall v, In v comput -> length v = S n) -> In (repeat 0 (S n)) comput -> length yz = n -> istart i < iend i ->
  istart i mod 2 = 0 \/ iend i = istart i + 1 ->
  (forall x, in_i i x -> fits_at n ref comput (S l) (x :: yz) /\ ca_mem n ref l (ancestor 1 (x :: yz))) ->
  exists out, jump_interval n ref first (found comput dir) comput (mkMI (S l) i yz) = Some out /\
    Forall2 (jump_call n ref l first dir comput) (map (fun x => x :: yz) (zrange (istart i) (iend i))) out.
Proof.
  intros n ref l first dir comput i yz N Hdir Hc Hz Ly Hi Hpar HF.
  assert (F2 : stencil_fits n ref comput (mkMI (S l) i yz)) by (apply fits_stencil; auto; intros x Hx; apply (HF x Hx)).
  destruct (slide_cells _ _ _ _ _ _ N F2) as (es & E & C).
  pose proof (found_spec comput dir Hdir) as Hf. assert (He : exists e, nth_error es (found comput dir) = Some e).
  { assert (C0 := C 0%nat ltac:(lia)). assert (L : length comput = length es) by (rewrite <- (map_length (move_cell (Z.of_nat 0) (Z.of_nat 0)) es); clear - C0; induction C0; cbn [length]; auto).
    assert (H : (found comput dir < length es)%nat) by (rewrite <- L; apply nth_error_Some; congruence).
    apply nth_error_Some in H. destruct (nth_error es _); [eauto|congruence]. }
  destruct He as (e & He).
  destruct (ljump_numbered n ref (found comput dir) es e (mkMI (S l) i yz) N) as (j & Ej & Hj); auto; cbn [mi_i mi_index mi_level pred]; [lia| |].
  { intros x Hx. apply (HF x Hx). }
  cbn [mi_i mi_index mi_level pred] in Hj. unfold jump_interval. rewrite E, Ej. cbn [mi_i]. eexists. split; [reflexivity|].
  apply Forall2_nth_. { rewrite map_length, zrange_length, jump_slide_length. lia. }
  intros k z f Hz' Hk'. rewrite nth_error_map in Hz'. destruct (nth_error (zrange (istart i) (iend i)) k) as [x|] eqn:Ex; [|discriminate].
  cbn in Hz'. injection Hz' as <-. apply zrange_nth in Ex as [-> Hk].
  rewrite jump_slide_nth in Hk' by lia. injection Hk' as <-. destruct (Hj k Hk) as (J1 & J2 & J3 & J4). cbv zeta in *.
  split; cbn [fst snd]; [|apply C; auto].
  exists (lj_coarse (ljump_steps k j)), (lj_fine (ljump_steps k j)). split; [destruct first; auto|]. split.
  - unfold cell_is. rewrite J2 in *. auto.
  - rewrite J4. specialize (C k Hk). assert (G : forall (a : stencil) b R, Forall2 R a b -> forall m v (w : scell), nth_error a m = Some v -> nth_error b m = Some w -> R v w).
    { clear. intros a b R H. induction H; intros [|m] v w; cbn; try discriminate; [congruence|apply IHForall2]. }
    refine (G _ _ _ C _ _ _ Hf _). rewrite nth_error_map, He. auto.
Qed.
