(** Properties C17-C24: the set algebra (subset expressions). *)
From Verif Require Import Base IntervalModel Spec LoiModel LoiProofs IntervalProofs LcaModel LcaSpec GridProofs
  InitProofs SearchProofs IterProofs LcaProofs LcaProofs2 CellArrayModel CellArrayProofs RowsProofs
  SubsetModel TreeProofs ScanProofs LeafProofs LeafProofs2 SubsetProofs SubsetSpec SubsetProofs2.
Open Scope Z_scope.

(** ** Lemmas on the denotation *)

Lemma meets_same : forall n L p q, meets n L p L q <-> forall k, (k <= n)%nat -> nth k p 0 = nth k q 0.
Proof.
  intros n L p q. unfold meets. pose proof (pow2_pos (Z.of_nat L) ltac:(lia)) as Hp. split; intros H k Hk; specialize (H k Hk); nia.
Qed.

Lemma list_ext : forall n (p q : list Z), length p = S n -> length q = S n ->
  (forall k, (k <= n)%nat -> nth k p 0 = nth k q 0) -> p = q.
Proof. intros n p q Hp Hq H. apply nth_ext with (d := 0) (d' := 0); [lia|]. intros k Hk. apply H. lia. Qed.

Lemma vopp_nth : forall v k, nth k (vopp v) 0 = - nth k v 0.
Proof. intros. unfold vopp. change 0 with (- 0) at 1. apply map_nth. Qed.

(** On the level of the mesh: the cell translated back is in the mesh. *)
Lemma denotes_same : forall n p nd, length p = S n ->
  (denotes n (a_level (node_mesh nd)) p nd <-> lca_mem n (node_mesh nd) (vadd n p (vopp (node_vect nd)))).
Proof.
  intros n p nd Hp. unfold denotes. split.
  - intros (q & Hq & Hm). rewrite meets_same in Hm.
    replace (vadd n p (vopp (node_vect nd))) with q; auto.
    apply (list_ext n); [apply Hq|apply vadd_length|]. intros k Hk. specialize (Hm k Hk).
    rewrite nth_vadd in * by auto. rewrite vopp_nth. lia.
  - intros H. exists (vadd n p (vopp (node_vect nd))). split; auto. apply meets_same. intros k Hk.
    rewrite !nth_vadd, vopp_nth by auto. lia.
Qed.

Lemma vadd_nil : forall n p, length p = S n -> vadd n p [] = p.
Proof.
  intros n p Hp. apply (list_ext n); auto; [apply vadd_length|]. intros k Hk. rewrite nth_vadd by auto. destruct k; simpl; lia.
Qed.

Lemma run_init : forall n ref t, operands_ok n ref t ->
  exists s' calls, subset_run n (subset_init ref t) = Some (s', calls) /\
    (forall c, In c calls -> length (snd c) = n /\ istart (fst c) < iend (fst c)) /\
    NoDup (cells_of_calls calls) /\
    ((ref <= finest t)%nat -> StronglySorted call_lt calls) /\
    forall p, length p = S n -> (In p (cells_of_calls calls) <-> expr_mem n ref t p).
Proof.
  intros n ref t HO. pose proof (init_ready n ref t HO) as HR.
  destruct (run_ready n ref _ HR) as (t' & calls & E & _ & V & N & S & C).
  assert (F : finest (s_tree (subset_init ref t)) = finest t) by (unfold finest; simpl; rewrite tmap_tmap; auto).
  rewrite F in S. exists (mkSub t' ref), calls. spl; auto.
  intros p Hp. rewrite C by auto. unfold expr_mem. simpl s_tree. rewrite tmap_tmap. tauto.
Qed.

(** ** C18: levels and .on *)

(** An expression tree over meshes and translated meshes of any levels, evaluated
    at level [ref] by operator(): it terminates without an out-of-range access; it
    calls the function on non-empty intervals; no cell is visited twice; a cell of
    level [ref] is visited iff the boolean combination holds of "the operand has a
    cell overlapping this one". If [ref] is not finer than the operands the calls
    come in lexicographic order, and intervals of a row are maximal. *)
Theorem C18_levels : forall n ref t, operands_ok n ref t ->
  exists calls, subset_calls n (subset_init ref t) = Some calls /\
    (forall i yz, In (i, yz) calls -> length yz = n /\ istart i < iend i) /\
    NoDup (cells_of_calls calls) /\
    ((ref <= finest t)%nat -> StronglySorted lex_lt (cells_of_calls calls) /\
       forall i j yz, In (i, yz) calls -> In (j, yz) calls -> i <> j -> iend i < istart j \/ iend j < istart i) /\
    forall p, length p = S n -> (In p (cells_of_calls calls) <-> expr_mem n ref t p).
Proof.
  intros n ref t HO. destruct (run_init n ref t HO) as (s' & calls & E & V & N & S & C).
  exists calls. unfold subset_calls. rewrite E. spl; auto.
  - intros i yz Hin. apply (V _ Hin).
  - intros Hle. specialize (S Hle). split; [apply cells_sorted; auto|].
    intros i j yz Hi Hj Hne. apply In_nth_error in Hi as (k & Hk). apply In_nth_error in Hj as (k' & Hk').
    destruct (lt_eq_lt_dec k k') as [[H|H]|H].
    + destruct (sorted_nth _ _ _ S k k' _ _ H Hk Hk') as [L|[_ L]]; simpl in L; [exfalso; eapply lex_lt_irrefl; eauto|auto].
    + subst k'. congruence.
    + destruct (sorted_nth _ _ _ S k' k _ _ H Hk' Hk) as [L|[_ L]]; simpl in L; [exfalso; eapply lex_lt_irrefl; eauto|auto].
Qed.

(** The operators the user builds are of that form: op(...) evaluates at the finest
    level of its operands, .on(ref) at [ref]; an .on(...) inside is ignored, the
    outermost one decides. *)
Theorem C18_inner_on_ignored : forall f s r es,
  make_op f (More (s_tree (on s r)) es) = make_op f (More (s_tree s) es) /\
  forall r', on (on s r) r' = on s r'.
Proof.
  intros f s r es. unfold make_op, on, subset_init. simpl s_tree.
  assert (E : forall c c' t, tmap (leaf_set_shift c c') (tmap (leaf_set_shift r (common_level t)) t) = tmap (leaf_set_shift c c') t).
  { intros. rewrite tmap_tmap. auto. }
  assert (F : forall t, common_level (tmap (leaf_set_shift r (common_level t)) t) = common_level t).
  { intros. unfold common_level at 1. rewrite tmap_tmap. auto. }
  assert (FF : common_level (Nd f (More (tmap (leaf_set_shift r (common_level (s_tree s))) (s_tree s)) es)) = common_level (Nd f (More (s_tree s) es))).
  { unfold common_level in *. simpl. rewrite tmap_tmap. simpl. auto. }
  split.
  - rewrite FF. simpl. rewrite E. auto.
  - intros r'. rewrite F, E. auto.
Qed.

(** A concrete case: 2D meshes of levels 1 and 3, intersection with a translated
    mesh, minus a third one, on level 2. *)
Definition exA : lca := client_lca 1 1 [AddI [0] (mk 0 3); AddI [1] (mk 1 4)].
Definition exB : lca := client_lca 1 3 [AddI [0] (mk 0 9); AddI [5] (mk 3 7); AddI [6] (mk 3 7)].
Definition exC : lca := client_lca 1 2 [AddI [1] (mk 0 1)].
Definition exT : tree leaf :=
  Nd Difference (More (Nd Intersect (More (Lf (leaf_of (NMesh exA))) (One (Lf (leaf_of (translate [1; -1] (NMesh exB)))))))
    (One (Lf (leaf_of (NMesh exC))))).

Lemma client_ok : forall n w level cs v nd, simple nd -> node_mesh nd = client_lca n level cs -> node_vect nd = v ->
  Forall (call_dim n) cs -> Forall call_adds cs ->
  (forall c q k, In c cs -> added c q -> length q = S n -> (k <= n)%nat ->
     (nth k q 0 + nth k v 0 + 2) * 2 ^ Z.max 0 (Z.of_nat w - Z.of_nat level) + 1 < 2 ^ 31 - 1) ->
  operand_ok n w nd.
Proof.
  intros n w level cs v nd Hs Hm Hv Hd Ha H. unfold operand_ok. rewrite Hm, Hv. spl; auto.
  - apply client_lca_wf; auto. apply adds_filled; auto.
  - intros q k Hq Hk. rewrite client_lca_level, nth_vadd by auto. apply client_lca_mem in Hq as (Hl & c & Hc & Hadd); auto.
    eapply H; eauto.
Qed.

(** Checks the conditions on concrete operands in dimension 2. *)
Ltac concrete_operand :=
  unfold translate, leaf_of; cbn [l_node];
  eapply client_ok; [exact I|reflexivity|reflexivity|repeat constructor|repeat constructor; simpl; lia|];
  let c := fresh in let q := fresh in let k := fresh in let Hc := fresh in let Ha := fresh in let Hl := fresh in let Hk := fresh in
  intros c q k Hc Ha Hl Hk; simpl in Hc;
  repeat (destruct Hc as [<-|Hc]; [
    destruct q as [|? [|? [|? ?]]]; try discriminate Hl; simpl in Ha; destruct Ha as [Ha ?]; injection Ha as ->;
    unfold in_i in *; simpl in *; destruct k as [|[|?]]; simpl; lia|]); destruct Hc.

Lemma exT_ok : operands_ok 1 2 exT.
Proof.
  assert (F : finest exT = 3%nat) by (vm_compute; auto).
  intros lf H. rewrite F. simpl Nat.min. cbn [exT tin ain] in H. destruct H as [[->| ->]| ->]; concrete_operand.
Qed.

Example C18_example : subset_calls 1 (subset_init 2 exT) = Some [(mk 2 4, [2])] /\
  subset_calls 1 (subset_init 4 exT) = Some [(mk 8 16, [8]); (mk 8 16, [9]); (mk 8 16, [10]); (mk 8 16, [11])].
Proof. vm_compute. auto. Qed.

(** ** C17: one level *)

(** All operands on level [L]: the calls, in lexicographic order and without
    repetition, cover exactly the boolean combination of the memberships of the
    cell (translated back) in the meshes. *)
Theorem C17_one_level_boolean_algebra : forall n L f es,
  (forall lf, ain lf es -> operand_ok n L (l_node lf) /\ a_level (node_mesh (l_node lf)) = L) ->
  exists calls, subset_calls n (make_op f es) = Some calls /\
    StronglySorted lex_lt (cells_of_calls calls) /\ NoDup (cells_of_calls calls) /\
    forall p, In p (cells_of_calls calls) <-> length p = S n /\
      tsem (tmap (fun lf => lca_mem n (node_mesh (l_node lf)) (vadd n p (vopp (node_vect (l_node lf))))) (Nd f es)).
Proof.
  intros n L f es H. set (t := Nd f es).
  assert (F : finest t = L).
  { destruct (tree_inh _ t) as (lf & Hlf). unfold finest.
    pose proof (tlevel_in (tmap (fun lf => a_level (node_mesh (l_node lf))) t)) as Hin.
    apply tin_map in Hin as (lf' & Hl' & ->). apply (H lf' Hl'). }
  assert (HO : operands_ok n L t).
  { intros lf Hlf. rewrite F, Nat.min_id. apply (H lf Hlf). }
  destruct (C18_levels n L t HO) as (calls & E & V & N & S & C).
  assert (CM : common_level (Nd f es) = L) by (rewrite <- F; apply (common_finest n L t HO)).
  exists calls. unfold make_op. rewrite CM. spl; auto.
  - apply S. lia.
  - intros p. split.
    + intros Hin. assert (Hp : length p = Datatypes.S n).
      { apply cells_len in Hin as ([i yz] & Hc & ->). f_equal. apply (V i yz Hc). }
      split; auto. apply C in Hin; auto. unfold expr_mem in Hin.
      eapply tsem_iff; [|exact Hin]. apply trel_map_l, trel_map_r. apply trel_refl. intros lf Hlf.
      destruct (H lf Hlf) as [_ HL]. rewrite <- HL. symmetry. apply denotes_same; auto.
    + intros [Hp Hs]. apply C; auto. unfold expr_mem.
      eapply tsem_iff; [|exact Hs]. apply trel_map_l, trel_map_r. apply trel_refl. intros lf Hlf.
      destruct (H lf Hlf) as [_ HL]. rewrite <- HL. apply denotes_same; auto.
Qed.

Definition exD : lca := client_lca 1 3 [AddI [0] (mk 4 6); AddI [5] (mk 0 5)].
Definition exE : args leaf :=
  More (Nd Union (More (Lf (leaf_of (NMesh exB))) (One (Lf (leaf_of (translate [10; 0] (NMesh exD))))))) (One (Lf (leaf_of (NMesh exD)))).
Example C17_example : (forall lf, ain lf exE -> operand_ok 1 3 (l_node lf) /\ a_level (node_mesh (l_node lf)) = 3%nat) /\
  subset_calls 1 (make_op Difference exE) =
    Some [(mk 0 4, [0]); (mk 6 9, [0]); (mk 14 16, [0]); (mk 5 7, [5]); (mk 10 15, [5]); (mk 3 7, [6])].
Proof.
  split; [|vm_compute; auto]. intros lf H. cbn [exE tin ain] in H.
  destruct H as [[->| ->]| ->]; (split; [concrete_operand|vm_compute; auto]).
Qed.

(** ** C19: translate *)

(** translate(a, v) contains p iff a contains p - v. *)
Theorem C19_translate_moves : forall n a v f,
  operand_ok n (a_level a) (translate v (NMesh a)) ->
  exists calls, subset_calls n (make_op f (One (Lf (leaf_of (translate v (NMesh a)))))) = Some calls /\
    StronglySorted lex_lt (cells_of_calls calls) /\
    forall p, In p (cells_of_calls calls) <-> length p = S n /\ lca_mem n a (vadd n p (vopp v)).
Proof.
  intros n a v f HO.
  destruct (C17_one_level_boolean_algebra n (a_level a) f (One (Lf (leaf_of (translate v (NMesh a)))))) as (calls & E & S & _ & C).
  { intros lf ->. split; auto. }
  exists calls. spl; auto. intros p. rewrite C. simpl. destruct f; tauto.
Qed.

(** Translation commutes with every expression on one level: translating all
    operands translates the result. *)
Theorem C19_translate_commutes : forall n L v (es : args lca) f,
  (forall a, ain a es -> operand_ok n L (NMesh a) /\ operand_ok n L (translate v (NMesh a)) /\ a_level a = L) ->
  exists calls calls',
    subset_calls n (make_op f (amap (fun a => leaf_of (NMesh a)) es)) = Some calls /\
    subset_calls n (make_op f (amap (fun a => leaf_of (translate v (NMesh a))) es)) = Some calls' /\
    forall p, length p = S n -> (In p (cells_of_calls calls') <-> In (vadd n p (vopp v)) (cells_of_calls calls)).
Proof.
  intros n L v es f H.
  destruct (C17_one_level_boolean_algebra n L f (amap (fun a => leaf_of (NMesh a)) es)) as (calls & E & _ & _ & C).
  { intros lf Hlf. apply (proj2 (tin_map_ _ _ _)) in Hlf as (a & Ha & ->). simpl. destruct (H a Ha) as (? & ? & ?). auto. }
  destruct (C17_one_level_boolean_algebra n L f (amap (fun a => leaf_of (translate v (NMesh a))) es)) as (calls' & E' & _ & _ & C').
  { intros lf Hlf. apply (proj2 (tin_map_ _ _ _)) in Hlf as (a & Ha & ->). simpl. destruct (H a Ha) as (? & ? & ?). auto. }
  exists calls, calls'. spl; auto. intros p Hp. rewrite C, C'.
  change (Nd f (amap (fun a => leaf_of (NMesh a)) es)) with (tmap (fun a => leaf_of (NMesh a)) (Nd f es)).
  change (Nd f (amap (fun a => leaf_of (translate v (NMesh a))) es)) with (tmap (fun a => leaf_of (translate v (NMesh a))) (Nd f es)).
  rewrite !tmap_tmap. simpl node_mesh. simpl node_vect.
  assert (HL : length (vadd n p (vopp v)) = S n) by apply vadd_length.
  assert (EQ : tsem (tmap (fun a => lca_mem n a (vadd n p (vopp v))) (Nd f es)) <->
               tsem (tmap (fun a => lca_mem n a (vadd n (vadd n p (vopp v)) (vopp []))) (Nd f es))).
  { apply tsem_iff. apply trel_map_l, trel_map_r. apply trel_refl. intros a _. change (vopp []) with (@nil Z).
    rewrite (vadd_nil n (vadd n p (vopp v))); tauto. }
  rewrite EQ. tauto.
Qed.

(** The nodes translate(translate(...)) do not: find looks the inner coordinate up
    after removing the outer vector only. In 2D the translate by (1,1) of the
    translate by (1,1) of a mesh loses one of its two rows and moves the other. *)
Theorem C19_nested_translate_refuted :
  let a := client_lca 1 3 [AddI [5] (mk 3 7); AddI [6] (mk 3 7)] in
  subset_calls 1 (make_op Intersect (One (Lf (leaf_of (translate [1; 1] (translate [1; 1] (NMesh a))))))) = Some [(mk 5 9, [7])] /\
  subset_calls 1 (make_op Intersect (One (Lf (leaf_of (translate [2; 2] (NMesh a)))))) = Some [(mk 5 9, [7]); (mk 5 9, [8])].
Proof. vm_compute. auto. Qed.

Example C19_example : operand_ok 1 3 (translate [10; -4] (NMesh exD)) /\
  subset_calls 1 (make_op Union (One (Lf (leaf_of (translate [10; -4] (NMesh exD)))))) = Some [(mk 14 16, [-4]); (mk 10 15, [1])].
Proof. split; [concrete_operand|vm_compute; auto]. Qed.

(** ** C20: replay *)

(** Whatever an operator did before (any cursor contents [t'] on the same nodes and
    shifts), a run gives the same calls; in particular running it again. *)
Theorem C20_replay : forall n ref t t' s calls, operands_ok n ref t ->
  trel same_leaf (s_tree (subset_init ref t)) t' ->
  subset_run n (subset_init ref t) = Some (s, calls) ->
  (exists s', subset_run n (mkSub t' ref) = Some (s', calls)) /\
  (exists s', subset_run n s = Some (s', calls)).
Proof.
  intros n ref t t' s calls HO HS E. pose proof (init_ready n ref t HO) as HR.
  assert (G : forall t2, trel same_leaf (s_tree (subset_init ref t)) t2 -> exists s', subset_run n (mkSub t2 ref) = Some (s', calls)).
  { intros t2 H2. destruct (same_ready n ref _ t2 H2 HR) as [HR2 _].
    destruct (run_ready n ref t2 HR2) as (t2' & calls2 & E2 & _). exists (mkSub t2' ref).
    rewrite (run_same n ref _ t2 _ _ _ _ HR H2 E E2). auto. }
  split; auto. destruct (run_ready n ref _ HR) as (t1 & calls1 & E1 & K1 & _).
  change (subset_init ref t) with (mkSub (s_tree (subset_init ref t)) ref) in E. rewrite E in E1. injection E1 as -> _. auto.
Qed.

(** Cursors left behind by something else (here: all positions at the end). *)
Example C20_example :
  let junk := mkC 7 true 3 9 2 4 5 [mk 1 2] [(0%nat, 3%nat)] in
  let t' := tmap (fun lf => mkLeaf (l_node lf) (l_shift lf) (fun _ => junk)) (s_tree (subset_init 2 exT)) in
  subset_calls 1 (mkSub t' 2) = subset_calls 1 (subset_init 2 exT) /\ trel same_leaf (s_tree (subset_init 2 exT)) t'.
Proof. split; [vm_compute; auto|]. simpl. unfold same_leaf. auto 10. Qed.

(** ** C21: termination *)

(** The while loop of each row is given [scan_fuel] turns: two per interval of the
    operands in the row, plus one per operand. It never needs more (running out of
    turns is [None], as is an out-of-range access), for any cursor contents. *)
Theorem C21_scan_terminates : forall n ref t t', operands_ok n ref t ->
  trel same_leaf (s_tree (subset_init ref t)) t' -> exists s' calls, subset_run n (mkSub t' ref) = Some (s', calls).
Proof.
  intros n ref t t' HO HS. destruct (same_ready n ref _ t' HS (init_ready n ref t HO)) as [HR _].
  destruct (run_ready n ref t' HR) as (t2 & calls & E & _). eauto.
Qed.

Example C21_example : operands_ok 1 2 exT /\ exists s' calls, subset_run 1 (subset_init 2 exT) = Some (s', calls).
Proof. split; [apply exT_ok|]. apply (C21_scan_terminates 1 2 exT _ exT_ok). apply trel_refl. intros; split; auto. Qed.

(** ** C22: LevelCellArray(subset) *)

Theorem C22_array_of_subset : forall n ref t, operands_ok n ref t ->
  exists a, lca_of_subset n (subset_init ref t) = Some a /\ wf n a /\ a_level a = ref /\
    forall p, lca_mem n a p <-> length p = S n /\ expr_mem n ref t p.
Proof.
  intros n ref t HO. destruct (C18_levels n ref t HO) as (calls & E & V & _ & _ & C).
  set (cs := map (fun '(i, yz) => AddI yz i) calls).
  assert (HD : Forall (call_dim n) cs).
  { unfold cs. apply Forall_map. apply Forall_forall. intros [i yz] Hin. simpl. apply (V i yz Hin). }
  assert (HA : Forall call_adds cs).
  { unfold cs. apply Forall_map. apply Forall_forall. intros [i yz] Hin. simpl. apply (V i yz Hin). }
  exists (client_lca n ref cs). unfold lca_of_subset. rewrite E. spl; auto.
  - apply client_lca_wf; auto. apply adds_filled; auto.
  - apply client_lca_level; auto.
  - intros p. rewrite client_lca_mem by auto. split; intros [Hp H]; split; auto.
    + apply C; auto. destruct H as (c & Hc & Hadd). unfold cs in Hc. apply in_map_iff in Hc as ([i yz] & <- & Hin).
      simpl in Hadd. destruct Hadd as [H1 H2]. destruct p as [|x p]; [discriminate|]. simpl in H1, H2. subst p.
      apply cells_of_calls_In. eauto.
    + apply C in H; auto. destruct p as [|x p]; [discriminate|]. apply cells_of_calls_In in H as (i & Hin & Hx).
      exists (AddI p i). split; [unfold cs; apply in_map_iff; exists (i, p); auto|]. simpl. auto.
Qed.

(** Replacing a sub-expression by the array built from it does not change the cells
    of the enclosing expression on that level. *)
Theorem C22_materialise : forall n L t b f es, operands_ok n L t ->
  lca_of_subset n (subset_init L t) = Some b ->
  forall p, length p = S n ->
    (expr_mem n L (Nd f (More (Lf (leaf_of (NMesh b))) es)) p <-> expr_mem n L (Nd f (More t es)) p) /\
    (expr_mem n L (Nd f (args_of (Lf (leaf_of (NMesh b))) [])) p <-> expr_mem n L (Nd f (args_of t [])) p).
Proof.
  intros n L t b f es HO E p Hp. destruct (C22_array_of_subset n L t HO) as (b' & E' & _ & HL & C).
  rewrite E in E'. injection E' as <-.
  assert (K : denotes n L p (NMesh b) <-> expr_mem n L t p).
  { rewrite <- HL at 1. change (a_level b) with (a_level (node_mesh (NMesh b))). rewrite denotes_same by auto.
    simpl node_mesh. simpl node_vect. change (vopp []) with (@nil Z). rewrite vadd_nil by auto. rewrite C. tauto. }
  unfold expr_mem in *. destruct f; simpl; rewrite K; tauto.
Qed.

Example C22_example : option_map (fun a => (a_level a, a_cells a 1, a_offsets a 0, a_cells a 0)) (lca_of_subset 1 (subset_init 4 exT)) =
  Some (4%nat, [mkidx 8 12 (-8)], [0; 1; 2; 3; 4]%nat, [mk 8 16; mk 8 16; mk 8 16; mk 8 16]).
Proof. vm_compute. auto. Qed.

(** Translating by v, storing the result, and translating back by -v gives the
    cells of the original mesh. *)
Theorem C19_translate_back : forall n a v f,
  operand_ok n (a_level a) (NMesh a) -> operand_ok n (a_level a) (translate v (NMesh a)) ->
  exists b calls, lca_of_subset n (make_op f (One (Lf (leaf_of (translate v (NMesh a)))))) = Some b /\
    subset_calls n (make_op f (One (Lf (leaf_of (translate (vopp v) (NMesh b)))))) = Some calls /\
    forall p, In p (cells_of_calls calls) <-> lca_mem n a p.
Proof.
  intros n a v f HA HV. set (t := Nd f (One (Lf (leaf_of (translate v (NMesh a)))))).
  assert (HO : operands_ok n (a_level a) t).
  { intros lf ->. simpl. rewrite Nat.min_id. exact HV. }
  assert (CM : common_level t = a_level a) by reflexivity.
  destruct (C22_array_of_subset n (a_level a) t HO) as (b & Eb & W & L & M).
  assert (MB : forall p, lca_mem n b p <-> length p = S n /\ lca_mem n a (vadd n p (vopp v))).
  { intros p. rewrite M. split; intros [Hp H]; split; auto.
    - unfold expr_mem in H. simpl in H. apply (denotes_same n p (translate v (NMesh a)) Hp). destruct f; simpl in H; tauto.
    - unfold expr_mem. simpl. apply (denotes_same n p (translate v (NMesh a)) Hp) in H. simpl in H. destruct f; simpl; tauto. }
  assert (BACK : forall p, length p = S n -> vadd n (vadd n p (vopp (vopp v))) (vopp v) = p).
  { intros p Hp. apply (list_ext n); [apply vadd_length|auto|]. intros k Hk. rewrite !nth_vadd, !vopp_nth by auto. lia. }
  destruct (C19_translate_moves n b (vopp v) f) as (calls & E & _ & C).
  { split; [exact I|]. split; [exact W|]. intros q k Hq Hk. simpl node_mesh in *. simpl node_vect.
    apply MB in Hq as [Hq1 Hq2]. destruct HA as (_ & _ & HA). specialize (HA _ k Hq2 Hk). simpl node_mesh in HA. simpl node_vect in HA.
    rewrite nth_vadd in HA by auto. rewrite (Z.sub_diag (Z.of_nat (a_level b))). rewrite Z.sub_diag in HA.
    destruct k; simpl nth in HA; rewrite ?Z.add_0_r in HA; exact HA. }
  exists b, calls. spl.
  - unfold make_op. fold t. rewrite CM. exact Eb.
  - exact E.
  - intros p. rewrite C. split.
    + intros [Hp H]. apply MB in H as [_ H]. rewrite BACK in H; auto.
    + intros H. assert (Hp : length p = S n) by apply H. split; auto. apply MB. split; [apply vadd_length|]. rewrite BACK; auto.
Qed.

Example C19_back_example : operand_ok 1 3 (NMesh exB) /\ operand_ok 1 3 (translate [7; -3] (NMesh exB)).
Proof. split; concrete_operand. Qed.

(** ** C23: contraction and expand *)

Theorem C23_contraction : forall n a c,
  operand_ok n (a_level a) (translate c (NMesh a)) -> operand_ok n (a_level a) (translate (vopp c) (NMesh a)) ->
  exists calls, subset_calls n (contraction (NMesh a) c) = Some calls /\
    StronglySorted lex_lt (cells_of_calls calls) /\
    forall p, In p (cells_of_calls calls) <-> length p = S n /\ lca_mem n a (vadd n p (vopp c)) /\ lca_mem n a (vadd n p c).
Proof.
  intros n a c H1 H2. unfold contraction. change (map Z.opp c) with (vopp c).
  destruct (C17_one_level_boolean_algebra n (a_level a) Intersect
    (More (Lf (leaf_of (translate c (NMesh a)))) (One (Lf (leaf_of (translate (vopp c) (NMesh a))))))) as (calls & E & S & _ & C).
  { intros lf Hlf. simpl in Hlf. destruct Hlf as [->| ->]; auto. }
  exists calls. spl; auto. intros p. rewrite C. simpl.
  assert (VV : vopp (vopp c) = c) by (unfold vopp; rewrite map_map; rewrite <- map_id; apply map_ext; intros; lia).
  rewrite VV. tauto.
Qed.

Lemma args_of_sem : forall e es, aany (args_of e es) <-> tsem e \/ Exists tsem es.
Proof.
  intros e es. revert e. induction es as [|e' es IH]; intros e; simpl.
  - split; auto. intros [H|H]; auto. inv H.
  - rewrite IH. rewrite Exists_cons. tauto.
Qed.

Lemma amap_args_of : forall A B (g : A -> B) e es, amap g (args_of e es) = args_of (tmap g e) (map (tmap g) es).
Proof. intros A B g e es. revert e. induction es; intros; simpl; auto. rewrite IHes. auto. Qed.

Lemma ain_args_of : forall A (x : A) e es, ain x (args_of e es) <-> tin x e \/ exists e', In e' es /\ tin x e'.
Proof.
  intros A x e es. revert e. induction es as [|e' es IH]; intros e; simpl.
  - split; auto. intros [H|(e' & [] & _)]; auto.
  - rewrite IH. split.
    + intros [H|[H|(e'' & H1 & H2)]]; eauto.
    + intros [H|(e'' & [<-|H1] & H2)]; eauto.
Qed.

Lemma signs_In : forall d l, In l (signs d) <-> length l = d /\ Forall (fun x => x = 1 \/ x = -1) l.
Proof.
  induction d as [|d IH]; intros l; simpl.
  - split; [intros [<-|[]]; auto|]. intros [H _]. destruct l; auto; discriminate.
  - rewrite in_app_iff, !in_map_iff. split.
    + intros [(l' & <- & H)|(l' & <- & H)]; apply IH in H as [H1 H2]; rewrite app_length, Forall_app; simpl; (split; [lia|auto]).
    + intros [H1 H2]. destruct (exists_last (l := l)) as (l' & x & ->); [intros ->; discriminate|].
      rewrite app_length in H1. simpl in H1. apply Forall_app in H2 as [H2 H3]. inv H3.
      assert (In l' (signs d)) by (apply IH; split; auto; lia). destruct H4 as [->| ->]; [left|right]; exists l'; auto.
Qed.

(** expand gives the union of the translates by the vectors (+-size, ..., +-size). *)
Theorem C23_expand_is_diagonal_union : forall n a size,
  (forall sg, length sg = S n -> Forall (fun x => x = 1 \/ x = -1) sg ->
     operand_ok n (a_level a) (translate (map (Z.mul size) sg) (NMesh a))) ->
  exists calls, subset_calls n (expand n (NMesh a) size) = Some calls /\
    StronglySorted lex_lt (cells_of_calls calls) /\
    forall p, In p (cells_of_calls calls) <-> length p = S n /\
      exists sg, length sg = S n /\ Forall (fun x => x = 1 \/ x = -1) sg /\ lca_mem n a (vadd n p (vopp (map (Z.mul size) sg))).
Proof.
  intros n a size H. unfold expand.
  pose proof (signs_In (S n)) as SI.
  destruct (signs (S n)) as [|s0 ss]; [exfalso; apply (proj2 (SI (repeat 1 (S n)))); split; [apply repeat_length|]|].
  { apply Forall_forall. intros x Hx. apply repeat_spec in Hx. auto. }
  cbn [map].
  destruct (C17_one_level_boolean_algebra n (a_level a) Union
    (args_of (Lf (leaf_of (translate (map (Z.mul size) s0) (NMesh a))))
       (map (fun sg => Lf (leaf_of (translate (map (Z.mul size) sg) (NMesh a)))) ss))) as (calls & E & S & _ & C).
  { intros lf Hlf. apply ain_args_of in Hlf. 
    assert (K : exists sg, In sg (s0 :: ss) /\ lf = leaf_of (translate (map (Z.mul size) sg) (NMesh a))).
    { destruct Hlf as [->|(e & He & Hl)]; [exists s0; split; auto; left; auto|].
      apply in_map_iff in He as (sg & <- & Hs). exists sg. split; auto. right; auto. }
    destruct K as (sg & Hsg & ->). apply SI in Hsg as [? ?]. simpl. auto. }
  exists calls. spl; auto. intros p. rewrite C. cbn [tmap]. rewrite amap_args_of. cbn [tsem]. rewrite args_of_sem, Exists_exists.
  split; intros [Hp K]; split; auto.
  - destruct K as [K|(e & He & K)].
    + simpl in K. exists s0. destruct (proj1 (SI s0) (or_introl eq_refl)). auto.
    + rewrite map_map in He. apply in_map_iff in He as (sg & <- & Hs). simpl in K. exists sg.
      destruct (proj1 (SI sg) (or_intror Hs)). auto.
  - destruct K as (sg & K1 & K2 & K3). destruct (proj2 (SI sg) (conj K1 K2)) as [->|Hs]; [left; simpl; auto|right].
    eexists. split; [rewrite map_map; apply in_map; exact Hs|]. simpl. auto.
Qed.

(** Hence expand is not a dilation: a 2D mesh of one cell, expanded by one, gives the
    four diagonal neighbours and not the cell itself. *)
Theorem C23_expand_dilation_refuted :
  subset_calls 1 (expand 1 (NMesh (client_lca 1 2 [AddP [0] 0])) 1) =
    Some [(mk (-1) 0, [-1]); (mk 1 2, [-1]); (mk (-1) 0, [1]); (mk 1 2, [1])].
Proof. vm_compute. auto. Qed.

Example C23_example : operand_ok 1 3 (translate [1; 0] (NMesh exB)) /\ operand_ok 1 3 (translate (vopp [1; 0]) (NMesh exB)) /\
  subset_calls 1 (contraction (NMesh exB) [1; 0]) = Some [(mk 1 8, [0]); (mk 4 6, [5]); (mk 4 6, [6])].
Proof. spl; [unfold vopp; simpl map; concrete_operand| unfold vopp; simpl map; concrete_operand|vm_compute; auto]. Qed.

(** ** C24: the projection node *)

(** projection(lca, level) does not denote the covered cells of the level: on a
    coarser level odd ends are rounded down, and from dimension 2 on a coarse row
    only looks at its first fine row. Here level 3 cells (3..6) x (5..6) cover the
    level 2 cells (1..3) x (2..3); the expression visits nothing. *)
Theorem C24_projection_refuted :
  let a := client_lca 1 3 [AddI [5] (mk 3 7); AddI [6] (mk 3 7)] in
  subset_calls 1 (make_op Intersect (One (Lf (leaf_of (projection (NMesh a) 2))))) = Some [] /\
  subset_calls 1 (on (make_op Intersect (One (Lf (leaf_of (NMesh a))))) 2) = Some [(mk 1 4, [2]); (mk 1 4, [3])] /\
  (let b := client_lca 0 3 [AddI [] (mk 3 7)] in
   subset_calls 0 (make_op Intersect (One (Lf (leaf_of (projection (NMesh b) 2))))) = Some [(mk 1 3, [])] /\
   subset_calls 0 (on (make_op Intersect (One (Lf (leaf_of (NMesh b))))) 2) = Some [(mk 1 4, [])]).
Proof. vm_compute. auto. Qed.

Print Assumptions C17_one_level_boolean_algebra.
Print Assumptions C18_levels.
Print Assumptions C18_inner_on_ignored.
Print Assumptions C19_translate_moves.
Print Assumptions C19_translate_commutes.
Print Assumptions C19_nested_translate_refuted.
Print Assumptions C19_translate_back.
Print Assumptions C20_replay.
Print Assumptions C21_scan_terminates.
Print Assumptions C22_array_of_subset.
Print Assumptions C22_materialise.
Print Assumptions C23_contraction.
Print Assumptions C23_expand_is_diagonal_union.
Print Assumptions C23_expand_dilation_refuted.
Print Assumptions C24_projection_refuted.
