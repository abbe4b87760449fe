(** Lemmas on the traversal of arrays of cells and on the meshes built from them. *)
From Verif Require Import Base IntervalModel Spec LoiModel LoiProofs IntervalProofs LcaModel LcaSpec GridProofs
  InitProofs SearchProofs IterProofs LcaProofs LcaProofs2 LcaProofs3 RowsProofs CellArrayModel CellArrayProofs
  PropsLca PropsCellArray SubsetModel TreeProofs SubsetSpec SubsetProofs2 PropsSubset StencilModel NumberingProofs
  StencilProofs MeshModel.
Open Scope Z_scope.

(** ** The intervals visited in a row are separated *)

Section RowSep.
  Variable b : bool. Variable n : nat. Variable a : lca. Hypothesis W : wf_gen b n a.
  Lemma row_sep_both : forall fs fs' d k k' c c', FInv n a d k fs -> FInv n a d k' fs' -> map f_idx fs = map f_idx fs' ->
    nth_error (a_cells a d) k = Some c -> nth_error (a_cells a d) k' = Some c' ->
    ((k < k')%nat -> iend c < istart c') /\ ((k' < k)%nat -> iend c' < istart c).
  Proof.
    induction fs as [|f fs IH]; intros fs' d k k' c c' HF HF' HE Hk Hk'.
    - destruct fs' as [|f' fs']; [|discriminate]. destruct HF as [-> HF]. destruct HF' as [_ HF'].
      pose proof (wf_normal _ _ _ W n 0%nat (le_n n) ltac:(rewrite offs_n; simpl; lia)) as N.
      unfold row in N. rewrite offs_n in N. simpl in N. change (normal (slice 0 (length (a_cells a n)) (a_cells a n))) in N.
      apply normal_slice_nth in N as [_ N]; [|lia]. split; intros Hlt; [apply (N k k')|apply (N k' k)]; auto; lia.
    - destruct fs' as [|f' fs']; [discriminate|]. cbn [map] in HE. injection HE as HE1 HE2.
      destruct HF as (Hd & (lo & hi & H1 & H2 & H3) & (e & H4 & H5 & H6) & H7).
      destruct HF' as (_ & (lo' & hi' & H1' & H2' & H3') & (e' & H4' & H5' & H6') & H7').
      assert (Ho : f_off f = f_off f').
      { destruct (IH fs' (S d) _ _ e e' H7 H7' HE2 H4 H4') as [I1 I2].
        destruct (Nat.lt_trichotomy (f_cur f) (f_cur f')) as [Hc|[Hc|Hc]].
        - specialize (I1 Hc). unfold in_i in *. lia.
        - assert (e = e') by congruence. subst e'. lia.
        - specialize (I2 Hc). unfold in_i in *. lia. }
      rewrite Ho in *. assert (lo = lo') by congruence. assert (hi = hi') by congruence. subst lo' hi'.
      assert (Hr : (S (f_off f') < length (offs n a d))%nat) by (apply nth_error_Some; congruence).
      pose proof (wf_normal _ _ _ W d (f_off f') ltac:(lia) Hr) as N.
      destruct (row_offs b n a W d (f_off f') ltac:(lia) Hr) as (lo1 & hi1 & E1 & E2 & L1 & L2 & HR).
      rewrite HR in N. assert (lo = lo1) by congruence. assert (hi = hi1) by congruence. subst lo1 hi1.
      apply normal_slice_nth in N as [_ N]; auto. split; intros Hlt; [apply (N k k')|apply (N k' k)]; auto; lia.
  Qed.
End RowSep.

Lemma calls_spec : forall n a, wf n a -> exists calls, for_each_interval n a = Some calls /\
  map fst calls = a_cells a 0 /\
  (forall i yz, In (i, yz) calls -> istart i < iend i /\ length yz = n) /\
  (forall x yz, lca_mem n a (x :: yz) <-> exists i, In (i, yz) calls /\ in_i i x) /\
  StronglySorted lex_lt (cells_of_calls calls) /\
  (forall j k i i' yz, nth_error calls j = Some (i, yz) -> nth_error calls k = Some (i', yz) -> (j < k)%nat ->
     iend i < istart i').
Proof.
  intros n a W. destruct (for_each_interval_correct n a W) as (calls & C1 & C2 & C3 & C4). exists calls.
  assert (V : forall i yz, In (i, yz) calls -> istart i < iend i).
  { intros i yz H. destruct W as [N|W].
    - rewrite (no_cells_for_each n a N) in C1. injection C1 as <-. destruct H.
    - apply (wf_valid true n a 0 i W eq_refl); [lia|]. rewrite <- C4. apply in_map_iff. exists (i, yz). auto. }
  assert (M : forall x yz, lca_mem n a (x :: yz) <-> exists i, In (i, yz) calls /\ in_i i x).
  { intros x yz. rewrite <- C3. apply cells_of_calls_In. }
  spl; auto.
  - intros i yz H. split; eauto. assert (Hm : lca_mem n a (istart i :: yz)).
    { apply M. exists i. split; auto. pose proof (V _ _ H). unfold in_i. lia. }
    destruct Hm as [Hm _]. simpl in Hm. lia.
  - intros j k i i' yz Hj Hk Hlt. destruct W as [N|W].
    + rewrite (no_cells_for_each n a N) in C1. injection C1 as <-. destruct j; discriminate.
    + destruct (enum_calls n a W (wf_full_cells_n _ _ W)) as (calls' & H1 & H2 & H3).
      assert (calls' = calls) by congruence. subst calls'.
      destruct (H3 _ _ _ Hj) as (Hi & fs & HF & Hyz). destruct (H3 _ _ _ Hk) as (Hi' & fs' & HF' & Hyz').
      apply (row_sep_both true n a W fs fs' 0 j k i i'); auto. congruence.
Qed.

Lemma get_interval_spec : forall n a calls x yz r, wf n a -> for_each_interval n a = Some calls ->
  (get_interval n a (x :: yz) = Some r /\ length yz = n <-> In (r, yz) calls /\ in_i r x).
Proof.
  intros n a calls x yz r W Hc. destruct (calls_spec n a W) as (calls' & C1 & C4 & V & M & _).
  assert (calls' = calls) by congruence. subst calls'.
  assert (Hlen : In (r, yz) calls -> length yz = n) by (intros H; apply V in H; tauto).
  destruct W as [N|W].
  - rewrite (no_cells_for_each n a N) in Hc. injection Hc as <-. unfold get_interval.
    destruct N as [N _]. rewrite N by lia. split; [|intros [[] _]].
    destruct (find n a (x :: yz)) as [[[|k]|]|]; intros [H _]; discriminate.
  - split.
    + intros [H Hl]. unfold get_interval in H. destruct (find n a (x :: yz)) as [[k|]|] eqn:F; try discriminate.
      apply (find_position n a calls (x :: yz) k W Hc) in F as (i & Hi & Hin); [|simpl; lia]. cbn [tl nth] in *.
      assert (i = r). { assert (nth_error (map fst calls) k = Some i) by (rewrite nth_error_map, Hi; auto). congruence. }
      subst i. split; auto. eapply nth_error_In; eauto.
    + intros [H Hin]. split; auto. apply In_nth_error in H as (k & Hk).
      assert (F : find n a (x :: yz) = Some (Some k)).
      { apply (find_position n a calls (x :: yz) k W Hc); [simpl; rewrite Hlen; auto; eapply nth_error_In; eauto|].
        exists r. auto. }
      unfold get_interval. rewrite F, <- C4, nth_error_map, Hk. auto.
Qed.

Lemma get_interval_mem : forall n a x yz, wf n a -> lca_mem n a (x :: yz) ->
  exists r, get_interval n a (x :: yz) = Some r /\ in_i r x /\ forall y, in_i r y -> lca_mem n a (y :: yz).
Proof.
  intros n a x yz W H. destruct (calls_spec n a W) as (calls & C1 & C4 & V & M & _).
  destruct (proj1 (M x yz) H) as (i & Hi & Hin). exists i. spl; auto.
  - apply (get_interval_spec n a calls x yz i W C1). auto.
  - intros y Hy. apply M. eauto.
Qed.

(** The interval found for a cell holds all the cells contiguous to it. *)
Lemma get_interval_maximal : forall n a x yz r, wf n a -> length yz = n -> get_interval n a (x :: yz) = Some r ->
  lca_mem n a (x :: yz) /\ in_i r x /\ (forall y, in_i r y -> lca_mem n a (y :: yz)) /\
  ~ lca_mem n a (istart r - 1 :: yz) /\ ~ lca_mem n a (iend r :: yz).
Proof.
  intros n a x yz r W Hl H. destruct (calls_spec n a W) as (calls & C1 & C4 & V & M & _ & Sp).
  destruct (proj1 (get_interval_spec n a calls x yz r W C1) (conj H Hl)) as [Hr Hin]. pose proof (V _ _ Hr) as [Hv _].
  spl; auto.
  - apply M. eauto.
  - intros y Hy. apply M. eauto.
  - intros Hm. apply M in Hm as (i & Hi & Hx). apply In_nth_error in Hi as (j & Hj). apply In_nth_error in Hr as (k & Hk).
    destruct (Nat.lt_trichotomy j k) as [L|[->|L]].
    + specialize (Sp _ _ _ _ _ Hj Hk L). unfold in_i in *. lia.
    + assert (i = r) by congruence. subst. unfold in_i in *. lia.
    + specialize (Sp _ _ _ _ _ Hk Hj L). unfold in_i in *. lia.
  - intros Hm. apply M in Hm as (i & Hi & Hx). apply In_nth_error in Hi as (j & Hj). apply In_nth_error in Hr as (k & Hk).
    destruct (Nat.lt_trichotomy j k) as [L|[->|L]].
    + specialize (Sp _ _ _ _ _ Hj Hk L). unfold in_i in *. lia.
    + assert (i = r) by congruence. subst. unfold in_i in *. lia.
    + specialize (Sp _ _ _ _ _ Hk Hj L). unfold in_i in *. lia.
Qed.

Lemma ca_calls_spec : forall n c, ca_wf n c -> exists calls, ca_for_each_interval n c = Some calls /\
  (forall l i yz, In (l, (i, yz)) calls -> istart i < iend i /\ length yz = n) /\
  (forall l x yz, ca_mem n c l (x :: yz) <-> exists i, In (l, (i, yz)) calls /\ in_i i x).
Proof.
  intros n c W. destruct (levels_spec c) as (S1 & S2 & S3). unfold ca_for_each_interval.
  assert (G : forall ls, (forall l, In l ls -> wf n (c_at c l)) ->
    exists calls, concat_opt (map (fun level => option_map (map (pair level)) (for_each_interval n (c_at c level))) ls) = Some calls /\
      (forall l i yz, In (l, (i, yz)) calls -> istart i < iend i /\ length yz = n) /\
      (forall l x yz, (In l ls /\ lca_mem n (c_at c l) (x :: yz)) <-> exists i, In (l, (i, yz)) calls /\ in_i i x)).
  { induction ls as [|l ls IH]; intros H; cbn [map concat_opt].
    - exists []. spl; auto; [intros l i yz []|]. intros l x yz. split; [intros [[] _]|intros (i & [] & _)].
    - destruct IH as (calls & H1 & H2 & H3); [intros; apply H; right; auto|]. rewrite H1.
      destruct (calls_spec n _ (H l (or_introl eq_refl))) as (cl & C1 & _ & C2 & C3 & _). rewrite C1. cbn [option_map].
      exists (map (pair l) cl ++ calls). spl; auto.
      + intros l' i yz Hin. apply in_app_or in Hin as [Hin|Hin]; eauto.
        apply in_map_iff in Hin as ([i' yz'] & E & Hin). injection E as <- <- <-. eauto.
      + intros l' x yz. split.
        * intros [[<-|Hl] Hm].
          -- apply C3 in Hm as (i & Hi & Hx). exists i. split; auto. apply in_or_app. left. apply in_map. auto.
          -- destruct (proj1 (H3 l' x yz) (conj Hl Hm)) as (i & Hi & Hx). exists i. split; auto. apply in_or_app. auto.
        * intros (i & Hi & Hx). apply in_app_or in Hi as [Hi|Hi].
          -- apply in_map_iff in Hi as ([i' yz'] & E & Hi). injection E as <- <- <-.
             split; [left; auto|]. apply C3. eauto.
          -- destruct (proj2 (H3 l' x yz)) as [A B]; eauto. split; auto. right. auto. }
  destruct (G (levels c)) as (calls & H1 & H2 & H3); [intros l Hl; apply W; auto|].
  exists calls. spl; auto. intros l x yz. rewrite <- H3. unfold ca_mem. split; intros [A B]; split; auto.
  apply S3; auto. apply (nonempty_mem n); eauto.
Qed.

(** ** Ancestors *)

(** The cell of [k] levels below containing [q] (division rounds down). *)
Definition ancestor (k : nat) (q : list Z) : list Z := map (fun x => x / 2 ^ Z.of_nat k) q.

Lemma ancestor_length : forall k q, length (ancestor k q) = length q.
Proof. intros. apply map_length. Qed.
Lemma nth_ancestor : forall k q j, nth j (ancestor k q) 0 = nth j q 0 / 2 ^ Z.of_nat k.
Proof.
  intros. unfold ancestor. replace 0 with (0 / 2 ^ Z.of_nat k) at 1 by (apply Z.div_0_l; apply Z.pow_nonzero; lia).
  apply (map_nth (fun x => x / 2 ^ Z.of_nat k)).
Qed.
Lemma ancestor_add : forall j k q, ancestor j (ancestor k q) = ancestor (j + k) q.
Proof.
  intros. unfold ancestor. rewrite map_map. apply map_ext. intros x.
  rewrite Z.div_div by (try apply Z.pow_nonzero; try apply Z.pow_pos_nonneg; lia). f_equal.
  rewrite <- Z.pow_add_r by lia. f_equal. lia.
Qed.
Lemma ancestor_0 : forall q, ancestor 0 q = q.
Proof. intros. unfold ancestor. rewrite <- (map_id q) at 2. apply map_ext. intros. apply Z.div_1_r. Qed.

Lemma div_iff : forall x y s, 0 < s -> (x / s = y <-> y * s <= x < (y + 1) * s).
Proof.
  intros x y s Hs. split.
  - intros <-. pose proof (Z.div_mod x s ltac:(lia)). pose proof (Z.mod_pos_bound x s Hs). nia.
  - intros [H1 H2]. symmetry. apply Z.div_unique with (r := x - y * s); lia.
Qed.

(** [on] restarts from the expression. *)
Lemma on_make_op : forall f es r, on (make_op f es) r = subset_init r (Nd f es).
Proof.
  intros. unfold on, make_op, subset_init. cbn [s_tree]. f_equal.
  rewrite tmap_tmap. apply tmap_ext. intros lf _. unfold leaf_set_shift. cbn [l_node l_cs].
  unfold common_level at 1. rewrite tmap_tmap. reflexivity.
Qed.

(** What a mesh, or a translated one, contributes on a coarser or finer level. *)
Lemma denotes_coarse : forall n nd p ref l, a_level (node_mesh nd) = l -> (ref <= l)%nat -> length p = S n ->
  (denotes n ref p nd <-> exists q, lca_mem n (node_mesh nd) q /\ p = ancestor (l - ref) (vadd n q (node_vect nd))).
Proof.
  intros n nd p ref l Hl Hr Hp. unfold denotes, meets. rewrite Hl.
  assert (E : 2 ^ Z.of_nat l = 2 ^ Z.of_nat (l - ref) * 2 ^ Z.of_nat ref) by (rewrite <- Z.pow_add_r by lia; f_equal; lia).
  assert (P1 : 0 < 2 ^ Z.of_nat (l - ref)) by (apply Z.pow_pos_nonneg; lia).
  assert (P2 : 0 < 2 ^ Z.of_nat ref) by (apply Z.pow_pos_nonneg; lia).
  split; intros (q & Hq & H); exists q; split; auto.
  - apply (list_ext n); auto; [rewrite ancestor_length; apply vadd_length|]. intros k Hk. rewrite nth_ancestor. symmetry.
    apply div_iff; auto. specialize (H k Hk). rewrite E in H. nia.
  - intros k Hk. apply (f_equal (fun l => nth k l 0)) in H. rewrite nth_ancestor in H. symmetry in H. apply div_iff in H; auto.
    rewrite E. nia.
Qed.

Lemma denotes_fine : forall n nd p ref l, a_level (node_mesh nd) = l -> (l <= ref)%nat -> length p = S n ->
  (denotes n ref p nd <-> exists q, lca_mem n (node_mesh nd) q /\ vadd n q (node_vect nd) = ancestor (ref - l) p).
Proof.
  intros n nd p ref l Hl Hr Hp. unfold denotes, meets. rewrite Hl.
  assert (E : 2 ^ Z.of_nat ref = 2 ^ Z.of_nat (ref - l) * 2 ^ Z.of_nat l) by (rewrite <- Z.pow_add_r by lia; f_equal; lia).
  assert (P1 : 0 < 2 ^ Z.of_nat (ref - l)) by (apply Z.pow_pos_nonneg; lia).
  assert (P2 : 0 < 2 ^ Z.of_nat l) by (apply Z.pow_pos_nonneg; lia).
  split; intros (q & Hq & H); exists q; split; auto.
  - apply (list_ext n); [apply vadd_length|rewrite ancestor_length; auto|]. intros k Hk. rewrite nth_ancestor. symmetry.
    apply div_iff; auto. specialize (H k Hk). rewrite E in H. nia.
  - intros k Hk. apply (f_equal (fun l => nth k l 0)) in H. rewrite nth_ancestor in H. symmetry in H. apply div_iff in H; auto.
    rewrite E. nia.
Qed.

Lemma denotes_mesh_coarse : forall n a p ref, (ref <= a_level a)%nat -> length p = S n ->
  (denotes n ref p (NMesh a) <-> exists q, lca_mem n a q /\ p = ancestor (a_level a - ref) q).
Proof.
  intros. rewrite (denotes_coarse n (NMesh a) p ref _ eq_refl) by auto. cbn [node_mesh node_vect].
  split; intros (q & Hq & E); exists q; split; auto; rewrite vadd_nil in *; auto; apply Hq.
Qed.
Lemma denotes_mesh_fine : forall n a p ref, (a_level a <= ref)%nat -> length p = S n ->
  (denotes n ref p (NMesh a) <-> lca_mem n a (ancestor (ref - a_level a) p)).
Proof.
  intros. rewrite (denotes_fine n (NMesh a) p ref _ eq_refl) by auto. cbn [node_mesh node_vect].
  split; [intros (q & Hq & E)|intros Hq; exists (ancestor (ref - a_level a) p); split; auto].
  - rewrite vadd_nil in E by apply Hq. subst. auto.
  - apply vadd_nil. apply Hq.
Qed.

(** ** Calls made from the visited intervals *)

Lemma nth_add_yz : forall yz st k, length st = length yz -> nth k (add_yz yz st) 0 = nth k yz 0 + nth k st 0.
Proof.
  unfold add_yz. induction yz as [|y yz IH]; intros [|s st] k H; try discriminate; [destruct k; auto|].
  destruct k; cbn [combine map nth]; auto.
Qed.
Lemma add_yz_length : forall yz st, length st = length yz -> length (add_yz yz st) = length yz.
Proof. intros. unfold add_yz. rewrite map_length, combine_length. lia. Qed.

Lemma nth_shiftl : forall s yz k, 0 <= s -> nth k (map (fun y => Z.shiftl y s) yz) 0 = nth k yz 0 * 2 ^ s.
Proof.
  intros s yz k Hs. replace 0 with (Z.shiftl 0 s) at 1 by (apply Z.shiftl_0_l).
  rewrite (map_nth (fun y => Z.shiftl y s)). apply Z.shiftl_mul_pow2. auto.
Qed.

Lemma forall_nth : forall (P : Z -> Prop) l, Forall P l <-> forall k, (k < length l)%nat -> P (nth k l 0).
Proof.
  intros P l. split.
  - intros H k Hk. rewrite Forall_forall in H. apply H. apply nth_In. auto.
  - intros H. apply Forall_forall. intros x Hx. apply (In_nth _ _ 0) in Hx as (k & Hk & <-). auto.
Qed.
Lemma zlist_ext : forall (p q : list Z), length p = length q -> (forall k, (k < length p)%nat -> nth k p 0 = nth k q 0) -> p = q.
Proof. intros. apply nth_ext with (d := 0) (d' := 0); auto. Qed.

Lemma sub_yz : forall (p q : list Z), length p = length q -> exists st, length st = length q /\ p = add_yz q st /\
  forall k, (k < length q)%nat -> nth k st 0 = nth k p 0 - nth k q 0.
Proof.
  intros p q H. destruct q as [|y q].
  - destruct p; [|discriminate]. exists []. spl; auto. intros k Hk. simpl in Hk. lia.
  - destruct (list_of (length q) (fun k => nth k p 0 - nth k (y :: q) 0)) as (st & L & N).
    exists st. cbn [length] in *. spl; auto.
    + apply zlist_ext; [rewrite add_yz_length; simpl; lia|]. intros k Hk. rewrite nth_add_yz by (simpl; lia). rewrite N by lia. lia.
    + intros k Hk. apply N. lia.
Qed.

Lemma subdomain_call_spec : forall n s i yz x yp, length yz = n ->
  (exists c, In c (subdomain_calls n s i yz) /\ added c (x :: yp)) <->
  in_i i (x / 2 ^ Z.of_nat s) /\ yz = ancestor s yp.
Proof.
  intros n s i yz x yp Hn. assert (P : 0 < 2 ^ Z.of_nat s) by (apply Z.pow_pos_nonneg; lia).
  assert (Hx : in_i (ishl i (Z.of_nat s)) x <-> in_i i (x / 2 ^ Z.of_nat s)).
  { unfold in_i, ishl. cbn [istart iend]. rewrite !Z.shiftl_mul_pow2 by lia.
    pose proof (proj1 (div_iff x _ _ P) eq_refl). nia. }
  unfold subdomain_calls. split.
  - intros (c & Hc & Ha). apply in_map_iff in Hc as (st & <- & Hst). apply nested_loop_In in Hst as [L F].
    cbn [added tl nth] in Ha. destruct Ha as [E Ha]. split; [apply Hx; auto|].
    rewrite E. apply zlist_ext; [rewrite ancestor_length, add_yz_length, map_length; rewrite ?map_length; lia|].
    intros k Hk. rewrite nth_ancestor, nth_add_yz, nth_shiftl by (rewrite ?map_length; lia). symmetry. apply div_iff; auto.
    pose proof (proj1 (forall_nth _ _) F k ltac:(lia)) as Fk. rewrite Z.shiftl_mul_pow2 in Fk by lia. cbn beta in Fk. lia.
  - intros [Hi E]. destruct (sub_yz yp (map (fun y => Z.shiftl y (Z.of_nat s)) yz)) as (st & L & E2 & N).
    { rewrite map_length. rewrite E, ancestor_length. auto. }
    exists (AddI (add_yz (map (fun y => Z.shiftl y (Z.of_nat s)) yz) st) (ishl i (Z.of_nat s))). split.
    + apply in_map_iff. exists st. split; auto. rewrite map_length in *. apply nested_loop_In. split; [lia|].
      apply forall_nth. intros k Hk. rewrite N, nth_shiftl by lia. rewrite Z.shiftl_mul_pow2 by lia.
      rewrite E, nth_ancestor. pose proof (proj1 (div_iff (nth k yp 0) _ _ P) eq_refl). lia.
    + cbn [added tl nth]. split; auto. apply Hx. auto.
Qed.

Lemma ghost_call_spec : forall n gw i yz x yp, 0 <= gw -> istart i < iend i -> length yz = n ->
  (exists c, In c (ghost_calls n gw i yz) /\ added c (x :: yp)) <->
  (exists y, in_i i y /\ Z.abs (x - y) <= gw) /\ length yp = n /\ forall k, (k < n)%nat -> Z.abs (nth k yp 0 - nth k yz 0) <= gw.
Proof.
  intros n gw i yz x yp Hg Hi Hn. unfold ghost_calls. split.
  - intros (c & Hc & Ha). apply in_map_iff in Hc as (st & <- & Hst). apply nested_loop_In in Hst as [L F].
    cbn [added tl nth] in Ha. destruct Ha as [E Ha]. unfold in_i, mk in Ha. cbn [istart iend] in Ha. spl.
    + exists (Z.max (istart i) (Z.min (iend i - 1) x)). unfold in_i. lia.
    + rewrite E, add_yz_length; lia.
    + intros k Hk. rewrite E, nth_add_yz by lia. pose proof (proj1 (forall_nth _ _) F k ltac:(lia)) as Fk. cbn beta in Fk. lia.
  - intros ((y & Hy & Hxy) & Hl & H). destruct (sub_yz yp yz) as (st & L & E2 & N); [lia|].
    exists (AddI (add_yz yz st) (mk (istart i - gw) (iend i + gw))). split.
    + apply in_map_iff. exists st. split; auto. apply nested_loop_In. split; [lia|].
      apply forall_nth. intros k Hk. rewrite N by lia. specialize (H k ltac:(lia)). lia.
    + cbn [added tl nth]. split; auto. unfold in_i, mk in *. cbn [istart iend]. lia.
Qed.

Lemma all_calls : forall {X} (f : X -> list lcl_call) l (P : lcl_call -> Prop),
  (forall x c, In x l -> In c (f x) -> P c) -> Forall P (flat_map f l).
Proof. intros X f l P H. apply Forall_forall. intros c Hc. apply in_flat_map in Hc as (x & Hx & Hc). eauto. Qed.

(** ** Arrays that differ by the indices of the x-intervals *)

Lemma shape_call_nth : forall n a a' calls calls' k i yz, wf n a -> same_shape a a' ->
  for_each_interval n a = Some calls -> for_each_interval n a' = Some calls' ->
  nth_error calls k = Some (i, yz) -> exists i', nth_error calls' k = Some (i', yz) /\ istart i' = istart i /\ iend i' = iend i.
Proof.
  intros n a a' calls calls' k i yz W SS E E' Hk. destruct W as [N|W].
  - rewrite (no_cells_for_each n a N) in E. injection E as <-. destruct k; discriminate.
  - pose proof (shape_wf n a a' SS true W) as W'.
    destruct (enum_calls n a W (wf_full_cells_n _ _ W)) as (c0 & H1 & H2 & H3).
    assert (c0 = calls) by congruence. subst c0.
    destruct (enum_calls n a' W' (wf_full_cells_n _ _ W')) as (c0 & H1' & H2' & H3').
    assert (c0 = calls') by congruence. subst c0.
    destruct (H3 _ _ _ Hk) as (Hi & fs & HF & ->).
    destruct (bounds_nth _ (a_cells a' 0) _ _ (eq_sym (shape_bounds a a' SS 0)) Hi) as (i' & Hi' & B1 & B2).
    assert (Hlt : (k < length calls')%nat).
    { rewrite H2'. apply nth_error_Some. congruence. }
    destruct (nth_error calls' k) as [[i2 yz2]|] eqn:Hk'; [|apply nth_error_None in Hk'; lia].
    destruct (H3' _ _ _ Hk') as (Hi2 & fs' & HF' & ->). assert (i2 = i') by congruence. subst i2.
    exists i'. spl; auto. f_equal. f_equal. f_equal. symmetry.
    apply (FInv_unique true n a' W' fs fs' 0 k); auto. apply shape_FInv with (a := a); auto.
Qed.

Lemma mapM_total : forall {A B} (f : A -> option B) l, (forall x, In x l -> exists y, f x = Some y) ->
  exists l', mapM f l = Some l'.
Proof.
  induction l as [|x l IH]; intros H; [exists []; auto|]. destruct (H x (or_introl eq_refl)) as (y & E).
  destruct IH as (l' & E'); [intros; apply H; right; auto|]. exists (y :: l'). cbn [mapM]. rewrite E, E'. auto.
Qed.
Lemma mapM_spec : forall {A B} (f : A -> option B) l l', mapM f l = Some l' ->
  length l' = length l /\ forall k x, nth_error l k = Some x -> exists y, f x = Some y /\ nth_error l' k = Some y.
Proof.
  induction l as [|x l IH]; intros l' H; cbn [mapM] in H.
  - injection H as <-. split; auto. intros [|k] x Hx; discriminate.
  - destruct (f x) as [y|] eqn:E; [|discriminate]. destruct (mapM f l) as [ys|]; [|discriminate]. injection H as <-.
    destruct (IH ys eq_refl) as [L N]. split; [simpl; lia|]. intros [|k] x' Hx; cbn [nth_error] in *; eauto.
    injection Hx as <-. eauto.
Qed.

(** The reference's interval found for the start of a stored interval holds it all. *)
Lemma interval_inside : forall n reference a calls i yz, wf n reference -> wf n a -> for_each_interval n a = Some calls ->
  (forall p, lca_mem n a p -> lca_mem n reference p) -> In (i, yz) calls ->
  exists r, get_interval n reference (istart i :: yz) = Some r /\ istart r <= istart i /\ iend i <= iend r /\
    forall x, in_i r x -> get_interval n reference (x :: yz) = Some r.
Proof.
  intros n reference a calls i yz Wr W E H Hin. destruct (calls_spec n a W) as (c0 & E0 & _ & V & M & _).
  assert (c0 = calls) by congruence. subst c0. destruct (V _ _ Hin) as [Vi Hl].
  assert (Hs : lca_mem n reference (istart i :: yz)) by (apply H, M; exists i; split; auto; unfold in_i; lia).
  destruct (get_interval_mem n reference _ yz Wr Hs) as (r & Hr & Hir & Hall).
  destruct (get_interval_maximal n reference _ yz r Wr Hl Hr) as (_ & _ & _ & _ & Hmax).
  exists r. spl; auto.
  - unfold in_i in Hir. lia.
  - destruct (Z.le_gt_cases (iend i) (iend r)); auto. exfalso. apply Hmax. apply H, M. exists i. split; auto. unfold in_i in *. lia.
  - intros x Hx. destruct (calls_spec n reference Wr) as (cr & Er & _).
    destruct (proj1 (get_interval_spec n reference cr _ yz r Wr Er) (conj Hr Hl)) as [Hc _].
    apply (get_interval_spec n reference cr x yz r Wr Er). auto.
Qed.

Theorem renumber_level_spec : forall n reference a, wf n reference -> wf n a ->
  (forall p, lca_mem n a p -> lca_mem n reference p) ->
  exists a', renumber_level n reference a = Some a' /\ same_shape a a' /\ a_level a' = a_level a /\
    forall p, lca_mem n a p -> get_index n a' p = get_index n reference p.
Proof.
  intros n reference a Wr W H. unfold renumber_level. destruct (calls_spec n a W) as (calls & E & F & V & M & _). rewrite E.
  set (f := fun x : interval * list Z => let (i, yz) := x in
     let* r := get_interval n reference (istart i :: yz) in Some (mkI (istart i) (iend i) (istep i) (iindex r))).
  destruct (mapM_total f calls) as (is & Eis).
  { intros [i yz] Hin. destruct (interval_inside n reference a calls i yz Wr W E H Hin) as (r & Hr & _).
    unfold f. rewrite Hr. eauto. }
  rewrite Eis. destruct (mapM_spec f calls is Eis) as [L N].
  assert (SS : same_shape a (mkLca (a_level a) (upd (a_cells a) 0 is) (a_offsets a))).
  { unfold same_shape. cbn [a_cells a_offsets]. spl; auto; [intros d Hd; apply upd_other; auto|]. rewrite upd_same.
    rewrite <- F. unfold bounds. rewrite map_map. clear - L N.
    revert is L N. induction calls as [|[i yz] calls IH]; intros [|j is] L N; try discriminate; auto.
    cbn [map fst]. f_equal.
    - destruct (N 0%nat (i, yz) eq_refl) as (y & Hy & Hj). cbn in Hj. injection Hj as <-. unfold f in Hy.
      destruct (get_interval n reference (istart i :: yz)); [|discriminate]. injection Hy as <-. reflexivity.
    - apply IH; [simpl in L; lia|]. intros k x Hx. apply (N (S k) x Hx). }
  eexists. split; [reflexivity|]. spl; auto.
  set (a' := mkLca (a_level a) (upd (a_cells a) 0 is) (a_offsets a)) in *.
  intros [|x yz] Hp; [destruct Hp; discriminate|]. pose proof Hp as [Hl _].
  apply M in Hp as (i & Hin & Hx). destruct (interval_inside n reference a calls i yz Wr W E H Hin) as (r & Hr & R1 & R2 & R3).
  apply In_nth_error in Hin as (k & Hk).
  assert (W' : wf n a').
  { destruct W as [W|W]; [left; eapply no_cells_shape; eauto|right; eapply shape_wf; eauto]. }
  destruct (calls_spec n a' W') as (calls' & E' & F' & _).
  destruct (shape_call_nth n a a' calls calls' k i yz W SS E E' Hk) as (i' & Hk' & S1 & S2).
  destruct (N _ _ Hk) as (j & Hj & Hjk). unfold f in Hj. rewrite Hr in Hj. injection Hj as <-.
  assert (Hi' : nth_error (a_cells a' 0) k = Some i') by (rewrite <- F', nth_error_map, Hk'; auto).
  unfold a' in Hi'. cbn [a_cells] in Hi'. rewrite upd_same, Hjk in Hi'. injection Hi' as <-.
  assert (G : get_interval n a' (x :: yz) = Some (mkI (istart i) (iend i) (istep i) (iindex r))).
  { apply (get_interval_spec n a' calls' x yz _ W' E'). split; [eapply nth_error_In; eauto|]. exact Hx. }
  unfold get_index. rewrite G. rewrite (R3 x) by (unfold in_i in *; lia). reflexivity.
Qed.

Lemma renumber_levels_spec : forall n reference ls at_, NoDup ls ->
  (forall l, In l ls -> wf n (c_at reference l) /\ wf n (at_ l) /\ forall p, lca_mem n (at_ l) p -> lca_mem n (c_at reference l) p) ->
  exists at', renumber_levels n reference ls at_ = Some at' /\
    (forall l, same_shape (at_ l) (at' l) /\ a_level (at' l) = a_level (at_ l)) /\
    (forall l, ~ In l ls -> at' l = at_ l) /\
    (forall l p, In l ls -> lca_mem n (at_ l) p -> get_index n (at' l) p = get_index n (c_at reference l) p).
Proof.
  induction ls as [|l ls IH]; intros at_ ND H; cbn [renumber_levels].
  - exists at_. split; auto. split; [intros l; split; auto; unfold same_shape; auto|]. split; auto. intros l p [].
  - inversion ND as [|? ? Hni ND']; subst. destruct (H l (or_introl eq_refl)) as (H1 & H2 & H3).
    destruct (renumber_level_spec n _ _ H1 H2 H3) as (a' & E & SS & LV & GI). rewrite E.
    destruct (IH (upd at_ l a') ND') as (at' & E' & SS' & O' & GI').
    { intros l' Hl'. assert (l' <> l) by congruence. rewrite upd_other by auto. apply H. right. auto. }
    exists at'. spl; auto.
    + intros l0. destruct (Nat.eq_dec l0 l) as [->|Hne].
      * rewrite O' by auto. rewrite upd_same. auto.
      * specialize (SS' l0). rewrite upd_other in SS' by auto. exact SS'.
    + intros l' Hl'. assert (l' <> l) by (intros ->; apply Hl'; left; auto). rewrite O', upd_other by (auto; intros ?; apply Hl'; right; auto). auto.
    + intros l' p [<-|Hl'] Hm.
      * rewrite O' by auto. rewrite upd_same. auto.
      * assert (l' <> l) by congruence. apply GI'; auto. rewrite upd_other by auto. auto.
Qed.
