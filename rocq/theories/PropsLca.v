(** Properties C06-C16: LevelCellList and LevelCellArray. *)
From Verif Require Import Base IntervalModel Spec LoiModel LoiProofs LcaModel LcaSpec GridProofs
  InitProofs SearchProofs IterProofs LcaProofs LcaProofs2 LcaProofs3 RowsProofs.
Open Scope Z_scope.

(** A history used in the examples: two dimensions (n = 1), a row touched before
    being filled, touching intervals, a single cell, two separated rows. *)
Definition ex_calls : list lcl_call :=
  [Touch [0]; AddI [0] (mk 0 3); AddP [3] 7; AddI [0] (mk 3 5); AddC [-2; -1]; AddI [0] (mk 8 9)].

Lemma ex_calls_ok : Forall (call_dim 1) ex_calls /\ rows_filled ex_calls.
Proof.
  split; [repeat constructor|]. intros c Hc. simpl in Hc.
  destruct Hc as [<-|[<-|[<-|[<-|[<-|[<-|[]]]]]]]; simpl.
  1,2,4,6: exists (AddI [0] (mk 0 3)); simpl; spl; auto; lia.
  - exists (AddP [3] 7). simpl. auto.
  - exists (AddC [-2; -1]). simpl. spl; auto.
    right; right; right; right; left; auto.
Qed.

(** C06: the cells of the array are the cells added by the calls, for every
    history, including histories that leave empty rows. *)
Theorem C06_array_holds_added_cells : forall n level cs, Forall (call_dim n) cs ->
  a_level (client_lca n level cs) = level /\
  forall p, lca_mem n (client_lca n level cs) p <->
            length p = S n /\ exists c, In c cs /\ added c p.
Proof.
  intros n level cs Hd. split; [apply client_lca_level; auto|apply client_lca_mem; auto].
Qed.

Example C06_example : lca_mem 1 (client_lca 1 5 ex_calls) [4; 0] /\ ~ lca_mem 1 (client_lca 1 5 ex_calls) [5; 0].
Proof.
  destruct (C06_array_holds_added_cells 1 5 ex_calls (proj1 ex_calls_ok)) as [_ H]. split.
  - apply H. split; auto. exists (AddI [0] (mk 3 5)). simpl. unfold in_i; simpl. spl; auto; lia.
  - intros K. apply H in K as (_ & c & Hc & K). simpl in Hc.
    destruct Hc as [<-|[<-|[<-|[<-|[<-|[<-|[]]]]]]]; simpl in K; unfold in_i in K; simpl in K; try tauto; try lia;
      try discriminate.
Qed.

(** C07: every history gives a well-formed array (rows normal, offsets in bounds,
    consecutive, covering; interval indices pointing to the rows of the next
    dimension in order); if no row is left empty every row slice is non-empty. *)
Theorem C07_array_well_formed : forall n level cs, Forall (call_dim n) cs ->
  (lca_no_cells n (client_lca n level cs) \/ wf_weak n (client_lca n level cs)) /\
  (rows_filled cs -> wf n (client_lca n level cs)).
Proof.
  intros n level cs Hd. split; [apply client_lca_wf_weak; auto|apply client_lca_wf; auto].
Qed.

Example C07_example :
  a_cells (client_lca 1 0 ex_calls) 1 = [mkidx (-1) 1 1; mkidx 3 4 (-1)] /\
  a_offsets (client_lca 1 0 ex_calls) 0 = [0; 1; 3; 4]%nat /\
  a_cells (client_lca 1 0 ex_calls) 0 = [mk (-2) (-1); mk 0 5; mk 8 9; mk 7 8].
Proof. vm_compute. auto. Qed.

(** C08 *)
Theorem C08_iteration_exact : forall n level cs, Forall (call_dim n) cs -> rows_filled cs ->
  exists calls, for_each_interval n (client_lca n level cs) = Some calls /\
    StronglySorted lex_lt (cells_of_calls calls) /\ NoDup (cells_of_calls calls) /\
    forall p, In p (cells_of_calls calls) <-> length p = S n /\ exists c, In c cs /\ added c p.
Proof.
  intros n level cs Hd Hf. pose proof (client_lca_wf n level cs Hd Hf) as W.
  destruct (for_each_interval_correct n _ W) as (calls & H1 & H2 & H3 & _). exists calls. spl; auto.
  - eapply sorted_NoDup; eauto. apply lex_lt_irrefl.
  - intros p. rewrite H3. apply client_lca_mem. auto.
Qed.

(** The same for for_each_cell, which must not be called on an array without cells. *)
Theorem C08_for_each_cell_exact : forall n level cs, Forall (call_dim n) cs -> rows_filled cs -> cs <> [] ->
  exists calls, for_each_cell n (client_lca n level cs) = Some calls /\
    StronglySorted lex_lt (map fst calls) /\
    (forall p, In p (map fst calls) <-> length p = S n /\ exists c, In c cs /\ added c p) /\
    (forall p i, In (p, i) calls -> get_index n (client_lca n level cs) p = Some i).
Proof.
  intros n level cs Hd Hf Hne. pose proof (client_lca_wf n level cs Hd Hf) as W.
  assert (WF : wf_full n (client_lca n level cs)).
  { destruct W as [N|W]; auto. exfalso. destruct cs as [|c cs]; [congruence|].
    destruct (Hf c (or_introl eq_refl)) as (c' & Hc' & _ & Ha). rewrite Forall_forall in Hd.
    destruct (added_row n c' (Hd c' Hc') Ha) as (x & Hx).
    apply (no_cells_mem _ _ (x :: call_row c') N). apply client_lca_mem; [rewrite Forall_forall; auto|].
    split; [simpl; rewrite (call_row_len n); auto|eauto]. }
  destruct (for_each_cell_correct n _ WF) as (calls & H1 & H2).
  destruct (for_each_interval_correct n _ W) as (calls' & H3 & H4 & H5 & H6).
  assert (calls' = calls) by congruence. subst calls'. clear H3.
  eexists. split; [exact H2|].
  assert (E : map fst (flat_map (fun '(i, yz) => map (fun x => (x :: yz, iindex i + x)) (zrange (istart i) (iend i))) calls)
              = cells_of_calls calls).
  { unfold cells_of_calls. rewrite flat_map_concat_map, concat_map, map_map, flat_map_concat_map. f_equal.
    apply map_ext. intros [i yz]. rewrite map_map. auto. }
  rewrite E. spl; auto.
  - intros p. rewrite H5. apply client_lca_mem. auto.
  - intros p j Hp. apply in_flat_map in Hp as ([i yz] & Hc & Hp). apply in_map_iff in Hp as (x & Ep & Hx).
    inversion Ep; subst p j. apply zrange_In in Hx.
    apply In_nth_error in Hc as (k & Hk).
    assert (Hlen : length (x :: yz) = S n).
    { assert (Hin : In (x :: yz) (cells_of_calls calls)).
      { apply cells_of_calls_In. exists i. split; [eapply nth_error_In; eauto|auto]. }
      apply H5 in Hin. apply Hin. }
    assert (Hfd : find n (client_lca n level cs) (x :: yz) = Some (Some k)).
    { apply (find_position n _ calls (x :: yz) k WF H1 Hlen). exists i. auto. }
    unfold get_index, get_interval. rewrite Hfd.
    replace (nth_error (a_cells (client_lca n level cs) 0) k) with (Some i); auto.
    rewrite <- H6, nth_error_map, Hk. auto.
Qed.

Example C08_example : for_each_interval 1 (client_lca 1 0 ex_calls)
  = Some [(mk (-2) (-1), [-1]); (mk 0 5, [0]); (mk 8 9, [0]); (mk 7 8, [3])].
Proof. vm_compute. auto. Qed.

(** for_each_cell has no emptiness guard: on an array without cells end() forms
    [m_cells[d].end() - 1] of an empty vector (undefined in every dimension) and,
    from dimension 2 on, reads through it. *)
Theorem C08_for_each_cell_on_empty_refuted :
  forall n level, for_each_cell n (client_lca n level []) = None.
Proof.
  intros n level. unfold client_lca, lca_of_lcl, lcl_run. simpl.
  assert (E : grid_is_empty n (grid_empty n) = true) by (destruct n; auto). rewrite E.
  unfold for_each_cell, it_end. simpl. destruct (it_begin n (lca_empty level)); auto.
Qed.

(** C09: with an empty row (created by [lcl[{1}]]) the traversal reports a cell
    that was never added and misses one that was. *)
Theorem C09_iteration_with_empty_row_refuted :
  exists cs, Forall (call_dim 1) cs /\
  exists calls, for_each_interval 1 (client_lca 1 0 cs) = Some calls /\
    (exists p, In p (cells_of_calls calls) /\ ~ exists c, In c cs /\ added c p) /\
    (exists p c, In c cs /\ added c p /\ ~ In p (cells_of_calls calls)).
Proof.
  exists [AddI [0] (mk 0 1); Touch [1]; AddI [2] (mk 5 6)]. split; [repeat constructor|].
  exists [(mk 0 1, [0]); (mk 5 6, [1])]. spl.
  - vm_compute. auto.
  - exists [5; 1]. split; [vm_compute; auto|]. intros (c & [<-|[<-|[<-|[]]]] & H); simpl in H; try tauto;
      destruct H as [H _]; discriminate.
  - exists [5; 2], (AddI [2] (mk 5 6)). spl; [simpl; auto|split; [reflexivity|unfold in_i; simpl; lia]|].
    vm_compute. intros [H|[H|[]]]; discriminate.
Qed.

(** C10: search, for every history (also with empty rows). The outer [option]
    is the absence of out-of-range accesses, the inner one is -1. *)
Theorem C10_find_iff_present : forall n level cs p, Forall (call_dim n) cs -> length p = S n ->
  let a := client_lca n level cs in
  ((exists c, In c cs /\ added c p) ->
     exists k i, find n a p = Some (Some k) /\ nth_error (a_cells a 0) k = Some i /\ in_i i (nth 0 p 0)) /\
  (~ (exists c, In c cs /\ added c p) -> find n a p = Some None).
Proof.
  intros n level cs p Hd Hp a.
  assert (M : lca_mem n a p <-> exists c, In c cs /\ added c p).
  { unfold a. rewrite client_lca_mem by auto. tauto. }
  rewrite <- M. destruct (client_lca_wf_weak n level cs Hd) as [N|W]; fold a in N || fold a in W.
  - split; intros H; [exfalso; eapply no_cells_mem; eauto|].
    unfold find. destruct N as [N _]. destruct n; cbn [find_impl]; rewrite N by lia; auto.
  - destruct (find_spec false n a W p Hp) as [(k & i & F & Hi & Hx & Hm)|[F Hm]]; split; intros H; try tauto; eauto.
Qed.

(** Without empty rows: the position found is that of the visited interval that
    contains the cell. *)
Theorem C10_find_is_visited_position : forall n level cs p k calls,
  Forall (call_dim n) cs -> rows_filled cs -> length p = S n ->
  for_each_interval n (client_lca n level cs) = Some calls ->
  (find n (client_lca n level cs) p = Some (Some k) <->
   exists i, nth_error calls k = Some (i, tl p) /\ in_i i (nth 0 p 0)).
Proof.
  intros n level cs p k calls Hd Hf Hp Hc. destruct (client_lca_wf n level cs Hd Hf) as [N|W].
  - rewrite (no_cells_for_each _ _ N) in Hc. inv Hc. split.
    + unfold find. destruct N as [N _]. destruct n; cbn [find_impl]; rewrite N by lia; discriminate.
    + intros (i & Hi & _). destruct k; discriminate.
  - apply find_position; auto.
Qed.

(** The binary search is linear search on any slice of a vector whose intervals
    are in normal form. *)
Theorem C10_binary_search_is_linear : forall l lo hi v, (lo <= hi)%nat -> (hi <= length l)%nat ->
  normal (firstn (hi - lo) (skipn lo l)) ->
  (exists k i, my_binary_search l lo hi v = Some (Some k) /\ (lo + k < hi)%nat /\
     nth_error l (lo + k) = Some i /\ in_i i v) \/
  (my_binary_search l lo hi v = Some None /\
   forall k i, (lo <= k < hi)%nat -> nth_error l k = Some i -> ~ in_i i v).
Proof. exact my_binary_search_spec. Qed.

Example C10_example : find 1 (client_lca 1 0 ex_calls) [8; 0] = Some (Some 2%nat) /\
  find 1 (client_lca 1 0 ex_calls) [6; 0] = Some None /\ find 1 (client_lca 1 0 ex_calls) [0; 1] = Some None /\
  find 1 (client_lca 1 0 []) [0; 1] = Some None.
Proof. vm_compute. auto. Qed.

(** C11 *)
Lemma nth_error_of_In : forall A (l : list A) x, In x l -> exists k, nth_error l k = Some x.
Proof. intros. apply In_nth_error. auto. Qed.

Lemma numbering : forall (idx : list Z -> option Z) cs,
  StronglySorted lex_lt cs -> (forall j p, nth_error cs j = Some p -> idx p = Some (Z.of_nat j)) ->
  (forall p, In p cs -> exists i, idx p = Some i /\ 0 <= i < Z.of_nat (length cs)) /\
  (forall p q i, In p cs -> In q cs -> idx p = Some i -> idx q = Some i -> p = q) /\
  (forall i, 0 <= i < Z.of_nat (length cs) -> exists p, In p cs /\ idx p = Some i) /\
  (forall p q i j, In p cs -> In q cs -> idx p = Some i -> idx q = Some j -> lex_lt p q -> i < j).
Proof.
  intros idx cs Hs H. spl.
  - intros p Hp. apply nth_error_of_In in Hp as (j & Hj). exists (Z.of_nat j). split; auto.
    assert (j < length cs)%nat by (apply nth_error_Some; congruence). lia.
  - intros p q i Hp Hq Ep Eq. apply nth_error_of_In in Hp as (j & Hj). apply nth_error_of_In in Hq as (k & Hk).
    rewrite (H _ _ Hj) in Ep. rewrite (H _ _ Hk) in Eq. assert (j = k) by (injection Ep; injection Eq; lia). congruence.
  - intros i Hi. destruct (nth_error cs (Z.to_nat i)) as [p|] eqn:E; [|apply nth_error_None in E; lia].
    exists p. split; [eapply nth_error_In; eauto|]. rewrite (H _ _ E). f_equal. lia.
  - intros p q i j Hp Hq Ep Eq Hlt. apply nth_error_of_In in Hp as (ip & Hip). apply nth_error_of_In in Hq as (iq & Hiq).
    rewrite (H _ _ Hip) in Ep. rewrite (H _ _ Hiq) in Eq. inv Ep. inv Eq.
    destruct (Nat.lt_trichotomy ip iq) as [L|[->|L]]; [lia| |].
    + exfalso. assert (p = q) by congruence. subst. eapply lex_lt_irrefl; eauto.
    + exfalso. apply (lex_lt_irrefl p). eapply lex_lt_trans; eauto.
      eapply sorted_nth; [exact Hs|exact L| |]; auto.
Qed.

Lemma sorted_adjacent : forall cs x yz j k, StronglySorted lex_lt cs ->
  nth_error cs j = Some (x :: yz) -> nth_error cs k = Some ((x + 1) :: yz) -> k = S j.
Proof.
  intros cs x yz j k Hs Hj Hk.
  assert (Hlt : lex_lt (x :: yz) (x + 1 :: yz)) by (simpl; right; split; auto; lia).
  destruct (Nat.lt_trichotomy j k) as [L|[->|L]].
  - destruct (Nat.eq_dec k (S j)); auto. exfalso.
    destruct (nth_error cs (S j)) as [q|] eqn:E.
    + assert (H1 : lex_lt (x :: yz) q) by (eapply sorted_nth; [exact Hs| |exact Hj|exact E]; lia).
      assert (H2 : lex_lt q (x + 1 :: yz)) by (eapply sorted_nth; [exact Hs| |exact E|exact Hk]; lia).
      destruct q as [|y q]; simpl in *; [tauto|].
      destruct H1 as [H1|[<- H1]], H2 as [H2|[E2 H2]]; try lia.
      * apply (lex_lt_irrefl yz). eapply lex_lt_trans; eauto.
      * subst. eapply lex_lt_irrefl; eauto.
      * eapply lex_lt_irrefl; eauto.
    + apply nth_error_None in E. assert (k < length cs)%nat by (apply nth_error_Some; congruence). lia.
  - exfalso. assert (x :: yz = x + 1 :: yz) by congruence. inv H. lia.
  - exfalso. apply (lex_lt_irrefl (x :: yz)). eapply lex_lt_trans; [exact Hlt|].
    eapply sorted_nth; [exact Hs|exact L| |]; auto.
Qed.

Theorem C11_update_index_bijective : forall n level cs, Forall (call_dim n) cs -> rows_filled cs ->
  let a := update_index (client_lca n level cs) in
  let is_cell p := length p = S n /\ exists c, In c cs /\ added c p in
  (forall p, is_cell p -> exists i, get_index n a p = Some i /\ 0 <= i < nb_cells a) /\
  (forall p q i, is_cell p -> is_cell q -> get_index n a p = Some i -> get_index n a q = Some i -> p = q) /\
  (forall i, 0 <= i < nb_cells a -> exists p, is_cell p /\ get_index n a p = Some i) /\
  (forall p q i j, is_cell p -> is_cell q -> get_index n a p = Some i -> get_index n a q = Some j ->
     lex_lt p q -> i < j) /\
  (forall x yz i, is_cell (x :: yz) -> is_cell (x + 1 :: yz) -> get_index n a (x :: yz) = Some i ->
     get_index n a (x + 1 :: yz) = Some (i + 1)).
Proof.
  intros n level cs Hd Hf a is_cell. pose proof (client_lca_wf n level cs Hd Hf) as W.
  destruct (for_each_interval_correct n _ W) as (calls & _ & H2 & H3 & _).
  destruct (update_index_spec 0 n _ (cells_of_calls calls) W (conj H2 H3)) as (W' & E' & G & _).
  fold (update_index (client_lca n level cs)) in W', E', G. fold a in W', E', G.
  assert (M : forall p, is_cell p <-> In p (cells_of_calls calls)).
  { intros p. rewrite H3. unfold is_cell. rewrite client_lca_mem by auto. tauto. }
  rewrite (enumeration_len n a _ W' E').
  destruct (numbering (get_index n a) (cells_of_calls calls) H2 G) as (N1 & N2 & N3 & N4). spl.
  - intros p Hp. apply N1. apply M. auto.
  - intros p q i Hp Hq. apply N2; apply M; auto.
  - intros i Hi. destruct (N3 i Hi) as (p & Hp & E). exists p. split; auto. apply M. auto.
  - intros p q i j Hp Hq. apply N4; apply M; auto.
  - intros x yz i Hp Hq E. apply M in Hp. apply M in Hq.
    apply nth_error_of_In in Hp as (j & Hj). apply nth_error_of_In in Hq as (k & Hk).
    pose proof (sorted_adjacent _ _ _ _ _ H2 Hj Hk) as ->. rewrite (G _ _ Hk).
    rewrite (G _ _ Hj) in E. injection E as <-. f_equal. lia.
Qed.

Example C11_example : map (get_index 1 (update_index (client_lca 1 0 ex_calls))) [[-2; -1]; [0; 0]; [4; 0]; [8; 0]; [7; 3]]
  = [Some 0; Some 1; Some 5; Some 6; Some 7] /\ nb_cells (update_index (client_lca 1 0 ex_calls)) = 8.
Proof. vm_compute. auto. Qed.

(** C13. [it_steps k]: k increments. *)
Fixpoint it_steps (k : nat) (a : lca) (it : iter) : option iter :=
  match k with
  | O => Some it
  | S k => match it_inc a it with Some it' => it_steps k a it' | None => None end
  end.

Lemma it_steps_S : forall k a it, it_steps (S k) a it =
  match it_steps k a it with Some it' => it_inc a it' | None => None end.
Proof.
  induction k as [|k IH]; intros a it; simpl; [destruct (it_inc a it); auto|].
  destruct (it_inc a it) as [it'|]; auto. apply IH.
Qed.

Lemma it_steps_spec : forall n a, wf_full n a -> forall k, (k < length (a_cells a 0))%nat ->
  exists it0 fs, it_begin n a = Some it0 /\ it_steps k a it0 = Some (mkIt k fs) /\ FInv n a 0 k fs.
Proof.
  intros n a W. pose proof (wf_full_cells_n _ _ W) as NE.
  destruct (begin_spec true n a W eq_refl NE) as (fs0 & B1 & B2).
  induction k as [|k IH]; intros Hk.
  - exists (mkIt 0 fs0), fs0. auto.
  - destruct IH as (it0 & fs & H1 & H2 & H3); [lia|].
    destruct (it_inc_spec true n a W k fs eq_refl H3) as ([k' fs'] & H4 & H5 & H6). simpl in H5, H6. subst k'.
    exists it0, fs'. spl; auto. rewrite it_steps_S, H2. auto.
Qed.

(** ++ then -- is the identity on every position but the last one; -- from end()
    is the last position; exactly as many steps as x-intervals lead from begin()
    to end(). *)
Theorem C13_decrement_undoes_increment_partial : forall n level cs,
  Forall (call_dim n) cs -> rows_filled cs -> cs <> [] ->
  let a := client_lca n level cs in
  let L := length (a_cells a 0) in
  exists b e, it_begin n a = Some b /\ it_end n a = Some e /\
    (forall k, (k < L)%nat -> exists it, it_steps k a b = Some it /\ it_cur it <> it_cur e) /\
    (exists it, it_steps L a b = Some it /\ it_cur it = it_cur e) /\
    (forall k it it', (S k < L)%nat -> it_steps k a b = Some it -> it_inc a it = Some it' -> it_dec a it' = Some it) /\
    (exists it, it_steps (L - 1) a b = Some it /\ it_dec a e = Some it).
Proof.
  intros n level cs Hd Hf Hne a L.
  assert (W : wf_full n a).
  { destruct (client_lca_wf n level cs Hd Hf) as [N|W]; auto. exfalso. destruct cs as [|c cs]; [congruence|].
    destruct (Hf c (or_introl eq_refl)) as (c' & Hc' & _ & Ha). rewrite Forall_forall in Hd.
    destruct (added_row n c' (Hd c' Hc') Ha) as (x & Hx).
    apply (no_cells_mem _ _ (x :: call_row c') N). apply client_lca_mem; [rewrite Forall_forall; auto|].
    split; [simpl; rewrite (call_row_len n); auto|eauto]. }
  pose proof (wf_full_cells_n _ _ W) as NE.
  destruct (begin_spec true n a W eq_refl NE) as (fs0 & B1 & B2).
  destruct (end_spec true n a W eq_refl NE) as (fse & E1 & E2).
  destruct (FInv_len true n a W _ _ _ B2) as [_ Lpos]. fold L in Lpos, E1, E2.
  pose proof (it_steps_spec n a W) as ST. fold L in ST.
  exists (mkIt 0 fs0), (mkIt L fse). spl; auto.
  - intros k Hk. destruct (ST k Hk) as (it0 & fs & H1 & H2 & _). assert (it0 = mkIt 0 fs0) by congruence. subst it0.
    exists (mkIt k fs). split; auto. simpl. lia.
  - destruct (ST (L - 1)%nat ltac:(lia)) as (it0 & fs & H1 & H2 & H3). assert (it0 = mkIt 0 fs0) by congruence. subst it0.
    destruct (it_inc_spec true n a W (L - 1) fs eq_refl H3) as (it' & H4 & H5 & _).
    exists it'. replace L with (S (L - 1)) by lia. rewrite it_steps_S, H2. split; auto.
  - intros k it it' Hk Hs Hi. destruct (ST k ltac:(lia)) as (it0 & fs & H1 & H2 & H3).
    assert (it0 = mkIt 0 fs0) by congruence. subst it0. assert (it = mkIt k fs) by congruence. subst it.
    destruct (it_inc_spec true n a W k fs eq_refl H3) as (it1 & H4 & H5 & H6). assert (it1 = it') by congruence. subst it1.
    destruct it' as [k' fs']. simpl in H5, H6. subst k'. specialize (H6 Hk).
    destruct (it_dec_spec true n a W k fs' eq_refl H6) as (fs2 & H7 & H8). rewrite H7.
    rewrite (FInv_unique true n a W _ _ _ _ H8 H3). auto.
  - destruct (ST (L - 1)%nat ltac:(lia)) as (it0 & fs & H1 & H2 & H3). assert (it0 = mkIt 0 fs0) by congruence. subst it0.
    exists (mkIt (L - 1) fs). split; auto.
    destruct (it_dec_end true n a W eq_refl NE) as (e & fs' & X1 & X2 & X3). fold L in X2, X3.
    assert (e = mkIt L fse) by congruence. subst e. rewrite X2. rewrite (FInv_unique true n a W _ _ _ _ X3 H3). auto.
Qed.

(** On the last position the round trip reads the interval past the end of the
    y-vector (in two dimensions, for a single row). *)
Theorem C13_round_trip_at_last_position_refuted :
  exists n level cs it it', Forall (call_dim n) cs /\ rows_filled cs /\
    it_begin n (client_lca n level cs) = Some it /\
    it_inc (client_lca n level cs) it = Some it' /\ it_dec (client_lca n level cs) it' <> Some it.
Proof.
  exists 1%nat, 0%nat, [AddI [0] (mk 0 1)], (mkIt 0 [mkF 0 0 0]), (mkIt 1 [mkF 1 1 1]). spl.
  - repeat constructor.
  - apply adds_filled. repeat constructor.
  - vm_compute. auto.
  - vm_compute. auto.
  - vm_compute. discriminate.
Qed.

Example C13_example :
  let a := client_lca 1 0 ex_calls in
  exists b it, it_begin 1 a = Some b /\ it_steps 2 a b = Some it /\ it_index it = [0] /\ it_deref a it = Some (mk 8 9).
Proof. vm_compute. do 2 eexists. spl; reflexivity. Qed.

(** C14 *)
Theorem C14_box_array : forall n level bmin bmax,
  (forall d, (d <= n)%nat -> nth d bmin 0 < nth d bmax 0) ->
  let a := lca_of_box n level bmin bmax in
  a_level a = level /\ wf n a /\
  (forall p, lca_mem n a p <-> length p = S n /\ forall d, (d <= n)%nat -> nth d bmin 0 <= nth d p 0 < nth d bmax 0) /\
  (forall d, a_cells (update_index a) d = a_cells a d).
Proof.
  intros n level bmin bmax H a. spl.
  - apply box_level; auto.
  - right. apply box_wf; auto.
  - apply box_mem; auto.
  - apply box_numbered; auto.
Qed.

Example C14_example : a_cells (lca_of_box 1 0 [1; -1] [4; 1]) 0 = [mkidx 1 4 (-1); mkidx 1 4 2] /\
  a_cells (lca_of_box 1 0 [1; -1] [4; 1]) 1 = [mkidx (-1) 1 1].
Proof. vm_compute. auto. Qed.

(** C15. Equal arrays hold the same cells, without any hypothesis. *)
Theorem C15_equal_arrays_same_cells : forall n a b, lca_eqb n a b = true ->
  a_level a = a_level b /\ forall p, lca_mem n a p <-> lca_mem n b p.
Proof. exact lca_eqb_mem. Qed.

(** The converse fails: operator== also compares the index field carried by the
    intervals handed to the cell list. *)
Theorem C15_same_cells_equal_refuted :
  exists cs cs', Forall (call_dim 0) cs /\ Forall (call_dim 0) cs' /\ rows_filled cs /\ rows_filled cs' /\
    (forall p, lca_mem 0 (client_lca 0 3 cs) p <-> lca_mem 0 (client_lca 0 3 cs') p) /\
    lca_eqb 0 (client_lca 0 3 cs) (client_lca 0 3 cs') = false.
Proof.
  exists [AddI [] (mk 0 2)], [AddI [] (mkidx 0 2 5)].
  assert (D1 : Forall (call_dim 0) [AddI [] (mk 0 2)]) by repeat constructor.
  assert (D2 : Forall (call_dim 0) [AddI [] (mkidx 0 2 5)]) by repeat constructor.
  spl; auto; try (apply adds_filled; repeat constructor).
  intros p. rewrite !client_lca_mem by auto.
  split; intros (H & c & [<-|[]] & K); split; auto; eexists; (split; [left; reflexivity|]); exact K.
Qed.

(** It holds when the intervals handed over carry the default step and index. *)
Theorem C15_same_cells_equal_partial : forall n level level' cs cs',
  Forall (call_dim n) cs -> Forall (call_dim n) cs' -> rows_filled cs -> rows_filled cs' ->
  Forall (call_fields (fun st ix => st = 1 /\ ix = 0)) cs ->
  Forall (call_fields (fun st ix => st = 1 /\ ix = 0)) cs' ->
  (lca_eqb n (client_lca n level cs) (client_lca n level' cs') = true <->
   level = level' /\ forall p, length p = S n ->
     ((exists c, In c cs /\ added c p) <-> (exists c, In c cs' /\ added c p))).
Proof.
  intros n level level' cs cs' D D' F F' Q Q'. split.
  - intros H. apply lca_eqb_mem in H as [H1 H2]. rewrite !client_lca_level in H1 by auto. split; auto.
    intros p Hp. specialize (H2 p). rewrite !client_lca_mem in H2 by auto. tauto.
  - intros [<- H]. eapply (canon_eqb n _ _ (fields (fun st ix => st = 1 /\ ix = 0))).
    + apply client_lca_wf; auto.
    + apply client_lca_wf; auto.
    + rewrite !client_lca_level; auto.
    + intros p. rewrite !client_lca_mem by auto. split; intros [A B]; split; auto; apply H; auto.
    + apply client_lca_stored; auto.
    + apply client_lca_stored; auto.
    + intros B P1 P2. apply intervals_ext; auto.
      * apply const_map with (c := 1); [apply bounds_len; auto| |]; intros i Hi; [apply (P1 i Hi)|apply (P2 i Hi)].
      * apply const_map with (c := 0); [apply bounds_len; auto| |]; intros i Hi; [apply (P1 i Hi)|apply (P2 i Hi)].
Qed.

(** It also holds after update_index (as done by CellArray), whatever the indices
    handed over, if the steps are 1. *)
Theorem C15_same_cells_equal_after_numbering : forall n level level' cs cs',
  Forall (call_dim n) cs -> Forall (call_dim n) cs' -> rows_filled cs -> rows_filled cs' ->
  Forall (call_fields (fun st _ => st = 1)) cs -> Forall (call_fields (fun st _ => st = 1)) cs' ->
  (lca_eqb n (update_index (client_lca n level cs)) (update_index (client_lca n level' cs')) = true <->
   level = level' /\ forall p, length p = S n ->
     ((exists c, In c cs /\ added c p) <-> (exists c, In c cs' /\ added c p))).
Proof.
  intros n level level' cs cs' D D' F F' Q Q'.
  assert (LV : forall a, a_level (update_index a) = a_level a).
  { intros a. unfold update_index, update_index_from. destruct (renumber 0 (a_cells a 0)). auto. }
  assert (M : forall level cs, Forall (call_dim n) cs -> forall p, lca_mem n (update_index (client_lca n level cs)) p <->
    length p = S n /\ exists c, In c cs /\ added c p).
  { intros l c Hc p. unfold update_index. rewrite (shape_mem n _ _ (update_index_shape 0 (client_lca n l c))).
    apply client_lca_mem; auto. }
  assert (W : forall level cs, Forall (call_dim n) cs -> rows_filled cs -> wf n (update_index (client_lca n level cs))).
  { intros l c Hc Hf. pose proof (update_index_shape 0 (client_lca n l c)) as SS.
    destruct (client_lca_wf n l c Hc Hf) as [N|WF]; [left; eapply no_cells_shape; eauto|right; eapply shape_wf; eauto]. }
  (* steps after renumbering *)
  assert (ST : forall level cs, Forall (call_fields (fun st _ => st = 1)) cs ->
     stored (fields (fun st _ => st = 1)) (update_index (client_lca n level cs))).
  { intros l c Hc d i Hi. pose proof (client_lca_stored (fun st _ => st = 1) n l c eq_refl Hc) as S0.
    destruct d as [|d].
    - unfold update_index in Hi. rewrite update_index_cells0 in Hi.
      assert (G : forall L acc, In i (fst (renumber acc L)) -> exists j, In j L /\ istep j = istep i).
      { induction L as [|j L IH]; intros acc Hin; simpl in Hin; [destruct Hin|].
        specialize (IH (acc + isize j)). destruct (renumber (acc + isize j) L) as [L' acc']. simpl in *.
        destruct Hin as [<-|Hin]; [exists j; auto|]. destruct (IH Hin) as (j' & H1 & H2). exists j'. auto. }
      destruct (G _ _ Hi) as (j & Hj & E). specialize (S0 0%nat j Hj). unfold fields in *. lia.
    - destruct (update_index_shape 0 (client_lca n l c)) as (SH & _). unfold update_index in Hi.
      rewrite SH in Hi by lia. apply (S0 (S d) i Hi). }
  split.
  - intros H. apply lca_eqb_mem in H as [H1 H2]. rewrite !LV, !client_lca_level in H1 by auto. split; auto.
    intros p Hp. specialize (H2 p). rewrite !M in H2 by auto. tauto.
  - intros [<- H]. eapply (canon_eqb n _ _ (fields (fun st _ => st = 1))); auto.
    + rewrite !LV, !client_lca_level; auto.
    + intros p. rewrite !M by auto. split; intros [A B]; split; auto; apply H; auto.
    + intros B P1 P2. apply intervals_ext; auto.
      * apply const_map with (c := 1); [apply bounds_len; auto| |]; intros i Hi; [apply (P1 i Hi)|apply (P2 i Hi)].
      * (* indices are determined by the bounds *)
        unfold update_index in *. rewrite !update_index_cells0 in *. rewrite !renumber_bounds in B.
        clear - B. revert B. generalize (a_cells (client_lca n level cs) 0) (a_cells (client_lca n level cs') 0).
        generalize 0. intros acc l. revert acc. induction l as [|i l IH]; intros acc [|j l'] B; try discriminate; auto.
        cbn [bounds map] in B. injection B as B1 B2 B3. specialize (IH (acc + isize i) l' B3).
        cbn [renumber]. replace (isize j) with (isize i) by (unfold isize; lia).
        destruct (renumber (acc + isize i) l) as [m1 a1]. destruct (renumber (acc + isize i) l') as [m2 a2].
        cbn [fst map iindex] in *. f_equal; auto. lia.
Qed.

Example C15_example : lca_eqb 1 (client_lca 1 0 ex_calls) (client_lca 1 0 (rev ex_calls)) = true /\
  lca_eqb 1 (client_lca 1 0 ex_calls) (client_lca 1 0 (AddP [0] 5 :: ex_calls)) = false.
Proof. vm_compute. auto. Qed.

(** C16: nb_cells is the number of distinct cells; min_indices / max_indices are
    the tight bounds in every dimension. *)
Theorem C16_nb_cells : forall n level cs, Forall (call_dim n) cs -> rows_filled cs ->
  exists cells, NoDup cells /\ (forall p, In p cells <-> length p = S n /\ exists c, In c cs /\ added c p) /\
    nb_cells (client_lca n level cs) = Z.of_nat (length cells).
Proof.
  intros n level cs Hd Hf. pose proof (client_lca_wf n level cs Hd Hf) as W.
  destruct (for_each_interval_correct n _ W) as (calls & _ & H2 & H3 & _).
  exists (cells_of_calls calls). spl.
  - eapply sorted_NoDup; eauto. apply lex_lt_irrefl.
  - intros p. rewrite H3. apply client_lca_mem. auto.
  - apply (enumeration_len n); auto. split; auto.
Qed.

Theorem C16_extents_tight : forall n level cs d, Forall (call_dim n) cs -> rows_filled cs -> cs <> [] -> (d <= n)%nat ->
  let a := client_lca n level cs in
  let is_cell p := length p = S n /\ exists c, In c cs /\ added c p in
  exists m M, min_start (a_cells a d) = Some m /\ max_end (a_cells a d) = Some M /\
    (forall p, is_cell p -> m <= nth d p 0 < M) /\
    (exists p, is_cell p /\ nth d p 0 = m) /\ (exists p, is_cell p /\ nth d p 0 = M - 1).
Proof.
  intros n level cs d Hd Hf Hne Hdn a is_cell.
  assert (M : forall p, is_cell p <-> lca_mem n a p).
  { intros p. unfold is_cell, a. rewrite client_lca_mem by auto. tauto. }
  assert (W : wf_full n a).
  { destruct (client_lca_wf n level cs Hd Hf) as [N|W]; auto. exfalso. destruct cs as [|c cs]; [congruence|].
    destruct (Hf c (or_introl eq_refl)) as (c' & Hc' & _ & Ha). rewrite Forall_forall in Hd.
    destruct (added_row n c' (Hd c' Hc') Ha) as (x & Hx).
    apply (no_cells_mem _ _ (x :: call_row c') N). apply M. 
    split; [simpl; rewrite (call_row_len n); auto|eauto]. }
  destruct (extents n a d W Hdn) as (m & MM & E1 & E2 & E3 & (p & P1 & P2) & (q & Q1 & Q2)).
  exists m, MM. spl; auto.
  - intros r Hr. apply E3, M. auto.
  - exists p. split; auto. apply M. auto.
  - exists q. split; auto. apply M. auto.
Qed.

Example C16_example : nb_cells (client_lca 1 0 ex_calls) = 8 /\
  map (fun d => (min_start (a_cells (client_lca 1 0 ex_calls) d), max_end (a_cells (client_lca 1 0 ex_calls) d))) [0; 1]%nat
  = [(Some (-2), Some 9); (Some (-1), Some 4)].
Proof. vm_compute. auto. Qed.

Print Assumptions C06_array_holds_added_cells.
Print Assumptions C07_array_well_formed.
Print Assumptions C08_iteration_exact.
Print Assumptions C08_for_each_cell_exact.
Print Assumptions C08_for_each_cell_on_empty_refuted.
Print Assumptions C09_iteration_with_empty_row_refuted.
Print Assumptions C10_find_iff_present.
Print Assumptions C10_find_is_visited_position.
Print Assumptions C10_binary_search_is_linear.
Print Assumptions C11_update_index_bijective.
Print Assumptions C13_decrement_undoes_increment_partial.
Print Assumptions C13_round_trip_at_last_position_refuted.
Print Assumptions C14_box_array.
Print Assumptions C15_equal_arrays_same_cells.
Print Assumptions C15_same_cells_equal_refuted.
Print Assumptions C15_same_cells_equal_partial.
Print Assumptions C15_same_cells_equal_after_numbering.
Print Assumptions C16_nb_cells.
Print Assumptions C16_extents_tight.
