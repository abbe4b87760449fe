(** Consequences for LevelCellArray: enumeration, numbering, counting,
    canonicity, boxes. *)
From Verif Require Import Base IntervalModel Spec LoiModel LoiProofs LcaModel LcaSpec GridProofs
  InitProofs SearchProofs IterProofs.
Open Scope Z_scope.

Lemma zrange_In : forall s e x, In x (zrange s e) <-> s <= x < e.
Proof.
  intros. unfold zrange. rewrite in_map_iff. split.
  - intros (k & <- & Hk). apply in_seq in Hk. lia.
  - intros H. exists (Z.to_nat (x - s)). split; [lia|]. apply in_seq. lia.
Qed.

Lemma seq_sorted : forall len s, StronglySorted lt (seq s len).
Proof.
  induction len; intros s; simpl; constructor; auto.
  rewrite Forall_forall. intros x Hx. apply in_seq in Hx. lia.
Qed.

Lemma zrange_sorted : forall s e, StronglySorted Z.lt (zrange s e).
Proof.
  intros. unfold zrange. apply StronglySorted_map.
  eapply StronglySorted_impl; [|apply seq_sorted]. intros; simpl in *. lia.
Qed.

Lemma zrange_len : forall s e, length (zrange s e) = Z.to_nat (e - s).
Proof. intros. unfold zrange. rewrite map_length, seq_length. auto. Qed.

Lemma zrange_nth : forall s e k x, nth_error (zrange s e) k = Some x -> x = s + Z.of_nat k /\ x < e.
Proof.
  intros s e k x H. assert (Hin : In x (zrange s e)) by (eapply nth_error_In; eauto).
  apply zrange_In in Hin. unfold zrange in H. rewrite nth_error_map in H.
  destruct (nth_error (seq 0 (Z.to_nat (e - s))) k) eqn:E; [|discriminate].
  assert (Hk : (k < Z.to_nat (e - s))%nat).
  { rewrite <- (seq_length (Z.to_nat (e - s)) 0). apply nth_error_Some. congruence. }
  apply nth_error_nth with (d := 0%nat) in E. rewrite seq_nth in E by auto.
  simpl in H. inv H. lia.
Qed.

Lemma cells_of_calls_In : forall calls x yz, In (x :: yz) (cells_of_calls calls) <->
  exists i, In (i, yz) calls /\ in_i i x.
Proof.
  intros. unfold cells_of_calls. rewrite in_flat_map. split.
  - intros ([i yz'] & H1 & H2). apply in_map_iff in H2 as (x' & H2 & H3). inv H2.
    apply zrange_In in H3. exists i. auto.
  - intros (i & H1 & H2). exists (i, yz). split; auto. apply in_map_iff. exists x. split; auto.
    apply zrange_In. auto.
Qed.

Lemma sorted_flat_map : forall A B (R : B -> B -> Prop) (f : A -> list B) l,
  (forall a, In a l -> StronglySorted R (f a)) ->
  (forall j k a a', (j < k)%nat -> nth_error l j = Some a -> nth_error l k = Some a' ->
     forall x y, In x (f a) -> In y (f a') -> R x y) ->
  StronglySorted R (flat_map f l).
Proof.
  induction l as [|a l IH]; intros H1 H2; simpl; [constructor|].
  apply StronglySorted_app.
  - apply H1; simpl; auto.
  - apply IH; [intros; apply H1; simpl; auto|].
    intros j k x y Hjk Hx Hy. apply (H2 (S j) (S k) x y); simpl; auto. lia.
  - intros x y Hx Hy. apply in_flat_map in Hy as (a' & Ha' & Hy).
    apply In_nth_error in Ha' as (k & Hk). apply (H2 0%nat (S k) a a'); simpl; auto. lia.
Qed.

(** ** Enumeration (C08) *)

Section Enum.
  Variables (n : nat) (a : lca).
  Hypothesis W : wf_full n a.
  Hypothesis NE : (0 < length (a_cells a n))%nat.

  Lemma row_exists : forall d k, (d <= n)%nat -> (k < length (a_cells a d))%nat ->
    exists r lo hi, nth_error (offs n a d) r = Some lo /\ nth_error (offs n a d) (S r) = Some hi /\
      (lo <= k < hi)%nat.
  Proof.
    intros d k Hd Hk.
    assert (G : forall m r, (r + m = length (offs n a d) - 1)%nat ->
      (exists lo, nth_error (offs n a d) r = Some lo /\ (lo <= k)%nat) ->
      exists r lo hi, nth_error (offs n a d) r = Some lo /\ nth_error (offs n a d) (S r) = Some hi /\
      (lo <= k < hi)%nat).
    { induction m as [|m IH]; intros r Hm (lo & Hlo & Hle).
      - pose proof (wf_last _ _ _ W d Hd) as HL. replace (length (offs n a d) - 1)%nat with r in HL by lia.
        assert (lo = length (a_cells a d)) by congruence. lia.
      - destruct (row_offs true n a W d r Hd ltac:(lia)) as (lo' & hi & E1 & E2 & _).
        assert (lo' = lo) by congruence. subst lo'.
        destruct (Nat.lt_ge_cases k hi).
        + exists r, lo, hi. auto.
        + apply (IH (S r)); [lia|]. exists hi. auto. }
    pose proof (offs_len_pos true n a W d Hd).
    apply (G (length (offs n a d) - 1)%nat 0%nat); [lia|]. exists 0%nat. split; [|lia].
    apply (wf_first _ _ _ W); auto.
  Qed.

  Lemma FInv_exists : forall m d k, (d + m = n)%nat -> (k < length (a_cells a d))%nat ->
    exists fs, FInv n a d k fs.
  Proof.
    induction m as [|m IH]; intros d k Hm Hk.
    - exists []. assert (d = n) by lia. subst d. simpl. auto.
    - destruct (row_exists d k ltac:(lia) Hk) as (r & lo & hi & E1 & E2 & HR).
      assert (S r < length (offs n a d))%nat by (apply nth_error_Some; congruence).
      destruct (chained_lookup _ _ _ (Z.of_nat r) (wf_chain _ _ _ W d ltac:(lia)) ltac:(lia)) as (k' & c & Hc & Hin).
      destruct (IH (S d) k') as (fs & HF); [lia|apply nth_error_Some; congruence|].
      exists (mkF r (Z.of_nat r - iindex c) k' :: fs). cbn [FInv f_off f_idx f_cur]. spl; auto; [lia| |].
      + exists lo, hi. auto.
      + exists c. spl; auto. lia.
  Qed.

  Lemma enum_calls : exists calls, for_each_interval n a = Some calls /\
    length calls = length (a_cells a 0) /\
    (forall j i yz, nth_error calls j = Some (i, yz) ->
        nth_error (a_cells a 0) j = Some i /\ exists fs, FInv n a 0 j fs /\ yz = map f_idx fs).
  Proof.
    destruct (for_each_interval_spec true n a W eq_refl NE) as (calls & H1 & H2 & _ & H3). eauto.
  Qed.

  Lemma calls_mem : forall calls, for_each_interval n a = Some calls ->
    forall p, In p (cells_of_calls calls) <-> lca_mem n a p.
  Proof.
    intros calls Hc p. destruct enum_calls as (calls' & H1 & H2 & H3).
    assert (calls' = calls) by congruence. subst calls'.
    destruct p as [|x yz].
    - split.
      + intros H. unfold cells_of_calls in H. apply in_flat_map in H as ([i yz] & _ & H).
        apply in_map_iff in H as (x & H & _). discriminate.
      + intros [H _]. discriminate.
    - rewrite cells_of_calls_In, (lca_mem_frames true n a W). split.
      + intros (i & Hin & Hx). apply In_nth_error in Hin as (j & Hj).
        destruct (H3 j i yz Hj) as (Hi & fs & HF & ->). exists j, i, fs. auto.
      + intros (k & i & fs & HF & -> & Hi & Hx). exists i. split; auto.
        assert (k < length calls)%nat by (rewrite H2; apply nth_error_Some; congruence).
        destruct (nth_error calls k) as [[i' yz']|] eqn:Hk; [|apply nth_error_None in Hk; lia].
        destruct (H3 k i' yz' Hk) as (Hi' & fs' & HF' & ->).
        assert (i = i') by congruence. subst i'.
        rewrite (FInv_unique true n a W _ _ _ _ HF HF'). eapply nth_error_In; eauto.
  Qed.

  Lemma calls_sorted : forall calls, for_each_interval n a = Some calls ->
    StronglySorted lex_lt (cells_of_calls calls).
  Proof.
    intros calls Hc. destruct enum_calls as (calls' & H1 & H2 & H3).
    assert (calls' = calls) by congruence. subst calls'.
    apply sorted_flat_map.
    - intros [i yz] _. apply StronglySorted_map. eapply StronglySorted_impl; [|apply zrange_sorted].
      intros x y _ _ H. simpl. auto.
    - intros j k [i yz] [i' yz'] Hjk Hj Hk x y Hx Hy.
      apply in_map_iff in Hx as (x0 & <- & Hx). apply in_map_iff in Hy as (y0 & <- & Hy).
      apply zrange_In in Hx. apply zrange_In in Hy.
      destruct (H3 _ _ _ Hj) as (Hi & fs & HF & ->). destruct (H3 _ _ _ Hk) as (Hi' & fs' & HF' & ->).
      eapply (frames_order true n a W); eauto.
  Qed.
End Enum.

Lemma sorted_NoDup : forall A (R : A -> A -> Prop) l, (forall x, ~ R x x) ->
  StronglySorted R l -> NoDup l.
Proof.
  induction 2 as [|x l Hs IH Hf]; constructor; auto.
  intros Hin. rewrite Forall_forall in Hf. apply Hf in Hin. eapply H; eauto.
Qed.

(** Two lists sorted by the cell order with the same members are equal. *)
Lemma sorted_ext : forall A (R : A -> A -> Prop) (l1 l2 : list A),
  (forall x, ~ R x x) -> (forall x y z, R x y -> R y z -> R x z) ->
  StronglySorted R l1 -> StronglySorted R l2 -> (forall p, In p l1 <-> In p l2) -> l1 = l2.
Proof.
  intros A R. induction l1 as [|x l1 IH]; intros l2 Hirr Htr H1 H2 He.
  - destruct l2 as [|y l2]; auto. exfalso. apply (He y). left; auto.
  - destruct l2 as [|y l2]; [exfalso; apply (He x); left; auto|].
    inv H1. inv H2. rewrite Forall_forall in *.
    assert (x = y).
    { destruct (proj1 (He x) (or_introl eq_refl)) as [E|E]; auto.
      destruct (proj2 (He y) (or_introl eq_refl)) as [E'|E']; auto.
      exfalso. apply (Hirr x). eapply Htr; eauto. }
    subst y. f_equal. apply IH; auto. intros p. split; intros Hp.
    + destruct (proj1 (He p) (or_intror Hp)) as [E|E]; auto. subst p. exfalso. eapply Hirr; eauto.
    + destruct (proj2 (He p) (or_intror Hp)) as [E|E]; auto. subst p. exfalso. eapply Hirr; eauto.
Qed.

(** The array without cells. *)
Lemma no_cells_mem : forall n a p, lca_no_cells n a -> ~ lca_mem n a p.
Proof.
  intros n a p [H _] [_ Hm].
  destruct n; destruct Hm as (i & Hi & _); unfold row in Hi; rewrite H, skipn_nil, firstn_nil in Hi by lia;
    destruct Hi.
Qed.

Lemma no_cells_for_each : forall n a, lca_no_cells n a -> for_each_interval n a = Some [].
Proof.
  intros n a [H _]. unfold for_each_interval, lca_is_empty. rewrite H by lia. auto.
Qed.

Lemma wf_full_cells_n : forall n a, wf_full n a -> (0 < length (a_cells a n))%nat.
Proof.
  intros n a W. destruct (wf_mono _ _ _ W n 0 0 (length (a_cells a n)) (le_n n)) as [_ H];
    try (rewrite offs_n; reflexivity). auto.
Qed.

Theorem for_each_interval_correct : forall n a, wf n a ->
  exists calls, for_each_interval n a = Some calls /\
    StronglySorted lex_lt (cells_of_calls calls) /\
    (forall p, In p (cells_of_calls calls) <-> lca_mem n a p) /\
    map fst calls = a_cells a 0.
Proof.
  intros n a [H|W].
  - exists []. spl.
    + apply no_cells_for_each; auto.
    + constructor.
    + intros p. split; [intros []|]. intros Hm. eapply no_cells_mem; eauto.
    + simpl. symmetry. apply H. lia.
  - pose proof (wf_full_cells_n _ _ W) as NE.
    destruct (enum_calls n a W NE) as (calls & H1 & H2 & H3). exists calls. spl; auto.
    + eapply calls_sorted; eauto.
    + eapply calls_mem; eauto.
    + apply nth_ext with (d := mk 0 0) (d' := mk 0 0).
      * rewrite map_length. auto.
      * intros k Hk. rewrite map_length in Hk.
        destruct (nth_error calls k) as [[i yz]|] eqn:E; [|apply nth_error_None in E; lia].
        destruct (H3 _ _ _ E) as [Hi _].
        rewrite (nth_error_nth (a_cells a 0) k (mk 0 0) Hi).
        apply nth_error_nth. rewrite nth_error_map, E. reflexivity.
Qed.

(** for_each_cell on an array holding at least one cell *)
Theorem for_each_cell_correct : forall n a, wf_full n a ->
  exists calls, for_each_interval n a = Some calls /\
    for_each_cell n a = Some (flat_map (fun '(i, yz) =>
      map (fun x => (x :: yz, iindex i + x)) (zrange (istart i) (iend i))) calls).
Proof.
  intros n a W. pose proof (wf_full_cells_n _ _ W) as NE.
  destruct (for_each_interval_spec true n a W eq_refl NE) as (calls & H1 & H2 & H3 & _).
  destruct (begin_spec true n a W eq_refl NE) as (fs & B1 & _).
  destruct (end_spec true n a W eq_refl NE) as (fs' & B2 & _).
  exists calls. split; auto. unfold for_each_cell. rewrite B1, B2. rewrite B1 in H3. simpl in H3.
  rewrite H3. auto.
Qed.

(** ** find designates the visited interval (C10) *)

Theorem find_position : forall n a calls p k, wf_full n a -> for_each_interval n a = Some calls ->
  length p = S n ->
  (find n a p = Some (Some k) <-> exists i, nth_error calls k = Some (i, tl p) /\ in_i i (nth 0 p 0)).
Proof.
  intros n a calls p k W Hc Hp. pose proof (wf_full_cells_n _ _ W) as NE.
  destruct (enum_calls n a W NE) as (calls' & H1 & H2 & H3).
  assert (calls' = calls) by congruence. subst calls'.
  destruct p as [|x yz]; [discriminate|]. cbn [tl].
  (* find's result refined with frames *)
  assert (G : forall d r fs q, (d <= n)%nat -> (S r < length (offs n a d))%nat -> length q = S n ->
    RowCtx n a d r fs -> map f_idx fs = skipn (S d) q ->
    forall lo hi k, nth_error (offs n a d) r = Some lo -> nth_error (offs n a d) (S r) = Some hi ->
    find_impl a d lo hi q = Some (Some k) ->
    exists fs0 i, FInv n a 0 k fs0 /\ map f_idx fs0 = skipn 1 q /\
      nth_error (a_cells a 0) k = Some i /\ in_i i (nth 0 q 0)).
  { induction d as [|d IH]; intros r fs q Hd Hr Hq Hctx Hs lo hi k0 Hlo Hhi Hf.
    - destruct (row_offs true n a W 0 r Hd Hr) as (lo' & hi' & E1 & E2 & L1 & L2 & HR).
      assert (lo' = lo) by congruence. assert (hi' = hi) by congruence. subst lo' hi'.
      pose proof (wf_normal _ _ _ W 0%nat r Hd Hr) as HN. rewrite HR in HN.
      cbn [find_impl] in Hf.
      destruct (my_binary_search_spec (a_cells a 0) lo hi (nth 0 q 0) L1 L2 HN)
        as [(k1 & i & Hsr & Hk1 & Hi & Hin)|(Hsr & _)]; rewrite Hsr in Hf; [|discriminate].
      inv Hf. rewrite (Nat.add_comm k1 lo). exists fs, i. spl; auto.
      eapply RowCtx_FInv; eauto. lia.
    - destruct (row_offs true n a W (S d) r Hd Hr) as (lo' & hi' & E1 & E2 & L1 & L2 & HR).
      assert (lo' = lo) by congruence. assert (hi' = hi) by congruence. subst lo' hi'.
      pose proof (wf_normal _ _ _ W (S d) r Hd Hr) as HN. rewrite HR in HN.
      cbn [find_impl] in Hf.
      destruct (my_binary_search_spec (a_cells a (S d)) lo hi (nth (S d) q 0) L1 L2 HN)
        as [(k1 & i & Hsr & Hk1 & Hi & Hin)|(Hsr & _)]; rewrite Hsr in Hf; [|discriminate].
      rewrite (Nat.add_comm k1 lo), Hi in Hf.
      destruct (pos_range true n a W d (lo + k1)%nat i (nth (S d) q 0)) as [P1 P2]; auto.
      unfold z_index in Hf. destruct (Z.ltb_spec (iindex i + nth (S d) q 0) 0); [lia|].
      set (r' := Z.to_nat (iindex i + nth (S d) q 0)) in *.
      destruct (row_offs true n a W d r' ltac:(lia) P2) as (lo1 & hi1 & F1 & F2 & _).
      rewrite <- (offs_lt n a) in Hf by lia. rewrite F1, (Nat.add_comm r' 1) in Hf. simpl Nat.add in Hf.
      rewrite F2 in Hf.
      apply (IH r' (mkF r' (nth (S d) q 0) (lo + k1) :: fs) q) with (lo := lo1) (hi := hi1); auto; try lia.
      + cbn [RowCtx f_off f_idx f_cur]. spl; auto.
        * exists i. spl; auto. lia.
        * eapply RowCtx_FInv; eauto. lia.
      + simpl map. rewrite Hs. symmetry. apply skipn_step. lia. }
  split.
  - intros Hf.
    destruct (G n 0%nat [] (x :: yz) (le_n n)) with (lo := 0%nat) (hi := length (a_cells a n)) (k := k)
      as (fs & i & HF & Hfs & Hi & Hin); auto.
    + rewrite offs_n. simpl. lia.
    + simpl. auto.
    + symmetry. apply skipn_all2. lia.
    + rewrite offs_n. auto.
    + rewrite offs_n. auto.
    + exists i. split; auto.
      assert (k < length calls)%nat by (rewrite H2; apply nth_error_Some; congruence).
      destruct (nth_error calls k) as [[i' yz']|] eqn:Hk; [|apply nth_error_None in Hk; lia].
      destruct (H3 k i' yz' Hk) as (Hi' & fs' & HF' & ->).
      assert (i = i') by congruence. subst i'.
      rewrite <- (FInv_unique true n a W _ _ _ _ HF HF'). rewrite Hfs. auto.
  - intros (i & Hk & Hin). destruct (H3 _ _ _ Hk) as (Hi & fs & HF & Hyz).
    assert (Hm : lca_mem n a (x :: yz)).
    { apply (lca_mem_frames true n a W). exists k, i, fs. auto. }
    destruct (find_spec true n a W (x :: yz) Hp) as [(k' & i' & Hf & Hi' & Hin' & _)|[_ Hno]]; [|tauto].
    rewrite Hf. do 2 f_equal.
    destruct (G n 0%nat [] (x :: yz) (le_n n)) with (lo := 0%nat) (hi := length (a_cells a n)) (k := k')
      as (fs' & i'' & HF' & Hfs' & Hi'' & Hin''); auto.
    + rewrite offs_n. simpl. lia.
    + simpl. auto.
    + symmetry. apply skipn_all2. lia.
    + rewrite offs_n. auto.
    + rewrite offs_n. auto.
    + assert (i'' = i') by congruence. subst i''. simpl in Hfs'.
      destruct (Nat.lt_trichotomy k' k) as [Hlt|[->|Hgt]]; auto; exfalso.
      * apply (lex_lt_irrefl (x :: yz)). rewrite <- Hfs' at 1. rewrite Hyz.
        apply (frames_order true n a W fs' fs 0 k' k i' i x x); auto.
      * apply (lex_lt_irrefl (x :: yz)). rewrite <- Hfs' at 2. rewrite Hyz.
        apply (frames_order true n a W fs fs' 0 k k' i i' x x); auto.
Qed.
