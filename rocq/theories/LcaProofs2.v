(** Numbering, counting, extents and canonicity of LevelCellArray. *)
From Verif Require Import Base IntervalModel Spec LoiModel LoiProofs LcaModel LcaSpec GridProofs
  InitProofs SearchProofs IterProofs LcaProofs.
Open Scope Z_scope.

Lemma nth_skipn : forall (l : list Z) k e, nth e (skipn k l) 0 = nth (k + e) l 0.
Proof.
  induction l as [|x l IH]; intros [|k] e; simpl; auto. destruct e; auto.
Qed.

(** ** Arrays that differ only in the x-interval numbering *)

Definition same_shape (a a' : lca) : Prop :=
  (forall d, d <> 0%nat -> a_cells a' d = a_cells a d) /\
  bounds (a_cells a' 0) = bounds (a_cells a 0) /\
  (forall d, a_offsets a' d = a_offsets a d).

Lemma bounds_len : forall l l', bounds l = bounds l' -> length l = length l'.
Proof. intros l l' H. apply (f_equal (@length _)) in H. unfold bounds in H. rewrite !map_length in H. auto. Qed.

Lemma bounds_nth : forall l l' k i, bounds l = bounds l' -> nth_error l k = Some i ->
  exists i', nth_error l' k = Some i' /\ istart i' = istart i /\ iend i' = iend i.
Proof.
  induction l as [|j l IH]; intros l' k i H Hk; [destruct k; discriminate|].
  destruct l' as [|j' l']; [discriminate|]. simpl in H. injection H as H1 H2 H3.
  destruct k; simpl in *.
  - inv Hk. exists j'. auto.
  - eapply IH; eauto.
Qed.

Lemma normal_bounds : forall l l', bounds l = bounds l' -> normal l -> normal l'.
Proof.
  induction l as [|i l IH]; intros [|i' l'] H N; try discriminate; auto.
  simpl in H. injection H as H1 H2 H3. apply normal_cons in N as (A & B & C).
  apply normal_cons. spl; [lia| |eauto].
  rewrite Forall_forall in *. intros j Hj. apply In_nth_error in Hj as (k & Hk).
  destruct (bounds_nth l' l k j (eq_sym H3) Hk) as (j' & Hk' & E1 & E2).
  specialize (B j' (nth_error_In _ _ Hk')). simpl in *. lia.
Qed.

Lemma bounds_firstn : forall l l' k, bounds l = bounds l' -> bounds (firstn k l) = bounds (firstn k l').
Proof. intros. unfold bounds in *. rewrite <- !firstn_map, H. auto. Qed.
Lemma bounds_skipn : forall l l' k, bounds l = bounds l' -> bounds (skipn k l) = bounds (skipn k l').
Proof. intros. unfold bounds in *. rewrite <- !skipn_map, H. auto. Qed.

Section Shape.
  Variables (n : nat) (a a' : lca).
  Hypothesis H : same_shape a a'.

  Lemma shape_bounds : forall d, bounds (a_cells a' d) = bounds (a_cells a d).
  Proof. intros d. destruct H as (H1 & H2 & H3). destruct d; auto. rewrite H1 by lia. auto. Qed.

  Lemma shape_offs : forall d, offs n a' d = offs n a d.
  Proof.
    intros d. unfold offs. destruct (Nat.eqb d n); [|apply H].
    rewrite (bounds_len _ _ (shape_bounds d)). auto.
  Qed.

  Lemma shape_row : forall d r, bounds (row n a' d r) = bounds (row n a d r).
  Proof.
    intros. unfold row. rewrite shape_offs. apply bounds_firstn, bounds_skipn, shape_bounds.
  Qed.

  Lemma shape_row_eq : forall d r, d <> 0%nat -> row n a' d r = row n a d r.
  Proof. intros. unfold row. rewrite shape_offs. destruct H as (H1 & _). rewrite H1 by auto. auto. Qed.

  Lemma shape_wf : forall b, wf_gen b n a -> wf_gen b n a'.
  Proof.
    intros b W. constructor.
    - intros d Hd. rewrite shape_offs. apply (wf_first _ _ _ W d Hd).
    - intros d Hd. rewrite shape_offs, (bounds_len _ _ (shape_bounds d)). apply (wf_last _ _ _ W d Hd).
    - intros d r lo hi Hd. rewrite shape_offs. apply (wf_mono _ _ _ W); auto.
    - intros d r Hd. rewrite shape_offs. intros Hr. eapply normal_bounds; [symmetry; apply shape_row|].
      apply (wf_normal _ _ _ W); auto.
    - intros d Hd. rewrite shape_offs. destruct H as (H1 & _). rewrite H1 by lia. apply (wf_chain _ _ _ W); auto.
  Qed.

  Lemma shape_mem_row : forall d r p, mem_row n a' d r p <-> mem_row n a d r p.
  Proof.
    induction d as [|d IH]; intros r p.
    - simpl.
      transitivity (covers (row n a' 0 r) (nth 0 p 0)).
      { split; [intros (i & A & B & _); exists i; auto|intros (i & A & B); exists i; auto]. }
      rewrite (bounds_covers _ _ (shape_row 0 r)). unfold covers. firstorder.
    - cbn [mem_row]. rewrite shape_row_eq by lia. split; intros (i & A & B & C); exists i; spl; auto; apply IH; auto.
  Qed.

  Lemma shape_mem : forall p, lca_mem n a' p <-> lca_mem n a p.
  Proof. intros. unfold lca_mem. rewrite shape_mem_row. tauto. Qed.

  Lemma shape_FInv : forall fs d k, FInv n a d k fs -> FInv n a' d k fs.
  Proof.
    induction fs as [|f fs IH]; intros d k HF; cbn [FInv] in *.
    - rewrite (bounds_len _ _ (shape_bounds n)). auto.
    - rewrite shape_offs. destruct H as (H1 & _). rewrite H1 by lia.
      destruct HF as (A & B & C & D). spl; auto.
  Qed.

  Lemma shape_calls : wf_full n a -> forall calls calls',
    for_each_interval n a = Some calls -> for_each_interval n a' = Some calls' ->
    cells_of_calls calls' = cells_of_calls calls.
  Proof.
    intros W calls calls' E E'. pose proof (shape_wf true W) as W'.
    apply (sorted_ext _ lex_lt).
    - apply lex_lt_irrefl.
    - intros x y z. apply lex_lt_trans.
    - apply (calls_sorted n a' W' (wf_full_cells_n _ _ W') _ E').
    - apply (calls_sorted n a W (wf_full_cells_n _ _ W) _ E).
    - intros p. rewrite (calls_mem n a' W' (wf_full_cells_n _ _ W') _ E').
      rewrite (calls_mem n a W (wf_full_cells_n _ _ W) _ E). apply shape_mem.
  Qed.
End Shape.

Lemma no_cells_shape : forall n a a', same_shape a a' -> lca_no_cells n a -> lca_no_cells n a'.
Proof.
  intros n a a' H [N1 N2]. split.
  - intros d Hd. pose proof (shape_bounds a a' H d) as E. rewrite (N1 d Hd) in E.
    destruct (a_cells a' d); auto. discriminate.
  - intros d Hd. destruct H as (_ & _ & H). rewrite H. auto.
Qed.

(** ** Numbering (C11) *)

Lemma renumber_bounds : forall l acc, bounds (fst (renumber acc l)) = bounds l.
Proof.
  induction l as [|i l IH]; intros acc; simpl; auto.
  specialize (IH (acc + isize i)). destruct (renumber (acc + isize i) l) as [l' acc']. simpl in *.
  f_equal. auto.
Qed.

Definition total (l : list interval) : Z := fold_right (fun i s => (iend i - istart i) + s) 0 l.

Lemma renumber_acc : forall l acc, snd (renumber acc l) = acc + total l.
Proof.
  induction l as [|i l IH]; intros acc; simpl; [lia|].
  specialize (IH (acc + isize i)). destruct (renumber (acc + isize i) l) as [l' acc']. simpl in *.
  unfold isize in *. lia.
Qed.

Lemma renumber_nth : forall l acc k i, nth_error (fst (renumber acc l)) k = Some i ->
  iindex i = acc + total (firstn k l) - istart i.
Proof.
  induction l as [|j l IH]; intros acc k i Hk; [destruct k; discriminate|]. simpl in Hk.
  specialize (IH (acc + isize j)). destruct (renumber (acc + isize j) l) as [l' acc'].
  destruct k as [|k]; simpl in *.
  - inv Hk. simpl. lia.
  - rewrite (IH k i Hk). unfold isize. lia.
Qed.

Lemma nb_cells_total : forall a, nb_cells a = total (a_cells a 0).
Proof.
  intros a. unfold nb_cells.
  assert (G : forall l acc, fold_left (fun acc i => acc + isize i) l acc = acc + total l).
  { induction l as [|i l IH]; intros acc; simpl; [lia|]. rewrite IH. unfold isize. lia. }
  rewrite G. lia.
Qed.

Lemma total_bounds : forall l l', bounds l = bounds l' -> total l = total l'.
Proof.
  induction l as [|i l IH]; intros [|i' l'] H; try discriminate; auto.
  simpl in *. injection H as H1 H2 H3. rewrite (IH l' H3). lia.
Qed.

Lemma total_app : forall l1 l2, total (l1 ++ l2) = total l1 + total l2.
Proof. induction l1; intros; simpl; [lia|]. rewrite IHl1. lia. Qed.

Lemma cells_of_calls_len : forall calls, (forall i yz, In (i, yz) calls -> istart i < iend i) ->
  Z.of_nat (length (cells_of_calls calls)) = total (map fst calls).
Proof.
  unfold cells_of_calls. induction calls as [|[i yz] calls IH]; intros Hv; simpl; auto.
  rewrite app_length, map_length, zrange_len.
  pose proof (Hv i yz (or_introl eq_refl)). rewrite Nat2Z.inj_add, IH by (intros; eapply Hv; right; eauto). lia.
Qed.

(** Position of a cell in the enumeration. *)
Lemma cells_of_calls_nth : forall calls j p, (forall i yz, In (i, yz) calls -> istart i < iend i) ->
  nth_error (cells_of_calls calls) j = Some p ->
  exists k i yz x, nth_error calls k = Some (i, yz) /\ p = x :: yz /\ in_i i x /\
    Z.of_nat j = total (firstn k (map fst calls)) + (x - istart i).
Proof.
  induction calls as [|[i yz] calls IH]; intros j p Hv Hj; [destruct j; discriminate|].
  unfold cells_of_calls in Hj. simpl in Hj. fold (cells_of_calls calls) in Hj.
  pose proof (Hv i yz (or_introl eq_refl)) as Hi.
  destruct (Nat.lt_ge_cases j (length (zrange (istart i) (iend i)))) as [Hlt|Hge].
  - rewrite nth_error_app1 in Hj by (rewrite map_length; auto).
    rewrite nth_error_map in Hj.
    destruct (nth_error (zrange (istart i) (iend i)) j) as [x|] eqn:E; [|discriminate].
    simpl in Hj. inv Hj. apply zrange_nth in E as (-> & E).
    exists 0%nat, i, yz, (istart i + Z.of_nat j). spl; auto; [unfold in_i|simpl]; lia.
  - rewrite nth_error_app2 in Hj by (rewrite map_length; auto). rewrite map_length in Hj.
    rewrite zrange_len in *.
    destruct (IH (j - Z.to_nat (iend i - istart i))%nat p) as (k & i' & yz' & x & Hk & Hp & Hx & E);
      [intros; eapply Hv; right; eauto|auto|].
    exists (S k), i', yz', x. spl; auto. simpl. lia.
Qed.

Lemma wf_valid : forall b n a d i, wf_gen b n a -> b = true -> (d <= n)%nat -> In i (a_cells a d) -> istart i < iend i.
Proof.
  intros b n a d i W Hb Hd Hi. subst b. apply In_nth_error in Hi as (k & Hk).
  destruct (row_exists n a W (wf_full_cells_n _ _ W) d k Hd) as (r & lo & hi & E1 & E2 & HR); [apply nth_error_Some; congruence|].
  assert (Hr : (S r < length (offs n a d))%nat) by (apply nth_error_Some; congruence).
  assert (Hin : In i (row n a d r)) by (apply (row_In true n a W); auto; exists k, lo, hi; auto).
  pose proof (wf_normal _ _ _ W d r Hd Hr) as [N _]. rewrite Forall_forall in N. auto.
Qed.

Lemma update_index_shape : forall acc a, same_shape a (fst (update_index_from acc a)).
Proof.
  intros acc a. unfold update_index_from. pose proof (renumber_bounds (a_cells a 0) acc) as B.
  destruct (renumber acc (a_cells a 0)) as [l acc']. simpl in *. unfold same_shape. simpl. spl; auto.
  intros d Hd. apply upd_other. auto.
Qed.

Lemma update_index_cells0 : forall acc a,
  a_cells (fst (update_index_from acc a)) 0 = fst (renumber acc (a_cells a 0)).
Proof.
  intros acc a. unfold update_index_from. destruct (renumber acc (a_cells a 0)) as [l acc'] eqn:E. reflexivity.
Qed.

Lemma enumeration_unique : forall n a cs cs', enumeration n a cs -> enumeration n a cs' -> cs = cs'.
Proof.
  intros n a cs cs' [H1 H2] [H3 H4]. apply (sorted_ext _ lex_lt); auto.
  - apply lex_lt_irrefl.
  - intros x y z. apply lex_lt_trans.
  - intros p. rewrite H2, H4. tauto.
Qed.

Lemma enumeration_len : forall n a cs, wf n a -> enumeration n a cs -> nb_cells a = Z.of_nat (length cs).
Proof.
  intros n a cs W E. destruct (for_each_interval_correct n a W) as (calls & H1 & H2 & H3 & H4).
  rewrite (enumeration_unique n a cs (cells_of_calls calls) E (conj H2 H3)).
  rewrite cells_of_calls_len, H4; [apply nb_cells_total|].
  intros i yz Hi. apply (in_map fst) in Hi. rewrite H4 in Hi. simpl in Hi.
  destruct W as [[N _]|W].
  - rewrite N in Hi by lia. destruct Hi.
  - eapply (wf_valid true n a 0); eauto. lia.
Qed.

(** After numbering from [acc], the j-th cell of the enumeration has index acc + j. *)
Lemma update_index_spec : forall acc n a cs, wf n a -> enumeration n a cs ->
  let a' := fst (update_index_from acc a) in
  wf n a' /\ enumeration n a' cs /\
  (forall j p, nth_error cs j = Some p -> get_index n a' p = Some (acc + Z.of_nat j)) /\
  snd (update_index_from acc a) = acc + Z.of_nat (length cs).
Proof.
  intros acc n a cs W E a'. pose proof (update_index_shape acc a) as SS. fold a' in SS.
  assert (Hacc : snd (update_index_from acc a) = acc + Z.of_nat (length cs)).
  { rewrite <- (enumeration_len n a cs W E), nb_cells_total, <- renumber_acc.
    unfold update_index_from. destruct (renumber acc (a_cells a 0)). auto. }
  assert (E' : enumeration n a' cs).
  { destruct E as [H1 H2]. split; auto. intros p. rewrite H2. symmetry. apply shape_mem; auto. }
  destruct W as [N|W].
  - spl; auto; [left; eapply no_cells_shape; eauto|].
    intros j p Hj. exfalso. apply nth_error_In in Hj. apply E in Hj. eapply no_cells_mem; eauto.
  - assert (W' : wf_full n a') by (eapply shape_wf; eauto).
    spl; auto; [right; auto|]. intros j p Hj.
    destruct (for_each_interval_correct n a' (or_intror W')) as (calls & H1 & H2 & H3 & H4).
    rewrite (enumeration_unique n a' cs (cells_of_calls calls) E' (conj H2 H3)) in Hj.
    assert (V : forall i yz, In (i, yz) calls -> istart i < iend i).
    { intros i yz Hi. apply (in_map fst) in Hi. rewrite H4 in Hi. simpl in Hi.
      eapply (wf_valid true n a' 0); eauto. lia. }
    destruct (cells_of_calls_nth calls j p V Hj) as (k & i & yz & x & Hk & -> & Hx & Ej).
    assert (Hlen : length (x :: yz) = S n).
    { apply nth_error_In in Hj. apply H3 in Hj. apply Hj. }
    assert (Hf : find n a' (x :: yz) = Some (Some k)).
    { apply (find_position n a' calls (x :: yz) k W' H1 Hlen). exists i. auto. }
    assert (Hi : nth_error (a_cells a' 0) k = Some i).
    { rewrite <- H4, nth_error_map, Hk. auto. }
    unfold get_index, get_interval. rewrite Hf, Hi. f_equal. simpl.
    rewrite H4 in Ej.
    unfold a' in Hi. rewrite update_index_cells0 in Hi. apply renumber_nth in Hi.
    destruct SS as (_ & SB & _).
    rewrite (total_bounds _ _ (bounds_firstn _ _ k SB)) in Ej. lia.
Qed.

(** ** Extents (C16) *)

(** [set_nth] on coordinates *)
Fixpoint setc (d : nat) (y : Z) (p : list Z) : list Z :=
  match p with
  | [] => []
  | x :: p => match d with O => y :: p | S d => x :: setc d y p end
  end.
Lemma setc_len : forall p d y, length (setc d y p) = length p.
Proof. induction p; intros [|d] y; simpl; auto. Qed.
Lemma setc_same : forall p d y, (d < length p)%nat -> nth d (setc d y p) 0 = y.
Proof. induction p as [|x p IH]; intros [|d] y H; simpl in *; auto; try lia. apply IH. lia. Qed.
Lemma setc_other : forall p d e y, e <> d -> nth e (setc d y p) 0 = nth e p 0.
Proof.
  induction p as [|x p IH]; intros [|d] [|e] y H; simpl; auto; try lia.
Qed.

Section Extent.
  Variables (n : nat) (a : lca).
  Hypothesis W : wf_full n a.

  (** Membership in a row of dimension [d] depends on coordinates 0..d only. *)
  Lemma mem_row_coords : forall d r p q, (forall e, (e <= d)%nat -> nth e p 0 = nth e q 0) ->
    mem_row n a d r p -> mem_row n a d r q.
  Proof.
    induction d as [|d IH]; intros r p q He; cbn [mem_row]; intros (i & A & B & C); exists i;
      rewrite <- He by lia; spl; auto. eapply IH; eauto.
  Qed.

  (** Every row holds a cell with any given value of the higher coordinates. *)
  Lemma row_inhabited : forall d r q, (d <= n)%nat -> (S r < length (offs n a d))%nat -> length q = S n ->
    exists p, length p = S n /\ (forall e, (d < e)%nat -> nth e p 0 = nth e q 0) /\ mem_row n a d r p.
  Proof.
    induction d as [|d IH]; intros r q Hd Hr Hq.
    - destruct (row_offs true n a W 0 r Hd Hr) as (lo & hi & E1 & E2 & L1 & L2 & HR).
      assert (lo < hi)%nat by (apply (wf_mono _ _ _ W 0%nat r lo hi Hd E1 E2); auto).
      destruct (nth_error (a_cells a 0) lo) as [i|] eqn:Hi; [|apply nth_error_None in Hi; lia].
      assert (Hv : istart i < iend i) by (eapply (wf_valid true n a 0); eauto; eapply nth_error_In; eauto).
      exists (setc 0 (istart i) q). rewrite setc_len. spl; auto.
      + intros e He. apply setc_other. lia.
      + cbn [mem_row]. exists i. rewrite setc_same by lia. spl; auto; [|unfold in_i; lia].
        apply (row_In true n a W); auto. exists lo, lo, hi. auto.
    - destruct (row_offs true n a W (S d) r Hd Hr) as (lo & hi & E1 & E2 & L1 & L2 & HR).
      assert (lo < hi)%nat by (apply (wf_mono _ _ _ W (S d)%nat r lo hi Hd E1 E2); auto).
      destruct (nth_error (a_cells a (S d)) lo) as [i|] eqn:Hi; [|apply nth_error_None in Hi; lia].
      assert (Hv : istart i < iend i) by (eapply (wf_valid true n a (S d)); eauto; eapply nth_error_In; eauto).
      destruct (pos_range true n a W d lo i (istart i)) as [P1 P2]; auto; [unfold in_i; lia|].
      destruct (IH (Z.to_nat (iindex i + istart i)) (setc (S d) (istart i) q)) as (p & Hp & He & Hm);
        auto; [lia|rewrite setc_len; auto|].
      assert (Hpd : nth (S d) p 0 = istart i) by (rewrite He by lia; apply setc_same; lia).
      exists p. spl; auto.
      + intros e Hlt. rewrite He by lia. apply setc_other. lia.
      + cbn [mem_row]. exists i. rewrite Hpd. spl; auto; [|unfold in_i; lia].
        apply (row_In true n a W); auto. exists lo, lo, hi. auto.
  Qed.

  (** Every coordinate of every stored interval is the coordinate of a cell. *)
  Lemma interval_inhabited : forall d k c y, (d <= n)%nat -> nth_error (a_cells a d) k = Some c -> in_i c y ->
    exists p, lca_mem n a p /\ nth d p 0 = y.
  Proof.
    intros d k c y Hd Hk Hy.
    destruct (FInv_exists n a W (wf_full_cells_n _ _ W) (n - d) d k) as (fs & HF); [lia|apply nth_error_Some; congruence|].
    pose (q := repeat 0 d ++ y :: map f_idx fs).
    destruct (FInv_len true n a W _ _ _ HF) as [Hl _].
    assert (Hq : length q = S n).
    { unfold q. rewrite app_length, repeat_length. simpl. rewrite map_length. lia. }
    assert (Hqd : nth d q 0 = y).
    { unfold q. rewrite app_nth2; rewrite repeat_length; [|lia]. rewrite Nat.sub_diag. auto. }
    assert (Hqs : skipn (S d) q = map f_idx fs).
    { unfold q. rewrite skipn_app, repeat_length. rewrite skipn_all2 by (rewrite repeat_length; lia).
      replace (S d - d)%nat with 1%nat by lia. auto. }
    destruct d as [|d].
    - exists q. split; auto. split; auto. apply (frames_mem true n a W fs 0 k c q); rewrite ?Hqd; auto.
    - destruct (pos_range true n a W d k c y) as [P1 P2]; auto.
      destruct (row_inhabited d (Z.to_nat (iindex c + y)) q) as (p & Hp & He & Hm); auto; [lia|].
      assert (Hpd : nth (S d) p 0 = y) by (rewrite He by lia; auto).
      exists p. split; auto. split; auto. apply (frames_mem true n a W fs (S d) k c p); rewrite ?Hpd; auto.
      + rewrite <- Hqs. apply nth_ext with (d := 0) (d' := 0).
        * rewrite !skipn_length. lia.
        * intros e _. rewrite !nth_skipn. apply He. lia.
  Qed.

  Lemma mem_interval : forall d e r p, (d <= n)%nat -> (e <= d)%nat -> (S r < length (offs n a d))%nat ->
    mem_row n a d r p -> exists c, In c (a_cells a e) /\ in_i c (nth e p 0).
  Proof.
    induction d as [|d IH]; intros e r p Hd He Hr (i & A & B & C).
    - assert (e = 0)%nat by lia. subst e. exists i. split; auto.
      apply (row_In true n a W) in A; auto. destruct A as (k & lo & hi & _ & _ & _ & A). eapply nth_error_In; eauto.
    - apply (row_In true n a W) in A; auto. destruct A as (k & lo & hi & _ & _ & _ & A).
      destruct (Nat.eq_dec e (S d)) as [->|].
      + exists i. split; auto. eapply nth_error_In; eauto.
      + destruct (pos_range true n a W d k i (nth (S d) p 0)) as [P1 P2]; auto.
        apply (IH e (Z.to_nat (iindex i + nth (S d) p 0)) p); auto; lia.
  Qed.

  Lemma lca_mem_interval : forall e p, (e <= n)%nat -> lca_mem n a p ->
    exists c, In c (a_cells a e) /\ in_i c (nth e p 0).
  Proof.
    intros e p He [_ Hm]. apply (mem_interval n e 0%nat p); auto. rewrite offs_n. simpl. lia.
  Qed.
End Extent.

Lemma max_end_spec : forall l m, max_end l = Some m <->
  (exists i, In i l /\ iend i = m) /\ (forall i, In i l -> iend i <= m).
Proof.
  assert (G : forall l m0, let m := fold_left (fun m j => if m <? iend j then iend j else m) l m0 in
     (m = m0 \/ exists i, In i l /\ iend i = m) /\ m0 <= m /\ forall i, In i l -> iend i <= m).
  { induction l as [|i l IH]; intros m0; simpl.
    - spl; auto; try lia; try (intros ? []; fail).
    - specialize (IH (if m0 <? iend i then iend i else m0)). simpl in IH. destruct IH as (A & B & C).
      set (m := fold_left _ l _) in *. spl.
      + destruct A as [A|(j & Hj & A)]; [|right; exists j; auto].
        destruct (Z.ltb_spec m0 (iend i)); [right; exists i; auto|left; auto].
      + destruct (Z.ltb_spec m0 (iend i)); lia.
      + intros j [<-|Hj]; auto. destruct (Z.ltb_spec m0 (iend i)); lia. }
  intros [|i l] m; simpl.
  - split; [discriminate|]. intros [(i & [] & _) _].
  - destruct (G l (iend i)) as (A & B & C). set (m1 := fold_left _ l _) in *.
    assert (P : (exists j, In j (i :: l) /\ iend j = m1) /\ (forall j, In j (i :: l) -> iend j <= m1)).
    { split.
      - destruct A as [A|(j & Hj & A)]; [exists i; simpl; auto|exists j; simpl; auto].
      - intros j [<-|Hj]; auto. }
    split.
    + intros E. inv E. auto.
    + intros [(j & Hj & <-) Hm]. f_equal. destruct P as [(j' & Hj' & P1) P2].
      specialize (P2 j Hj). specialize (Hm j' Hj'). lia.
Qed.

Lemma min_start_spec : forall l m, min_start l = Some m <->
  (exists i, In i l /\ istart i = m) /\ (forall i, In i l -> m <= istart i).
Proof.
  assert (G : forall l m0, let m := fold_left (fun m j => if istart j <? m then istart j else m) l m0 in
     (m = m0 \/ exists i, In i l /\ istart i = m) /\ m <= m0 /\ forall i, In i l -> m <= istart i).
  { induction l as [|i l IH]; intros m0; simpl.
    - spl; auto; try lia; try (intros ? []; fail).
    - specialize (IH (if istart i <? m0 then istart i else m0)). simpl in IH. destruct IH as (A & B & C).
      set (m := fold_left _ l _) in *. spl.
      + destruct A as [A|(j & Hj & A)]; [|right; exists j; auto].
        destruct (Z.ltb_spec (istart i) m0); [right; exists i; auto|left; auto].
      + destruct (Z.ltb_spec (istart i) m0); lia.
      + intros j [<-|Hj]; auto. destruct (Z.ltb_spec (istart i) m0); lia. }
  intros [|i l] m; simpl.
  - split; [discriminate|]. intros [(i & [] & _) _].
  - destruct (G l (istart i)) as (A & B & C). set (m1 := fold_left _ l _) in *.
    assert (P : (exists j, In j (i :: l) /\ istart j = m1) /\ (forall j, In j (i :: l) -> m1 <= istart j)).
    { split.
      - destruct A as [A|(j & Hj & A)]; [exists i; simpl; auto|exists j; simpl; auto].
      - intros j [<-|Hj]; auto. }
    split.
    + intros E. inv E. auto.
    + intros [(j & Hj & <-) Hm]. f_equal. destruct P as [(j' & Hj' & P1) P2].
      specialize (P2 j Hj). specialize (Hm j' Hj'). lia.
Qed.

Lemma extents : forall n a d, wf_full n a -> (d <= n)%nat ->
  exists m M, min_start (a_cells a d) = Some m /\ max_end (a_cells a d) = Some M /\
    (forall p, lca_mem n a p -> m <= nth d p 0 < M) /\
    (exists p, lca_mem n a p /\ nth d p 0 = m) /\ (exists p, lca_mem n a p /\ nth d p 0 = M - 1).
Proof.
  intros n a d W Hd.
  assert (NE : a_cells a d <> []).
  { destruct (row_inhabited n a W n 0 (repeat 0 (S n))) as (p & Hp & _ & Hm);
      [lia|rewrite offs_n; simpl; lia|apply repeat_length|].
    destruct (lca_mem_interval n a W d p Hd) as (c & Hc & _); [split; auto|].
    intros E. rewrite E in Hc. destruct Hc. }
  destruct (min_start (a_cells a d)) as [m|] eqn:Em; [|destruct (a_cells a d); [congruence|discriminate]].
  destruct (max_end (a_cells a d)) as [M|] eqn:EM; [|destruct (a_cells a d); [congruence|discriminate]].
  exists m, M. apply min_start_spec in Em as [(i & Hi & Em) Hm]. apply max_end_spec in EM as [(j & Hj & EM) HM].
  spl; auto.
  - intros p Hp. destruct (lca_mem_interval n a W d p Hd Hp) as (c & Hc & Hin).
    specialize (Hm c Hc). specialize (HM c Hc). unfold in_i in Hin. lia.
  - assert (istart i < iend i) by (eapply (wf_valid true n a d); eauto).
    apply In_nth_error in Hi as (k & Hk). subst m.
    eapply interval_inhabited; eauto. unfold in_i; lia.
  - assert (istart j < iend j) by (eapply (wf_valid true n a d); eauto).
    apply In_nth_error in Hj as (k & Hk). subst M.
    eapply interval_inhabited; eauto. unfold in_i; lia.
Qed.
