(** Rows of well-formed arrays, binary search and find. *)
From Verif Require Import Base IntervalModel Spec LoiModel LoiProofs LcaModel LcaSpec GridProofs InitProofs.
Open Scope Z_scope.

(** ** Slices and rows *)

Lemma slice_nth : forall A (l : list A) lo hi j, (j < hi - lo)%nat ->
  nth_error (slice lo hi l) j = nth_error l (lo + j).
Proof.
  intros. unfold slice. rewrite nth_error_firstn by lia. apply nth_error_skipn.
Qed.

Lemma slice_len : forall A (l : list A) lo hi, (hi <= length l)%nat -> length (slice lo hi l) = (hi - lo)%nat.
Proof. intros. unfold slice. rewrite firstn_length, skipn_length. lia. Qed.

Lemma slice_In_iff : forall A (l : list A) lo hi x, (hi <= length l)%nat ->
  (In x (slice lo hi l) <-> exists k, (lo <= k < hi)%nat /\ nth_error l k = Some x).
Proof.
  intros A l lo hi x Hh. split.
  - intros H. apply In_nth_error in H as (j & Hj).
    assert (j < length (slice lo hi l))%nat by (apply nth_error_Some; congruence).
    rewrite slice_len in H by auto. rewrite slice_nth in Hj by lia. exists (lo + j)%nat. split; [lia|auto].
  - intros (k & Hk & Hn). apply nth_error_In with (n := (k - lo)%nat). rewrite slice_nth by lia.
    replace (lo + (k - lo))%nat with k by lia. auto.
Qed.

Lemma sorted_nth : forall A (R : A -> A -> Prop) l, StronglySorted R l ->
  forall i j x y, (i < j)%nat -> nth_error l i = Some x -> nth_error l j = Some y -> R x y.
Proof.
  induction 1 as [|a l Hs IH Hf]; intros i j x y Hij Hi Hj; [destruct i; discriminate|].
  destruct j as [|j]; [lia|]. simpl in Hj. destruct i as [|i]; simpl in Hi.
  - inv Hi. rewrite Forall_forall in Hf. apply Hf. eapply nth_error_In; eauto.
  - apply (IH i j); auto; lia.
Qed.

Lemma normal_slice_nth : forall l lo hi, (hi <= length l)%nat -> normal (slice lo hi l) ->
  (forall k i, (lo <= k < hi)%nat -> nth_error l k = Some i -> istart i < iend i) /\
  (forall k k' i i', (lo <= k)%nat -> (k < k' < hi)%nat ->
     nth_error l k = Some i -> nth_error l k' = Some i' -> iend i < istart i').
Proof.
  intros l lo hi Hh [N1 N2]. split.
  - intros k i Hk Hi. rewrite Forall_forall in N1. apply N1. apply slice_In_iff; eauto.
  - intros k k' i i' Hk Hk' Hi Hi'.
    apply (sorted_nth _ _ _ N2 (k - lo) (k' - lo))%nat; try lia.
    + rewrite slice_nth by lia. rewrite <- Hi. f_equal. lia.
    + rewrite slice_nth by lia. rewrite <- Hi'. f_equal. lia.
Qed.

(** ** Binary search *)

Lemma div2_lt : forall n, (0 < n)%nat -> (Nat.div2 n < n)%nat.
Proof. intros. apply Nat.lt_div2. auto. Qed.

Lemma lower_bound_spec : forall fuel l first len v,
  (len <= fuel)%nat -> (first + len <= length l)%nat ->
  (forall k k' i i', (first <= k <= k')%nat -> (k' < first + len)%nat ->
     nth_error l k = Some i -> nth_error l k' = Some i' -> iend i' < v -> iend i < v) ->
  exists r, lower_bound fuel l first len v = Some r /\ (first <= r <= first + len)%nat /\
    (forall k i, (first <= k < r)%nat -> nth_error l k = Some i -> iend i < v) /\
    (forall k i, (r <= k < first + len)%nat -> nth_error l k = Some i -> v <= iend i).
Proof.
  induction fuel as [|fuel IH]; intros l first len v Hf Hl Hm.
  - assert (len = 0)%nat by lia. subst len. exists first. simpl. spl; auto; intros; lia.
  - destruct len as [|len]; [exists first; simpl; spl; auto; intros; lia|].
    cbn [lower_bound]. set (n := S len) in *. set (half := Nat.div2 n).
    assert (Hhalf : (half < n)%nat) by (apply div2_lt; lia).
    destruct (nth_error l (first + half)) as [c|] eqn:Hc.
    2:{ apply nth_error_None in Hc. lia. }
    destruct (Z.ltb_spec (iend c) v).
    + destruct (IH l (first + half + 1)%nat (n - half - 1)%nat v) as (r & Hr & Hb & H1 & H2); try lia.
      { intros k k' i i' Hk Hk'. apply Hm; lia. }
      exists r. spl; auto; try lia.
      * intros k i Hk Hi. destruct (Nat.le_gt_cases k (first + half)).
        -- apply (Hm k (first + half)%nat i c); auto; lia.
        -- apply (H1 k); auto; lia.
      * intros k i Hk Hi. apply (H2 k); auto; lia.
    + destruct (IH l first half v) as (r & Hr & Hb & H1 & H2); try lia.
      { intros k k' i i' Hk Hk'. apply Hm; lia. }
      exists r. spl; auto; try lia.
      intros k i Hk Hi. destruct (Nat.le_gt_cases (first + half) k).
      * destruct (Z.le_gt_cases v (iend i)); auto. exfalso.
        assert (iend c < v); [|lia].
        apply (Hm (first + half)%nat k c i); auto; lia.
      * apply (H2 k); auto; lia.
Qed.

Lemma my_binary_search_spec : forall l lo hi v,
  (lo <= hi)%nat -> (hi <= length l)%nat -> normal (slice lo hi l) ->
  (exists k i, my_binary_search l lo hi v = Some (Some k) /\ (lo + k < hi)%nat /\
               nth_error l (lo + k) = Some i /\ in_i i v) \/
  (my_binary_search l lo hi v = Some None /\
   forall k i, (lo <= k < hi)%nat -> nth_error l k = Some i -> ~ in_i i v).
Proof.
  intros l lo hi v Hlo Hhi Hn. destruct (normal_slice_nth l lo hi Hhi Hn) as [V S].
  unfold my_binary_search.
  destruct (Nat.ltb_spec hi lo); [lia|]. destruct (Nat.ltb_spec (length l) hi); [lia|]. simpl.
  destruct (lower_bound_spec (hi - lo) l lo (hi - lo) v) as (r & Hr & Hb & H1 & H2); try lia.
  { intros k k' i i' Hk Hk' Hi Hi' Hlt. destruct (Nat.eq_dec k k') as [->|].
    - congruence.
    - assert (iend i < istart i') by (apply (S k k'); auto; lia).
      assert (istart i' < iend i') by (apply (V k'); auto; lia). lia. }
  rewrite Hr. destruct (Nat.eqb_spec r hi).
  - right. split; auto. intros k i Hk Hi [_ Hx]. specialize (H1 k i ltac:(lia) Hi). lia.
  - destruct (nth_error l r) as [c|] eqn:Hc; [|apply nth_error_None in Hc; lia].
    assert (v <= iend c) by (apply (H2 r); auto; lia).
    destruct (Z.ltb_spec (iend c) v); [lia|].
    assert (Hicont : icontains c v = true <-> in_i c v).
    { unfold icontains, in_i. lia. }
    destruct (icontains c v) eqn:Hcv.
    + left. exists (r - lo)%nat, c. spl; auto; try lia.
      * replace (lo + (r - lo))%nat with r by lia. auto.
      * apply Hicont; auto.
    + right. split; auto. intros k i Hk Hi Hin.
      assert (Hnc : ~ in_i c v) by (rewrite <- Hicont; congruence).
      destruct (Nat.lt_trichotomy k r) as [Hlt|[->|Hgt]].
      * specialize (H1 k i ltac:(lia) Hi). unfold in_i in Hin. lia.
      * congruence.
      * assert (iend c < istart i) by (apply (S r k); auto; lia). unfold in_i in Hin. lia.
Qed.

(** ** Rows of a well-formed array *)

Section Wf.
  Variables (b : bool) (n : nat) (a : lca).
  Hypothesis W : wf_gen b n a.

  Lemma offs_n : offs n a n = [0%nat; length (a_cells a n)].
  Proof. unfold offs. rewrite Nat.eqb_refl. auto. Qed.

  Lemma offs_lt : forall d, (d < n)%nat -> offs n a d = a_offsets a d.
  Proof. intros d Hd. unfold offs. destruct (Nat.eqb_spec d n); [lia|auto]. Qed.

  Lemma offs_len_pos : forall d, (d <= n)%nat -> (0 < length (offs n a d))%nat.
  Proof.
    intros d Hd. pose proof (wf_first _ _ _ W d Hd) as H.
    assert (nth_error (offs n a d) 0 <> None) by congruence. apply nth_error_Some in H0. auto.
  Qed.

  Lemma offs_mono : forall d r r' o o', (d <= n)%nat -> (r <= r')%nat ->
    nth_error (offs n a d) r = Some o -> nth_error (offs n a d) r' = Some o' -> (o <= o')%nat.
  Proof.
    intros d r r' o o' Hd Hle. revert o'. induction Hle as [|r' Hle IH]; intros o' H1 H2.
    - assert (o = o') by congruence. lia.
    - destruct (nth_error (offs n a d) r') as [o1|] eqn:E1.
      + specialize (IH o1 H1 eq_refl). destruct (wf_mono _ _ _ W d r' o1 o' Hd E1 H2) as [H _]. lia.
      + apply nth_error_None in E1.
        assert (nth_error (offs n a d) (S r') <> None) by congruence. apply nth_error_Some in H. lia.
  Qed.

  Lemma offs_strict : forall d r r' o o', b = true -> (d <= n)%nat -> (r < r')%nat ->
    nth_error (offs n a d) r = Some o -> nth_error (offs n a d) r' = Some o' -> (o < o')%nat.
  Proof.
    intros d r r' o o' Hb Hd Hlt H1 H2.
    destruct (nth_error (offs n a d) (S r)) as [o1|] eqn:E1.
    - destruct (wf_mono _ _ _ W d r o o1 Hd H1 E1) as [_ H]. specialize (H Hb).
      assert (o1 <= o')%nat by (apply (offs_mono d (S r) r'); auto). lia.
    - apply nth_error_None in E1.
      assert (nth_error (offs n a d) r' <> None) by congruence. apply nth_error_Some in H. lia.
  Qed.

  Lemma offs_bound : forall d r o, (d <= n)%nat ->
    nth_error (offs n a d) r = Some o -> (o <= length (a_cells a d))%nat.
  Proof.
    intros d r o Hd H. assert (r < length (offs n a d))%nat by (apply nth_error_Some; congruence).
    apply (offs_mono d r (length (offs n a d) - 1)); auto; [lia|].
    apply (wf_last _ _ _ W); auto.
  Qed.

  (** The two offsets of a row. *)
  Lemma row_offs : forall d r, (d <= n)%nat -> (S r < length (offs n a d))%nat ->
    exists lo hi, nth_error (offs n a d) r = Some lo /\ nth_error (offs n a d) (S r) = Some hi /\
      (lo <= hi)%nat /\ (hi <= length (a_cells a d))%nat /\ row n a d r = slice lo hi (a_cells a d).
  Proof.
    intros d r Hd Hr.
    destruct (nth_error (offs n a d) r) as [lo|] eqn:E1; [|apply nth_error_None in E1; lia].
    destruct (nth_error (offs n a d) (S r)) as [hi|] eqn:E2; [|apply nth_error_None in E2; lia].
    exists lo, hi. spl; auto.
    - destruct (wf_mono _ _ _ W d r lo hi Hd E1 E2); auto.
    - eapply offs_bound; eauto.
    - unfold row. erewrite !nth_error_nth by eauto. auto.
  Qed.

  Lemma row_In : forall d r i, (d <= n)%nat -> (S r < length (offs n a d))%nat ->
    (In i (row n a d r) <->
     exists k lo hi, nth_error (offs n a d) r = Some lo /\ nth_error (offs n a d) (S r) = Some hi /\
       (lo <= k < hi)%nat /\ nth_error (a_cells a d) k = Some i).
  Proof.
    intros d r i Hd Hr. destruct (row_offs d r Hd Hr) as (lo & hi & E1 & E2 & H1 & H2 & ->).
    rewrite slice_In_iff by auto. split.
    - intros (k & Hk & Hi). exists k, lo, hi. auto.
    - intros (k & lo' & hi' & E1' & E2' & Hk & Hi). exists k. split; auto.
      assert (lo = lo') by congruence. assert (hi = hi') by congruence. subst. auto.
  Qed.

  (** Positions designated by the intervals of dimension [S d]. *)
  Lemma pos_range : forall d k c y, (d < n)%nat -> nth_error (a_cells a (S d)) k = Some c ->
    in_i c y -> 0 <= iindex c + y /\ (S (Z.to_nat (iindex c + y)) < length (offs n a d))%nat.
  Proof.
    intros d k c y Hd Hk Hy. pose proof (wf_chain _ _ _ W d Hd) as C.
    apply nth_error_In in Hk. eapply chained_In in C; eauto. unfold in_i in Hy. lia.
  Qed.

  (** ** find *)

  Lemma find_impl_spec : forall d r p, (d <= n)%nat -> (S r < length (offs n a d))%nat ->
    forall lo hi, nth_error (offs n a d) r = Some lo -> nth_error (offs n a d) (S r) = Some hi ->
    (exists k i, find_impl a d lo hi p = Some (Some k) /\ nth_error (a_cells a 0) k = Some i /\
                 in_i i (nth 0 p 0) /\ mem_row n a d r p) \/
    (find_impl a d lo hi p = Some None /\ ~ mem_row n a d r p).
  Proof.
    induction d as [|d IH]; intros r p Hd Hr lo hi Hlo Hhi.
    - destruct (row_offs 0 r Hd Hr) as (lo' & hi' & E1 & E2 & H1 & H2 & HR).
      assert (lo' = lo) by congruence. assert (hi' = hi) by congruence. subst lo' hi'.
      pose proof (wf_normal _ _ _ W 0%nat r Hd Hr) as HN. rewrite HR in HN.
      cbn [find_impl].
      destruct (my_binary_search_spec (a_cells a 0) lo hi (nth 0 p 0) H1 H2 HN)
        as [(k & i & Hs & Hk & Hi & Hin)|(Hs & Hno)]; rewrite Hs.
      + left. exists (k + lo)%nat, i. rewrite (Nat.add_comm k lo). spl; auto.
        exists i. spl; auto. apply row_In; auto. exists (lo + k)%nat, lo, hi. spl; auto; lia.
      + right. split; auto. intros (i & Hi & Hin & _).
        apply row_In in Hi as (k & lo' & hi' & F1 & F2 & Hk & Hi); auto.
        assert (lo' = lo) by congruence. assert (hi' = hi) by congruence. subst lo' hi'.
        eapply Hno; eauto.
    - destruct (row_offs (S d) r Hd Hr) as (lo' & hi' & E1 & E2 & H1 & H2 & HR).
      assert (lo' = lo) by congruence. assert (hi' = hi) by congruence. subst lo' hi'.
      pose proof (wf_normal _ _ _ W (S d) r Hd Hr) as HN. rewrite HR in HN.
      cbn [find_impl].
      destruct (my_binary_search_spec (a_cells a (S d)) lo hi (nth (S d) p 0) H1 H2 HN)
        as [(k & i & Hs & Hk & Hi & Hin)|(Hs & Hno)]; rewrite Hs.
      + rewrite (Nat.add_comm k lo), Hi.
        destruct (pos_range d (lo + k)%nat i (nth (S d) p 0)) as [Hp1 Hp2]; auto.
        unfold z_index. destruct (Z.ltb_spec (iindex i + nth (S d) p 0) 0); [lia|].
        set (r' := Z.to_nat (iindex i + nth (S d) p 0)) in *.
        destruct (row_offs d r' ltac:(lia) Hp2) as (lo1 & hi1 & F1 & F2 & G1 & G2 & HR1).
        rewrite <- offs_lt by lia. rewrite F1. rewrite (Nat.add_comm r' 1). simpl Nat.add. rewrite F2.
        assert (Huniq : forall j, In j (row n a (S d) r) -> in_i j (nth (S d) p 0) -> j = i).
        { intros j Hj Hjin. apply row_In in Hj as (kj & lo' & hi' & X1 & X2 & Hkj & Hj); auto.
          assert (lo' = lo) by congruence. assert (hi' = hi) by congruence. subst lo' hi'.
          destruct (normal_slice_nth _ _ _ H2 HN) as [V S].
          destruct (Nat.lt_trichotomy kj (lo + k)) as [Hlt|[->|Hgt]]; [|congruence|].
          - assert (iend j < istart i) by (apply (S kj (lo + k)%nat); auto; lia).
            unfold in_i in *. lia.
          - assert (iend i < istart j) by (apply (S (lo + k)%nat kj); auto; lia).
            unfold in_i in *. lia. }
        destruct (IH r' p ltac:(lia) Hp2 lo1 hi1 F1 F2) as [(k1 & i1 & Hf & Hk1 & Hin1 & Hm)|(Hf & Hm)].
        * left. exists k1, i1. spl; auto. exists i. spl; auto.
          apply row_In; auto. exists (lo + k)%nat, lo, hi. spl; auto; lia.
        * right. split; auto. intros (j & Hj & Hjin & Hjm). rewrite (Huniq j Hj Hjin) in Hjm. auto.
      + right. split; auto. intros (i & Hi & Hin & _).
        apply row_In in Hi as (k & lo' & hi' & F1 & F2 & Hk & Hi); auto.
        assert (lo' = lo) by congruence. assert (hi' = hi) by congruence. subst lo' hi'.
        eapply Hno; eauto.
  Qed.

  Lemma find_spec : forall p, length p = S n ->
    (exists k i, find n a p = Some (Some k) /\ nth_error (a_cells a 0) k = Some i /\
                 in_i i (nth 0 p 0) /\ lca_mem n a p) \/
    (find n a p = Some None /\ ~ lca_mem n a p).
  Proof.
    intros p Hp. unfold find, lca_mem.
    destruct (find_impl_spec n 0 p (le_n n)) with (lo := 0%nat) (hi := length (a_cells a n))
      as [(k & i & H1 & H2 & H3 & H4)|(H1 & H2)].
    - rewrite offs_n. simpl. lia.
    - rewrite offs_n. auto.
    - rewrite offs_n. auto.
    - left. eauto 10.
    - right. tauto.
  Qed.
End Wf.
