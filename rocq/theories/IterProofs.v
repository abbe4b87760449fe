(** The LevelCellArray iterator: positions, increment, decrement, traversal. *)
From Verif Require Import Base IntervalModel Spec LoiModel LoiProofs LcaModel LcaSpec GridProofs
  InitProofs SearchProofs.
Open Scope Z_scope.

(** ** Chains *)

Lemma chained_first : forall l p q c, chained p l q -> nth_error l 0 = Some c -> iindex c + istart c = p.
Proof. intros [|i l] p q c H H1; inv H1. simpl in H. tauto. Qed.

Lemma chained_next : forall l p q k c c', chained p l q ->
  nth_error l k = Some c -> nth_error l (S k) = Some c' -> iindex c + iend c = iindex c' + istart c'.
Proof.
  induction l as [|i l IH]; intros p q k c c' H H1 H2; [destruct k; discriminate|].
  simpl in H. destruct H as (A & B & C). destruct k as [|k]; simpl in *.
  - inv H1. symmetry. eapply chained_first; eauto.
  - eapply IH; eauto.
Qed.

Lemma chained_last : forall l p q k c, chained p l q ->
  nth_error l k = Some c -> nth_error l (S k) = None -> iindex c + iend c = q.
Proof.
  induction l as [|i l IH]; intros p q k c H H1 H2; [destruct k; discriminate|].
  simpl in H. destruct H as (A & B & C). destruct k as [|k]; simpl in *.
  - inv H1. destruct l; [simpl in C; auto|discriminate].
  - eapply IH; eauto.
Qed.

Lemma chained_order : forall l p q k k' c c', chained p l q -> (k < k')%nat ->
  nth_error l k = Some c -> nth_error l k' = Some c' -> iindex c + iend c <= iindex c' + istart c'.
Proof.
  induction l as [|i l IH]; intros p q k k' c c' H Hlt H1 H2; [destruct k; discriminate|].
  simpl in H. destruct H as (A & B & C). destruct k' as [|k']; [lia|]. destruct k as [|k]; simpl in *.
  - inv H1. apply nth_error_In in H2. eapply chained_In in C; eauto. lia.
  - apply (IH _ _ k k' c c' C); auto; lia.
Qed.

Lemma chained_lookup : forall l p q x, chained p l q -> p <= x < q ->
  exists k c, nth_error l k = Some c /\ in_i c (x - iindex c).
Proof.
  induction l as [|i l IH]; intros p q x H Hx; simpl in H; [lia|].
  destruct H as (A & B & C). destruct (Z.lt_ge_cases x (iindex i + iend i)).
  - exists 0%nat, i. split; auto. unfold in_i. lia.
  - destruct (IH _ _ x C ltac:(lia)) as (k & c & Hk & Hc). exists (S k), c. auto.
Qed.

Lemma lex_lt_irrefl : forall p, ~ lex_lt p p.
Proof. induction p; simpl; [tauto|]. intros [H|[_ H]]; [tauto|lia]. Qed.

Lemma lex_lt_trans : forall p q r, lex_lt p q -> lex_lt q r -> lex_lt p r.
Proof.
  induction p as [|x p IH]; destruct q as [|y q], r as [|z r]; simpl; try tauto.
  intros [H|[-> H]] [K|[-> K]]; eauto. right. split; auto. lia.
Qed.

Section Iter.
  Variables (b : bool) (n : nat) (a : lca).
  Hypothesis W : wf_gen b n a.

  (** The frames describe where interval [curd] of dimension [d] lies. *)
  Fixpoint FInv (d curd : nat) (fs : list frame) : Prop :=
    match fs with
    | [] => d = n /\ (curd < length (a_cells a n))%nat
    | f :: fs' =>
        (d < n)%nat /\
        (exists lo hi, nth_error (offs n a d) (f_off f) = Some lo /\
                       nth_error (offs n a d) (S (f_off f)) = Some hi /\ (lo <= curd < hi)%nat) /\
        (exists c, nth_error (a_cells a (S d)) (f_cur f) = Some c /\ in_i c (f_idx f) /\
                   iindex c + f_idx f = Z.of_nat (f_off f)) /\
        FInv (S d) (f_cur f) fs'
    end.

  Lemma FInv_len : forall fs d k, FInv d k fs -> (d + length fs = n)%nat /\ (k < length (a_cells a d))%nat.
  Proof.
    destruct fs as [|f fs]; cbn [FInv]; intros d k H.
    - destruct H as [-> H]. split; auto.
    - destruct H as (Hd & (lo & hi & H1 & H2 & H3) & _ & H4). split.
      + assert (forall fs d k, FInv d k fs -> (d + length fs = n)%nat) as G.
        { induction fs0 as [|f0 fs0 IH]; simpl; intros d0 k0 Q; [destruct Q; lia|].
          destruct Q as (_ & _ & _ & Q). apply IH in Q. lia. }
        apply G in H4. simpl. lia.
      + eapply offs_bound in H2; eauto; lia.
  Qed.

  (** Positions of the next dimension are determined by the row number. *)
  Lemma pos_unique : forall d k k' c c' y y', (d < n)%nat ->
    nth_error (a_cells a (S d)) k = Some c -> nth_error (a_cells a (S d)) k' = Some c' ->
    in_i c y -> in_i c' y' -> iindex c + y = iindex c' + y' -> k = k' /\ y = y'.
  Proof.
    intros d k k' c c' y y' Hd Hk Hk' Hy Hy' He. pose proof (wf_chain _ _ _ W d Hd) as C.
    unfold in_i in *. destruct (Nat.lt_trichotomy k k') as [H|[->|H]].
    - eapply chained_order in C; eauto. lia.
    - split; auto. assert (c = c') by congruence. subst. lia.
    - eapply chained_order with (k := k') (k' := k) in C; eauto. lia.
  Qed.

  Lemma row_unique : forall d k r r' lo hi lo' hi', (d <= n)%nat ->
    nth_error (offs n a d) r = Some lo -> nth_error (offs n a d) (S r) = Some hi -> (lo <= k < hi)%nat ->
    nth_error (offs n a d) r' = Some lo' -> nth_error (offs n a d) (S r') = Some hi' -> (lo' <= k < hi')%nat ->
    r = r'.
  Proof.
    intros d k r r' lo hi lo' hi' Hd H1 H2 H3 H4 H5 H6.
    destruct (Nat.lt_trichotomy r r') as [H|[H|H]]; auto.
    - assert (hi <= lo')%nat by (eapply (offs_mono b n a W d (S r) r'); eauto). lia.
    - assert (hi' <= lo)%nat by (eapply (offs_mono b n a W d (S r') r); eauto). lia.
  Qed.

  Lemma FInv_unique : forall fs fs' d k, FInv d k fs -> FInv d k fs' -> fs = fs'.
  Proof.
    induction fs as [|f fs IH]; intros fs' d k H H'.
    - destruct fs' as [|f' fs']; auto. simpl in *. lia.
    - destruct fs' as [|f' fs']; [simpl in *; lia|].
      destruct H as (Hd & (lo & hi & H1 & H2 & H3) & (c & H4 & H5 & H6) & H7).
      destruct H' as (_ & (lo' & hi' & H1' & H2' & H3') & (c' & H4' & H5' & H6') & H7').
      assert (f_off f = f_off f') by (apply (row_unique d k _ _ lo hi lo' hi'); auto; lia).
      destruct (pos_unique d (f_cur f) (f_cur f') c c' (f_idx f) (f_idx f')) as [E1 E2]; auto; [lia|].
      destruct f as [o i cu], f' as [o' i' cu']; simpl in *. subst.
      f_equal. eapply IH; eauto.
  Qed.

  (** ** begin / end *)

  Lemma begin_frames_spec : forall m d, (d + m = n)%nat -> b = true ->
    (0 < length (a_cells a n))%nat ->
    (0 < length (a_cells a d))%nat /\
    exists fs, begin_frames a d m = Some fs /\ FInv d 0 fs.
  Proof.
    intros m d Hdm Hb Hn. revert d Hdm. induction m as [|m IH]; intros d Hdm.
    - assert (d = n) by lia. subst d. split; auto. exists []. simpl. auto.
    - destruct (IH (S d) ltac:(lia)) as (Hlen & fs & Hfs & HF).
      destruct (nth_error (a_cells a (S d)) 0) as [c|] eqn:Hc; [|apply nth_error_None in Hc; lia].
      pose proof (wf_chain _ _ _ W d ltac:(lia)) as C.
      pose proof (chained_first _ _ _ _ C Hc) as Hpos.
      assert (Hv : istart c < iend c).
      { apply nth_error_In in Hc. eapply chained_In in C; eauto. lia. }
      destruct (pos_range b n a W d 0 c (istart c)) as [P1 P2]; auto; [lia|unfold in_i; lia|].
      rewrite Hpos in P2. simpl in P2.
      destruct (row_offs b n a W d 0 ltac:(lia) P2) as (lo & hi & E1 & E2 & L1 & L2 & _).
      pose proof (wf_first _ _ _ W d ltac:(lia)) as Hz.
      assert (lo = 0)%nat by congruence. subst lo.
      assert (Hlt : (0 < hi)%nat) by (apply (offs_strict b n a W d 0 1); auto; lia).
      split; [lia|]. exists (mkF 0 (istart c) 0 :: fs). cbn [begin_frames]. rewrite Hc, Hfs. split; auto.
      cbn [FInv f_off f_idx f_cur]. spl; [lia| | |auto].
      + exists 0%nat, hi. spl; auto; lia.
      + exists c. spl; auto. unfold in_i; lia.
  Qed.

  Lemma begin_spec : b = true -> (0 < length (a_cells a n))%nat ->
    exists fs, it_begin n a = Some (mkIt 0 fs) /\ FInv 0 0 fs.
  Proof.
    intros Hb Hn. destruct (begin_frames_spec n 0 ltac:(lia) Hb Hn) as (_ & fs & H1 & H2).
    exists fs. unfold it_begin. rewrite H1. auto.
  Qed.

  Lemma end_frames_spec : forall m d, (d + m = n)%nat -> b = true ->
    (0 < length (a_cells a n))%nat ->
    (0 < length (a_cells a d))%nat /\
    exists fs, end_frames a d m = Some fs /\ FInv d (length (a_cells a d) - 1) fs.
  Proof.
    intros m d Hdm Hb Hn. revert d Hdm. induction m as [|m IH]; intros d Hdm.
    - assert (d = n) by lia. subst d. split; auto. exists []. simpl. split; auto. split; auto. lia.
    - destruct (IH (S d) ltac:(lia)) as (Hlen & fs & Hfs & HF).
      set (k := (length (a_cells a (S d)) - 1)%nat) in *.
      destruct (nth_error (a_cells a (S d)) k) as [c|] eqn:Hc; [|apply nth_error_None in Hc; lia].
      pose proof (wf_chain _ _ _ W d ltac:(lia)) as C.
      assert (Hnone : nth_error (a_cells a (S d)) (S k) = None) by (apply nth_error_None; lia).
      pose proof (chained_last _ _ _ _ _ C Hc Hnone) as Hpos.
      assert (Hv : istart c < iend c).
      { apply nth_error_In in Hc. eapply chained_In in C; eauto. lia. }
      destruct (pos_range b n a W d k c (iend c - 1)) as [P1 P2]; auto; [lia|unfold in_i; lia|].
      set (L := length (offs n a d)) in *.
      replace (Z.to_nat (iindex c + (iend c - 1))) with (L - 2)%nat in P2 by lia.
      destruct (row_offs b n a W d (L - 2) ltac:(lia) P2) as (lo & hi & E1 & E2 & L1 & L2 & _).
      pose proof (wf_last _ _ _ W d ltac:(lia)) as Hz. fold L in Hz.
      assert (Hhi : hi = length (a_cells a d)).
      { replace (S (L - 2)) with (L - 1)%nat in E2 by lia. congruence. }
      subst hi.
      assert (Hlt : (lo < length (a_cells a d))%nat) by (apply (offs_strict b n a W d (L - 2) (S (L - 2))); auto; lia).
      split; [lia|]. exists (mkF (L - 2) (iend c - 1) k :: fs). cbn [end_frames]. fold k.
      rewrite <- (offs_lt n a) by lia. fold L.
      destruct (Nat.ltb_spec L 2); [lia|]. rewrite Hc, Hfs. split; auto.
      cbn [FInv f_off f_idx f_cur]. spl; [lia| | |auto].
      + exists lo, (length (a_cells a d)). spl; auto; lia.
      + exists c. spl; auto; [unfold in_i; lia|]. lia.
  Qed.

  Lemma end_spec : b = true -> (0 < length (a_cells a n))%nat ->
    exists fs, it_end n a = Some (mkIt (length (a_cells a 0)) fs) /\ FInv 0 (length (a_cells a 0) - 1) fs.
  Proof.
    intros Hb Hn. destruct (end_frames_spec n 0 ltac:(lia) Hb Hn) as (H0 & fs & H1 & H2).
    exists fs. unfold it_end. rewrite H1. destruct (a_cells a 0); [simpl in H0; lia|]. auto.
  Qed.

  (** ** increment *)

  Lemma inc_loop_stay : forall fs d k, FInv d k fs -> inc_loop a d k fs = Some fs.
  Proof.
    intros [|f fs] d k H; auto. destruct H as (Hd & (lo & hi & H1 & H2 & H3) & _).
    cbn [inc_loop]. rewrite <- (offs_lt n a) by lia. rewrite (Nat.add_comm (f_off f) 1). simpl Nat.add.
    rewrite H2. destruct (Nat.eqb_spec k hi); [lia|auto].
  Qed.

  Lemma inc_loop_spec : forall fs d k, b = true -> FInv d k fs ->
    ((S k < length (a_cells a d))%nat -> exists fs', inc_loop a d (S k) fs = Some fs' /\ FInv d (S k) fs') /\
    ((S k = length (a_cells a d))%nat -> exists fs', inc_loop a d (S k) fs = Some fs').
  Proof.
    induction fs as [|f fs IH]; intros d k Hb H.
    - simpl in H. destruct H as [-> H]. split; intros Hk; exists []; simpl; auto.
    - destruct H as (Hd & (lo & hi & H1 & H2 & H3) & (c & H4 & H5 & H6) & H7).
      pose proof (wf_chain _ _ _ W d Hd) as C.
      assert (Hhi : (hi <= length (a_cells a d))%nat) by (eapply offs_bound; eauto; lia).
      assert (Heq : inc_loop a d (S k) (f :: fs) =
        if Nat.eqb (S k) hi then
          let idx := f_idx f + 1 in
          let cur := if idx =? iend c then S (f_cur f) else f_cur f in
          let idx := if idx =? iend c then
             match nth_error (a_cells a (S d)) cur with None => idx | Some c' => istart c' end else idx in
          match inc_loop a (S d) cur fs with
          | None => None | Some fs'' => Some (mkF (f_off f + 1) idx cur :: fs'') end
        else Some (f :: fs)).
      { cbn [inc_loop]. rewrite <- (offs_lt n a) by lia. rewrite (Nat.add_comm (f_off f) 1). simpl Nat.add.
        rewrite H2, H4. reflexivity. }
      rewrite Heq. clear Heq. destruct (Nat.eqb_spec (S k) hi) as [Ek|Ek].
      + (* end of the row *)
        subst hi. cbv zeta.
        destruct (IH (S d) (f_cur f) Hb H7) as [IH1 IH2].
        pose proof (FInv_len _ _ _ H7) as [_ Hcur].
        assert (Hlast : nth_error (offs n a d) (length (offs n a d) - 1) = Some (length (a_cells a d)))
          by (apply (wf_last _ _ _ W); lia).
        assert (Hoff : (S (f_off f) < length (offs n a d))%nat) by (apply nth_error_Some; congruence).
        destruct (Z.eqb_spec (f_idx f + 1) (iend c)) as [Ei|Ei].
        * destruct (nth_error (a_cells a (S d)) (S (f_cur f))) as [c'|] eqn:Hc'.
          -- (* next interval exists *)
             pose proof (chained_next _ _ _ _ _ _ C H4 Hc') as Hnx.
             assert (Hv' : istart c' < iend c' /\ iindex c' + iend c' <= Z.of_nat (length (offs n a d) - 1)).
             { pose proof Hc' as Hin. apply nth_error_In in Hin. eapply chained_In in C; eauto. lia. }
             assert (Hrow : (S (S (f_off f)) < length (offs n a d))%nat) by lia.
             destruct (row_offs b n a W d (S (f_off f)) ltac:(lia) Hrow) as (lo1 & hi1 & E1 & E2 & L1 & L2 & _).
             assert (lo1 = S k) by congruence. subst lo1.
             assert (S k < hi1)%nat by (apply (offs_strict b n a W d (S (f_off f)) (S (S (f_off f)))); auto; lia).
             split; [|lia]. intros Hk.
             destruct IH1 as (fs' & F1 & F2); [apply nth_error_Some; congruence|].
             rewrite F1. eexists. split; [reflexivity|]. cbn [FInv f_off f_idx f_cur]. spl; auto.
             ++ replace (f_off f + 1)%nat with (S (f_off f)) by lia. exists (S k), hi1. spl; auto; lia.
             ++ exists c'. spl; auto; [unfold in_i; lia|]. lia.
          -- apply nth_error_None in Hc'.
             assert (Hn' : nth_error (a_cells a (S d)) (S (f_cur f)) = None) by (apply nth_error_None; lia).
             pose proof (chained_last _ _ _ _ _ C H4 Hn') as HL.
             assert (Hs : S (f_off f) = (length (offs n a d) - 1)%nat) by lia.
             rewrite Hs in H2. assert (S k = length (a_cells a d)) by congruence.
             split; [lia|]. intros _. destruct IH2 as (fs' & F1); [lia|]. rewrite F1. eauto.
        * rewrite (inc_loop_stay _ _ _ H7).
          assert (Hin' : in_i c (f_idx f + 1)) by (unfold in_i in *; lia).
          destruct (pos_range b n a W d (f_cur f) c (f_idx f + 1)) as [P1 P2]; auto.
          replace (Z.to_nat (iindex c + (f_idx f + 1))) with (S (f_off f)) in P2 by lia.
          destruct (row_offs b n a W d (S (f_off f)) ltac:(lia) P2) as (lo1 & hi1 & E1 & E2 & L1 & L2 & _).
          assert (lo1 = S k) by congruence. subst lo1.
          assert (S k < hi1)%nat by (apply (offs_strict b n a W d (S (f_off f)) (S (S (f_off f)))); auto; lia).
          split; intros Hk; [|eauto]. eexists. split; [reflexivity|]. cbn [FInv f_off f_idx f_cur]. spl; auto.
          -- replace (f_off f + 1)%nat with (S (f_off f)) by lia. exists (S k), hi1. spl; auto; lia.
          -- exists c. spl; auto. lia.
      + split; intros Hk; [|exists (f :: fs); auto]. exists (f :: fs). split; auto. cbn [FInv f_off f_idx f_cur]. spl; auto.
        * exists lo, hi. spl; auto; lia.
        * exists c. auto.
  Qed.

  Lemma it_inc_spec : forall k fs, b = true -> FInv 0 k fs ->
    exists it', it_inc a (mkIt k fs) = Some it' /\ it_cur it' = S k /\
      ((S k < length (a_cells a 0))%nat -> FInv 0 (S k) (it_frames it')).
  Proof.
    intros k fs Hb H. destruct (FInv_len _ _ _ H) as [_ Hk].
    unfold it_inc. simpl it_cur. destruct (Nat.eqb_spec k (length (a_cells a 0))); [lia|].
    simpl it_frames. destruct (inc_loop_spec fs 0 k Hb H) as [H1 H2].
    destruct (Nat.eq_dec (S k) (length (a_cells a 0))) as [e|e].
    - destruct (H2 e) as (fs' & ->). eexists. spl; [reflexivity|auto|simpl; lia].
    - destruct H1 as (fs' & -> & HF); [lia|]. eexists. spl; [reflexivity|auto|simpl; auto].
  Qed.

  (** ** decrement *)

  Lemma dec_loop_stay : forall fs d k, FInv d k fs -> dec_loop a d k fs = Some fs.
  Proof.
    intros [|f fs] d k H; auto. destruct H as (Hd & (lo & hi & H1 & H2 & H3) & _).
    cbn [dec_loop]. rewrite <- (offs_lt n a) by lia. rewrite H1.
    destruct (Nat.eqb_spec (S k) lo); [lia|auto].
  Qed.

  Lemma dec_loop_spec : forall fs d k, b = true -> FInv d (S k) fs ->
    exists fs', dec_loop a d k fs = Some fs' /\ FInv d k fs'.
  Proof.
    induction fs as [|f fs IH]; intros d k Hb H.
    - simpl in H. destruct H as [-> H]. exists []. simpl. split; auto. split; auto. lia.
    - destruct H as (Hd & (lo & hi & H1 & H2 & H3) & (c & H4 & H5 & H6) & H7).
      pose proof (wf_chain _ _ _ W d Hd) as C.
      cbn [dec_loop]. rewrite <- (offs_lt n a) by lia. rewrite H1.
      destruct (Nat.eqb_spec (S k) lo) as [Ek|Ek].
      + subst lo. destruct (f_off f) as [|off] eqn:Ho.
        { pose proof (wf_first _ _ _ W d ltac:(lia)). congruence. }
        rewrite H4.
        assert (Hprev : exists lo0, nth_error (offs n a d) off = Some lo0 /\ (lo0 < S k)%nat).
        { assert (S off < length (offs n a d))%nat by (apply nth_error_Some; congruence).
          destruct (row_offs b n a W d off ltac:(lia) H) as (lo0 & hi0 & E1 & E2 & _).
          exists lo0. split; auto. assert (hi0 = S k) by congruence. subst hi0.
          apply (offs_strict b n a W d off (S off)); auto; lia. }
        destruct Hprev as (lo0 & E0 & L0).
        destruct (Z.eqb_spec (f_idx f) (istart c)) as [Ei|Ei].
        * destruct (f_cur f) as [|cur] eqn:Hc.
          -- pose proof (chained_first _ _ _ _ C H4). lia.
          -- destruct (nth_error (a_cells a (S d)) cur) as [c'|] eqn:Hc'.
             2:{ apply nth_error_None in Hc'. assert (S cur < length (a_cells a (S d)))%nat by (apply nth_error_Some; congruence). lia. }
             destruct (IH (S d) cur Hb H7) as (fs' & F1 & F2). rewrite F1.
             eexists. split; [reflexivity|].
             pose proof (chained_next _ _ _ _ _ _ C Hc' H4) as Hnx.
             assert (Hv : istart c' < iend c').
             { pose proof Hc' as Hin. apply nth_error_In in Hin. eapply chained_In in C; eauto. lia. }
             cbn [FInv f_off f_idx f_cur]. spl; auto.
             ++ exists lo0, (S k). spl; auto; lia.
             ++ exists c'. spl; auto; [unfold in_i; lia|]. lia.
        * rewrite (dec_loop_stay _ _ _ H7). eexists. split; [reflexivity|]. cbn [FInv f_off f_idx f_cur]. spl; auto.
          -- exists lo0, (S k). spl; auto; lia.
          -- exists c. spl; auto; [unfold in_i in *; lia|]. lia.
      + exists (f :: fs). split; auto. cbn [FInv f_off f_idx f_cur]. spl; auto.
        * exists lo, hi. spl; auto; lia.
        * exists c. auto.
  Qed.

  Lemma it_dec_spec : forall k fs, b = true -> FInv 0 (S k) fs ->
    exists fs', it_dec a (mkIt (S k) fs) = Some (mkIt k fs') /\ FInv 0 k fs'.
  Proof.
    intros k fs Hb H. destruct (dec_loop_spec fs 0 k Hb H) as (fs' & H1 & H2).
    exists fs'. unfold it_dec. simpl. rewrite H1. auto.
  Qed.

  Lemma it_dec_end : b = true -> (0 < length (a_cells a n))%nat ->
    exists e fs, it_end n a = Some e /\ it_dec a e = Some (mkIt (length (a_cells a 0) - 1) fs) /\
      FInv 0 (length (a_cells a 0) - 1) fs.
  Proof.
    intros Hb Hn. destruct (end_spec Hb Hn) as (fs & H1 & H2).
    exists (mkIt (length (a_cells a 0)) fs), fs. spl; auto.
    pose proof (FInv_len _ _ _ H2) as [_ HL].
    unfold it_dec. simpl. destruct (length (a_cells a 0)) as [|L] eqn:E; [lia|].
    replace (S L - 1)%nat with L in * by lia. rewrite (dec_loop_stay _ _ _ H2). auto.
  Qed.

  (** ** traversal *)

  Lemma traverse_spec : forall fuel k fs, b = true -> FInv 0 k fs ->
    (fuel = length (a_cells a 0) - k)%nat ->
    exists calls, traverse fuel a (mkIt k fs) = Some calls /\ length calls = fuel /\
      forall j i yz, nth_error calls j = Some (i, yz) ->
        nth_error (a_cells a 0) (k + j) = Some i /\ exists fs', FInv 0 (k + j) fs' /\ yz = map f_idx fs'.
  Proof.
    induction fuel as [|fuel IH]; intros k fs Hb H Hf; pose proof (FInv_len _ _ _ H) as [_ Hk]; [lia|].
    cbn [traverse]. simpl it_cur. destruct (Nat.eqb_spec k (length (a_cells a 0))); [lia|].
    unfold it_deref. simpl it_cur.
    destruct (nth_error (a_cells a 0) k) as [i|] eqn:Hi; [|apply nth_error_None in Hi; lia].
    destruct (it_inc_spec k fs Hb H) as ([k' fs'] & H1 & H2 & H3). rewrite H1. simpl in H2, H3. subst k'.
    assert (Hrest : exists calls, traverse fuel a (mkIt (S k) fs') = Some calls /\ length calls = fuel /\
      forall j i yz, nth_error calls j = Some (i, yz) ->
        nth_error (a_cells a 0) (S k + j) = Some i /\ exists fs', FInv 0 (S k + j) fs' /\ yz = map f_idx fs').
    { destruct (Nat.eq_dec (S k) (length (a_cells a 0))) as [e|e].
      - assert (fuel = 0)%nat by lia. subst fuel. exists []. simpl.
        destruct (length (a_cells a 0)) as [|L]; [lia|]. destruct (Nat.eqb_spec k L); [|lia].
        spl; auto. intros [|j] ? ? Hj; discriminate.
      - apply IH; auto; [apply H3; lia|lia]. }
    destruct Hrest as (calls & -> & Hl & Hc). exists ((i, map f_idx fs) :: calls).
    spl; auto; [simpl; lia|]. intros [|j] i' yz Hj; simpl in Hj.
    - inv Hj. rewrite Nat.add_0_r. split; eauto.
    - apply Hc in Hj. replace (k + S j)%nat with (S k + j)%nat by lia. auto.
  Qed.

  Lemma for_each_interval_spec : b = true -> (0 < length (a_cells a n))%nat ->
    exists calls, for_each_interval n a = Some calls /\ length calls = length (a_cells a 0) /\
      traverse (length (a_cells a 0)) a (mkIt 0 (match it_begin n a with Some it => it_frames it | None => [] end)) = Some calls /\
      forall j i yz, nth_error calls j = Some (i, yz) ->
        nth_error (a_cells a 0) j = Some i /\ exists fs', FInv 0 j fs' /\ yz = map f_idx fs'.
  Proof.
    intros Hb Hn. destruct (begin_spec Hb Hn) as (fs & H1 & H2).
    destruct (end_spec Hb Hn) as (fs' & H3 & _).
    pose proof (FInv_len _ _ _ H2) as [_ Hk].
    destruct (traverse_spec (length (a_cells a 0)) 0 fs Hb H2 ltac:(lia)) as (calls & C1 & C2 & C3).
    exists calls. unfold for_each_interval, lca_is_empty. rewrite H1, H3. simpl it_frames.
    destruct (a_cells a 0) eqn:E; [simpl in Hk; lia|]. rewrite <- E in *. spl; auto.
  Qed.

  (** ** membership and order of the visited cells *)

  Lemma frames_mem : forall fs d k c p, FInv d k fs -> nth_error (a_cells a d) k = Some c ->
    in_i c (nth d p 0) -> skipn (S d) p = map f_idx fs ->
    (match d with O => True | S m => mem_row n a m (Z.to_nat (iindex c + nth d p 0)) p end) ->
    mem_row n a n 0 p.
  Proof.
    induction fs as [|f fs IH]; intros d k c p HF Hk Hin Hs Hm.
    - destruct HF as [-> HF]. assert (Hc : In c (row n a n 0)).
      { apply (row_In b n a W); [lia|rewrite offs_n; simpl; lia|].
        exists k, 0%nat, (length (a_cells a n)). rewrite offs_n. spl; auto; lia. }
      destruct n; simpl; exists c; spl; auto.
    - destruct HF as (Hd & (lo & hi & H1 & H2 & H3) & (c' & H4 & H5 & H6) & H7).
      assert (Hnth : nth (S d) p 0 = f_idx f).
      { assert (E : nth_error p (S d) = Some (f_idx f)).
        { rewrite <- (Nat.add_0_r (S d)), <- nth_error_skipn, Hs. reflexivity. }
        apply nth_error_nth with (d := 0) in E. auto. }
      assert (Hs' : skipn (S (S d)) p = map f_idx fs).
      { change (map f_idx (f :: fs)) with (f_idx f :: map f_idx fs) in Hs.
        replace (skipn (S (S d)) p) with (skipn 1 (skipn (S d) p)).
        - rewrite Hs. auto.
        - clear. generalize (S d). intros m. revert p.
          induction m as [|m IHm]; intros [|x p]; auto. apply (IHm p). }
      apply (IH (S d) (f_cur f) c' p H7 H4); auto.
      + rewrite Hnth. auto.
      + rewrite Hnth, H6, Nat2Z.id.
        assert (Hc : In c (row n a d (f_off f))).
        { apply (row_In b n a W); [lia|apply nth_error_Some; congruence|]. exists k, lo, hi. auto. }
        destruct d; simpl; exists c; spl; auto.
  Qed.

  Lemma skipn_step : forall (p : list Z) d, (d < length p)%nat ->
    skipn d p = nth d p 0 :: skipn (S d) p.
  Proof.
    induction p as [|x p IH]; intros d Hd; simpl in *; [lia|]. destruct d; auto.
    apply IH. lia.
  Qed.

  (** Row [r] of dimension [d] is the one described by the frames. *)
  Definition RowCtx (d r : nat) (fs : list frame) : Prop :=
    match fs with
    | [] => d = n /\ r = 0%nat
    | f :: fs' => (d < n)%nat /\ f_off f = r /\
        (exists c, nth_error (a_cells a (S d)) (f_cur f) = Some c /\ in_i c (f_idx f) /\
                   iindex c + f_idx f = Z.of_nat (f_off f)) /\
        FInv (S d) (f_cur f) fs'
    end.

  Lemma RowCtx_FInv : forall d r fs lo hi k, RowCtx d r fs ->
    nth_error (offs n a d) r = Some lo -> nth_error (offs n a d) (S r) = Some hi ->
    (lo <= k < hi)%nat -> FInv d k fs.
  Proof.
    intros d r [|f fs] lo hi k H H1 H2 Hk; cbn [RowCtx FInv] in *.
    - destruct H as [-> ->]. split; auto. rewrite offs_n in H2. simpl in H2. inv H2. lia.
    - destruct H as (Hd & <- & H3 & H4). spl; auto. exists lo, hi. auto.
  Qed.

  Lemma mem_frames : forall d r p fs, (d <= n)%nat -> length p = S n ->
    (S r < length (offs n a d))%nat ->
    RowCtx d r fs -> map f_idx fs = skipn (S d) p -> mem_row n a d r p ->
    exists k i fs0, FInv 0 k fs0 /\ map f_idx fs0 = skipn 1 p /\
      nth_error (a_cells a 0) k = Some i /\ in_i i (nth 0 p 0).
  Proof.
    induction d as [|d IH]; intros r p fs Hd Hp Hr Hc Hs (i & Hi & Hin & Hm).
    - apply (row_In b n a W) in Hi as (k & lo & hi & E1 & E2 & Hk & Hi); auto.
      exists k, i, fs. spl; auto. eapply RowCtx_FInv; eauto.
    - apply (row_In b n a W) in Hi as (k & lo & hi & E1 & E2 & Hk & Hi); auto.
      destruct (pos_range b n a W d k i (nth (S d) p 0)) as [P1 P2]; auto.
      apply (IH (Z.to_nat (iindex i + nth (S d) p 0)) p
               (mkF (Z.to_nat (iindex i + nth (S d) p 0)) (nth (S d) p 0) k :: fs)); auto; try lia.
      + cbn [RowCtx FInv f_off f_idx f_cur]. spl; auto.
        * exists i. spl; auto. lia.
        * eapply RowCtx_FInv; eauto.
      + simpl map. rewrite Hs. symmetry. apply skipn_step. lia.
  Qed.

  Lemma lca_mem_frames : forall x yz,
    lca_mem n a (x :: yz) <->
    exists k i fs, FInv 0 k fs /\ yz = map f_idx fs /\ nth_error (a_cells a 0) k = Some i /\ in_i i x.
  Proof.
    intros x yz. unfold lca_mem. split.
    - intros [Hp Hm].
      destruct (mem_frames n 0 (x :: yz) [] (le_n n) Hp) as (k & i & fs & H1 & H2 & H3 & H4); auto.
      + rewrite offs_n. simpl. lia.
      + simpl. auto.
      + simpl map. symmetry. apply skipn_all2. lia.
      + exists k, i, fs. spl; auto.
    - intros (k & i & fs & H1 & -> & H3 & H4). split.
      + simpl. rewrite map_length. apply FInv_len in H1. lia.
      + apply (frames_mem fs 0 k i (x :: map f_idx fs)); auto.
  Qed.

  Lemma frames_order : forall fs fs' d k k' c c' x x', FInv d k fs -> FInv d k' fs' -> (k < k')%nat ->
    nth_error (a_cells a d) k = Some c -> nth_error (a_cells a d) k' = Some c' ->
    in_i c x -> in_i c' x' -> lex_lt (x :: map f_idx fs) (x' :: map f_idx fs').
  Proof.
    induction fs as [|f fs IH]; intros fs' d k k' c c' x x' HF HF' Hlt Hk Hk' Hx Hx'.
    - destruct fs' as [|f' fs']; [|simpl in *; lia]. destruct HF as [-> HF]. destruct HF' as [_ HF'].
      simpl. right. split; auto.
      pose proof (wf_normal _ _ _ W n 0%nat (le_n n) ltac:(rewrite offs_n; simpl; lia)) as N.
      unfold row in N. rewrite offs_n in N. simpl in N. change (normal (slice 0 (length (a_cells a n)) (a_cells a n))) in N.
      apply normal_slice_nth in N as [_ N]; [|lia].
      assert (iend c < istart c') by (apply (N k k'); auto; lia). unfold in_i in *. lia.
    - destruct fs' as [|f' fs']; [simpl in *; lia|].
      pose proof HF as HFs. pose proof HF' as HFs'.
      destruct HF as (Hd & (lo & hi & H1 & H2 & H3) & (e & H4 & H5 & H6) & H7).
      destruct HF' as (_ & (lo' & hi' & H1' & H2' & H3') & (e' & H4' & H5' & H6') & H7').
      simpl. destruct (Nat.lt_trichotomy (f_off f) (f_off f')) as [Ho|[Ho|Ho]].
      + left. destruct (Nat.lt_trichotomy (f_cur f) (f_cur f')) as [Hc|[Hc|Hc]].
        * apply (IH fs' (S d) (f_cur f) (f_cur f') e e' (f_idx f) (f_idx f')); auto.
        * rewrite <- Hc in *. assert (e = e') by congruence. subst e'.
          right. split; [|lia]. f_equal. eapply FInv_unique; eauto.
        * pose proof (wf_chain _ _ _ W d Hd) as C.
          eapply chained_order with (k := f_cur f') (k' := f_cur f) in C; eauto. unfold in_i in *. lia.
      + right. split.
        * destruct (pos_unique d (f_cur f) (f_cur f') e e' (f_idx f) (f_idx f')) as [E1 E2]; auto; [lia|].
          rewrite E2. f_equal. f_equal. rewrite <- E1 in H7'. eapply FInv_unique; eauto.
        * rewrite Ho in *. assert (lo = lo') by congruence. assert (hi = hi') by congruence. subst lo' hi'.
          assert (Hr : (S (f_off f') < length (offs n a d))%nat) by (apply nth_error_Some; congruence).
          pose proof (wf_normal _ _ _ W d (f_off f') ltac:(lia) Hr) as N.
          destruct (row_offs b n a W d (f_off f') ltac:(lia) Hr) as (lo1 & hi1 & E1 & E2 & L1 & L2 & HR).
          rewrite HR in N. assert (lo = lo1) by congruence. assert (hi = hi1) by congruence. subst lo1 hi1.
          apply normal_slice_nth in N as [_ N]; auto.
          assert (iend c < istart c') by (apply (N k k'); auto; lia). unfold in_i in *. lia.
      + exfalso. assert (hi' <= lo)%nat by (eapply (offs_mono b n a W d (S (f_off f')) (f_off f)); eauto; lia). lia.
  Qed.
End Iter.
