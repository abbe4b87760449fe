(** Canonicity of the array structure (C15) and boxes (C14). *)
From Verif Require Import Base IntervalModel Spec LoiModel LoiProofs LcaModel LcaSpec GridProofs
  InitProofs SearchProofs IterProofs LcaProofs LcaProofs2.
Open Scope Z_scope.

(** ** Fields of the stored intervals *)

(** A predicate on (step, index) kept by merging. *)
Definition fields (P : Z -> Z -> Prop) (i : interval) : Prop := P (istep i) (iindex i).

Lemma merge_loop_fields : forall P i rest cur, fields P cur -> Forall (fields P) rest ->
  Forall (fields P) (merge_loop i cur rest).
Proof.
  induction rest as [|v rest IH]; intros cur Hc Hr; simpl; auto.
  inv Hr. caseb; auto.
Qed.

Lemma add_interval_fields : forall P i l, fields P i -> Forall (fields P) l -> Forall (fields P) (add_interval l i).
Proof.
  intros P i l Hi Hl. unfold add_interval. destruct (is_valid i); auto.
  induction l as [|v l IH]; simpl; auto. inv Hl. repeat caseb; auto.
  apply merge_loop_fields; auto.
Qed.

Fixpoint grid_all (P : interval -> Prop) (n : nat) : grid n -> Prop :=
  match n with
  | O => fun l => Forall P l
  | S m => fun g => Forall (fun kv => grid_all P m (snd kv)) g
  end.

Lemma grid_empty_all : forall P n, grid_all P n (grid_empty n).
Proof. destruct n; simpl; auto. Qed.

Lemma map_update_all : forall V (Q : V -> Prop) d k f m, Q d -> (forall v, Q v -> Q (f v)) ->
  Forall (fun kv => Q (snd kv)) m -> Forall (fun kv => Q (snd kv)) (map_update d k f m).
Proof.
  induction m as [|[k' v] m IH]; intros Hd Hf Hm; simpl; [constructor; simpl; auto|].
  inv Hm. simpl in *. repeat caseb; constructor; simpl; auto.
Qed.

Lemma grid_update_all : forall P n yz f g, (forall l, Forall P l -> Forall P (f l)) ->
  grid_all P n g -> grid_all P n (grid_update n yz f g).
Proof.
  induction n as [|m IH]; intros yz f g Hf Hg; simpl in *; auto.
  apply map_update_all; auto. apply grid_empty_all.
Qed.

(** The fields a call brings in. *)
Definition call_fields (P : Z -> Z -> Prop) (c : lcl_call) : Prop :=
  match c with AddI _ i => P (istep i) (iindex i) | _ => True end.

Lemma grid_run_all : forall (P : Z -> Z -> Prop) n cs, P 1 0 -> Forall (call_fields P) cs ->
  forall g, grid_all (fields P) n g -> grid_all (fields P) n (fold_left (grid_step n) cs g).
Proof.
  intros P n cs P0. induction 1 as [|c cs Hc Hcs IH]; intros g Hg; simpl; auto.
  apply IH. destruct c; simpl in *; apply grid_update_all; auto; intros l Hl; try apply add_interval_fields; auto.
Qed.

Definition stored (P : interval -> Prop) (a : lca) : Prop :=
  forall d i, In i (a_cells a d) -> match d with O => P i | _ => istep i = 1 end.

Lemma In_upd_app : forall (a : nat -> list interval) e l d i, In i (upd a e (a e ++ l) d) ->
  In i (a d) \/ (d = e /\ In i l).
Proof.
  intros a e l d i H. unfold upd in H. destruct (Nat.eqb_spec d e); auto. subst.
  apply in_app_or in H as [H|H]; auto.
Qed.

Lemma init_lcl_stored : forall P n g a, grid_all P n g -> stored P a -> stored P (init_lcl n g a).
Proof.
  induction n as [|m IH]; intros g a Hg Ha.
  - simpl in *. intros d i Hi. simpl in Hi. apply In_upd_app in Hi as [Hi|[-> Hi]]; [apply Ha; auto|].
    rewrite Forall_forall in Hg. auto.
  - cbn [init_lcl].
    set (body := fun (s : lca * interval) (point : Z * grid m) => _).
    assert (G : forall (g : grid (S m)) s, grid_all P (S m) g -> stored P (fst s) -> istep (snd s) = 1 ->
      stored P (fst (fold_left body g s)) /\ istep (snd (fold_left body g s)) = 1).
    { induction g0 as [|[k sub] g0 IHg]; intros [a0 c0] Hall Hs Hc; [simpl in *; auto|].
      cbn [fold_left]. simpl in Hall. inv Hall. simpl in *.
      apply IHg; auto.
      - unfold body. simpl. unfold init_curr. destruct (is_valid c0); [destruct (iend c0 <? k)|]; simpl;
          try (apply IH; auto).
        intros d i Hi. simpl in Hi. apply In_upd_app in Hi as [Hi|[-> [<-|[]]]]; auto.
        apply (IH sub a0); auto.
      - unfold body. simpl. unfold init_curr. destruct (is_valid c0); [destruct (iend c0 <? k)|]; simpl; auto. }
    destruct (G g (a, mkidx 0 0 0) Hg Ha eq_refl) as [G1 G2].
    destruct (fold_left body g (a, mkidx 0 0 0)) as [a1 c1]. simpl in *.
    destruct (is_valid c1); auto.
    intros d i Hi. simpl in Hi. apply In_upd_app in Hi as [Hi|[-> [<-|[]]]]; auto. apply G1; auto.
Qed.

Lemma close_offsets_cells : forall n a d, a_cells (close_offsets n a) d = a_cells a d.
Proof. induction n; intros; simpl; auto. Qed.

Lemma lca_of_lcl_stored : forall P n (L : lcl n), grid_all P n (l_grid L) -> stored P (lca_of_lcl L).
Proof.
  intros P n L H. unfold lca_of_lcl. destruct (grid_is_empty n (l_grid L)).
  - intros d i []. 
  - intros d i Hi. rewrite close_offsets_cells in Hi. revert d i Hi. apply init_lcl_stored; auto. intros d i [].
Qed.

(** ** Canonicity *)

Lemma chained_bounds : forall l l' p q q', bounds l = bounds l' -> chained p l q -> chained p l' q' ->
  q = q' /\ map iindex l = map iindex l'.
Proof.
  induction l as [|i l IH]; intros [|i' l'] p q q' B C C'; try discriminate.
  - simpl in *. split; auto. lia.
  - simpl in B. injection B as B1 B2 B3. simpl in C, C'. destruct C as (A1 & A2 & A3). destruct C' as (A1' & A2' & A3').
    assert (E : iindex i = iindex i') by lia.
    replace (iindex i' + iend i') with (iindex i + iend i) in A3' by lia.
    destruct (IH l' _ q q' B3 A3 A3') as [-> E']. split; auto. simpl. f_equal; auto.
Qed.

(** Row [r] of an array, in terms of the row above it. *)
Lemma row_above : forall n a d r, wf_full n a -> (d < n)%nat -> (S r < length (offs n a d))%nat ->
  exists k c r', nth_error (a_cells a (S d)) k = Some c /\ in_i c (Z.of_nat r - iindex c) /\
    (S r' < length (offs n a (S d)))%nat /\ In c (row n a (S d) r') /\
    forall p, nth (S d) p 0 = Z.of_nat r - iindex c -> (mem_row n a (S d) r' p <-> mem_row n a d r p).
Proof.
  intros n a d r W Hd Hr.
  destruct (chained_lookup _ _ _ (Z.of_nat r) (wf_chain _ _ _ W d Hd) ltac:(lia)) as (k & c & Hc & Hin).
  destruct (row_exists n a W (wf_full_cells_n _ _ W) (S d) k ltac:(lia)) as (r' & lo & hi & E1 & E2 & HR);
    [apply nth_error_Some; congruence|].
  assert (Hr' : (S r' < length (offs n a (S d)))%nat) by (apply nth_error_Some; congruence).
  assert (Hcr : In c (row n a (S d) r')) by (apply (row_In true n a W); auto; exists k, lo, hi; auto).
  exists k, c, r'. spl; auto. intros p Hp. cbn [mem_row]. split.
  - intros (i & A & B & C). apply (row_In true n a W) in A; auto.
    destruct A as (k' & lo' & hi' & F1 & F2 & HR' & A).
    assert (lo' = lo) by congruence. assert (hi' = hi) by congruence. subst lo' hi'.
    assert (i = c).
    { destruct (row_offs true n a W (S d) r' ltac:(lia) Hr') as (lo' & hi' & F1' & F2' & L1 & L2 & HRW).
      assert (lo' = lo) by congruence. assert (hi' = hi) by congruence. subst lo' hi'.
      pose proof (wf_normal _ _ _ W (S d) r' ltac:(lia) Hr') as N. rewrite HRW in N.
      pose proof (normal_slice_nth _ _ _ L2 N) as HN.
      rewrite Hp in B. unfold in_i in B, Hin.
      destruct (Nat.lt_trichotomy k k') as [Hlt|[->|Hgt]].
      - destruct HN as [_ HN]. specialize (HN k k' c i ltac:(lia) ltac:(lia) Hc A). lia.
      - congruence.
      - destruct HN as [_ HN]. specialize (HN k' k i c ltac:(lia) ltac:(lia) A Hc). lia. }
    subst i. rewrite Hp in C. replace (Z.to_nat (iindex c + (Z.of_nat r - iindex c))) with r in C by lia. auto.
  - intros Hm. exists c. rewrite Hp. spl; auto.
    replace (Z.to_nat (iindex c + (Z.of_nat r - iindex c))) with r by lia. auto.
Qed.

Lemma row_covers : forall n a d r y, wf_full n a -> (d <= n)%nat -> (S r < length (offs n a d))%nat ->
  (covers (row n a d r) y <-> exists p, length p = S n /\ nth d p 0 = y /\ mem_row n a d r p).
Proof.
  intros n a d r y W Hd Hr. split.
  - intros (i & Hi & Hy). destruct d as [|d].
    + exists (setc 0 y (repeat 0 (S n))). rewrite setc_len, repeat_length.
      rewrite setc_same by (rewrite repeat_length; lia). spl; auto.
      cbn [mem_row]. exists i. rewrite setc_same by (rewrite repeat_length; lia). auto.
    + assert (Hi' := Hi). apply (row_In true n a W) in Hi'; auto. destruct Hi' as (k & lo & hi & _ & _ & _ & Hk).
      destruct (pos_range true n a W d k i y) as [P1 P2]; auto.
      destruct (row_inhabited n a W d (Z.to_nat (iindex i + y)) (setc (S d) y (repeat 0 (S n))))
        as (p & Hp & He & Hm); auto; [lia|rewrite setc_len, repeat_length; auto|].
      assert (Hpd : nth (S d) p 0 = y).
      { rewrite He by lia. apply setc_same. rewrite repeat_length. lia. }
      exists p. spl; auto. cbn [mem_row]. exists i. rewrite Hpd. auto.
  - intros (p & Hp & <- & Hm). destruct d; destruct Hm as (i & A & B & _); exists i; auto.
Qed.

(** The vector of a dimension is the concatenation of its rows. *)
Lemma cells_rows : forall n a d, wf_full n a -> (d <= n)%nat ->
  a_cells a d = flat_map (row n a d) (seq 0 (length (offs n a d) - 1)).
Proof.
  intros n a d W Hd.
  assert (G : forall r o, nth_error (offs n a d) r = Some o ->
    firstn o (a_cells a d) = flat_map (row n a d) (seq 0 r)).
  { induction r as [|r IH]; intros o Ho.
    - rewrite (wf_first _ _ _ W d Hd) in Ho. inv Ho. auto.
    - assert (S r < length (offs n a d))%nat by (apply nth_error_Some; congruence).
      destruct (row_offs true n a W d r Hd H) as (lo & hi & E1 & E2 & L1 & L2 & HR).
      assert (hi = o) by congruence. subst hi.
      rewrite seq_S, flat_map_app. simpl. rewrite app_nil_r, <- (IH lo E1), HR. unfold slice.
      rewrite <- (firstn_skipn lo (firstn o (a_cells a d))). f_equal.
      + rewrite firstn_firstn. f_equal. lia.
      + rewrite skipn_firstn_comm. auto. }
  pose proof (wf_last _ _ _ W d Hd) as HL. apply G in HL. rewrite firstn_all in HL. auto.
Qed.

Section Canon.
  Variables (n : nat) (a a' : lca).
  Hypothesis W : wf_full n a.
  Hypothesis W' : wf_full n a'.
  Hypothesis M : forall p, lca_mem n a p <-> lca_mem n a' p.

  Lemma canon_dim : forall m d, (d + m = n)%nat ->
    offs n a d = offs n a' d /\ bounds (a_cells a d) = bounds (a_cells a' d) /\
    ((d < n)%nat -> map iindex (a_cells a (S d)) = map iindex (a_cells a' (S d))) /\
    forall r p, (S r < length (offs n a d))%nat -> length p = S n -> (mem_row n a d r p <-> mem_row n a' d r p).
  Proof.
    induction m as [|m IH]; intros d Hm.
    - assert (d = n) by lia. subst d. clear Hm.
      assert (HM : forall p, length p = S n -> (mem_row n a n 0 p <-> mem_row n a' n 0 p)).
      { intros p Hp. specialize (M p). unfold lca_mem in M. tauto. }
      assert (L1 : (1 < length (offs n a n))%nat) by (rewrite offs_n; simpl; lia).
      assert (L2 : (1 < length (offs n a' n))%nat) by (rewrite offs_n; simpl; lia).
      assert (B : bounds (row n a n 0) = bounds (row n a' n 0)).
      { apply normal_canonical; [apply (wf_normal _ _ _ W); auto|apply (wf_normal _ _ _ W'); auto|].
        intros y. rewrite !row_covers by auto. split; intros (p & A1 & A2 & A3); exists p; spl; auto; apply HM; auto. }
      assert (R : forall x, wf_full n x -> row n x n 0 = a_cells x n).
      { intros x Wx. unfold row. rewrite offs_n. simpl. rewrite Nat.sub_0_r. apply firstn_all. }
      rewrite !R in B by auto. spl; auto; [|lia|].
      + rewrite !offs_n. rewrite (bounds_len _ _ B). auto.
      + intros r p Hr. rewrite offs_n in Hr. simpl in Hr. assert (r = 0%nat) by lia. subst. auto.
    - destruct (IH (S d) ltac:(lia)) as (IO & IB & _ & IM).
      pose proof (wf_chain _ _ _ W d ltac:(lia)) as C. pose proof (wf_chain _ _ _ W' d ltac:(lia)) as C'.
      destruct (chained_bounds _ _ _ _ _ IB C C') as [EL EI].
      pose proof (offs_len_pos true n a W d ltac:(lia)). pose proof (offs_len_pos true n a' W' d ltac:(lia)).
      assert (ELen : length (offs n a d) = length (offs n a' d)) by lia. clear EL.
      assert (RM : forall r p, (S r < length (offs n a d))%nat -> length p = S n ->
        (mem_row n a d r p <-> mem_row n a' d r p)).
      { intros r p Hr Hp.
        destruct (row_above n a d r W ltac:(lia) Hr) as (k & c & r1 & Hk & Hc & Hr1 & Hcr & Hrow).
        destruct (row_above n a' d r W' ltac:(lia) ltac:(lia)) as (k' & c' & r1' & Hk' & Hc' & Hr1' & Hcr' & Hrow').
        (* same interval position *)
        destruct (bounds_nth _ _ k c IB Hk) as (c2 & Hk2 & S2 & E2).
        assert (I2 : iindex c2 = iindex c).
        { assert (X : nth_error (map iindex (a_cells a (S d))) k = nth_error (map iindex (a_cells a' (S d))) k)
            by (rewrite EI; auto).
          rewrite !nth_error_map, Hk, Hk2 in X. simpl in X. congruence. }
        assert (Hc2 : in_i c2 (Z.of_nat r - iindex c2)) by (unfold in_i in *; lia).
        destruct (pos_unique true n a' W' d k' k c' c2 _ _ ltac:(lia) Hk' Hk2 Hc' Hc2 ltac:(lia)) as [-> _].
        assert (c2 = c') by congruence. subst c2.
        (* the same row above *)
        assert (r1' = r1).
        { apply (row_In true n a W) in Hcr; [|lia|auto]. 
          destruct (nth_error (offs n a (S d)) r1) as [lo|] eqn:F1; [|apply nth_error_None in F1; lia].
          assert (Hin' : In c' (row n a' (S d) r1)).
          { destruct Hcr as (k1 & lo1 & hi1 & G1 & G2 & G3 & G4).
            assert (k1 = k).
            { apply (pos_unique true n a W d k1 k c c _ _ ltac:(lia) G4 Hk Hc Hc eq_refl). }
            subst k1. apply (row_In true n a' W'); [lia|rewrite <- IO; auto|].
            exists k, lo1, hi1. rewrite <- IO. spl; try lia; congruence. }
          apply (row_In true n a' W') in Hin'; [|lia|rewrite <- IO; auto].
          apply (row_In true n a' W') in Hcr'; [|lia|auto].
          destruct Hin' as (k1 & lo1 & hi1 & G1 & G2 & G3 & G4).
          destruct Hcr' as (k2 & lo2 & hi2 & K1 & K2 & K3 & K4).
          assert (k1 = k) by apply (pos_unique true n a' W' d k1 k c' c' _ _ ltac:(lia) G4 Hk2 Hc' Hc' eq_refl).
          assert (k2 = k) by apply (pos_unique true n a' W' d k2 k c' c' _ _ ltac:(lia) K4 Hk2 Hc' Hc' eq_refl).
          subst k1 k2.
          symmetry. eapply (row_unique true n a' W' (S d) k); eauto. lia. }
        subst r1'.
        set (q := setc (S d) (Z.of_nat r - iindex c) p).
        assert (Hq : length q = S n) by (unfold q; rewrite setc_len; auto).
        assert (Hqd : nth (S d) q 0 = Z.of_nat r - iindex c) by (apply setc_same; lia).
        assert (He : forall e, (e <= d)%nat -> nth e p 0 = nth e q 0)
          by (intros e Hle; unfold q; symmetry; apply setc_other; intros ->; apply (Nat.nle_succ_diag_l d Hle)).
        assert (Hsame : forall x, mem_row n x d r p <-> mem_row n x d r q).
        { intros x. split; apply mem_row_coords; intros; [|symmetry]; auto. }
        rewrite (Hsame a), (Hsame a'), <- (Hrow q Hqd), <- (Hrow' q ltac:(lia)). apply IM; auto. }
      assert (BR : forall r, (S r < length (offs n a d))%nat -> bounds (row n a d r) = bounds (row n a' d r)).
      { intros r Hr. apply normal_canonical.
        - apply (wf_normal _ _ _ W); auto. lia.
        - apply (wf_normal _ _ _ W'); lia.
        - intros y. rewrite !row_covers by (auto; lia).
          split; intros (p & A1 & A2 & A3); exists p; spl; auto; apply (RM r p Hr A1); auto. }
      assert (OE : forall r o, nth_error (offs n a d) r = Some o -> nth_error (offs n a' d) r = Some o).
      { induction r as [|r IHr]; intros o Ho.
        - rewrite (wf_first _ _ _ W d ltac:(lia)) in Ho. rewrite (wf_first _ _ _ W' d ltac:(lia)). auto.
        - assert (Hr : (S r < length (offs n a d))%nat) by (apply nth_error_Some; congruence).
          destruct (row_offs true n a W d r ltac:(lia) Hr) as (lo & hi & E1 & E2 & L1 & L2 & HR).
          destruct (row_offs true n a' W' d r ltac:(lia) ltac:(lia)) as (lo' & hi' & E1' & E2' & L1' & L2' & HR').
          specialize (IHr lo E1). assert (lo' = lo) by congruence. subst lo'.
          specialize (BR r Hr). apply bounds_len in BR. rewrite HR, HR', !slice_len in BR by auto.
          rewrite E2'. assert (hi = o) by congruence. f_equal. lia. }
      assert (EO : offs n a d = offs n a' d).
      { apply nth_ext with (d := 0%nat) (d' := 0%nat); auto. intros r Hr.
        destruct (nth_error (offs n a d) r) as [o|] eqn:Ho; [|apply nth_error_None in Ho; lia].
        rewrite (nth_error_nth _ _ _ Ho). symmetry. apply nth_error_nth. auto. }
      spl; auto; try lia.
      rewrite (cells_rows n a d W ltac:(lia)), (cells_rows n a' d W' ltac:(lia)), <- EO.
      assert (G : forall R, (S R <= length (offs n a d))%nat ->
        bounds (flat_map (row n a d) (seq 0 R)) = bounds (flat_map (row n a' d) (seq 0 R))).
      { induction R as [|R IHR]; intros HR; auto. rewrite seq_S, !flat_map_app. unfold bounds in *.
        rewrite !map_app. rewrite IHR by lia. f_equal. simpl. rewrite !app_nil_r. apply BR. lia. }
      apply G. lia.
  Qed.

  Lemma canon : (forall d, (d <= n)%nat -> bounds (a_cells a d) = bounds (a_cells a' d)) /\
    (forall d, (d < n)%nat -> map iindex (a_cells a (S d)) = map iindex (a_cells a' (S d))) /\
    (forall d, (d < n)%nat -> a_offsets a d = a_offsets a' d).
  Proof.
    spl.
    - intros d Hd. apply (canon_dim (n - d) d). lia.
    - intros d Hd. apply (canon_dim (n - d) d); lia.
    - intros d Hd. rewrite <- !(offs_lt n) by auto. apply (canon_dim (n - d) d). lia.
  Qed.
End Canon.

(** ** operator== *)

Lemma interval_eqb_eq : forall i j, interval_eqb i j = true <-> i = j.
Proof.
  intros [s e st ix] [s' e' st' ix']. unfold interval_eqb. simpl.
  rewrite !andb_true_iff, !Z.eqb_eq. split; [intros (((-> & ->) & ->) & ->); auto|intros E; inv E; auto].
Qed.

Lemma list_eqb_eq : forall A (eqb : A -> A -> bool), (forall x y, eqb x y = true <-> x = y) ->
  forall l1 l2, list_eqb eqb l1 l2 = true <-> l1 = l2.
Proof.
  intros A eqb H. induction l1 as [|x l1 IH]; intros [|y l2]; simpl; split; intros E; try discriminate; auto.
  - apply andb_true_iff in E as [E1 E2]. apply H in E1. apply IH in E2. subst; auto.
  - inv E. apply andb_true_iff. split; [apply H|apply IH]; auto.
Qed.

Lemma lca_eqb_spec : forall n a b, lca_eqb n a b = true <->
  a_level a = a_level b /\ (forall d, (d <= n)%nat -> a_cells a d = a_cells b d) /\
  (forall d, (d < n)%nat -> a_offsets a d = a_offsets b d).
Proof.
  intros n a b. unfold lca_eqb. rewrite !andb_true_iff, Nat.eqb_eq, !forallb_forall. split.
  - intros (((H1 & H2) & H3) & H4). spl; auto.
    + intros d Hd. apply (list_eqb_eq _ _ interval_eqb_eq). apply H3. apply in_seq. lia.
    + intros d Hd. apply (list_eqb_eq _ _ Nat.eqb_eq). apply H4. apply in_seq. lia.
  - intros (H1 & H2 & H3). spl; auto; intros d Hd; apply in_seq in Hd.
    + rewrite H2 by lia. apply Nat.eqb_refl.
    + apply (list_eqb_eq _ _ interval_eqb_eq). apply H2. lia.
    + apply (list_eqb_eq _ _ Nat.eqb_eq). apply H3. lia.
Qed.

Lemma mem_row_ext : forall n a b, (forall d, (d <= n)%nat -> a_cells a d = a_cells b d) ->
  (forall d, (d < n)%nat -> a_offsets a d = a_offsets b d) ->
  forall d r p, (d <= n)%nat -> (mem_row n a d r p <-> mem_row n b d r p).
Proof.
  intros n a b H1 H2.
  assert (R : forall d r, (d <= n)%nat -> row n a d r = row n b d r).
  { intros d r Hd. unfold row, offs. rewrite H1 by auto. destruct (Nat.eqb_spec d n); auto. rewrite H2 by lia. auto. }
  induction d as [|d IH]; intros r p Hd; cbn [mem_row]; rewrite R by auto; [tauto|].
  split; intros (i & A & B & C); exists i; spl; auto; apply IH; auto; lia.
Qed.

Lemma lca_eqb_mem : forall n a b, lca_eqb n a b = true ->
  a_level a = a_level b /\ forall p, lca_mem n a p <-> lca_mem n b p.
Proof.
  intros n a b H. apply lca_eqb_spec in H as (H1 & H2 & H3). split; auto.
  intros p. unfold lca_mem. rewrite (mem_row_ext n a b H2 H3) by auto. tauto.
Qed.

Lemma interval_ext : forall i j, istart i = istart j -> iend i = iend j -> istep i = istep j -> iindex i = iindex j -> i = j.
Proof. intros [? ? ? ?] [? ? ? ?]; simpl; intros; subst; auto. Qed.

Lemma intervals_ext : forall l l', bounds l = bounds l' -> map istep l = map istep l' -> map iindex l = map iindex l' -> l = l'.
Proof.
  induction l as [|i l IH]; intros [|i' l'] H1 H2 H3; try discriminate; auto.
  simpl in *. injection H1 as A1 A2 A3. injection H2 as B1 B2. injection H3 as C1 C2.
  f_equal; auto. apply interval_ext; auto.
Qed.

Lemma const_map : forall A B (f : A -> B) l l' c, length l = length l' ->
  (forall i, In i l -> f i = c) -> (forall i, In i l' -> f i = c) -> map f l = map f l'.
Proof.
  intros A B f. induction l as [|i l IH]; intros [|i' l'] c HL H1 H2; try discriminate; auto.
  simpl. rewrite (H1 i), (H2 i') by (simpl; auto). f_equal. apply (IH l' c); simpl in *; auto.
Qed.

(** Same cells, same level: equal, provided the numbering of the x-intervals
    agrees. *)
Lemma canon_eqb : forall n a b P, wf n a -> wf n b -> a_level a = a_level b ->
  (forall p, lca_mem n a p <-> lca_mem n b p) ->
  stored P a -> stored P b ->
  (bounds (a_cells a 0) = bounds (a_cells b 0) -> (forall i, In i (a_cells a 0) -> P i) ->
    (forall i, In i (a_cells b 0) -> P i) -> a_cells a 0 = a_cells b 0) ->
  lca_eqb n a b = true.
Proof.
  intros n a b P Wa Wb HL HM Sa Sb HP. apply lca_eqb_spec. split; auto.
  assert (Hmem : forall x, wf_full n x -> exists p, lca_mem n x p).
  { intros x Wx. destruct (row_inhabited n x Wx n 0 (repeat 0 (S n))) as (p & Hp & _ & Hm);
      [lia|rewrite offs_n; simpl; lia|apply repeat_length|]. exists p. split; auto. }
  destruct Wa as [Na|Wa]; destruct Wb as [Nb|Wb].
  - destruct Na as [N1 N2]. destruct Nb as [N3 N4]. split; intros d Hd; [rewrite N1, N3|rewrite N2, N4]; auto.
  - destruct (Hmem b Wb) as (p & Hp). apply HM in Hp. exfalso. eapply no_cells_mem; eauto.
  - destruct (Hmem a Wa) as (p & Hp). apply HM in Hp. exfalso. eapply no_cells_mem; eauto.
  - destruct (canon n a b Wa Wb HM) as (C1 & C2 & C3). split; auto.
    intros [|d] Hd.
    + apply HP; [apply C1; lia| |]; intros i Hi; [apply (Sa 0%nat i Hi)|apply (Sb 0%nat i Hi)].
    + apply intervals_ext; [apply C1; auto| |apply C2; lia].
      apply const_map with (c := 1); [apply bounds_len, C1; auto| |]; intros i Hi;
        [apply (Sa (S d) i Hi)|apply (Sb (S d) i Hi)].
Qed.

(** ** Boxes *)

Section Box.
  Variables (n level : nat) (bmin bmax : list Z).
  Hypothesis B : forall d, (d <= n)%nat -> nth d bmin 0 < nth d bmax 0.

  Notation lo d := (nth d bmin 0).
  Notation hi d := (nth d bmax 0).
  Notation len d := (box_len bmin bmax d).

  (** Number of rows of dimension [n - k]. *)
  Fixpoint rows (k : nat) : nat := match k with O => 1 | S k => rows k * len (n - k) end.
  Definition nrows (d : nat) : nat := rows (n - d).

  Lemma len_pos : forall d, (d <= n)%nat -> (0 < len d)%nat.
  Proof. intros d Hd. unfold box_len. specialize (B d Hd). lia. Qed.

  Lemma len_Z : forall d, (d <= n)%nat -> Z.of_nat (len d) = hi d - lo d.
  Proof. intros d Hd. unfold box_len. specialize (B d Hd). lia. Qed.

  Lemma nrows_n : nrows n = 1%nat.
  Proof. unfold nrows. rewrite Nat.sub_diag. auto. Qed.

  Lemma nrows_S : forall d, (d < n)%nat -> nrows d = (nrows (S d) * len (S d))%nat.
  Proof.
    intros d Hd. unfold nrows. replace (n - d)%nat with (S (n - S d)) by lia. simpl.
    f_equal. f_equal. lia.
  Qed.

  Lemma nrows_pos : forall d, (d <= n)%nat -> (0 < nrows d)%nat.
  Proof.
    intros d Hd. unfold nrows. assert (G : forall k, (k <= n)%nat -> (0 < rows k)%nat).
    { induction k; intros Hk; simpl; [lia|]. apply Nat.mul_pos_pos; [apply IHk; lia|apply len_pos; lia]. }
    apply G. lia.
  Qed.

  Definition box_interval (d i : nat) : interval :=
    mkidx (lo d) (hi d) (Z.of_nat (i * len d) - lo d).

  Lemma box_loop_spec : forall d a, (d <= n)%nat ->
    let a' := box_loop bmin bmax d (nrows d) a in
    a_level a' = a_level a /\
    (forall e, (e <= d)%nat -> a_cells a' e = map (box_interval e) (seq 0 (nrows e))) /\
    (forall e, (d < e)%nat -> a_cells a' e = a_cells a e) /\
    (forall e, (e < d)%nat -> a_offsets a' e = seq 0 (nrows e + 1)) /\
    (forall e, (d <= e)%nat -> a_offsets a' e = a_offsets a e).
  Proof.
    induction d as [|d IH]; intros a Hd; cbn zeta; cbn [box_loop].
    - spl; auto; try lia.
      + intros e He. assert (e = 0)%nat by lia. subst e. simpl. rewrite upd_same. auto.
      + intros e He. simpl. rewrite upd_other by lia. auto.
    - rewrite <- nrows_S by lia.
      set (a1 := mkLca _ _ _).
      destruct (IH a1 ltac:(lia)) as (A0 & A1 & A2 & A3 & A4). spl; auto.
      + intros e He. destruct (Nat.eq_dec e (S d)) as [->|].
        * rewrite A2 by lia. unfold a1. cbn [a_cells]. rewrite upd_same.
          apply map_ext_in. intros i Hi. apply in_seq in Hi. unfold box_interval. f_equal.
          rewrite seq_nth; [lia|]. pose proof (len_pos (S d) Hd).
          enough (i * len (S d) <= len (S d) * nrows (S d))%nat by lia.
          rewrite (Nat.mul_comm (len (S d))). apply Nat.mul_le_mono_r. lia.
        * apply A1. lia.
      + intros e He. rewrite A2 by lia. unfold a1. cbn [a_cells]. rewrite upd_other by lia. auto.
      + intros e He. destruct (Nat.eq_dec e d) as [->|].
        * rewrite A4 by lia. unfold a1. cbn [a_offsets]. rewrite upd_same. rewrite (nrows_S d) by lia. f_equal. lia.
        * apply A3. lia.
      + intros e He. rewrite A4 by lia. unfold a1. cbn [a_offsets]. rewrite upd_other by lia. auto.
  Qed.

  Let a := lca_of_box n level bmin bmax.

  Lemma box_cells : forall e, (e <= n)%nat -> a_cells a e = map (box_interval e) (seq 0 (nrows e)).
  Proof.
    intros e He. destruct (box_loop_spec n (lca_empty level) (le_n n)) as (_ & H & _).
    rewrite nrows_n in H. apply H. auto.
  Qed.

  Lemma box_offs : forall e, (e <= n)%nat -> offs n a e = seq 0 (nrows e + 1).
  Proof.
    intros e He. unfold offs. destruct (Nat.eqb_spec e n) as [->|].
    - rewrite box_cells by auto. rewrite map_length, seq_length, nrows_n. auto.
    - destruct (box_loop_spec n (lca_empty level) (le_n n)) as (_ & _ & _ & H & _).
      rewrite nrows_n in H. apply H. lia.
  Qed.

  Lemma box_row : forall d r, (d <= n)%nat -> (r < nrows d)%nat -> row n a d r = [box_interval d r].
  Proof.
    intros d r Hd Hr. unfold row. rewrite box_offs by auto. rewrite !seq_nth by lia.
    rewrite box_cells by auto. replace (0 + S r - (0 + r))%nat with 1%nat by lia. simpl (0 + r)%nat.
    rewrite skipn_map, firstn_map.
    replace (skipn r (seq 0 (nrows d))) with (seq r (nrows d - r)).
    - destruct (nrows d - r)%nat eqn:E; [lia|]. simpl. auto.
    - replace (nrows d) with (r + (nrows d - r))%nat at 2 by lia. rewrite seq_app, skipn_app, seq_length.
      rewrite skipn_all2 by (rewrite seq_length; lia). rewrite Nat.sub_diag. auto.
  Qed.

  Lemma box_chain : forall d k s, (d <= n)%nat ->
    chained (Z.of_nat (s * len d)) (map (box_interval d) (seq s k)) (Z.of_nat ((s + k) * len d)).
  Proof.
    intros d k. induction k as [|k IH]; intros s Hd; simpl.
    - f_equal. f_equal. lia.
    - pose proof (B d Hd). pose proof (len_Z d Hd). spl; auto; [lia|].
      replace (Z.of_nat (s * len d) - lo d + hi d) with (Z.of_nat (S s * len d)) by lia.
      replace (s + S k)%nat with (S s + k)%nat by lia. apply IH. auto.
  Qed.

  Lemma box_wf : wf_full n a.
  Proof.
    constructor.
    - intros d Hd. rewrite box_offs by auto. rewrite Nat.add_1_r. auto.
    - intros d Hd. rewrite box_offs by auto. rewrite seq_length, box_cells by auto.
      rewrite map_length, seq_length. replace (nrows d + 1 - 1)%nat with (nrows d) by lia.
      erewrite nth_error_nth' with (d := 0%nat) by (rewrite seq_length; lia). rewrite seq_nth by lia. auto.
    - intros d r x y Hd. rewrite box_offs by auto. intros H1 H2.
      assert (Hr : (S r < nrows d + 1)%nat).
      { rewrite <- (seq_length (nrows d + 1) 0). apply nth_error_Some. congruence. }
      apply nth_error_nth with (d := 0%nat) in H1. apply nth_error_nth with (d := 0%nat) in H2.
      rewrite seq_nth in H1, H2 by lia. lia.
    - intros d r Hd. rewrite box_offs by auto. rewrite seq_length. intros Hr. rewrite box_row by (auto; lia).
      split; [|repeat constructor]. constructor; auto. simpl. apply B. auto.
    - intros d Hd. rewrite box_offs by lia. rewrite seq_length, box_cells by lia.
      replace (Z.of_nat (nrows d + 1 - 1)) with (Z.of_nat ((0 + nrows (S d)) * len (S d)))
        by (rewrite (nrows_S d) by lia; lia).
      apply (box_chain (S d) (nrows (S d)) 0). lia.
  Qed.

  Lemma box_mem_row : forall d r p, (d <= n)%nat -> (r < nrows d)%nat ->
    (mem_row n a d r p <-> forall e, (e <= d)%nat -> lo e <= nth e p 0 < hi e).
  Proof.
    induction d as [|d IH]; intros r p Hd Hr; cbn [mem_row]; rewrite box_row by auto.
    - split.
      + intros (i & [<-|[]] & Hi & _) e He. assert (e = 0)%nat by lia. subst e. apply Hi.
      + intros H. exists (box_interval 0 r). spl; simpl; auto. apply H. auto.
    - assert (P : forall y, lo (S d) <= y < hi (S d) ->
        (Z.to_nat (iindex (box_interval (S d) r) + y) < nrows d)%nat).
      { intros y Hy. simpl. rewrite (nrows_S d) by lia. pose proof (len_Z (S d) Hd).
        assert ((r + 1) * len (S d) <= nrows (S d) * len (S d))%nat by (apply Nat.mul_le_mono_r; lia).
        lia. }
      split.
      + intros (i & [<-|[]] & Hi & Hm) e He. destruct (Nat.eq_dec e (S d)) as [->|]; [apply Hi|].
        apply (IH (Z.to_nat (iindex (box_interval (S d) r) + nth (S d) p 0)) p); auto; try lia.
      + intros H. exists (box_interval (S d) r). spl; [simpl; auto|apply H; auto|].
        apply IH; [lia|apply P; apply H; auto|]. intros e He. apply H. lia.
  Qed.

  Lemma box_mem : forall p, lca_mem n a p <-> length p = S n /\ forall e, (e <= n)%nat -> lo e <= nth e p 0 < hi e.
  Proof.
    intros p. unfold lca_mem. rewrite (box_mem_row n 0 p) by (auto; rewrite nrows_n; lia). tauto.
  Qed.

  (** The indices set by the constructor are those of update_index. *)
  Lemma box_numbered : forall d, a_cells (update_index a) d = a_cells a d.
  Proof.
    intros d. unfold update_index. destruct d as [|d].
    - rewrite update_index_cells0, box_cells by lia.
      assert (G : forall k s, fst (renumber (Z.of_nat (s * len 0)) (map (box_interval 0) (seq s k)))
                              = map (box_interval 0) (seq s k)).
      { induction k as [|k IH]; intros s; auto. cbn [seq map renumber].
        replace (Z.of_nat (s * len 0) + isize (box_interval 0 s)) with (Z.of_nat (S s * len 0)).
        - specialize (IH (S s)). destruct (renumber (Z.of_nat (S s * len 0)) _) as [l' acc']. simpl fst in *.
          rewrite IH. auto.
        - pose proof (len_Z 0%nat ltac:(lia)). unfold isize. simpl iend. simpl istart. lia. }
      apply (G (nrows 0) 0%nat).
    - destruct (update_index_shape 0 a) as (H & _). apply H. lia.
  Qed.

  Lemma box_level : a_level a = level.
  Proof.
    destruct (box_loop_spec n (lca_empty level) (le_n n)) as (H & _). rewrite nrows_n in H. apply H.
  Qed.
End Box.
