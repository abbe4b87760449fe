(** One leaf, continued: decrement_dim and max. *)
From Verif Require Import Base IntervalModel Spec LoiModel LoiProofs IntervalProofs LcaModel LcaSpec GridProofs InitProofs SearchProofs LcaProofs LcaProofs2 CellArrayModel CellArrayProofs SubsetModel TreeProofs ScanProofs LeafProofs.
Open Scope Z_scope.

Lemma normal_unique : forall l i j x, normal l -> In i l -> In j l -> in_i i x -> in_i j x -> i = j.
Proof.
  intros l i j x [_ N] Hi Hj Hix Hjx. apply In_nth_error in Hi as (k & Hk). apply In_nth_error in Hj as (k' & Hk').
  destruct (lt_eq_lt_dec k k') as [[H|H]|H].
  - pose proof (sorted_nth _ _ _ N k k' _ _ H Hk Hk') as K. simpl in K. unfold in_i in *. lia.
  - congruence.
  - pose proof (sorted_nth _ _ _ N k' k _ _ H Hk' Hk) as K. simpl in K. unfold in_i in *. lia.
Qed.

Lemma shift_value_neg : forall s i, 0 <= s -> shift_value i (- s) = Z.shiftr i s.
Proof.
  intros s i H. unfold shift_value. destruct (Z.leb_spec 0 (- s)).
  - assert (s = 0) by lia. subst s. rewrite Z.shiftl_0_r, Z.shiftr_0_r. auto.
  - rewrite Z.opp_involutive. auto.
Qed.

Lemma fine_range : forall k i y, 0 <= k ->
  (In y (zrange (Z.shiftl i k) (Z.shiftl i k + Z.shiftl 1 k)) <-> Z.shiftr y k = i).
Proof.
  intros k i y Hk. rewrite zrange_In, !Z.shiftl_mul_pow2, Z.shiftr_div_pow2 by lia.
  pose proof (pow2_pos k Hk) as Hp. set (p := 2 ^ k) in *. clearbody p. split.
  - intros H. symmetry. apply Z.div_unique with (r := y - i * p); lia.
  - intros <-. pose proof (Z.div_mod y p ltac:(lia)). pose proof (Z.mod_pos_bound y p Hp). lia.
Qed.

Section Leaf2.
  Variables (n : nat) (a : lca) (t : list Z) (s : Z).
  Notation off := (off n a).
  Notation trow := (trow n a t).
  Notation tr d := (nth d t 0).

  (** Row [r'] of dimension [m] lies below value [y] of row [r] of dimension [S m]. *)
  Definition child (m r : nat) (y : Z) (r' : nat) : Prop :=
    exists c, In c (row n a (S m) r) /\ in_i c (y - tr (S m)) /\ r' = Z.to_nat (iindex c + (y - tr (S m))).

  Definition pairs (m : nat) (R : list nat) : list (nat * nat) := map (fun r => (off m r, off m (S r))) R.

  Section Full.
    Hypothesis W : wf_full n a.
    Variable nd : node.
    Hypothesis HB : base_node nd a t.

    Lemma child_unique : forall m r y r1 r2, (S m <= n)%nat -> (S r < length (offs n a (S m)))%nat ->
      child m r y r1 -> child m r y r2 -> r1 = r2.
    Proof.
      intros m r y r1 r2 Hm Hr (c1 & H1 & H2 & ->) (c2 & H3 & H4 & ->).
      rewrite (normal_unique _ c1 c2 _ (wf_normal _ _ _ W (S m) r Hm Hr) H1 H3 H2 H4). auto.
    Qed.

    Lemma child_valid : forall m r y r', (S m <= n)%nat -> (S r < length (offs n a (S m)))%nat ->
      child m r y r' -> (S r' < length (offs n a m))%nat.
    Proof.
      intros m r y r' Hm Hr (c & H1 & H2 & ->).
      apply (row_In true n a W) in H1 as (k & lo & hi & _ & _ & _ & Hk); auto.
      apply (pos_range true n a W m k c); auto.
    Qed.

    Lemma child_row_spec : forall m r y, (S m <= n)%nat -> (S r < length (offs n a (S m)))%nat ->
      (exists r', child m r y r' /\ child_row nd (S m) (off (S m) r) (off (S m) (S r)) y = Some (Some (off m r', off m (S r')))) \/
      ((forall r', ~ child m r y r') /\ child_row nd (S m) (off (S m) r) (off (S m) (S r)) y = Some None).
    Proof.
      intros m r y Hm Hr. destruct (trow_facts n a t (S m) r W Hm Hr) as (L & E1 & E2 & _).
      rewrite tcells_len in L.
      destruct (row_offs true n a W (S m) r Hm Hr) as (lo & hi & E1' & E2' & L1 & L2 & HR).
      assert (lo = off (S m) r) by congruence. assert (hi = off (S m) (S r)) by congruence. subst lo hi.
      unfold child_row, node_find, node_interval, node_offset. rewrite (node_data_base a t nd HB).
      rewrite (node_transform_base a t nd (S m) y HB). unfold find_on_dim.
      pose proof (wf_normal _ _ _ W (S m) r Hm Hr) as N. rewrite HR in N.
      destruct (my_binary_search_spec (a_cells a (S m)) (off (S m) r) (off (S m) (S r)) (y - tr (S m)) L1 L2 N)
        as [(k & c & -> & K1 & K2 & K3)|(-> & K)].
      - left. replace (k + off (S m) r)%nat with (off (S m) r + k)%nat by lia. rewrite K2.
        assert (Hc : In c (row n a (S m) r)).
        { rewrite HR. apply slice_In_iff; auto. exists (off (S m) r + k)%nat. split; auto. lia. }
        assert (HC : child m r y (Z.to_nat (iindex c + (y - tr (S m))))) by (exists c; auto).
        exists (Z.to_nat (iindex c + (y - tr (S m)))). split; auto.
        destruct (pos_range true n a W m _ c _ ltac:(lia) K2 K3) as [Hp Hp'].
        destruct (trow_facts n a t m (Z.to_nat (iindex c + (y - tr (S m)))) W ltac:(lia) Hp') as (_ & O1 & O2 & _).
        unfold z_index. destruct (Z.ltb_spec (iindex c + (y - tr (S m))) 0); [lia|]. simpl pred.
        rewrite (offs_lt n a m) in O1, O2 by lia. rewrite O1. rewrite Nat.add_1_r. rewrite O2. auto.
      - right. split; auto. intros r' (c & H1 & H2 & _). rewrite HR in H1. apply slice_In_iff in H1 as (k & Hk & Hn); auto.
        eapply K; eauto.
    Qed.

    Lemma project_row_spec : forall m k, 0 <= k -> (m <= n)%nat -> forall ks l, normal l ->
      (forall o, In o ks -> (o < length (tcells a t m))%nat) ->
      exists l', project_row nd m k ks l = Some l' /\ normal l' /\
        forall x, covers l' x <-> covers l x \/ exists o i y, In o ks /\ nth_error (tcells a t m) o = Some i /\ in_i i y /\ Z.shiftr y k = x.
    Proof.
      intros m k Hk Hm. pose proof (full_not_empty n a W) as He.
      induction ks as [|o ks IH]; intros l N Ho.
      - exists l. simpl. spl; auto. intros x. split; auto. intros [H|(o & i & y & [] & _)]; auto.
      - cbn [project_row]. rewrite (node_start_base a t nd m o HB He), (node_end_base a t nd m o HB He).
        assert (Hol : (o < length (tcells a t m))%nat) by (apply Ho; left; auto).
        destruct (nth_error (tcells a t m) o) as [i|] eqn:Ei; [|apply nth_error_None in Ei; lia].
        cbn [option_map].
        assert (Hi : istart i < iend i).
        { apply nth_error_In in Ei. unfold tcells in Ei. apply in_map_iff in Ei as (j0 & <- & Hj0).
          assert (istart j0 < iend j0) by (eapply (wf_valid true n a m); eauto). simpl. lia. }
        fold (pstart k i). change (Z.shiftr (iend i - 1) k + 1) with (pend k i).
        pose proof (pstart_lt_pend k i Hk Hi) as Hp.
        destruct (Z.eqb_spec (pstart k i) (pend k i)); [lia|].
        destruct (IH (add_interval l (mk (pstart k i) (pend k i)))) as (l' & H1 & H2 & H3).
        { apply add_interval_normal; auto. }
        { intros; apply Ho; right; auto. }
        exists l'. spl; auto. intros x. rewrite H3, add_interval_covers by auto.
        assert (KK : in_i (mk (pstart k i) (pend k i)) x <-> exists y, in_i i y /\ Z.shiftr y k = x) by (apply (pproj_spec k i x Hk Hi)).
        rewrite KK. split.
        + intros [[H|(y & Hy1 & Hy2)]|(o' & i' & y & Ho' & K1 & K2 & K3)]; auto.
          * right. exists o, i, y. spl; auto. left; auto.
          * right. exists o', i', y. spl; auto. right; auto.
        + intros [H|(o' & i' & y & [<-|Ho'] & K1 & K2 & K3)]; auto.
          * left; right. exists y. replace i with i' by congruence. auto.
          * right. exists o', i', y. auto.
    Qed.

    Lemma project_trow : forall m k r' l, 0 <= k -> (m <= n)%nat -> (S r' < length (offs n a m))%nat -> normal l ->
      exists l', project_row nd m k (seq (off m r') (off m (S r') - off m r')) l = Some l' /\ normal l' /\
        forall x, covers l' x <-> covers l x \/ exists y, covers (trow m r') y /\ Z.shiftr y k = x.
    Proof.
      intros m k r' l Hk Hm Hr N. destruct (trow_facts n a t m r' W Hm Hr) as (L & _).
      destruct (project_row_spec m k Hk Hm (seq (off m r') (off m (S r') - off m r')) l N) as (l' & H1 & H2 & H3).
      { intros o Ho. apply in_seq in Ho. lia. }
      exists l'. spl; auto. intros x. rewrite H3. unfold LeafProofs.trow, covers at 3.
      split; (intros [H|H]; [auto|right]).
      - destruct H as (o & i & y & K1 & K2 & K3 & K4). apply in_seq in K1. exists y. split; auto. exists i. split; auto.
        apply slice_In_iff; [lia|]. exists o. split; auto. lia.
      - destruct H as (y & (i & Hi & K3) & K4). apply slice_In_iff in Hi as (o & Ho & K2); [|lia].
        exists o, i, y. spl; auto. apply in_seq. lia.
    Qed.

    Definition gathered (m : nat) (k : Z) (R' : list nat) (l l' : list interval) : Prop :=
      normal l' /\ forall x, covers l' x <-> covers l x \/ exists r', In r' R' /\ exists y, covers (trow m r') y /\ Z.shiftr y k = x.

    Lemma gather_spec : forall m k r, 0 <= k -> (S m <= n)%nat -> (S r < length (offs n a (S m)))%nat ->
      forall ys w l, normal l ->
      exists R' l', gather nd (S m) (off (S m) r) (off (S m) (S r)) k ys (w, l) = Some (w ++ pairs m R', l') /\
        (forall r', In r' R' <-> exists y, In y ys /\ child m r y r') /\ gathered m k R' l l'.
    Proof.
      intros m k r Hk Hm Hr. induction ys as [|y ys IH]; intros w l N.
      - exists [], l. simpl. rewrite app_nil_r. spl; auto.
        + intros r'. split; [intros []|intros (y & [] & _)].
        + split; auto. intros x. split; auto. intros [H|(r' & [] & _)]; auto.
      - cbn [gather]. destruct (child_row_spec m r y Hm Hr) as [(r' & HC & ->)|(HC & ->)].
        + cbn [fst snd pred].
          destruct (project_trow m k r' l Hk ltac:(lia) (child_valid m r y r' Hm Hr HC) N) as (l1 & -> & N1 & C1).
          destruct (IH (w ++ [(off m r', off m (S r'))]) l1 N1) as (R' & l' & -> & H1 & H2 & H3).
          exists (r' :: R'), l'. spl.
          * rewrite <- app_assoc. reflexivity.
          * intros r1. simpl. rewrite H1. split.
            -- intros [<-|(y' & Hy' & K)]; eauto.
            -- intros (y' & [<-|Hy'] & K); eauto. left. eapply child_unique; eauto.
          * split; auto. intros x. rewrite H3, C1. split.
            -- intros [[H|H]|(r1 & Hr1 & H)]; auto.
               ++ right. exists r'. split; auto. left; auto.
               ++ right. exists r1. split; auto. right; auto.
            -- intros [H|(r1 & [<-|Hr1] & H)]; auto. right. exists r1. auto.
        + destruct (IH w l N) as (R' & l' & -> & H1 & H2). exists R', l'. spl; auto.
          intros r'. rewrite H1. split.
          * intros (y' & Hy' & K). exists y'. split; auto. right; auto.
          * intros (y' & [<-|Hy'] & K); eauto. exfalso. eapply HC; eauto.
    Qed.

    Lemma gather_rows_spec : forall m k ys, 0 <= k -> (S m <= n)%nat -> forall R w l, normal l ->
      (forall r, In r R -> (S r < length (offs n a (S m)))%nat) ->
      exists R' l', gather_rows nd (S m) k ys (pairs (S m) R) (w, l) = Some (w ++ pairs m R', l') /\
        (forall r', In r' R' <-> exists r, In r R /\ exists y, In y ys /\ child m r y r') /\ gathered m k R' l l'.
    Proof.
      intros m k ys Hk Hm. induction R as [|r R IH]; intros w l N HR.
      - exists [], l. simpl. rewrite app_nil_r. spl; auto.
        + intros r'. split; [intros []|intros (y & [] & _)].
        + split; auto. intros x. split; auto. intros [H|(r' & [] & _)]; auto.
      - cbn [pairs map gather_rows]. fold (pairs (S m) R).
        destruct (gather_spec m k r Hk Hm (HR r (or_introl eq_refl)) ys w l N) as (R1 & l1 & -> & H1 & N1 & C1).
        destruct (IH (w ++ pairs m R1) l1 N1) as (R2 & l2 & -> & H2 & N2 & C2); [intros; apply HR; right; auto|].
        exists (R1 ++ R2), l2. spl.
        + unfold pairs. rewrite map_app, app_assoc. auto.
        + intros r'. rewrite in_app_iff, H1, H2. split.
          * intros [(y & K)|(r1 & K1 & K2)]; [exists r; split; eauto; left; auto|exists r1; split; auto; right; auto].
          * intros (r1 & [<-|K1] & K2); eauto.
        + split; auto. intros x. rewrite C2, C1. split.
          * intros [[H|(r1 & K1 & K2)]|(r1 & K1 & K2)]; auto; right; exists r1; split; auto; apply in_app_iff; auto.
          * intros [H|(r1 & K1 & K2)]; auto. apply in_app_iff in K1 as [K1|K1]; eauto.
    Qed.
  End Full.

  Definition sees (m : nat) (R : list nat) (i : Z) (r' : nat) : Prop :=
    exists r, In r R /\ exists y, rel s y i /\ child m r y r'.

  Lemma invalid_LInv : forall m snt lf c, (m <= n)%nat -> base_node (l_node lf) a t -> l_shift lf = s ->
    c_ipos c = false -> c_start c = 0%nat -> c_end c = 0%nat -> c_cur c = INT_MAX ->
    LInv n a t s m snt [] [] [] false (set_cursor lf m c).
  Proof.
    intros m snt lf c Hm HB Hs H1 H2 H3 H4. unfold LInv, static, dynamic. rewrite set_cursor_at. simpl. spl; auto.
    - intros r [].
    - apply normal_nil.
    - intros x. rewrite covers_nil. unfold lcov. split; [tauto|intros (r & [] & _)].
  Qed.

  Lemma static_R_nil : forall d P lf R, static n a t s d R P lf -> P = [] -> R = [].
  Proof. intros d P lf R (_ & _ & _ & _ & _ & _ & NE & _) HP. destruct R; auto. exfalso. apply NE; [discriminate|auto]. Qed.

  Lemma cur_max_iff : forall d snt R P rest ip lf, LInv n a t s d snt R P rest ip lf -> incl rest P ->
    Forall (fun i => iend i < snt) P -> snt < INT_MAX -> 
    (c_cur (l_cs lf d) = INT_MAX <-> R = []).
  Proof.
    intros d snt R P rest ip lf (HS & HD & HC & _) HI HF Hs. rewrite HC. split.
    - intros E. apply (static_R_nil d P lf R HS). unfold curv in E. destruct rest as [|i rest].
      + destruct P; auto. lia.
      + exfalso. assert (Hin : In i P) by (apply HI; left; auto). rewrite Forall_forall in HF. specialize (HF i Hin). simpl in HF.
        destruct HS as (_ & _ & _ & _ & [N _] & _). rewrite Forall_forall in N. specialize (N i Hin). simpl in N. destruct ip; lia.
    - intros ->. rewrite (static_empty _ _ _ _ _ _ _ HS). unfold dynamic in HD. subst rest. reflexivity.
  Qed.

  Lemma LInv_decrement : forall m snt R P rest ip lf i, (S m <= n)%nat ->
    LInv n a t s (S m) snt R P rest ip lf -> incl rest P -> Forall (fun i => iend i < snt) P -> snt < INT_MAX ->
    exists lf' R' P', leaf_decrement n m i lf = Some lf' /\
      (forall snt', LInv n a t s m snt' R' P' P' false lf') /\ keep (S m) lf lf' /\
      (forall r', In r' R' <-> sees m R i r').
  Proof.
    intros m snt R P rest ip lf i Hm HI Hincl HF Hsnt. pose proof (cur_max_iff _ _ _ _ _ _ _ HI Hincl HF Hsnt) as Hcur.
    destruct HI as (HS & HD & HC & HIP). pose proof HS as HS0.
    destruct HS as (HB & Hs & _ & HR & N & C & NE & K). cbv zeta in K.
    unfold leaf_decrement. destruct (Z.eqb_spec (c_cur (l_cs lf (S m))) INT_MAX) as [E|E].
    - apply Hcur in E. subst R. eexists _, [], []. split; [reflexivity|]. spl.
      + intros snt'. apply invalid_LInv; auto; lia.
      + apply keep_set.
      + intros r'. split; [intros []|intros (r & [] & _)].
    - assert (HRne : R <> []) by (intros HRE; apply E, Hcur; auto).
      destruct R as [|r R0] eqn:ER; [tauto|]. rewrite <- ER in *.
      assert (HrR : In r R) by (rewrite ER; left; auto).
      destruct (HR r HrR) as [W Hr]. pose proof (full_not_empty n a W) as He. rewrite Hs.
      destruct (Z.leb_spec 0 s) as [Hs0|Hs0].
      + (* coarser or equal leaf *)
        rewrite ER in K. simpl in K. destruct K as (-> & K1 & K2 & K3 & K4 & K5). rewrite K3, K4.
        assert (Hsees : forall r', sees m R i r' <-> child m r (Z.shiftr i s) r').
        { intros r'. unfold sees, rel. rewrite ER. destruct (Z.leb_spec 0 s); [|lia]. split.
          - intros (r1 & [<-|[]] & y & <- & Hc). auto.
          - intros Hc. exists r. split; [left; auto|]. eauto. }
        rewrite (shift_value_neg s i Hs0).
        destruct (child_row_spec W (l_node lf) HB m r (Z.shiftr i s) Hm Hr) as [(r' & Hc & ->)|(Hc & ->)].
        * pose proof (child_valid W m r (Z.shiftr i s) r' Hm Hr Hc) as Hr'.
          destruct (trow_facts n a t m r' W ltac:(lia) Hr') as (L & O1 & O2 & NT & _ & LT & NET).
          rewrite (node_start_base a t _ m (off m r') HB He).
          destruct (nth_error (tcells a t m) (off m r')) as [j|] eqn:Ej; [|apply nth_error_None in Ej; lia].
          cbn [option_map]. destruct (proj_list_spec s (trow m r') NT) as (P1 & P2 & P3 & P4).
          eexists _, [r'], (proj_list s (trow m r')). split; [reflexivity|]. spl.
          -- intros snt'. unfold LInv, static. rewrite set_cursor_at. simpl c_cur. simpl c_ipos. spl; auto; try lia.
             ++ intros r1 [<-|[]]. auto.
             ++ intros x. rewrite P2. unfold lcov. split.
                ** intros (y & H1 & H2). exists r'. split; [left; auto|]. eauto.
                ** intros (r1 & [<-|[]] & y & H1 & H2). eauto.
             ++ intros _ EE. apply P4 in EE. auto.
             ++ cbv zeta. destruct (Z.leb_spec 0 s); [|lia]. simpl. spl; auto.
             ++ unfold dynamic. destruct (Z.leb_spec 0 s); [|lia]. simpl orb. cbn [c_start c_index].
                rewrite Nat.sub_diag. auto.
             ++ unfold LeafProofs.trow. rewrite (slice_cons _ _ _ _ j) by (auto; lia).
                unfold proj_list, shift_value. destruct (Z.leb_spec 0 s); [|lia]. simpl. auto.
          -- apply keep_set.
          -- intros r1. rewrite Hsees. simpl. split.
             ++ intros [<-|[]]. auto.
             ++ intros Hc1. left. eapply child_unique; eauto.
        * eexists _, [], []. split; [reflexivity|]. spl.
          -- intros snt'. apply invalid_LInv; auto; lia.
          -- apply keep_set.
          -- intros r'. rewrite Hsees. split; [intros []|intros Hc1; eapply Hc; eauto].
      + (* finer leaf *)
        set (ys := zrange (shift_value i (- s)) (shift_value i (- s) + Z.shiftl 1 (- s))).
        assert (Hys : forall y, In y ys <-> rel s y i).
        { intros y. unfold ys, shift_value, rel. destruct (Z.leb_spec 0 (- s)); [|lia]. destruct (Z.leb_spec 0 s); [lia|].
          apply fine_range. lia. }
        assert (G : exists R' l', (if Nat.eqb (S m) n then gather (l_node lf) (S m) (c_soff (l_cs lf (S m))) (c_eoff (l_cs lf (S m))) (- s) ys ([], [])
                      else gather_rows (l_node lf) (S m) (- s) ys (c_woffs (l_cs lf (S m))) ([], [])) = Some (pairs m R', l') /\
                    (forall r', In r' R' <-> sees m R i r') /\ gathered m (- s) R' [] l').
        { rewrite ER in K. destruct (Z.leb_spec 0 s); [lia|]. cbn [orb] in K. destruct (Nat.eqb (S m) n) eqn:En.
          - destruct K as (-> & K1 & K2 & K3 & K4 & K5). rewrite K3, K4.
            destruct (gather_spec W (l_node lf) HB m (- s) r ltac:(lia) Hm Hr ys [] [] normal_nil) as (R' & l' & H1 & H2 & H3).
            exists R', l'. spl; auto. intros r'. rewrite H2. unfold sees. rewrite ER. split.
            + intros (y & Hy & Hc). exists r. split; [left; auto|]. exists y. split; auto. apply Hys; auto.
            + intros (r1 & [<-|[]] & y & Hy & Hc). exists y. split; auto. apply Hys; auto.
          - destruct K as (K1 & K2 & K3 & K4). rewrite K4. rewrite <- ER.
            destruct (gather_rows_spec W (l_node lf) HB m (- s) ys ltac:(lia) Hm R [] [] normal_nil) as (R' & l' & H1 & H2 & H3).
            { intros r1 Hr1. apply HR; auto. }
            exists R', l'. spl; auto. intros r'. rewrite H2. unfold sees. 
            split; intros (r1 & Hr1 & y & Hy & Hc); exists r1; split; auto; exists y; split; auto; apply Hys; auto. }
        destruct G as (R' & l' & -> & HR' & N' & C').
        assert (HV : forall r', In r' R' -> (S r' < length (offs n a m))%nat).
        { intros r' Hr'. apply HR' in Hr' as (r1 & Hr1 & y & _ & Hc). apply (child_valid W m r1 y r' Hm (proj2 (HR r1 Hr1)) Hc). }
        assert (C2 : forall x, covers l' x <-> lcov n a t s m R' x).
        { intros x. rewrite C', covers_nil. unfold lcov, rel. destruct (Z.leb_spec 0 s); [lia|]. tauto. }
        destruct l' as [|i0 l'].
        * assert (R' = []).
          { destruct R' as [|r' R']; auto. exfalso.
            destruct (trow_facts n a t m r' W ltac:(lia) (HV r' (or_introl eq_refl))) as (_ & _ & _ & NT & _ & _ & NET).
            destruct (trow m r') as [|j l] eqn:Et; [tauto|].
            destruct (C' (Z.shiftr (istart j) (- s))) as [_ C3]. apply (proj1 (covers_nil (Z.shiftr (istart j) (- s)))). apply C3. right.
            exists r'. split; [left; auto|]. exists (istart j). split; auto. rewrite Et. exists j. split; [left; auto|].
            apply normal_cons in NT as (NT & _). unfold in_i. lia. }
          subst R'. eexists _, [], []. split; [reflexivity|]. spl; auto.
          -- intros snt'. apply invalid_LInv; auto; lia.
          -- apply keep_set.
        * eexists _, R', (i0 :: l'). split; [reflexivity|]. spl; auto.
          -- intros snt'. 
             assert (R' <> []).
             { intros ->. destruct (C2 (istart i0)) as [C3 _]. destruct C3 as (r' & [] & _).
               exists i0. split; [left; auto|]. apply normal_cons in N' as (N' & _). unfold in_i. lia. }
             unfold LInv, static. rewrite set_cursor_at. simpl c_cur. simpl c_ipos. spl; auto; try lia.
             ++ discriminate.
             ++ cbv zeta. destruct R' as [|r' R'']; [tauto|]. destruct (Z.leb_spec 0 s); [lia|].
                destruct (Nat.eqb_spec m n); [lia|]. simpl orb. cbv iota. spl; auto.
             ++ unfold dynamic. destruct R' as [|r' R'']; [tauto|].
                destruct (Nat.eqb_spec m n); [lia|]. rewrite orb_true_r. simpl. auto.
          -- apply keep_set.
  Qed.

  (** ** max *)

  Lemma last_slice : forall l lo hi i, (lo < hi <= length l)%nat -> normal (slice lo hi l) ->
    nth_error l (hi - 1) = Some i -> In i (slice lo hi l) /\ forall y, covers (slice lo hi l) y -> y < iend i.
  Proof.
    intros l lo hi i L N Hi. split.
    - apply slice_In_iff; [lia|]. exists (hi - 1)%nat. split; auto. lia.
    - intros y (j & Hj & Hy). apply slice_In_iff in Hj as (k & Hk & Hj); [|lia].
      destruct (normal_slice_nth l lo hi ltac:(lia) N) as [V S].
      destruct (Nat.eq_dec k (hi - 1)).
      + subst k. assert (i = j) by congruence. subst j. unfold in_i in Hy. lia.
      + assert (iend j < istart i) by (eapply (S k (hi - 1)%nat); eauto; lia).
        assert (istart i < iend i) by (eapply (V (hi - 1)%nat); eauto; lia). unfold in_i in Hy. lia.
  Qed.

  Lemma LInv_max : forall d snt R P rest ip lf, LInv n a t s d snt R P rest ip lf -> fits a t s d ->
    exists v, leaf_max n d lf = Some v /\ Forall (fun i => iend i <= v) P /\ v + 1 < INT_MAX.
  Proof.
    intros d snt R P rest ip lf (HS & _) HFit. pose proof HS as HS0.
    destruct HS as (HB & Hs & Hd & HR & N & C & NE & K). cbv zeta in K. unfold leaf_max.
    destruct R as [|r R0] eqn:ER.
    - rewrite (static_empty _ _ _ _ _ _ _ HS0). destruct K as [-> ->]. simpl. exists INT_MIN. spl; auto.
      reflexivity.
    - rewrite <- ER in *. assert (HrR : In r R) by (rewrite ER; left; auto).
      destruct (HR r HrR) as [W Hr]. pose proof (full_not_empty n a W) as He. rewrite Hs.
      destruct (trow_facts n a t d r W Hd Hr) as (L & _ & _ & NT & _ & LT & _).
      (* it is enough to bound the covered values *)
      assert (BND : forall v, (forall x, lcov n a t s d R x -> x < v) -> Forall (fun i => iend i <= v) P).
      { intros v Hv. rewrite Forall_forall. intros b Hb. destruct N as [N _]. rewrite Forall_forall in N.
        specialize (N b Hb). simpl in N. assert (Hc : lcov n a t s d R (iend b - 1)).
        { apply C. exists b. split; auto. unfold in_i. lia. }
        apply Hv in Hc. lia. }
      destruct ((0 <=? s) || Nat.eqb d n) eqn:EM.
      + destruct K as (HR0 & K1 & K2 & _ & _ & K3). rewrite K1, K2.
        destruct (Nat.eqb_spec (off d r) (off d (S r))); [lia|].
        rewrite (node_end_base a t _ d (off d (S r) - 1) HB He).
        destruct (nth_error (tcells a t d) (off d (S r) - 1)) as [i|] eqn:Ei; [|apply nth_error_None in Ei; lia].
        destruct (last_slice _ _ _ i L NT Ei) as [Hi1 Hi2].
        pose proof (HFit i ltac:(eapply nth_error_In; eauto)) as HF. cbn [option_map].
        destruct (Z.leb_spec 0 s) as [H0|H0].
        * eexists. split; [reflexivity|]. unfold shift_value. destruct (Z.leb_spec 0 s); [|lia].
          rewrite Z.max_r in HF by lia. rewrite Z.shiftl_mul_pow2 by lia. pose proof (pow2_pos s H0) as Hp.
          pose proof (Z.mod_pos_bound (iend i) 2 ltac:(lia)) as Hm2. split; [|nia].
          apply BND. intros x (r1 & Hr1 & y & Hy & Hrel). rewrite ER, HR0 in Hr1. destruct Hr1 as [<-|[]].
          apply Hi2 in Hy. unfold rel in Hrel. destruct (Z.leb_spec 0 s); [|lia].
          rewrite Z.shiftr_div_pow2 in Hrel by lia. pose proof (Z.div_mod x (2 ^ s) ltac:(lia)).
          pose proof (Z.mod_pos_bound x (2 ^ s) Hp). nia.
        * simpl in EM. rewrite EM. eexists. split; [reflexivity|]. unfold shift_value. destruct (Z.leb_spec 0 s); [lia|].
          rewrite Z.max_l in HF by lia. change (2 ^ 0) with 1 in HF. split.
          -- apply BND. intros x (r1 & Hr1 & y & Hy & Hrel). rewrite ER, HR0 in Hr1. destruct Hr1 as [<-|[]].
             apply Hi2 in Hy. unfold rel in Hrel. destruct (Z.leb_spec 0 s); [lia|]. subst x.
             pose proof (shiftr_mono (- s) y (iend i - 1)). lia.
          -- assert (Z.shiftr (iend i - 1) (- s) <= Z.max 0 (iend i - 1)).
             { rewrite Z.shiftr_div_pow2 by lia. pose proof (pow2_pos (- s) ltac:(lia)) as Hp.
               destruct (Z_le_gt_dec 0 (iend i - 1)).
               - assert ((iend i - 1) / 2 ^ (- s) <= iend i - 1) by (apply Z.div_le_upper_bound; nia). lia.
               - assert ((iend i - 1) / 2 ^ (- s) <= 0) by (apply Z.div_le_upper_bound; nia). lia. }
             unfold INT_MAX in *. lia.
      + rewrite ER in K. destruct K as (K1 & K2 & K3 & _). rewrite K1, K2, K3.
        assert (P <> []) by (apply NE; rewrite ER; discriminate).
        destruct P as [|i0 P]; [tauto|]. cbn [length Nat.eqb].
        apply orb_false_iff in EM as [E0 En]. rewrite E0, En.
        destruct (nth_error (i0 :: P) (S (length P) - 1)) as [i|] eqn:Ei;
          [|apply nth_error_None in Ei; simpl in Ei; lia].
        cbn [option_map]. exists (iend i). split; auto. apply Z.leb_gt in E0.
        assert (Hin : In i (i0 :: P)) by (eapply nth_error_In; eauto). split.
        * rewrite Forall_forall. intros b Hb. apply In_nth_error in Hb as (k & Hk).
          assert (k < length (i0 :: P))%nat by (apply nth_error_Some; congruence). simpl in H0.
          destruct (Nat.eq_dec k (S (length P) - 1)); [subst k; assert (b = i) by congruence; subst b; lia|].
          destruct N as [N1 N2]. pose proof (sorted_nth _ _ _ N2 k (S (length P) - 1)%nat b i ltac:(lia) Hk Ei) as K4. simpl in K4.
          rewrite Forall_forall in N1. specialize (N1 i Hin). simpl in N1. lia.
        * destruct N as [N1 _]. rewrite Forall_forall in N1. specialize (N1 i Hin). simpl in N1.
          destruct (C (iend i - 1)) as [C1 _]. destruct C1 as (r1 & Hr1 & y & (j & Hj & Hy) & Hrel).
          { exists i. split; auto. unfold in_i. lia. }
          unfold rel in Hrel. destruct (Z.leb_spec 0 s); [lia|].
          unfold LeafProofs.trow in Hj. destruct (HR r1 Hr1) as [_ Hr1'].
          destruct (trow_facts n a t d r1 W Hd Hr1') as (L1 & _). apply slice_In_iff in Hj as (k & _ & Hk); [|lia].
          pose proof (HFit j ltac:(eapply nth_error_In; eauto)) as HF. rewrite Z.max_l in HF by lia. change (2 ^ 0) with 1 in HF.
          assert (Z.shiftr y (- s) <= Z.max 0 y).
          { rewrite Z.shiftr_div_pow2 by lia. pose proof (pow2_pos (- s) ltac:(lia)) as Hp.
            destruct (Z_le_gt_dec 0 y).
            - assert (y / 2 ^ (- s) <= y) by (apply Z.div_le_upper_bound; nia). lia.
            - assert (y / 2 ^ (- s) <= 0) by (apply Z.div_le_upper_bound; nia). lia. }
          unfold in_i in Hy. unfold INT_MAX in *. lia.
  Qed.

  Lemma LInv_fuel : forall d snt R P rest ip lf, LInv n a t s d snt R P rest ip lf ->
    (length P <= c_end (l_cs lf d) - c_start (l_cs lf d))%nat.
  Proof.
    intros d snt R P rest ip lf (HS & _). pose proof HS as HS0.
    destruct HS as (HB & Hs & Hd & HR & N & C & NE & K). cbv zeta in K.
    destruct R as [|r R0] eqn:ER.
    - rewrite (static_empty _ _ _ _ _ _ _ HS0). simpl. lia.
    - rewrite <- ER in *. assert (HrR : In r R) by (rewrite ER; left; auto).
      destruct (HR r HrR) as [W Hr]. destruct (trow_facts n a t d r W Hd Hr) as (L & _ & _ & NT & _ & LT & _).
      destruct ((0 <=? s) || Nat.eqb d n).
      + destruct K as (_ & -> & -> & _ & _ & ->). destruct (proj_list_spec s (trow d r) NT) as (_ & _ & P3 & _). lia.
      + destruct K as (-> & -> & _). lia.
  Qed.
End Leaf2.
