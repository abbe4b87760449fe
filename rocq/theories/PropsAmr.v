(** C63: the graduation of the tags of an AMR mesh and the mesh built from them.
    C64: the sub-meshes of an AMR mesh. *)
From Coq Require Import QArith.
From Verif Require Import Base IntervalModel Spec IntervalProofs LoiModel LcaModel LcaSpec LcaProofs RowsProofs CellArrayModel CellArrayProofs PropsLca PropsCellArray
  SubsetModel TreeProofs SubsetSpec SubsetProofs2 PropsSubset StencilModel NumberingProofs StencilProofs PropsStencil MeshModel MeshProofs PropsMesh
  NumModel NumProofs NumSpec PropsNum AdaptModel AdaptProofs TagProofs PropsAdapt TransferProofs PropsTransfer GradProofs PropsGrad MrModel MrProofs PropsMr
  GhostModel GhostProofs PropsGhost BcProofs HartenModel HartenProofs HartenProofs2 PropsHarten AmrModel AmrProofs AmrProofs2 AmrProofs3.
From Verif Require PropsOuter.
Open Scope Z_scope.

(** The leaves to be coarsened: marked so, and neither to be refined nor to be kept. *)
Definition to_coarsen (n minl : nat) (gw : Z) (stencil : list (list Z)) (cells reference : ca) (t : tfield) (l : nat) (q : list Z) : Prop :=
  (minl < l)%nat /\ ca_mem n cells l q /\ Z.testbit (tg t l q) 1 = true /\ ~ to_refine n stencil cells t l q /\ ~ to_keep n gw stencil cells reference t l q.

(** The tags after the graduation: refine and keep are the least sets of cells that contain
    the marks given and are closed under the rules; the other bits do not change. *)
Theorem C63_closure : forall n m minl maxl gw stencil cells reference lo hi t, amr_input n m minl maxl gw stencil cells reference lo hi ->
  exists t', graduation n maxl gw stencil cells reference t = Some t' /\
    forall l q, length q = S n ->
      (Z.testbit (tg t' l q) 2 = true <-> to_refine n stencil cells t l q) /\
      (Z.testbit (tg t' l q) 0 = true <-> to_keep n gw stencil cells reference t l q) /\
      forall j, 0 <= j -> j <> 0 -> j <> 2 -> Z.testbit (tg t' l q) j = Z.testbit (tg t l q) j.
Proof.
  intros n m minl maxl gw stencil cells reference lo hi t HI. destruct (states n m minl maxl gw stencil cells reference lo hi HI t) as (T & E & T1 & T2).
  exists (T 0%nat). split; auto. intros l q Lq. split; [|split].
  - eapply refine_closure; eauto.
  - eapply keep_closure; eauto.
  - intros j H0 H1 H2. eapply other_bits; eauto.
Qed.

Section Result.
  Variables (n m minl maxl : nat) (gw : Z) (stencil : list (list Z)) (cells reference : ca) (lo hi : list Z) (t : tfield).
  Hypothesis HI : amr_input n m minl maxl gw stencil cells reference lo hi.
  Hypothesis HM : forall l q, ca_mem n cells l q -> Z.testbit (tg t l q) 0 || Z.testbit (tg t l q) 1 || Z.testbit (tg t l q) 2 = true.
  Notation leaf := (ca_mem n cells).
  Notation up := (to_refine n stencil cells t).
  Notation keep := (to_keep n gw stencil cells reference t).
  Notation down := (to_coarsen n minl gw stencil cells reference t).

  Lemma rs_tiles : tiles n cells lo hi.
  Proof. apply HI. Qed.
  Lemma rs_range : forall l q, leaf l q -> (minl <= l <= maxl)%nat.
  Proof. apply HI. Qed.
  Lemma rs_unit : forall s k, In s stencil -> (k <= n)%nat -> -1 <= nth k s 0 <= 1.
  Proof. apply (ai_stencil _ _ _ _ _ _ _ _ _ _ HI). Qed.
  Lemma rs_wf : ca_wf n cells.
  Proof. intros l Hl. rewrite (proj1 (ai_cmax _ _ _ _ _ _ _ _ _ _ HI)) in Hl. apply (ai_cells _ _ _ _ _ _ _ _ _ _ HI). auto. Qed.

  (** The two closures are decidable: they are computed. *)
  Lemma closures_dec : forall l q, length q = S n -> (up l q \/ ~ up l q) /\ (keep l q \/ ~ keep l q).
  Proof.
    intros l q Lq. destruct (C63_closure n m minl maxl gw stencil cells reference lo hi t HI) as (t' & _ & F). destruct (F l q Lq) as (F2 & F0 & _). rewrite <- F2, <- F0.
    destruct (Z.testbit (tg t' l q) 2), (Z.testbit (tg t' l q) 0); split; auto.
  Qed.

  (** A step along an axis, from the difference of two siblings. *)
  Lemma axis_back : forall v, axis_step n v -> axis_step n (opposite v).
  Proof using Type. clear HI HM.
    intros v (Lv & a & Ha & Va & Vo). split; [rewrite opposite_length; auto|]. exists a. rewrite nth_opposite. split; auto. split; [lia|]. intros k Hk Hne. rewrite nth_opposite, Vo by auto. auto.
  Qed.

  (** Next to a leaf, in its group, there is a leaf if no sibling is kept. *)
  Lemma next_sibling : forall l a b v, leaf (S l) a -> length b = S n -> ancestor 1 b = ancestor 1 a -> axis_step n v -> b = vadd n a v -> ~ keep (S l) a -> leaf (S l) b.
  Proof using HI. clear HM.
    intros l a b v Ha Lb Eb Hv Ev NK. assert (La : length a = S n) by apply Ha. destruct rs_tiles as (NO & IN & CO).
    assert (Ib : inside n lo hi (S l) b).
    { replace (S l) with (l + 1)%nat by lia. apply inside_ancestor. split; auto. rewrite Eb. apply IN in Ha. replace (S l) with (l + 1)%nat in Ha by lia. apply inside_ancestor in Ha. apply Ha. }
    destruct (trichotomy n minl maxl cells lo hi rs_tiles rs_range (S l) b Ib) as [(l0 & Hl0 & H0)|HS].
    - destruct (Nat.eq_dec l0 (S l)) as [->|Hne]; [rewrite Nat.sub_diag, ancestor_0 in H0; auto|]. exfalso.
      assert (X : l0 = S l); [|lia]. apply (NO l0 (S l) _ a H0 Ha Hl0).
      replace (S l - l0)%nat with (l - l0 + 1)%nat by lia. rewrite <- !ancestor_add. rewrite Eb. auto.
    - exfalso. apply NK. pose proof (axis_back v Hv) as Hw. set (w := opposite v) in *.
      assert (Aw : vadd n b w = a).
      { rewrite Ev. apply (list_ext n); [apply vadd_length|auto|]. intros k Hk. rewrite !nth_vadd by auto. unfold w. rewrite nth_opposite. lia. }
      destruct (side_leaf n minl maxl cells lo hi rs_tiles rs_range (S l) b w HS) as (l1 & y & Hl1 & Hy & Ay & By).
      { intros k Hk. destruct Hw as (_ & x & _ & Vx & Vo). destruct (Nat.eq_dec k x) as [->|Hne]; [lia|]. rewrite Vo by auto. lia. }
      assert (l1 = S (S l)).
      { destruct (Nat.eq_dec l1 (S (S l))) as [|Hne]; auto. exfalso.
        destruct (ss_axis _ _ (ai_stencil _ _ _ _ _ _ _ _ _ _ HI) w (toward n y) Hw (toward_signs n y)) as (s & Is & Fs). pose proof (filled_parent n y w s ltac:(apply Hy) Fs) as Es.
        apply (ai_graded _ _ _ _ _ _ _ _ _ _ HI (S l) l1 a y s); auto; [lia|]. rewrite <- Aw, <- By. replace (l1 - S l)%nat with (l1 - S l - 1 + 1)%nat by lia. rewrite <- !ancestor_add, Es. auto. }
      subst l1. replace (S (S l) - S l)%nat with 1%nat in * by lia.
      apply (keep_sibling _ _ _ _ _ _ l a a b); auto. rewrite <- Ay. apply keep_parent; auto. rewrite Ay.
      apply (am_near1 n m minl maxl gw stencil cells reference lo hi HI (S l) a b Ha Lb). apply (sibling_near n); auto.
  Qed.

  Definition mix (k : nat) (c q : list Z) : list Z := map (fun j => if Nat.ltb j k then nth j c 0 else nth j q 0) (seq 0 (S n)).
  Lemma nth_mix : forall k c q j, (j <= n)%nat -> nth j (mix k c q) 0 = if Nat.ltb j k then nth j c 0 else nth j q 0.
  Proof using Type. clear HI HM.
    intros k c q j Hj. unfold mix. rewrite nth_indep with (d' := (fun j => if Nat.ltb j k then nth j c 0 else nth j q 0) 0%nat) by (rewrite map_length, seq_length; lia).
    rewrite (map_nth (fun j => if Nat.ltb j k then nth j c 0 else nth j q 0)), seq_nth by lia. auto.
  Qed.
  Lemma mix_length : forall k c q, length (mix k c q) = S n.
  Proof using Type. clear HI HM. intros. unfold mix. rewrite map_length, seq_length. auto. Qed.
  Lemma mix_parent : forall k c q, length c = S n -> length q = S n -> ancestor 1 c = ancestor 1 q -> ancestor 1 (mix k c q) = ancestor 1 q.
  Proof using Type. clear HI HM.
    intros k c q Lc Lq E. apply (list_ext n); [rewrite ancestor_length; apply mix_length|rewrite ancestor_length; auto|]. intros j Hj. rewrite !nth_ancestor, nth_mix by auto.
    destruct (Nat.ltb j k); auto. assert (X : nth j (ancestor 1 c) 0 = nth j (ancestor 1 q) 0) by congruence. rewrite !nth_ancestor in X. auto.
  Qed.

  Lemma group_leaves : forall l q c, leaf (S l) q -> ~ keep (S l) q -> length c = S n -> ancestor 1 c = ancestor 1 q -> leaf (S l) c.
  Proof using HI. clear HM.
    intros l q c Hq NK Lc Ec. assert (Lq : length q = S n) by apply Hq.
    assert (X : forall k, (k <= S n)%nat -> leaf (S l) (mix k c q)).
    { induction k as [|k IH]; intros Hk.
      - replace (mix 0 c q) with q; auto. apply (list_ext n); [auto|apply mix_length|]. intros j Hj. rewrite nth_mix by auto. reflexivity.
      - specialize (IH ltac:(lia)). pose proof (mix_parent k c q Lc Lq Ec) as P1. pose proof (mix_parent (S k) c q Lc Lq Ec) as P2.
        destruct (Z.eq_dec (nth k c 0) (nth k q 0)) as [E|E].
        + replace (mix (S k) c q) with (mix k c q); auto. apply (list_ext n); [apply mix_length|apply mix_length|]. intros j Hj. rewrite !nth_mix by auto.
          destruct (Nat.ltb_spec j k), (Nat.ltb_spec j (S k)); auto; try lia. assert (j = k) by lia. subst j. auto.
        + set (v := map (fun j => if Nat.eqb j k then nth k c 0 - nth k q 0 else 0) (seq 0 (S n))).
          assert (NV : forall j, (j <= n)%nat -> nth j v 0 = if Nat.eqb j k then nth k c 0 - nth k q 0 else 0).
          { intros j Hj. unfold v. rewrite nth_indep with (d' := (fun j => if Nat.eqb j k then nth k c 0 - nth k q 0 else 0) 0%nat) by (rewrite map_length, seq_length; lia).
            rewrite (map_nth (fun j => if Nat.eqb j k then nth k c 0 - nth k q 0 else 0)), seq_nth by lia. auto. }
          apply (next_sibling l (mix k c q) (mix (S k) c q) v); auto; [apply mix_length|congruence| | |].
          * split; [unfold v; rewrite map_length, seq_length; auto|]. exists k. split; [lia|]. split.
            -- rewrite NV, Nat.eqb_refl by lia. assert (Y : nth k (ancestor 1 c) 0 = nth k (ancestor 1 q) 0) by congruence. rewrite !nth_ancestor in Y. change (2 ^ Z.of_nat 1) with 2 in Y. lia.
            -- intros j Hj Hne. rewrite NV by auto. destruct (Nat.eqb_spec j k); [contradiction|auto].
          * apply (list_ext n); [apply mix_length|apply vadd_length|]. intros j Hj. rewrite nth_vadd, NV, !nth_mix by auto.
            destruct (Nat.ltb_spec j k), (Nat.ltb_spec j (S k)), (Nat.eqb_spec j k); subst; lia.
          * intros Y. apply NK. apply (keep_sibling _ _ _ _ _ _ l q q (mix k c q)); auto. apply mix_length. }
    replace c with (mix (S n) c q); [apply X; lia|]. apply (list_ext n); [apply mix_length|auto|]. intros j Hj. rewrite nth_mix by auto. destruct (Nat.ltb_spec j (S n)); [auto|lia].
  Qed.

  (** A leaf to be coarsened is in a group of leaves to be coarsened. *)
  Lemma not_up_near : forall l q p, leaf (S l) q -> leaf (S l) p -> near n 1 q p -> ~ keep (S l) q -> ~ up (S l) p.
  Proof.
    intros l q p Hq Hp N NK U. apply NK. apply (keep_near _ _ _ _ _ _ l q p); auto. intros k Hk. specialize (N k Hk). pose proof (ai_width _ _ _ _ _ _ _ _ _ _ HI). lia.
  Qed.

  (** A leaf that is not kept and not refined is marked to be coarsened. *)
  Lemma down_iff : forall l q, leaf l q -> (minl < l)%nat -> ~ up l q -> ~ keep l q -> down l q.
  Proof.
    intros l q Hq Hl NU NK. split; auto. split; auto. split; [|auto]. specialize (HM l q Hq).
    destruct (Z.testbit (tg t l q) 0) eqn:E0; [exfalso; apply NK; apply keep_given; auto|]. destruct (Z.testbit (tg t l q) 2) eqn:E2; [exfalso; apply NU; apply refine_given; auto|].
    rewrite orb_false_r in HM. exact HM.
  Qed.
  Lemma down_siblings : forall l q c, down l q -> length c = S n -> ancestor 1 c = ancestor 1 q -> down l c.
  Proof.
    intros l q c (Hl & Hq & Hb & NU & NK) Lc Ec. destruct l as [|l]; [lia|]. assert (Hc : leaf (S l) c) by (eapply group_leaves; eauto).
    apply down_iff; auto.
    - apply (not_up_near l q c); auto. apply (sibling_near n); auto. apply Hq.
    - intros Y. apply NK. apply (keep_sibling _ _ _ _ _ _ l q q c); auto.
  Qed.

  Section Tag.
    Variables (t' : tfield) (tag : Z -> Z).
    Hypothesis HF : forall l q, length q = S n ->
      (Z.testbit (tg t' l q) 2 = true <-> up l q) /\ (Z.testbit (tg t' l q) 0 = true <-> keep l q) /\
      forall j, 0 <= j -> j <> 0 -> j <> 2 -> Z.testbit (tg t' l q) j = Z.testbit (tg t l q) j.
    Hypothesis HT : forall l q k, leaf l q -> ca_get_index n cells l q = Some k -> tag k = tg t' l q.

    Lemma flag_exists : forall l q, leaf l q -> Z.testbit (tg t' l q) 0 || Z.testbit (tg t' l q) 1 || Z.testbit (tg t' l q) 2 = true.
    Proof.
      intros l q Hq. specialize (HM l q Hq). destruct (HF l q ltac:(apply Hq)) as (F2 & F0 & F1). specialize (F1 1 ltac:(lia) ltac:(lia) ltac:(lia)). rewrite F1.
      apply orb_true_iff in HM as [H|H]; [apply orb_true_iff in H as [H|H]|].
      - rewrite (proj2 F0); auto. apply keep_given. auto.
      - rewrite H. rewrite orb_true_r. auto.
      - rewrite (proj2 F2); [apply orb_true_r|]. apply refine_given. auto.
    Qed.
    Lemma flag_coarsen : forall l q, leaf l q -> (wants_coarsen minl l (tg t' l q) <-> down l q).
    Proof.
      intros l q Hq. destruct (HF l q ltac:(apply Hq)) as (F2 & F0 & F1). specialize (F1 1 ltac:(lia) ltac:(lia) ltac:(lia)). unfold wants_coarsen, to_coarsen. rewrite F1, <- F2, <- F0.
      destruct (Z.testbit (tg t' l q) 2), (Z.testbit (tg t' l q) 0), (Z.testbit (tg t l q) 1); intuition discriminate.
    Qed.
    Lemma tag_consistent : consistent n minl cells tag.
    Proof.
      intros l q k Hq Hk. rewrite (HT _ _ _ Hq Hk). split; [apply flag_exists; auto|]. intros Hc q' Lq' Eq'. apply flag_coarsen in Hc; auto.
      pose proof (down_siblings _ _ _ Hc Lq' Eq') as Hd. pose proof Hd as (_ & Hq' & _). split; auto. destruct (leaf_index n cells l q' rs_wf Hq') as (k' & Hk').
      exists k'. split; auto. rewrite (HT _ _ _ Hq' Hk'). apply flag_coarsen; auto.
    Qed.

    Definition next (l : nat) (p : list Z) : Prop :=
      (exists l0, l = S l0 /\ (l0 < maxl)%nat /\ leaf l0 (ancestor 1 p) /\ up l0 (ancestor 1 p)) \/
      (leaf l p /\ ~ (up l p /\ (l < maxl)%nat) /\ ~ down l p) \/ (exists q, down (S l) q /\ ancestor 1 q = p).

    Lemma next_leaves : exists new, update_cells n minl maxl cells tag = Some new /\ ca_wf n new /\ no_overlap n new /\
      (forall z, length z = S n -> (covered n new maxl z <-> covered n cells maxl z)) /\ (forall l p, ca_mem n new l p -> (minl <= l <= maxl)%nat) /\
      forall l p, ca_mem n new l p <-> length p = S n /\ next l p.
    Proof.
      pose proof rs_wf as W. pose proof rs_range as RG.
      assert (HX : (maxl <= c_max cells)%nat) by (rewrite (proj1 (ai_cmax _ _ _ _ _ _ _ _ _ _ HI)); apply HI).
      destruct (C31_same_region_no_overlap n minl maxl cells tag maxl W HX ltac:(lia)) as (new & E & Wn & NO & CV); auto.
      { intros l q Hq. apply RG in Hq. lia. }
      { apply rs_tiles. }
      { apply tag_consistent. }
      exists new. split; auto. split; auto. split; auto. split; auto. split; [apply (C32_levels_within_bounds n minl maxl cells tag new W HX RG E)|].
      destruct (C31_exact_leaves n minl maxl cells tag W HX) as (new' & E' & _ & X). rewrite E in E'. injection E' as <-.
      intros l p. rewrite X. unfold next. clear X. split.
      - intros (Lp & l0 & q & k & Hq & Hk & H). split; auto. rewrite (HT l0 q k Hq Hk) in H. destruct (HF l0 q ltac:(apply Hq)) as (F2 & _). pose proof (flag_coarsen l0 q Hq) as FC. unfold wants_coarsen in FC.
        destruct (Z.testbit (tg t' l0 q) 2) eqn:E2.
        + assert (U : up l0 q) by (apply F2; auto). cbn [andb negb] in H. destruct (Nat.ltb_spec l0 maxl) as [EL|EL].
          * destruct H as [-> <-]. left. exists l0. auto.
          * destruct H as (-> & -> & _). right. left. split; auto. split; [lia|]. intros Y. apply FC in Y. decompose [and] Y. discriminate.
        + assert (U : ~ up l0 q) by (intros Y; apply F2 in Y; discriminate). cbn [andb negb] in H.
          destruct (Z.testbit (tg t' l0 q) 0) eqn:E0, (Z.testbit (tg t' l0 q) 1) eqn:E1, (Nat.ltb_spec minl l0); cbn [andb negb orb] in *;
            try (destruct H as (-> & -> & H); right; left; split; [auto|split; [tauto|]]; intros Y; apply FC in Y; decompose [and] Y; (lia || discriminate)).
          destruct H as [-> ->]. right. right. exists q. split; auto. apply FC. auto.
      - intros (Lp & [(l0 & -> & Hl0 & Hq & U)|[(Hq & U & V)|(q & V & <-)]]); (split; [auto|]).
        + destruct (leaf_index n cells l0 (ancestor 1 p) W Hq) as (k & Hk). exists l0, (ancestor 1 p), k. split; auto. split; auto.
          rewrite (HT _ _ _ Hq Hk). destruct (HF l0 (ancestor 1 p) ltac:(apply Hq)) as (F2 & _). rewrite (proj2 F2 U). assert ((l0 <? maxl)%nat = true) as -> by (apply Nat.ltb_lt; lia). cbn [andb]. auto.
        + destruct (leaf_index n cells l p W Hq) as (k & Hk). exists l, p, k. split; auto. split; auto. rewrite (HT _ _ _ Hq Hk). destruct (HF l p Lp) as (F2 & _).
          pose proof (flag_coarsen l p Hq) as FC. unfold wants_coarsen in FC. pose proof (flag_exists l p Hq) as FE.
          destruct (Z.testbit (tg t' l p) 2) eqn:E2; cbn [andb negb].
          * destruct (Nat.ltb_spec l maxl); [exfalso; apply U; split; auto; apply F2; auto|]. split; auto.
          * destruct (Z.testbit (tg t' l p) 0) eqn:E0, (Z.testbit (tg t' l p) 1) eqn:E1, (Nat.ltb_spec minl l); cbn [andb negb orb] in *; auto.
            exfalso. apply V, FC. auto.
        + pose proof V as (V1 & Hq & _). destruct (leaf_index n cells (S l) q W Hq) as (k & Hk). exists (S l), q, k. split; auto. split; auto. rewrite (HT _ _ _ Hq Hk).
          apply (flag_coarsen _ _ Hq) in V as (Y1 & Y2 & Y3 & Y4). rewrite Y2, Y3, Y4. cbn [andb negb]. assert ((minl <? S l)%nat = true) as -> by (apply Nat.ltb_lt; lia). auto.
    Qed.
  End Tag.

  (** *** The new leaves are graded. *)

  (** The step seen from the parent. *)
  Lemma parent_step : forall p s, length p = S n -> In s stencil -> ancestor 1 (vadd n p s) <> ancestor 1 p ->
    exists v, In v stencil /\ ancestor 2 (vadd n p s) = ancestor 1 (vadd n (ancestor 1 p) v).
  Proof.
    intros p s Lp Hs Hne. set (v := map (fun k => nth k (ancestor 1 (vadd n p s)) 0 - nth k (ancestor 1 p) 0) (seq 0 (S n))).
    assert (NV : forall k, (k <= n)%nat -> nth k v 0 = nth k (ancestor 1 (vadd n p s)) 0 - nth k (ancestor 1 p) 0).
    { intros k Hk. unfold v. rewrite nth_indep with (d' := (fun k => nth k (ancestor 1 (vadd n p s)) 0 - nth k (ancestor 1 p) 0) 0%nat) by (rewrite map_length, seq_length; lia).
      rewrite (map_nth (fun k => nth k (ancestor 1 (vadd n p s)) 0 - nth k (ancestor 1 p) 0)), seq_nth by lia. auto. }
    assert (Lv : length v = S n) by (unfold v; rewrite map_length, seq_length; auto).
    assert (EQ : ancestor 1 (vadd n p s) = vadd n (ancestor 1 p) v).
    { apply (list_ext n); [rewrite ancestor_length; apply vadd_length|apply vadd_length|]. intros k Hk. rewrite nth_vadd, NV by auto. lia. }
    destruct (ss_sub _ _ (ai_stencil _ _ _ _ _ _ _ _ _ _ HI) s v (toward n (ancestor 1 p)) Hs) as (s' & Is & Fs).
    - split; auto. intros k Hk. rewrite NV by auto. rewrite !nth_ancestor, nth_vadd by auto. pose proof (rs_unit s k Hs Hk). change (2 ^ Z.of_nat 1) with 2. lia.
    - destruct (Forall_dec (fun k => nth k v 0 = 0) (fun k => Z.eq_dec (nth k v 0) 0) (seq 0 (S n))) as [F|F].
      + exfalso. apply Hne. rewrite EQ. apply (list_ext n); [apply vadd_length|rewrite ancestor_length; auto|]. intros k Hk. rewrite nth_vadd by auto.
        rewrite Forall_forall in F. rewrite (F k); [lia|]. apply in_seq. lia.
      + apply neg_Forall_Exists_neg in F; [|intros k; apply Z.eq_dec]. apply Exists_exists in F as (k & Hk & Hv). apply in_seq in Hk. exists k. split; [lia|auto].
    - apply toward_signs.
    - exists s'. split; auto. rewrite (filled_parent n (ancestor 1 p) v s') by (auto; rewrite ancestor_length; auto). rewrite <- EQ, ancestor_add. auto.
  Qed.
  (** A child on the side of a step. *)
  Lemma child_step : forall p s, length p = S n -> In s stencil -> exists c, length c = S n /\ ancestor 1 c = p /\ ancestor 1 (vadd n c s) = vadd n p s.
  Proof.
    intros p s Lp Hs. destruct (corner_point n 1 0 p s Lp ltac:(lia)) as (z & Lz & Az & Bz); [intros k Hk; apply rs_unit; auto|].
    exists z. split; auto. split; auto. specialize (Bz 1%nat ltac:(lia)). change (1 - 0)%nat with 1%nat in Bz. change (1 - 1)%nat with 0%nat in Bz. rewrite ancestor_0 in Bz. auto.
  Qed.

  Lemma next_graded : forall new, (forall l p, ca_mem n new l p <-> length p = S n /\ next l p) -> no_overlap n new -> graded_by n stencil new.
  Proof.
    intros new X NO b a q p s Hq Hp Hab Hs E. pose proof (ai_graded _ _ _ _ _ _ _ _ _ _ HI) as G. unfold graded_by in G.
    assert (NP : ancestor 1 (vadd n p s) <> ancestor 1 p).
    { intros Y. assert (b = a); [|lia]. apply (NO b a q p); auto; [lia|]. rewrite <- E. replace (a - b)%nat with (a - b - 1 + 1)%nat by lia. rewrite <- !ancestor_add, Y. auto. }
    assert (Dn : forall l x c, down l x -> length c = S n -> ancestor 1 c = ancestor 1 x -> down l c) by (intros; eapply down_siblings with (q := x); eauto).
    apply X in Hp as [Lp Hp], Hq as [Lq Hq].
    (* what lies in [q] *)
    assert (Q : forall A y v, leaf A y -> In v stencil -> (b < A)%nat -> ancestor (A - b) (vadd n y v) = q ->
      (A = S b /\ leaf b q /\ ~ (up b q /\ (b < maxl)%nat)) \/
      (exists c, down (S b) c /\ ancestor 1 c = q /\ ((A = S b /\ vadd n y v = c) \/ (A = S (S b) /\ ancestor 1 (vadd n y v) = c)))).
    { intros A y v Hy Hv HA Ey. destruct Hq as [(b0 & -> & _ & Hl & _)|[(Hl & NU & _)|(x & Dx & Ex)]].
      - exfalso. apply (G b0 A (ancestor 1 q) y v); auto; [lia|]. rewrite <- Ey, ancestor_add. f_equal. lia.
      - left. split; auto. destruct (Nat.eq_dec A (S b)) as [|Hne]; auto. exfalso. apply (G b A q y v); auto. lia.
      - right. set (c := ancestor (A - S b) (vadd n y v)). assert (Ec : ancestor 1 c = q) by (unfold c; rewrite ancestor_add; replace (1 + (A - S b))%nat with (A - b)%nat by lia; auto).
        assert (Lc : length c = S n) by (unfold c; rewrite ancestor_length; apply vadd_length).
        assert (Dc : down (S b) c) by (apply (Dn _ x); auto; congruence). exists c. split; auto. split; auto.
        pose proof Dc as (_ & Hc & _). destruct (Nat.eq_dec A (S b)) as [->|H1]; [left; split; auto; unfold c; rewrite Nat.sub_diag, ancestor_0; auto|].
        destruct (Nat.eq_dec A (S (S b))) as [->|H2]; [right; split; auto; unfold c; f_equal; lia|]. exfalso. apply (G (S b) A c y v); auto. lia. }
    destruct Hp as [(a0 & -> & Ha0 & Hl & U)|[(Hl & NU & ND)|(x & Dx & Ex)]].
    - (* refined *)
      destruct (parent_step p s Lp Hs NP) as (v & Hv & Ev).
      destruct (Q a0 (ancestor 1 p) v Hl Hv ltac:(lia)) as [(-> & Hb & NUb)|(c & Dc & Ec & [(-> & Yc)|(-> & Yc)])].
      + rewrite <- E. replace (a0 - b)%nat with (a0 - b - 1 + 1)%nat by lia. rewrite <- ancestor_add, <- Ev, ancestor_add. f_equal. lia.
      + apply NUb. split; [|lia]. apply (refine_pulled _ _ _ _ b q (ancestor 1 p) v); auto. rewrite <- Ev, <- E. f_equal. lia.
      + destruct Dc as (_ & Hc & _ & _ & NK). apply (not_up_near b c (ancestor 1 p)); auto. intros k Hk. rewrite <- Yc, nth_vadd by auto. pose proof (rs_unit v k Hv Hk). lia.
      + destruct Dc as (_ & Hc & _ & NUc & _). apply NUc. apply (refine_pulled _ _ _ _ (S b) c (ancestor 1 p) v); auto.
    - (* unchanged *)
      destruct (Q a p s Hl Hs ltac:(lia) E) as [(-> & _)|(c & Dc & Ec & [(-> & Yc)|(-> & Yc)])]; [lia|lia|].
      destruct Dc as (Hm & Hc & _ & NUc & NKc).
      assert (UK : up (S (S b)) p \/ keep (S (S b)) p).
      { destruct (closures_dec (S (S b)) p Lp) as [[Y|Y] [Y'|Y']]; auto. exfalso. apply ND. apply down_iff; auto; lia. }
      destruct UK as [Up|Kp].
      + apply NUc. apply (refine_pulled _ _ _ _ (S b) c p s); auto.
      + apply NKc. apply (keep_pulled _ _ _ _ _ _ (S b) c p s); auto.
    - (* coarsened *)
      destruct (child_step p s Lp Hs) as (c & Lc & Ac & Bc).
      assert (Dc : down (S a) c) by (apply (Dn _ x); auto; congruence). destruct Dc as (_ & Hc & _).
      destruct (Q (S a) c s Hc Hs ltac:(lia)) as [(Y & _)|(c' & _ & _ & [(Y & _)|(Y & _)])]; try lia.
      rewrite <- E, <- Bc, ancestor_add. f_equal. lia.
  Qed.
End Result.

(** The mesh built from the graduated tags when each leaf carries a mark: its leaves; it
    fills the same box without overlap, its levels are within the bounds, and it is graded
    by the same stencil. *)
Theorem C63_new_mesh : forall n m minl maxl gw stencil cells reference lo hi t t' tag, amr_input n m minl maxl gw stencil cells reference lo hi ->
  (forall l q, ca_mem n cells l q -> Z.testbit (tg t l q) 0 || Z.testbit (tg t l q) 1 || Z.testbit (tg t l q) 2 = true) ->
  graduation n maxl gw stencil cells reference t = Some t' ->
  (forall l q k, ca_mem n cells l q -> ca_get_index n cells l q = Some k -> tag k = tg t' l q) ->
  consistent n minl cells tag /\
  exists new, update_cells n minl maxl cells tag = Some new /\ ca_wf n new /\ tiles n new lo hi /\ graded_by n stencil new /\
    (forall l p, ca_mem n new l p -> (minl <= l <= maxl)%nat) /\
    forall l p, ca_mem n new l p <-> length p = S n /\
      ((exists l0, l = S l0 /\ (l0 < maxl)%nat /\ ca_mem n cells l0 (ancestor 1 p) /\ to_refine n stencil cells t l0 (ancestor 1 p)) \/
       (ca_mem n cells l p /\ ~ (to_refine n stencil cells t l p /\ (l < maxl)%nat) /\ ~ to_coarsen n minl gw stencil cells reference t l p) \/
       (exists q, to_coarsen n minl gw stencil cells reference t (S l) q /\ ancestor 1 q = p)).
Proof.
  intros n m minl maxl gw stencil cells reference lo hi t t' tag HI HM E HT.
  destruct (C63_closure n m minl maxl gw stencil cells reference lo hi t HI) as (t1 & E1 & F). rewrite E in E1. injection E1 as <-.
  split; [eapply tag_consistent; eauto|].
  destruct (next_leaves n m minl maxl gw stencil cells reference lo hi t HI HM t' tag F HT) as (new & EN & Wn & NO & CV & LV & X).
  pose proof (ai_tiles _ _ _ _ _ _ _ _ _ _ HI) as (_ & IN & CO). pose proof (ai_range _ _ _ _ _ _ _ _ _ _ HI) as RG.
  exists new. split; auto. split; auto. split; [|split; [|split; auto]].
  - split; auto. split.
    + intros l p Hp. apply X in Hp as (Lp & [(l0 & -> & _ & U & _)|[(Hp & _)|(q & (_ & Hq & _) & <-)]]); auto.
      * apply IN in U. replace (S l0) with (l0 + 1)%nat by lia. apply inside_ancestor. auto.
      * apply IN in Hq. replace (S l) with (l + 1)%nat in Hq by lia. apply inside_ancestor in Hq. apply Hq.
    + intros Kf z HK Hz. set (M := Nat.max Kf maxl). destruct (descend (M - Kf) z) as (y & Ly & Ey). assert (Lz : length z = S n) by apply Hz.
      assert (Hx : inside n lo hi maxl (ancestor (M - maxl) y)).
      { assert (Hy : inside n lo hi M y) by (replace M with (Kf + (M - Kf))%nat by lia; apply inside_ancestor; rewrite Ey; split; [lia|auto]).
        replace M with (maxl + (M - maxl))%nat in Hy at 1 by lia. apply inside_ancestor in Hy. apply Hy. }
      assert (CX : covered n new maxl (ancestor (M - maxl) y)).
      { apply CV; [apply Hx|]. apply CO; auto. intros l q Hq. apply RG in Hq. lia. }
      destruct CX as (l & Hl & Hm). exists l. specialize (HK _ _ Hm). split; auto. rewrite <- Ey, ancestor_add. rewrite ancestor_add in Hm.
      replace (Kf - l + (M - Kf))%nat with (maxl - l + (M - maxl))%nat by lia. auto.
  - apply (next_graded n m minl maxl gw stencil cells reference lo hi t HI HM new X NO).
Qed.

(** ** C64: the sub-meshes *)

(** What each sub-mesh holds. *)
Theorem C64_contents : forall n m minl maxl w s d domain cells lo hi, amr_sub_input n m minl maxl w s d domain cells lo hi ->
  exists r, amr_sub_mesh n m minl maxl w s domain cells = Some r /\
    (forall c, c = a_ghosts r \/ c = a_proj r \/ c = a_pred r \/ c = a_all r -> ca_wf n c /\ c_max c = m /\ forall l, (l <= m)%nat -> a_level (c_at c l) = l) /\
    forall l p, (ca_mem n (a_ghosts r) l p <-> amr_ghost n w s cells lo hi l p) /\ (ca_mem n (a_proj r) l p <-> to_project n w cells l p) /\
      (ca_mem n (a_pred r) l p <-> to_predict n w cells lo hi l p) /\ (ca_mem n (a_all r) l p <-> amr_ghost n w s cells lo hi l p \/ to_project n w cells l p).
Proof. exact amr_contents. Qed.

(** What the graduation and update_ghost ask from them: the reference has the margin of the
    leaves; the cells of a group are projected together and have been stored, and each of
    them is a leaf or has its own children among the cells projected; the cells that the
    prediction of a ghost reads are stored. *)
Theorem C64_closed : forall n m minl maxl w s d domain cells lo hi r, amr_sub_input n m minl maxl w s d domain cells lo hi -> amr_sub_mesh n m minl maxl w s domain cells = Some r ->
  (forall l q p, ca_mem n cells l q -> length p = S n -> near n w p q -> ca_mem n (a_all r) l p) /\
  (forall l p c, ca_mem n (a_proj r) l p -> length c = S n -> ancestor 1 c = ancestor 1 p -> ca_mem n (a_proj r) l c /\ ca_mem n (a_all r) l c) /\
  (forall l p c, ca_mem n (a_proj r) l p -> length c = S n -> ancestor 1 c = p -> ca_mem n cells l p \/ ca_mem n (a_proj r) (S l) c) /\
  (forall l h p, ca_mem n (a_pred r) (S l) h -> length p = S n -> near n s p (ancestor 1 h) -> ca_mem n (a_all r) l p).
Proof.
  intros n m minl maxl w s d domain cells lo hi r HI E. destruct (C64_contents n m minl maxl w s d domain cells lo hi HI) as (r' & E' & _ & M). rewrite E in E'. injection E' as <-.
  pose proof (si_tiles _ _ _ _ _ _ _ _ _ _ _ HI) as HT. split; [|split; [|split]].
  - intros l q p Hq Lp N. apply M. left. left. split; auto. exists q. auto.
  - intros l p c Hp Lc Ec. apply M in Hp. assert (Hc : to_project n w cells l c).
    { destruct l as [|l]; [inversion Hp|]. apply project_inv in Hp as (N & [(Ma & Sp)|Hp]); rewrite <- Ec in *; [apply project_margin|apply project_child]; auto. }
    split; apply M; auto.
  - intros l p c Hp Lc Ec. pose proof Hp as Hq. apply M in Hp. destruct (project_inside n m minl maxl w s d domain cells lo hi HI l p Hp) as [H|H]; auto.
    right. apply M. apply project_child; auto; rewrite Ec; auto. intros X. apply (above_not_split n cells lo hi HT l l p); auto. rewrite Nat.sub_diag, ancestor_0. auto.
  - intros l h p Hh Lp N. apply M in Hh. apply M. left. right. split; auto. exists h. auto.
Qed.

(** So the reference of such a mesh is one that C63 accepts. *)
Theorem C64_graduation : forall n m minl maxl w s d domain cells lo hi r gw stencil, amr_sub_input n m minl maxl w s d domain cells lo hi -> amr_sub_mesh n m minl maxl w s domain cells = Some r ->
  (n <= 2)%nat -> graded_by n stencil cells -> step_stencil n stencil -> 1 <= gw <= w -> amr_input n m minl maxl gw stencil cells (a_all r) lo hi.
Proof.
  intros n m minl maxl w s d domain cells lo hi r gw stencil HI E Hn HG HS Hw. destruct (C64_contents n m minl maxl w s d domain cells lo hi HI) as (r' & E' & W & M). rewrite E in E'. injection E' as <-.
  pose proof (si_in _ _ _ _ _ _ _ _ _ _ _ HI) as (A1 & A2 & A3 & A4 & A5 & A6 & A7 & A8). destruct (W (a_all r)) as (W1 & W2 & W3); auto.
  constructor; auto; try (apply HI; fail); try lia.
  - intros l Hl. split; [apply A1; lia|auto].
  - intros l Hl. split; [apply W1; lia|auto].
  - intros l q p Hq Lp N. apply (proj1 (C64_closed n m minl maxl w s d domain cells lo hi r HI E) l q p Hq Lp). intros k Hk. specialize (N k Hk). lia.
  - intros l p k Hp Hk. apply M in Hp as [Hp|Hp].
    + apply (ghost_small n m minl maxl w s d domain cells lo hi HI l p k Hp Hk).
    + apply (project_inside n m minl maxl w s d domain cells lo hi HI) in Hp. pose proof (leaf_or_split_bound n m minl maxl w s d domain cells lo hi HI l p k Hp Hk). lia.
Qed.

(** With a leaf of level 0 the construction fails: the loop L156-173 starts at this level and
    uses the level below it. *)
Theorem C64_level_zero_refuted : forall n m minl maxl w s domain cells, min_level cells = 0%nat -> amr_sub_mesh n m minl maxl w s domain cells = None.
Proof.
  intros n m minl maxl w s domain cells E. unfold amr_sub_mesh. destruct (ca_for_each_interval n cells); auto. destruct (construct_union n minl maxl cells); auto.
  destruct (amr_proj _ _ _ _ _ _); auto. destruct (amr_pred _ _ _ _ _ _ _); auto. rewrite E. reflexivity.
Qed.

(** ** Examples *)
Lemma amr_sub_check : forall n c cs m minl maxl w s d M lo hi, ca_wf n c -> ca_for_each_cell n c = Some cs -> c_max c = m ->
  forallb (fun l => Nat.eqb (a_level (c_at c l)) l) (seq 0 (S m)) = true -> tilesb n M lo hi (leaf_cells cs) = true ->
  forallb (fun '(l, _) => Nat.leb minl l && Nat.leb l maxl && Nat.leb 1 l) (leaf_cells cs) = true -> length lo = S n -> length hi = S n -> (maxl <= m)%nat -> 0 <= w -> 0 <= s ->
  forallb (fun k => (nth k lo 0 <? nth k hi 0) && (2 * (Z.max 0 (nth k hi 0) * 2 ^ Z.of_nat M + w + s + 8) <? 2 ^ 31 - 1) &&
    ((Z.max 0 (nth k hi 0) * 2 ^ Z.of_nat d + 2) * 2 ^ Z.of_nat (maxl - d) + 1 <? 2 ^ 31 - 1)) (seq 0 (S n)) = true ->
  amr_sub_input n m minl maxl w s d (PropsOuter.box_domain n d lo hi) c lo hi.
Proof.
  intros n c cs m minl maxl w s d M lo hi W E Em HL HT HR L1 L2 Hm Hw Hs HB. destruct (tiles_check n c cs M lo hi W E L1 L2 HT) as [T TM].
  destruct (ca_for_each_cell_spec n c W) as (cs' & E' & [_ EN] & _). rewrite E in E'. injection E' as <-. rewrite forallb_forall in HL, HR, HB.
  assert (RG : forall l q, ca_mem n c l q -> (minl <= l <= maxl)%nat /\ (1 <= l)%nat).
  { intros l q Hq. apply EN in Hq. specialize (HR _ Hq). cbn beta iota in HR. rewrite !andb_true_iff, !Nat.leb_le in HR. lia. }
  assert (B : forall k, (k <= n)%nat -> nth k lo 0 < nth k hi 0 /\ 2 * (Z.max 0 (nth k hi 0) * 2 ^ Z.of_nat M + w + s + 8) < 2 ^ 31 - 1 /\
    (Z.max 0 (nth k hi 0) * 2 ^ Z.of_nat d + 2) * 2 ^ Z.of_nat (maxl - d) + 1 < 2 ^ 31 - 1).
  { intros k Hk. specialize (HB k ltac:(apply in_seq; lia)). rewrite !andb_true_iff, !Z.ltb_lt in HB. tauto. }
  assert (LB : forall l q k, ca_mem n c l q -> (k <= n)%nat -> 2 * (Z.max 0 (nth k q 0) + w + s + 8) < 2 ^ 31 - 1).
  { intros l q k Hq Hk. pose proof (TM l q Hq). apply T in Hq as [_ Hq]. specialize (Hq k Hk). destruct (B k Hk) as (_ & B2 & _).
    assert (2 ^ Z.of_nat l <= 2 ^ Z.of_nat M) by (apply Z.pow_le_mono_r; lia). assert (0 < 2 ^ Z.of_nat l) by (apply Z.pow_pos_nonneg; lia). nia. }
  assert (BX : is_box n d lo hi (PropsOuter.box_domain n d lo hi)) by (apply PropsOuter.box_domain_ok; auto; intros k Hk; apply (B k Hk)).
  constructor; auto.
  - split; auto. split; auto. split; auto. split; [intros l Hl; apply Nat.eqb_eq, HL; apply in_seq; lia|]. split; auto. split; auto. split; [apply RG|].
    intros l q k Hq Hk. specialize (LB l q k Hq Hk). lia.
  - apply RG.
  - intros q k Hq Hk. apply (proj2 (proj2 BX)) in Hq as [_ Hq]. specialize (Hq k Hk). destruct (B k Hk) as (_ & _ & B3).
    assert (0 < 2 ^ Z.of_nat (maxl - d)) by (apply Z.pow_pos_nonneg; lia). assert (0 < 2 ^ Z.of_nat d) by (apply Z.pow_pos_nonneg; lia). nia.
Qed.
Definition graded_byb (n : nat) (stencil : list (list Z)) (cs : list (nat * list Z)) : bool :=
  forallb (fun '(l, p) => forallb (fun '(l', q) => implb (Nat.leb (l + 2) l') (forallb (fun v => negb (zlist_eqb (ancestor (l' - l) (vadd n q v)) p)) stencil)) cs) cs.
Lemma graded_by_check : forall n c cs stencil, ca_wf n c -> ca_for_each_cell n c = Some cs -> graded_byb n stencil (leaf_cells cs) = true -> graded_by n stencil c.
Proof.
  intros n c cs stencil W E H l l' p q v Hp Hq Hl Hv Eq. destruct (ca_for_each_cell_spec n c W) as (cs' & E' & [_ EN] & _). rewrite E in E'. injection E' as <-.
  apply EN in Hp, Hq. unfold graded_byb in H. rewrite forallb_forall in H. specialize (H _ Hp). cbn beta iota in H.
  rewrite forallb_forall in H. specialize (H _ Hq). cbn beta iota in H. apply Nat.leb_le in Hl. rewrite Hl in H. cbn [implb] in H.
  rewrite forallb_forall in H. specialize (H v Hv). rewrite (proj2 (zlist_eqb_eq _ _) Eq) in H. discriminate.
Qed.

(** The stencil of the demos in two dimensions. *)
Definition star : list (list Z) := [[1; 0]; [-1; 0]; [0; 1]; [0; -1]].
(** The one of the Weno demos: the diagonals. *)
Definition diagonals : list (list Z) := [[1; 1]; [-1; -1]; [-1; 1]; [1; -1]].

(** The three kinds of stencils, in any dimension. *)
Lemma axis_steps : forall n stencil, (forall s, In s stencil <-> axis_step n s) -> step_stencil n stencil.
Proof.
  intros n stencil H. constructor.
  - intros s Hs. apply H in Hs. apply Hs.
  - intros s k Hs Hk. apply H in Hs as (_ & a & _ & Va & Vo). destruct (Nat.eq_dec k a) as [->|Hne]; [lia|]. rewrite Vo by auto. lia.
  - intros s Hs. apply H in Hs as (_ & a & Ha & Va & _). exists a. split; [auto|lia].
  - intros v e Hv _. exists v. split; [apply H; auto|]. intros k Hk. auto.
  - intros s v e Hs (Lv & Sv) (k & Hk & Nk) _. exists v. split; [|intros j Hj; auto]. apply H in Hs as (_ & a & Ha & Va & Vo). apply H. split; auto. exists a. split; auto.
    assert (k = a) as -> by (destruct (Nat.eq_dec k a) as [|Hne]; auto; exfalso; destruct (Sv k Hk) as [Y|Y]; [auto|rewrite Vo in Y by auto; auto]).
    split; [destruct (Sv a Ha) as [Y|Y]; [contradiction|rewrite Y; auto]|]. intros j Hj Hne. destruct (Sv j Hj) as [Y|Y]; auto. rewrite Y. auto.
Qed.
Lemma box_steps : forall n stencil, (forall s, In s stencil <-> length s = S n /\ (forall k, (k <= n)%nat -> -1 <= nth k s 0 <= 1) /\ exists k, (k <= n)%nat /\ nth k s 0 <> 0) -> step_stencil n stencil.
Proof.
  intros n stencil H. constructor; try (intros s Hs; apply H in Hs; apply Hs; fail).
  - intros s k Hs Hk. apply H in Hs as (_ & Hs & _). auto.
  - intros v e (Lv & a & Ha & Va & Vo) _. exists v. split; [|intros k Hk; auto]. apply H. split; auto. split; [|exists a; split; [auto|lia]].
    intros k Hk. destruct (Nat.eq_dec k a) as [->|Hne]; [lia|]. rewrite Vo by auto. lia.
  - intros s v e Hs (Lv & Sv) Nv _. exists v. split; [|intros k Hk; auto]. apply H in Hs as (_ & Us & _). apply H. split; auto. split; auto.
    intros k Hk. specialize (Us k Hk). destruct (Sv k Hk) as [-> | ->]; lia.
Qed.
Lemma diagonal_steps : forall n stencil, (forall s, In s stencil <-> signs n s) -> step_stencil n stencil.
Proof.
  intros n stencil H.
  assert (X : forall v e, signs n e -> (forall k, (k <= n)%nat -> -1 <= nth k v 0 <= 1) -> exists s, In s stencil /\ filled n v e s).
  { intros v e He Hv. set (s := map (fun k => if nth k v 0 =? 0 then nth k e 0 else nth k v 0) (seq 0 (S n))).
    assert (NS : forall k, (k <= n)%nat -> nth k s 0 = if nth k v 0 =? 0 then nth k e 0 else nth k v 0).
    { intros k Hk. unfold s. rewrite nth_indep with (d' := (fun k => if nth k v 0 =? 0 then nth k e 0 else nth k v 0) 0%nat) by (rewrite map_length, seq_length; lia).
      rewrite (map_nth (fun k => if nth k v 0 =? 0 then nth k e 0 else nth k v 0)), seq_nth by lia. auto. }
    exists s. split.
    - apply H. split; [unfold s; rewrite map_length, seq_length; auto|]. intros k Hk. rewrite NS by auto. specialize (Hv k Hk). pose proof (proj2 He k Hk). destruct (Z.eqb_spec (nth k v 0) 0); lia.
    - intros k Hk. rewrite NS by auto. destruct (Z.eqb_spec (nth k v 0) 0); auto. }
  constructor.
  - intros s Hs. apply H in Hs. apply Hs.
  - intros s k Hs Hk. apply H in Hs as (_ & Hs). specialize (Hs k Hk). lia.
  - intros s Hs. apply H in Hs as (_ & Hs). exists 0%nat. split; [lia|]. specialize (Hs 0%nat ltac:(lia)). lia.
  - intros v e (Lv & a & Ha & Va & Vo) He. apply X; auto. intros k Hk. destruct (Nat.eq_dec k a) as [->|Hne]; [lia|]. rewrite Vo by auto. lia.
  - intros s v e Hs (Lv & Sv) _ He. apply X; auto. intros k Hk. apply H in Hs as (_ & Hs). specialize (Hs k Hk). destruct (Sv k Hk) as [-> | ->]; lia.
Qed.
Lemma star_steps : step_stencil 1 star /\ step_stencil 1 diagonals.
Proof.
  assert (X : forall v : list Z, length v = 2%nat -> exists a b, v = [a; b]) by (intros [|a [|b [|c v]]] H; try discriminate; eauto). split.
  - apply axis_steps. intros s. split.
    + intros Hs. split; [|]; cbn [In star] in Hs; destruct Hs as [<-|[<-|[<-|[<-|[]]]]]; try reflexivity; [exists 0%nat|exists 0%nat|exists 1%nat|exists 1%nat];
        (split; [lia|split; [cbn; auto|intros [|[|k]] Hk Hne; cbn; lia]]).
    + intros (Lv & a & Ha & Va & Vo). destruct (X s Lv) as (x & y & ->). cbn [In star]. assert (a = 0 \/ a = 1)%nat as [-> | ->] by lia.
      * specialize (Vo 1%nat ltac:(lia) ltac:(lia)). cbn [nth] in *. subst y. destruct Va as [-> | ->]; auto.
      * specialize (Vo 0%nat ltac:(lia) ltac:(lia)). cbn [nth] in *. subst x. destruct Va as [-> | ->]; auto.
  - apply diagonal_steps. intros s. split.
    + intros Hs. split; cbn [In diagonals] in Hs; destruct Hs as [<-|[<-|[<-|[<-|[]]]]]; try reflexivity; intros [|[|k]] Hk; cbn; lia.
    + intros (Lv & Hv). destruct (X s Lv) as (x & y & ->). pose proof (Hv 0%nat ltac:(lia)) as [V0|V0]; pose proof (Hv 1%nat ltac:(lia)) as [V1|V1]; cbn [nth] in V0, V1; subst; cbn; auto.
Qed.

(** A mesh of the square [0, 1)^2 that is graded along the axes but not by the corners: one
    leaf of level 1, the rest on level 2 with one cell on level 3, which touches the leaf of
    level 1 by a corner. *)
Definition starTree : nat -> list lcl_call := fun l =>
  match l with
  | 1%nat => [AddI [0] (mk 0 1)]
  | 2%nat => [AddI [0] (mk 2 4); AddI [1] (mk 2 4); AddI [2] (mk 0 2); AddI [2] (mk 3 4); AddI [3] (mk 0 4)]
  | 3%nat => [AddI [4] (mk 4 6); AddI [5] (mk 4 6)]
  | _ => []
  end.
Definition starMesh : ca := client_ca 1 4 starTree true.
Lemma starMesh_wf : ca_wf 1 starMesh.
Proof.
  assert (G : good_hist 1 4 starTree).
  { intros l Hl. split; [|apply adds_filled]; destruct l as [|[|[|[|l]]]]; repeat constructor; simpl; lia. }
  destruct (ca_update_index_spec 1 (client_ca 1 4 starTree false) (raw_wf _ _ _ G)) as (cs & _ & W & _). exact W.
Qed.
Definition starDomain : lca := PropsOuter.box_domain 1 4 [0; 0] [1; 1].
Lemma starMesh_input : amr_sub_input 1 4 1 4 1 1 4 starDomain starMesh [0; 0] [1; 1].
Proof.
  eapply amr_sub_check with (M := 3%nat); [exact starMesh_wf|vm_compute; reflexivity|reflexivity|vm_compute; reflexivity|vm_compute; reflexivity|vm_compute; reflexivity|
    reflexivity|reflexivity|lia|lia|lia|vm_compute; reflexivity].
Qed.
Lemma starMesh_graded : graded_by 1 star starMesh /\ ~ graded_box 1 starMesh.
Proof.
  split; [eapply graded_by_check; [exact starMesh_wf|vm_compute; reflexivity|vm_compute; reflexivity]|].
  intros G. destruct (ca_for_each_cell_spec 1 starMesh starMesh_wf) as (cs & EC & [_ EN] & _).
  assert (X : option_map leaf_cells (ca_for_each_cell 1 starMesh) = Some [(1%nat, [0; 0]); (2%nat, [2; 0]); (2%nat, [3; 0]); (2%nat, [2; 1]); (2%nat, [3; 1]);
    (2%nat, [0; 2]); (2%nat, [1; 2]); (2%nat, [3; 2]); (2%nat, [0; 3]); (2%nat, [1; 3]); (2%nat, [2; 3]); (2%nat, [3; 3]);
    (3%nat, [4; 4]); (3%nat, [5; 4]); (3%nat, [4; 5]); (3%nat, [5; 5])]) by (vm_compute; reflexivity).
  rewrite EC in X. cbn [option_map] in X. injection X as X. rewrite X in EN.
  apply (G 1%nat 3%nat [0; 0] [4; 4] [-1; -1]); [apply EN; cbn; auto|apply EN; cbn; auto 20|lia| |reflexivity].
  intros [|[|k]] Hk; cbn; lia.
Qed.

(** The sub-meshes, the graduation and the new leaves, with the leaves numbered alone. *)
Definition graduate_amr (n m minl maxl : nat) (w s gw : Z) (stencil : list (list Z)) (domain : lca) (cells : ca) (t : tfield) : option ca :=
  let* r := amr_sub_mesh n m minl maxl w s domain cells in
  let* t' := graduation n maxl gw stencil cells (a_all r) t in
  let* cs := ca_for_each_cell n cells in
  update_cells n minl maxl cells (storage_of cs t').

(** The leaf (4, 4) of level 3 wants to be refined, all the others to be coarsened. The leaves
    of level 2 next to it are refined, and the leaf of level 1 next to those. *)
Definition starTags : tfield := fun l x yz => if negb (stored 1 starMesh l (x :: yz)) then 0 else if Nat.eqb l 3 && (x =? 4) && zlist_eqb yz [4] then 4 else 2.
(** All the leaves want to be coarsened: those of level 2 with a sibling of level 3 stay. *)
Definition starDown : tfield := fun l x yz => if stored 1 starMesh l (x :: yz) then 2 else 0.
Example C63_example :
  (exists r, amr_sub_mesh 1 4 1 4 1 1 starDomain starMesh = Some r /\ amr_input 1 4 1 4 1 star starMesh (a_all r) [0; 0] [1; 1]) /\
  option_map (leaf_list 1) (graduate_amr 1 4 1 4 1 1 1 star starDomain starMesh starTags) =
    Some (Some [(2%nat, [0; 0]); (2%nat, [1; 0]); (2%nat, [2; 0]); (2%nat, [3; 0]); (2%nat, [0; 1]); (2%nat, [1; 1]); (2%nat, [3; 1]);
      (2%nat, [0; 2]); (2%nat, [3; 2]); (2%nat, [0; 3]); (2%nat, [1; 3]); (2%nat, [2; 3]); (2%nat, [3; 3]);
      (3%nat, [4; 2]); (3%nat, [5; 2]); (3%nat, [4; 3]); (3%nat, [5; 3]); (3%nat, [2; 4]); (3%nat, [3; 4]); (3%nat, [5; 4]); (3%nat, [2; 5]); (3%nat, [3; 5]); (3%nat, [4; 5]); (3%nat, [5; 5]);
      (4%nat, [8; 8]); (4%nat, [9; 8]); (4%nat, [8; 9]); (4%nat, [9; 9])]) /\
  option_map (leaf_list 1) (graduate_amr 1 4 1 4 1 1 1 star starDomain starMesh starDown) =
    Some (Some [(1%nat, [0; 0]); (1%nat, [1; 0]); (1%nat, [0; 1]); (2%nat, [2; 2]); (2%nat, [3; 2]); (2%nat, [2; 3]); (2%nat, [3; 3])]).
Proof.
  split; [|split; vm_compute; reflexivity].
  destruct (C64_contents _ _ _ _ _ _ _ _ _ _ _ starMesh_input) as (r & E & _). exists r. split; auto.
  apply (C64_graduation _ _ _ _ _ _ _ _ _ _ _ _ 1 star starMesh_input E); [lia|apply starMesh_graded|apply star_steps|lia].
Qed.

(** The cells to project and to predict on level 2 and 3, and the reference on level 1 and 2. *)
Example C64_example :
  option_map (fun r => (map (fun l => for_each_interval 1 (c_at (a_proj r) l)) [1; 2; 3]%nat, map (fun l => for_each_interval 1 (c_at (a_pred r) l)) [1; 2; 3]%nat,
                        for_each_interval 1 (c_at (a_all r) 1), for_each_interval 1 (c_at (a_all r) 3))) (amr_sub_mesh 1 4 1 4 1 1 starDomain starMesh) =
  Some ([Some []; Some [(mk 2 4, [0]); (mk 2 4, [1]); (mk 0 4, [2]); (mk 0 4, [3])]; Some [(mk 4 6, [4]); (mk 4 6, [5])]],
        [Some []; Some [(mk 1 2, [0]); (mk 0 2, [1])]; Some [(mk 3 7, [3]); (mk 3 4, [4]); (mk 6 7, [4]); (mk 3 4, [5]); (mk 6 7, [5]); (mk 3 7, [6])]],
        Some [(mk (-1) 2, [-1]); (mk (-1) 2, [0]); (mk (-1) 2, [1])],
        Some [(mk 3 7, [3]); (mk 3 7, [4]); (mk 3 7, [5]); (mk 3 7, [6])]).
Proof. vm_compute. reflexivity. Qed.

(** The stencil of the diagonals grades by the faces too. *)
Lemma diagonals_graded : forall n stencil cells, (forall s, In s stencil <-> signs n s) -> (graded_by n stencil cells <-> graded_box n cells).
Proof.
  intros n stencil cells H. split.
  - intros G l l' p q v Hp Hq Hl Hv E. assert (Lq : length q = S n) by apply Hq.
    set (s := map (fun k => if nth k v 0 =? 0 then nth k (toward n q) 0 else nth k v 0) (seq 0 (S n))).
    assert (NS : forall k, (k <= n)%nat -> nth k s 0 = if nth k v 0 =? 0 then nth k (toward n q) 0 else nth k v 0).
    { intros k Hk. unfold s. rewrite nth_indep with (d' := (fun k => if nth k v 0 =? 0 then nth k (toward n q) 0 else nth k v 0) 0%nat) by (rewrite map_length, seq_length; lia).
      rewrite (map_nth (fun k => if nth k v 0 =? 0 then nth k (toward n q) 0 else nth k v 0)), seq_nth by lia. auto. }
    apply (G l l' p q s); auto.
    + apply H. split; [unfold s; rewrite map_length, seq_length; auto|]. intros k Hk. rewrite NS by auto. specialize (Hv k Hk).
      pose proof (proj2 (toward_signs n q) k Hk). destruct (Z.eqb_spec (nth k v 0) 0); lia.
    + assert (F : filled n v (toward n q) s) by (intros k Hk; rewrite NS by auto; destruct (Z.eqb_spec (nth k v 0) 0); auto).
      rewrite <- E. replace (l' - l)%nat with (l' - l - 1 + 1)%nat by lia. rewrite <- !ancestor_add, (filled_parent n q v s Lq F). auto.
  - intros G l l' p q s Hp Hq Hl Hs. apply G; auto. intros k Hk. apply H in Hs as (_ & Hs). specialize (Hs k Hk). lia.
Qed.
Lemma diagonals_signs : forall s, In s diagonals <-> signs 1 s.
Proof.
  intros s. split.
  - intros Hs. split; cbn [In diagonals] in Hs; destruct Hs as [<-|[<-|[<-|[<-|[]]]]]; try reflexivity; intros [|[|k]] Hk; cbn; lia.
  - intros (Lv & Hv). destruct s as [|x [|y [|z s]]]; try discriminate. pose proof (Hv 0%nat ltac:(lia)) as [V0|V0]; pose proof (Hv 1%nat ltac:(lia)) as [V1|V1]; cbn [nth] in V0, V1; subst; cbn; auto.
Qed.

(** The mesh of C54 with the stencil of the diagonals: the leaf (2, 2) of level 2 is refined
    and pulls the three leaves of level 1; with the star it pulls two of them. *)
Definition cornerTags : tfield := fun l x yz => if negb (stored 1 exMesh l (x :: yz)) then 0 else if Nat.eqb l 2 && (x =? 2) && zlist_eqb yz [2] then 4 else 1.
Lemma exMesh_input : amr_sub_input 1 4 1 4 1 1 4 starDomain exMesh [0; 0] [1; 1].
Proof.
  eapply amr_sub_check with (M := 3%nat); [exact exMesh_wf|vm_compute; reflexivity|reflexivity|vm_compute; reflexivity|vm_compute; reflexivity|vm_compute; reflexivity|
    reflexivity|reflexivity|lia|lia|lia|vm_compute; reflexivity].
Qed.
Example C63_diagonals :
  (exists r, amr_sub_mesh 1 4 1 4 1 1 starDomain exMesh = Some r /\ amr_input 1 4 1 4 1 diagonals exMesh (a_all r) [0; 0] [1; 1]) /\
  option_map (leaf_list 1) (graduate_amr 1 4 1 4 1 1 1 diagonals starDomain exMesh cornerTags) =
    Some (Some [(2%nat, [0; 0]); (2%nat, [1; 0]); (2%nat, [2; 0]); (2%nat, [3; 0]); (2%nat, [0; 1]); (2%nat, [1; 1]); (2%nat, [2; 1]); (2%nat, [3; 1]);
      (2%nat, [0; 2]); (2%nat, [1; 2]); (2%nat, [3; 2]); (2%nat, [0; 3]); (2%nat, [1; 3]); (2%nat, [2; 3]);
      (3%nat, [4; 4]); (3%nat, [5; 4]); (3%nat, [4; 5]); (3%nat, [5; 5]); (3%nat, [6; 6]); (3%nat, [7; 6]); (3%nat, [6; 7]); (3%nat, [7; 7])]) /\
  option_map (leaf_list 1) (graduate_amr 1 4 1 4 1 1 1 star starDomain exMesh cornerTags) =
    Some (Some [(1%nat, [0; 0]); (2%nat, [2; 0]); (2%nat, [3; 0]); (2%nat, [2; 1]); (2%nat, [3; 1]);
      (2%nat, [0; 2]); (2%nat, [1; 2]); (2%nat, [3; 2]); (2%nat, [0; 3]); (2%nat, [1; 3]); (2%nat, [2; 3]);
      (3%nat, [4; 4]); (3%nat, [5; 4]); (3%nat, [4; 5]); (3%nat, [5; 5]); (3%nat, [6; 6]); (3%nat, [7; 6]); (3%nat, [6; 7]); (3%nat, [7; 7])]).
Proof.
  split; [|split; vm_compute; reflexivity].
  destruct (C64_contents _ _ _ _ _ _ _ _ _ _ _ exMesh_input) as (r & E & _). exists r. split; auto.
  apply (C64_graduation _ _ _ _ _ _ _ _ _ _ _ _ 1 diagonals exMesh_input E); [lia| |apply star_steps|lia].
  apply diagonals_graded; [exact diagonals_signs|]. apply C54_hypotheses.
Qed.

(** Nothing in the code compares graduation_width with the width of the ghosts: a wider
    graduation writes tags of cells that are not stored. *)
Theorem C63_width_refuted : exists cells domain t r, amr_sub_input 1 4 1 4 1 1 4 domain cells [0; 0] [1; 1] /\ graded_by 1 star cells /\ step_stencil 1 star /\
  amr_sub_mesh 1 4 1 4 1 1 domain cells = Some r /\ (exists t', graduation 1 4 1 star cells (a_all r) t = Some t') /\ graduation 1 4 2 star cells (a_all r) t = None.
Proof.
  destruct (C64_contents _ _ _ _ _ _ _ _ _ _ _ starMesh_input) as (r & E & _). exists starMesh, starDomain, starTags, r.
  split; [exact starMesh_input|]. split; [apply starMesh_graded|]. split; [apply star_steps|]. split; auto. split.
  - destruct (C63_closure _ _ _ _ _ _ _ _ _ _ starTags (C64_graduation _ _ _ _ _ _ _ _ _ _ _ _ 1 star starMesh_input E ltac:(lia) (proj1 starMesh_graded) (proj1 star_steps) ltac:(lia))) as (t' & Et & _). eauto.
  - assert (X : match amr_sub_mesh 1 4 1 4 1 1 starDomain starMesh with Some r => graduation 1 4 2 star starMesh (a_all r) starTags | None => Some starTags end = None) by (vm_compute; reflexivity).
    rewrite E in X. exact X.
Qed.

Print Assumptions C63_closure.
Print Assumptions C63_new_mesh.
Print Assumptions C63_width_refuted.
Print Assumptions C64_contents.
Print Assumptions C64_closed.
Print Assumptions C64_graduation.
Print Assumptions C64_level_zero_refuted.
