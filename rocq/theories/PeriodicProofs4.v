(** Proofs about the update of the ghosts with periodic directions. *)
From Coq Require Import QArith.
From Verif Require Import Base IntervalModel Spec IntervalProofs LoiModel LcaModel LcaSpec InitProofs LcaProofs LcaProofs2 LcaProofs3 RowsProofs CellArrayModel CellArrayProofs PropsLca PropsCellArray
  SubsetModel TreeProofs SubsetSpec SubsetProofs2 PropsSubset StencilModel NumberingProofs StencilProofs PropsStencil MeshModel MeshProofs
  NumModel NumProofs NumSpec PropsNum AdaptModel AdaptProofs TagProofs PropsAdapt TransferProofs PropsTransfer GradModel GradProofs PropsGrad InterfaceModel PropsInterface MrModel MrProofs PropsMr
  GhostModel GhostProofs PropsGhost BcProofs HartenModel HartenProofs HartenProofs2 PeriodicModel PeriodicProofs PropsPeriodic PeriodicProofs2 PropsMesh PropsPeriodic2 PeriodicProofs3.
Open Scope Z_scope.

(** ** The prediction stencils *)

Lemma periodic_stencils : forall n m minl maxl w s periodic domain L cells lo hi,
  periodic_mesh n m minl maxl w s domain L lo hi cells -> tiles n cells lo hi -> graded_periodic n periodic lo hi cells -> 0 <= s <= w -> 1 <= w <= 2 ->
  forall l g, pwanted n minl w s periodic lo hi cells l g -> inside n lo hi l g -> ~ ca_mem n cells l g -> ~ split_at n cells l g ->
    (minl < l)%nat /\ ca_mem n cells (l - 1) (ancestor 1 g) /\
    forall p, length p = S n -> near n s p (ancestor 1 g) -> pwanted n minl w s periodic lo hi cells (l - 1) p.
Proof.
  intros n m minl maxl w s periodic domain L cells lo hi HM HT HG Hs Hw l g Hg HI N1 N2.
  pose proof HM as (Hin & (_ & _ & HLH & _) & _). pose proof Hin as (_ & _ & _ & _ & _ & _ & HR & _).
  assert (K : (1 <= l)%nat /\ ca_mem n cells (l - 1) (ancestor 1 g)).
  { destruct Hg as [l g X|l g Lg _ X].
    2:{ exfalso. assert (Hl' : (Nat.pred minl <= l)%nat) by apply X. apply refined_split in X; auto.
        destruct (child_split n minl maxl cells lo hi HT HR l g X Lg); contradiction. }
    destruct (pb_same n minl w s periodic lo hi cells l g X) as (q & B & SI).
    assert (Lq : length q = S n) by apply SI. assert (Lg : length g = S n) by apply SI.
    (* a cell moved with [q] to [g] *)
    assert (MV : forall c, length c = S n -> exists c', same_image n (fun k => nth k periodic false) (scaled lo l) (scaled hi l) c c' /\
      forall k, (k <= n)%nat -> nth k g 0 - nth k c' 0 = nth k q 0 - nth k c 0).
    { intros c Lc. exists (map (fun k => nth k c 0 + (nth k g 0 - nth k q 0)) (seq 0 (Datatypes.S n))).
      assert (NC : forall k, (k <= n)%nat -> nth k (map (fun k => nth k c 0 + (nth k g 0 - nth k q 0)) (seq 0 (Datatypes.S n))) 0 = nth k c 0 + (nth k g 0 - nth k q 0)).
      { intros k Hk. apply (nth_map_seq (Datatypes.S n)). lia. }
      split; [|intros k Hk; rewrite NC by auto; lia]. split; auto. split; [rewrite map_length, seq_length; auto|]. intros k Hk. destruct SI as (_ & _ & SI).
      destruct (SI k Hk) as (z & E & Hz). exists z. split; auto. rewrite NC by auto. lia. }
    destruct B as (_ & [(_ & c & Hc & NC)|[(h & (Lh & c & Hc & NC) & _ & NH)|(c & Hc & NC)]]).
    - destruct (MV c) as (c' & Sc & Ec); [apply Hc|].
      apply (repeated_near n minl maxl periodic cells lo hi HLH HT HR HG l c'); auto.
      + left. eapply rleaf_moved; eauto.
      + left. intros k Hk. specialize (NC k Hk). rewrite Ec by auto. lia.
    - destruct (MV (ancestor 1 c)) as (c' & Sc & Ec); [rewrite ancestor_length; apply Hc|].
      assert (SP : esplit (rleaf n periodic cells lo hi) l c').
      { eapply (rsplit_moved n minl maxl periodic cells lo hi HLH HT HR); [|exact Sc]. exists (Datatypes.S l), c. split; [lia|]. split; auto. f_equal. lia. }
      apply (repeated_near n minl maxl periodic cells lo hi HLH HT HR HG l c'); auto.
      right. split; auto. intros k Hk. rewrite Ec by auto. specialize (NC k Hk). specialize (NH k Hk). rewrite !nth_ancestor in *. change (2 ^ Z.of_nat 1) with 2 in *.
      pose proof (Z.div_mod (nth k h 0) 2 ltac:(lia)). pose proof (Z.mod_pos_bound (nth k h 0) 2 ltac:(lia)).
      pose proof (Z.div_mod (nth k c 0) 2 ltac:(lia)). pose proof (Z.mod_pos_bound (nth k c 0) 2 ltac:(lia)). lia.
    - destruct (MV (ancestor 2 c)) as (c' & Sc & Ec); [rewrite ancestor_length; apply Hc|].
      assert (SP : esplit (rleaf n periodic cells lo hi) l c').
      { eapply (rsplit_moved n minl maxl periodic cells lo hi HLH HT HR); [|exact Sc]. exists (Datatypes.S (Datatypes.S l)), c. split; [lia|]. split; auto. f_equal. lia. }
      apply (repeated_near n minl maxl periodic cells lo hi HLH HT HR HG l c'); auto.
      right. split; auto. intros k Hk. rewrite Ec by auto. specialize (NC k Hk). lia. }
  destruct K as [Hl HP]. pose proof (HR _ _ HP) as Hr. split; [lia|]. split; auto. intros p Lp NP.
  apply grown_base. apply images_of_incl. split; auto. left. split; auto. exists (ancestor 1 g). split; auto. intros k Hk. specialize (NP k Hk). lia.
Qed.

(** ** The loops *)
Section Loops.
  Variables (n order m minl maxl : nat) (cells : ca) (r : mr_mesh) (sub : lca) (per bc : nat -> lfield -> option lfield) (dom : nat -> list Z -> Prop).
  Notation all l p := (lca_mem n (c_at (r_all r) l) p).
  Notation proj l p := (lca_mem n (c_at (r_proj r) l) p).
  Notation leaf l p := (lca_mem n (c_at cells l) p).
  Notation lmin := (min_level (r_all r)).
  Notation lmax := (max_level (r_all r)).

  Hypothesis dim : (n <= 2)%nat.
  Hypothesis top : (maxl <= m)%nat.
  Hypothesis wfs : forall c l, c = cells \/ c = r_proj r \/ c = r_all r -> (l <= m)%nat -> wf n (c_at c l) /\ a_level (c_at c l) = l.
  Hypothesis wf_sub : wf n sub /\ a_level sub = maxl /\ below_max n sub.
  Hypothesis proj_all : forall l p, (l <= m)%nat -> proj l p -> all l p.
  Hypothesis leaf_all : forall l p, (l <= m)%nat -> leaf l p -> all l p.
  Hypothesis all_small : forall l p k, (l <= m)%nat -> all l p -> (k <= n)%nat -> 2 * (nth k p 0 + 3) < 2 ^ 31 - 1 /\ nth k p 0 + 3 < 2 ^ 31 - 1.
  Hypothesis proj_kids : forall l p, (S l <= m)%nat -> length p = S n -> proj l (ancestor 1 p) -> all (S l) p.
  Hypothesis sub_dom : forall l p, (l <= maxl)%nat -> length p = S n -> (denotes n l p (NMesh sub) <-> dom l p).
  Hypothesis levels : (lmin <= lmax <= maxl)%nat.
  Notation topred := (topredict n cells r dom).
  Hypothesis HS : forall l, (lmin < l <= lmax)%nat -> stencil_at n order cells r dom l.
  Hypothesis split_dom : forall l p, (lmin <= l < lmax)%nat -> length p = S n -> proj l (ancestor 1 p) -> dom (S l) p /\ ~ topred (S l) p.
  Hypothesis proj_dom : forall l p, (l <= m)%nat -> proj l p -> dom l p /\ (lmin <= l < lmax)%nat.

  (** A step on the ghosts of one level. *)
  Definition step_outside (f : nat -> lfield -> option lfield) : Prop := forall l u, (Nat.pred lmin <= l <= maxl)%nat -> exists v, f l u = Some v /\ (forall k, k <> l -> v k = u k) /\
    forall x y, dom l (x :: y) \/ (length y = n /\ ~ all l (x :: y)) -> v l x y = u l x y.
  Hypothesis HP : step_outside per.
  Hypothesis HB : step_outside bc.

  Definition done (f : nat -> lfield -> option lfield) (l : nat) (a b : field) : Prop := exists u v, f l u = Some v /\ u l = a /\ v l = b.
  Lemma done_same : forall f l a b x y, step_outside f -> (Nat.pred lmin <= l <= maxl)%nat -> done f l a b -> dom l (x :: y) \/ (length y = n /\ ~ all l (x :: y)) -> b x y = a x y.
  Proof. intros f l a b x y Hf Hl (u & v & E & <- & <-) H. destruct (Hf l u Hl) as (v' & E' & _ & S). rewrite E in E'. injection E' as <-. auto. Qed.
  Lemma step_done : forall f l u, step_outside f -> (Nat.pred lmin <= l <= maxl)%nat -> exists v, f l u = Some v /\ (forall k, k <> l -> v k = u k) /\ done f l (u l) (v l).
  Proof. intros f l u Hf Hl. destruct (Hf l u Hl) as (v & E & F & _). exists v. split; auto. split; auto. exists u, v. auto. Qed.

  (** The first loop, with the copies before each projection. *)
  Lemma periodic_projection_loop : forall c a v, (lmin <= a)%nat -> (a + c <= lmax)%nat -> exists v',
    fold_levels (fun v level => let* v := per level v in projection_step n r v level) (rev (seq (S a) c)) v = Some v' /\
    (forall l, (l < a \/ a + c < l)%nat -> v' l = v l) /\
    (forall l x y, (a <= l <= a + c)%nat -> ((a + c <= l)%nat \/ ~ proj l (x :: y)) -> dom l (x :: y) \/ (length y = n /\ ~ all l (x :: y)) -> v' l x y = v l x y) /\
    forall l x y, (a <= l < a + c)%nat -> proj l (x :: y) -> is_mean (v' (S l)) x y (v' l x y).
  Proof.
    induction c as [|c IH]; intros a v Ha Hc.
    - exists v. split; auto. split; auto. split; auto. intros; lia.
    - rewrite seq_S, rev_app_distr. cbn [rev app fold_levels]. replace (S a + c)%nat with (S (a + c)) by lia.
      destruct (HP (S (a + c)) v) as (v0 & E0 & F0 & S0); [lia|]. rewrite E0.
      destruct (projection_step_spec n m maxl cells r sub bc dom dim top wfs wf_sub proj_all leaf_all all_small proj_kids sub_dom v0 (a + c)) as (v1 & E1 & F1 & P1); [lia|]. rewrite E1.
      destruct (IH a v1) as (v2 & E2 & F2 & G2 & P2); [lia|lia|]. exists v2. split; auto. split; [|split].
      + intros l Hl. rewrite F2, F1, F0 by lia. auto.
      + intros l x y Hl Hp Hd. destruct (Nat.eq_dec l (S (a + c))) as [->|Hne].
        * rewrite F2, F1 by lia. apply S0. auto.
        * destruct Hp as [Hp|Hp]; [lia|]. rewrite G2 by (auto; lia). destruct (Nat.eq_dec l (a + c)) as [->|Hne2].
          -- destruct (P1 x y) as [[X _]|[_ X]]; [contradiction|]. rewrite X. rewrite F0 by lia. auto.
          -- rewrite F1, F0 by lia. auto.
      + intros l x y Hl Hp. destruct (Nat.eq_dec l (a + c)) as [->|Hne]; [|apply P2; auto; lia].
        destruct (P1 x y) as [[_ X]|[X _]]; [|contradiction]. assert (Lp : length (x :: y) = S n) by apply Hp.
        destruct (proj_dom (a + c) (x :: y)) as [D1 D2]; [lia|auto|].
        replace (v2 (a + c)%nat x y) with (v1 (a + c)%nat x y).
        2:{ destruct c as [|c]; [rewrite Nat.add_0_r in *; rewrite G2; auto; lia|]. symmetry. apply G2; auto; lia. }
        rewrite F2, F1 by lia. exact X.
  Qed.

  (** The second loop: on each level the prediction, the copies, the conditions. *)
  Lemma periodic_prediction_loop : forall c a v, (lmin <= a)%nat -> (a + c <= lmax)%nat -> exists v',
    fold_levels (fun v level =>
      let* v := apply_op n level (predicted_set cells r sub level) (prediction_ghost n order (r_all r) level (v (Nat.pred level))) v in
      let* v := per level v in
      bc level v) (seq (S a) c) v = Some v' /\
    (forall l, (l <= a \/ a + c < l)%nat -> v' l = v l) /\
    forall l, (a < l <= a + c)%nat -> exists mid mid2, done per l mid mid2 /\ done bc l mid2 (v' l) /\
      forall x y, (topred l (x :: y) /\ is_predicted order (v' (Nat.pred l)) x y (mid x y)) \/ (~ topred l (x :: y) /\ mid x y = v l x y).
  Proof.
    induction c as [|c IH]; intros a v Ha Hc.
    - exists v. split; auto. split; auto. intros; lia.
    - rewrite seq_S, fold_levels_app. destruct (IH a v) as (v1 & E1 & F1 & P1); [lia|lia|]. rewrite E1.
      replace (S a + c)%nat with (S (a + c)) by lia. cbn [fold_levels].
      destruct (predict_spec n order m maxl cells r sub bc dom dim top wfs wf_sub proj_all leaf_all all_small proj_kids sub_dom v1 (S (a + c))) as (v2 & E2 & F2 & P2); [lia|apply HS; lia|]. rewrite E2.
      destruct (step_done per (S (a + c)) v2 HP) as (v3 & E3 & F3 & B3); [lia|]. rewrite E3.
      destruct (step_done bc (S (a + c)) v3 HB) as (v4 & E4 & F4 & B4); [lia|]. rewrite E4.
      exists v4. split; auto. split.
      + intros l Hl. rewrite F4, F3, F2, F1 by lia. auto.
      + intros l Hl. destruct (Nat.eq_dec l (S (a + c))) as [->|Hne].
        * exists (v2 (S (a + c))), (v3 (S (a + c))). split; auto. split; auto. intros x y. cbn [Nat.pred] in *. rewrite (F4 (a + c)%nat), (F3 (a + c)%nat), (F2 (a + c)%nat) by lia.
          rewrite <- (F1 (S (a + c))) by lia. apply P2.
        * destruct (P1 l) as (mid & mid2 & H1 & H2 & H3); [lia|]. exists mid, mid2. rewrite (F4 l), (F3 l), (F2 l), (F4 (Nat.pred l)), (F3 (Nat.pred l)), (F2 (Nat.pred l)) by lia. auto.
  Qed.

  Lemma periodic_update_spec : forall u, exists v, update_ghost_mr_periodic n order per bc cells r sub u = Some v /\
    (forall l x y, (l <= m)%nat -> proj l (x :: y) -> is_mean (v (S l)) x y (v l x y)) /\
    (forall l x y, (lmin < l <= lmax)%nat -> topred l (x :: y) -> is_predicted order (v (Nat.pred l)) x y (v l x y)) /\
    (forall l x y, dom l (x :: y) -> ~ proj l (x :: y) -> ~ ((lmin < l <= lmax)%nat /\ topred l (x :: y)) -> v l x y = u l x y) /\
    (forall l x y, (lmax < l)%nat \/ (length y = n /\ ~ all l (x :: y)) -> v l x y = u l x y) /\
    (exists before mid, done bc lmin before mid /\ done per lmin mid (v lmin) /\ forall x y, dom lmin (x :: y) -> before x y = v lmin x y) /\
    (forall l, (lmin < l <= lmax)%nat -> exists before mid, done per l before mid /\ done bc l mid (v l) /\ forall x y, dom l (x :: y) -> before x y = v l x y).
  Proof.
    intros u. unfold update_ghost_mr_periodic. cbv zeta.
    destruct (periodic_projection_loop (lmax - lmin) lmin u) as (v1 & E1 & F1 & G1 & P1); [lia|lia|]. rewrite E1. replace (lmin + (lmax - lmin))%nat with lmax in * by lia.
    assert (X2 : exists v2, (if Nat.ltb 0 lmin && negb (Nat.eqb lmin lmax) then let* v := bc (Nat.pred lmin) v1 in per (Nat.pred lmin) v else Some v1) = Some v2 /\
      (forall k, (k + 1)%nat <> lmin -> v2 k = v1 k) /\ forall l x y, dom l (x :: y) \/ (length y = n /\ ~ all l (x :: y)) -> v2 l x y = v1 l x y).
    { destruct (Nat.ltb 0 lmin && negb (Nat.eqb lmin lmax)) eqn:Ec; [|exists v1; auto].
      apply andb_prop in Ec as [Ec _]. apply Nat.ltb_lt in Ec. destruct (HB (Nat.pred lmin) v1) as (v1' & E1' & F1' & S1'); [lia|]. rewrite E1'.
      destruct (HP (Nat.pred lmin) v1') as (v2 & E2 & F2 & S2); [lia|].
      exists v2. split; auto. split; [intros k Hk; rewrite F2, F1' by lia; auto|]. intros l x y H.
      destruct (Nat.eq_dec l (Nat.pred lmin)) as [->|Hne]; [rewrite S2, S1'; auto|rewrite F2, F1'; auto]. }
    destruct X2 as (v2 & E2 & F2 & S2). rewrite E2.
    destruct (step_done bc lmin v2 HB) as (v2' & E2' & F2' & B2'); [lia|]. rewrite E2'.
    destruct (step_done per lmin v2' HP) as (v3 & E3 & F3 & B3); [lia|]. rewrite E3.
    destruct (periodic_prediction_loop (lmax - lmin) lmin v3) as (v & E & F & P); [lia|lia|]. replace (lmin + (lmax - lmin))%nat with lmax in * by lia.
    exists v. split; auto.
    assert (G3 : forall l x y, dom l (x :: y) \/ (length y = n /\ ~ all l (x :: y)) -> v3 l x y = v1 l x y).
    { intros l x y H. rewrite <- S2 by auto. destruct (Nat.eq_dec l lmin) as [->|Hne]; [|rewrite F3, F2'; auto].
      rewrite (done_same per lmin _ _ x y HP ltac:(lia) B3) by auto. apply (done_same bc lmin _ _ x y HB ltac:(lia) B2'). auto. }
    assert (G : forall l x y, dom l (x :: y) \/ (length y = n /\ ~ all l (x :: y)) -> ~ ((lmin < l <= lmax)%nat /\ topred l (x :: y)) -> v l x y = v1 l x y).
    { intros l x y H Ht. rewrite <- G3 by auto. destruct (Nat.le_gt_cases l lmin) as [Hle|Hgt]; [rewrite F by lia; auto|].
      destruct (Nat.le_gt_cases l lmax) as [Hle2|Hgt2]; [|rewrite F by lia; auto].
      destruct (P l) as (mid & mid2 & H1 & H2 & H3); [lia|]. rewrite (done_same bc l mid2 _ x y HB) by (auto; lia). rewrite (done_same per l mid _ x y HP) by (auto; lia).
      destruct (H3 x y) as [[H4 _]|[_ H4]]; auto. exfalso. apply Ht. split; auto; lia. }
    assert (U1 : forall l x y, dom l (x :: y) \/ (length y = n /\ ~ all l (x :: y)) -> ~ proj l (x :: y) -> v1 l x y = u l x y).
    { intros l x y Hd Hp. destruct (Nat.le_gt_cases lmin l) as [Hle|Hgt]; [|rewrite F1 by lia; auto].
      destruct (Nat.le_gt_cases l lmax) as [Hle2|Hgt2]; [|rewrite F1 by lia; auto]. apply G1; auto. }
    split; [|split; [|split; [|split; [|split]]]].
    - intros l x y Hl Hp. destruct (proj_dom l (x :: y) Hl Hp) as [Hd Hl2].
      assert (Lp : length (x :: y) = S n) by apply Hp. pose proof (P1 l x y Hl2 Hp) as Hm.
      rewrite (G l x y); auto; [|intros (_ & _ & _ & Hn & _); auto].
      eapply is_mean_same; [|exact Hm]. intros cx cy Hc. apply children_In in Hc as (Ec & Lc & Ac).
      destruct (split_dom l (cx :: cy)) as [D1 D2]; auto; [cbn in *; lia| |].
      + rewrite ancestor_cons. change (2 ^ Z.of_nat 1) with 2. rewrite Ec, Ac. auto.
      + symmetry. apply G; auto. intros [_ Ht]; auto.
    - intros l x y Hl Ht. destruct (P l) as (mid & mid2 & H1 & H2 & H3); [lia|].
      rewrite (done_same bc l mid2 _ x y HB), (done_same per l mid _ x y HP) by (auto; try lia; left; apply Ht).
      destruct (H3 x y) as [[_ H4]|[H4 _]]; auto. contradiction.
    - intros l x y Hd Hp Ht. rewrite G by auto. apply U1; auto.
    - intros l x y Ha. destruct (Nat.le_gt_cases l lmax) as [Hl|Hl].
      + destruct Ha as [Ha|[Ly Ha]]; [lia|]. rewrite G; auto; [|intros [_ Ht]; apply Ha; apply Ht]. apply U1; auto. intros X. apply Ha. apply proj_all; auto. lia.
      + rewrite F, F3, F2', F2, F1 by lia. auto.
    - exists (v2 lmin), (v2' lmin). split; auto. split; [rewrite F by lia; auto|]. intros x y Hd. rewrite F by lia.
      rewrite (done_same per lmin _ _ x y HP ltac:(lia) B3) by auto. symmetry. apply (done_same bc lmin _ _ x y HB ltac:(lia) B2'). auto.
    - intros l Hl. destruct (P l) as (mid & mid2 & H1 & H2 & _); [lia|]. exists mid, mid2. split; auto. split; auto. intros x y Hd.
      rewrite (done_same bc l mid2 _ x y HB ltac:(lia) H2) by auto. symmetry. apply (done_same per l mid _ x y HP ltac:(lia) H1). auto.
  Qed.
End Loops.
