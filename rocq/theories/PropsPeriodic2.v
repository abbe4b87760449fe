(** Property C70: the ghosts of the periodic directions in the mesh. *)
From Coq Require Import QArith.
From Verif Require Import Base IntervalModel Spec IntervalProofs LoiModel LcaModel LcaSpec InitProofs LcaProofs LcaProofs2 LcaProofs3 RowsProofs CellArrayModel CellArrayProofs PropsLca PropsCellArray
  SubsetModel TreeProofs SubsetSpec SubsetProofs2 PropsSubset StencilModel NumberingProofs StencilProofs PropsStencil MeshModel MeshProofs
  NumModel NumProofs NumSpec PropsNum AdaptModel AdaptProofs TagProofs PropsAdapt TransferProofs PropsTransfer GradModel GradProofs PropsGrad InterfaceModel PropsInterface MrModel MrProofs PropsMr
  GhostModel GhostProofs PropsGhost BcProofs HartenModel HartenProofs HartenProofs2 PeriodicModel PeriodicProofs PropsPeriodic PeriodicProofs2 PropsMesh.
Open Scope Z_scope.

(** ** Words of the statements *)

(** The cells wanted on a level for the leaves alone, with their images in the periodic
    directions, one direction after the other. *)
Definition periodic_base (n minl : nat) (w s : Z) (periodic : list bool) (lo hi : list Z) (cells : ca) (l : nat) : list Z -> Prop :=
  images_of n periodic (scaled lo l) (scaled hi l) (Z.max w s) (seq 0 (S n)) (base n minl w s cells l).
(** These cells, and the children of the stored cells that contain finer leaves. *)
Notation pwanted n minl w s periodic lo hi cells := (grown_from n minl cells (periodic_base n minl w s periodic lo hi cells)).

Definition periodic_mesh (n m minl maxl : nat) (w s : Z) (domain : lca) (L : nat) (lo hi : list Z) (cells : ca) : Prop :=
  mr_input n m minl maxl w s cells /\ domain_box n domain L lo hi /\ (maxl <= L)%nat /\ 1 <= Z.max w s /\
  forall l k, (l <= maxl)%nat -> (k <= n)%nat -> nth k hi 0 * 2 ^ Z.of_nat l + Z.max w s + 3 < 2 ^ 31 - 1.

Section Contents.
  Variables (n m minl maxl : nat) (w s : Z) (periodic : list bool) (domain : lca) (L : nat) (lo hi : list Z) (cells : ca).
  Hypothesis H : periodic_mesh n m minl maxl w s domain L lo hi cells.
  Notation pb := (periodic_base n minl w s periodic lo hi cells).
  Notation pw := (pwanted n minl w s periodic lo hi cells).
  Notation gw := (Z.max w s).

  Lemma seq_dims : forall d, In d (seq 0 (S n)) -> (d <= n)%nat.
  Proof. intros d X. apply in_seq in X. lia. Qed.
  Lemma base_length : forall l p, base n minl w s cells l p -> length p = S n.
  Proof. intros l p X. apply X. Qed.
  Lemma base_level : forall l p, base n minl w s cells l p -> (l <= maxl)%nat.
  Proof.
    pose proof (in_range n m minl maxl w s cells (proj1 H)) as HR. intros l p (_ & [(_ & q & X & _)|[(h & (_ & q & X & _) & _)|(q & X & _)]]); apply HR in X; lia.
  Qed.
  Lemma pb_same : forall l p, pb l p -> exists q, base n minl w s cells l q /\ same_image n (fun k => nth k periodic false) (scaled lo l) (scaled hi l) q p.
  Proof. intros l p X. eapply images_of_same; [apply seq_dims|apply base_length|exact X]. Qed.
  Lemma pb_length : forall l p, pb l p -> length p = S n.
  Proof. intros l p X. destruct (pb_same l p X) as (q & _ & _ & Y & _). auto. Qed.
  Lemma pb_level : forall l p, pb l p -> (l <= maxl)%nat.
  Proof. intros l p X. destruct (pb_same l p X) as (q & Y & _). eapply base_level; eauto. Qed.

  Lemma images_bound : forall l ds (A : list Z -> Prop), (l <= maxl)%nat -> (forall d, In d ds -> (d <= n)%nat) -> (forall p k, A p -> (k <= n)%nat -> nth k p 0 + 3 < 2 ^ 31 - 1) ->
    forall p k, images_of n periodic (scaled lo l) (scaled hi l) gw ds A p -> (k <= n)%nat -> nth k p 0 + 3 < 2 ^ 31 - 1.
  Proof.
    destruct H as (_ & (_ & _ & HL & _) & _ & HG & HB). intros l ds. induction ds as [|d ds IH]; intros A Hl Hd HA p k X Hk; cbn [images_of] in X; [eapply HA; eauto|].
    assert (D : (d <= n)%nat) by (apply Hd; left; auto). refine (IH _ Hl _ _ p k X Hk); [intros; apply Hd; right; auto|].
    intros q j. destruct (nth d periodic false); [|apply HA]. intros [Y|(r & Y & (_ & Y1 & Y2))] Hj; [apply HA; auto|].
    rewrite !nth_scaled in Y2. pose proof (HB l d Hl D). pose proof (HL d D). assert (P : 0 < 2 ^ Z.of_nat l) by (apply Z.pow_pos_nonneg; lia). pose proof (HA r j Y Hj).
    destruct (Nat.eq_dec j d) as [->|Hjd]; [|destruct (Y1 j Hj Hjd) as [-> _]; auto].
    assert (0 < nth d hi 0 * 2 ^ Z.of_nat l - nth d lo 0 * 2 ^ Z.of_nat l) by nia. lia.
  Qed.
  Lemma base_bound : forall l p k, base n minl w s cells l p -> (k <= n)%nat -> nth k p 0 + 3 < 2 ^ 31 - 1.
  Proof. intros l p k X Hk. eapply (wanted_bound n m minl maxl w s cells (proj1 H)); eauto. apply base_wanted. eauto. Qed.
  Lemma pb_bound : forall l p k, pb l p -> (k <= n)%nat -> nth k p 0 + 3 < 2 ^ 31 - 1.
  Proof. intros l p k X Hk. eapply images_bound; [apply (pb_level l p X)|apply seq_dims| |exact X|auto]. intros q j Y Hj. eapply base_bound; eauto. Qed.

  Lemma refined_level : forall l p, refined n minl cells l p -> (l < maxl)%nat.
  Proof. pose proof (in_range n m minl maxl w s cells (proj1 H)) as HR. intros l p (_ & l' & q & Hl & X & _). apply HR in X. lia. Qed.

  Lemma pw_level : forall l p, pw l p -> (l <= maxl)%nat.
  Proof. intros l p [? ? X|? ? _ _ X]; [eapply pb_level; eauto|apply refined_level in X; lia]. Qed.

  (** With periodic directions, the cells of the reference are exactly those of the
      definition, and the cells to project those of them that contain finer leaves. *)
  Theorem C70_contents : exists r, update_sub_mesh_periodic n m minl maxl w s periodic domain cells = Some r /\
    (forall c, c = r_ghosts r \/ c = r_proj r \/ c = r_all r ->
       ca_wf n c /\ c_max c = m /\ forall l, (l <= m)%nat -> a_level (c_at c l) = l) /\
    (forall l p, ca_mem n (r_ghosts r) l p <-> margin n w cells l p) /\
    (maxl <> minl -> forall l p,
       (ca_mem n (r_all r) l p <-> pw l p) /\ (ca_mem n (r_proj r) l p <-> pw l p /\ refined n minl cells l p)) /\
    (maxl = minl -> forall l p, (ca_mem n (r_all r) l p <-> margin n w cells l p) /\ ~ ca_mem n (r_proj r) l p).
  Proof.
    pose proof H as (HI & HD & HT & HG & HBD). pose proof HI as (HW & Hm & Hmm & HL & Hw & Hs & HR & HB).
    unfold update_sub_mesh_periodic. destruct (ca_calls_spec n cells HW) as (calls & E & V & M). rewrite E.
    destruct (add_ghosts_spec n w calls (fun _ => []) Hw V) as [G1 G2]; [intros l; apply calls_ok_nil|].
    set (cl0 := add_ghosts n w calls (fun _ => [])) in *.
    assert (G3 : forall l p, length p = S n -> (adds (cl0 l) p <-> margin n w cells l p)).
    { intros l p Hp. rewrite G2 by auto. split.
      - intros [A|(i & yz & x & Hin & Hx & HN)]; [destruct (adds_nil p A)|]. split; auto. exists (x :: yz). split; auto. apply M. eauto.
      - intros (_ & q & Hq & HN). right. destruct q as [|x yz]; [destruct Hq as [_ [Hq _]]; discriminate|].
        apply M in Hq as (i & Hin & Hx). eauto 6. }
    assert (LV : forall l q, ca_mem n cells l q -> (min_level cells <= l <= max_level cells)%nat /\ (l <= maxl)%nat).
    { intros l q Hq. split; [apply (leaf_levels n m minl maxl w s cells HI l q Hq)|apply (HR l q Hq)]. }
    assert (GG : forall l, wf n (client_lca n l (cl0 l)) /\ a_level (client_lca n l (cl0 l)) = l /\
       forall p, lca_mem n (client_lca n l (cl0 l)) p <-> margin n w cells l p).
    { intros l. destruct (list_lca n cl0 l G1) as (A1 & A2 & A3). split; auto. split; auto. intros p. rewrite A3.
      split; [intros [Hp A]; apply G3; auto|intros A; assert (Hp : length p = S n) by apply A; split; auto; apply G3; auto]. }
    set (ghosts := ca_of_cl n m (cl_run n cl0) false).
    assert (GW : ca_wf n ghosts /\ c_max ghosts = m /\ forall l, (l <= m)%nat -> a_level (c_at ghosts l) = l).
    { split; [intros l Hl; apply (GG l)|]. split; [reflexivity|]. intros l Hl. apply (GG l). }
    assert (ML : forall l p, margin n w cells l p -> (l <= m)%nat) by (intros l p (_ & q & Hq & _); apply HR in Hq; lia).
    assert (GM : forall l p, ca_mem n ghosts l p <-> margin n w cells l p).
    { intros l p. unfold ca_mem. change (c_at ghosts l) with (client_lca n l (cl0 l)). change (c_max ghosts) with m.
      rewrite (proj2 (proj2 (GG l))). split; [tauto|intros A; split; eauto]. }
    assert (EM : forall l, wf n (lca_empty l) /\ a_level (lca_empty l) = l /\ forall p, ~ lca_mem n (lca_empty l) p).
    { intros l. assert (N : lca_no_cells n (lca_empty l)) by (split; auto). split; [left; auto|]. split; auto.
      intros p. apply no_cells_mem. auto. }
    destruct (Nat.eqb_spec maxl minl) as [Heq|Hne].
    - eexists. split; [reflexivity|]. cbn [r_ghosts r_proj r_all]. split; [|split; [exact GM|split; [contradiction|]]].
      + intros c [->|[->| ->]]; auto. split; [intros l Hl; apply (EM l)|]. split; [reflexivity|]. intros l Hl. apply (EM l).
      + intros _ l p. split; [apply GM|]. intros [_ A]. apply (EM l) in A. auto.
    - destruct (C25_union n minl maxl cells) as (u & EU & HU & MU).
      { intros l Hl. split; [apply HW; lia|apply HL; lia]. }
      { intros l q k Hl Hq Hk. assert (LC : (l <= c_max cells)%nat) by lia. pose proof (HB l q k (conj LC Hq) Hk). lia. }
      rewrite EU.
      assert (MU' : forall l p, lca_mem n (u l) p <-> refined n minl cells l p).
      { intros l p. rewrite MU. unfold refined. split; intros (A & l' & q & Hl' & Hq & ->); (split; [exact A|]); exists l', q.
        - split; [lia|]. split; auto. split; auto. lia.
        - pose proof (HR l' q Hq). split; [lia|]. split; auto. apply Hq. }
      destruct (mra_spec n m minl maxl w s cells HI ghosts u (union_levels (min_level cells) (max_level cells)) cl0) as (cl1 & E1 & O1 & M1); auto.
      { intros l Hl. pose proof (max_level_m n m minl maxl w s cells HI) as MX. assert (l <= m)%nat.
        { unfold union_levels in Hl. apply in_rev, in_seq in Hl. lia. }
        split; auto. apply (GG l). }
      rewrite E1.
      assert (IL : forall l, In l (union_levels (min_level cells) (max_level cells)) <-> (1 <= l)%nat /\ (min_level cells <= l <= max_level cells)%nat).
      { intros l. unfold union_levels. rewrite <- in_rev, in_seq. destruct (Nat.eqb_spec (min_level cells) 0); lia. }
      assert (B1 : forall l p, length p = S n -> (adds (cl1 l) p <-> base n minl w s cells l p)).
      { intros l p Hp. rewrite M1, G3 by auto. unfold base. split.
        - intros [A|[(level & A1 & -> & A2)|(level & A1 & A2 & -> & A3)]]; (split; [exact Hp|]); auto.
          + apply IL in A1. replace (S (Nat.pred level)) with level by lia. auto.
          + replace (S (S (level - 2))) with level by lia. auto.
        - intros (_ & [A|[(h & A1 & A2 & A3)|(q & A1 & A2)]]); auto; right.
          + left. exists (S l). pose proof A1 as (_ & q & Hq & _). apply LV in Hq as [Hq _]. split; [apply IL; lia|]. split; [reflexivity|]. exists h. auto.
          + right. exists (S (S l)). pose proof (LV _ _ A1) as [Hq _]. split; [apply IL; lia|]. split; [lia|]. split; [lia|]. exists q. auto. }
      assert (LB : forall l p, lca_mem n (client_lca n l (cl1 l)) p <-> base n minl w s cells l p).
      { intros l p. destruct (list_lca n cl1 l O1) as (_ & _ & A). rewrite A.
        split; [intros [Hp X]; apply B1; auto|intros X; assert (Hp : length p = S n) by apply X; split; auto; apply B1; auto]. }
      (* the images *)
      set (all := ca_of_cl n m (cl_run n cl1) false).
      assert (AT : forall l, stored_by n l (cl1 l) (c_at all l)).
      { intros l. destruct (list_lca n cl1 l O1) as (X1 & X2 & X3). split; [apply O1|]. split; [exact X1|]. split; [exact X2|exact X3]. }
      assert (AM : forall l p, lca_mem n (c_at all l) p <-> base n minl w s cells l p) by (intros l p; exact (LB l p)).
      set (ls := seq (min_level all) (S (max_level all) - min_level all)).
      assert (NE : forall l p, base n minl w s cells l p -> (l <= c_max all)%nat /\ lca_is_empty (c_at all l) = false).
      { intros l p X. split; [apply base_level in X; cbn; lia|]. apply (nonempty_mem n); [apply (AT l)|]. exists p. apply AM. auto. }
      assert (LS : forall l p, base n minl w s cells l p -> In l ls).
      { intros l p X. destruct (NE l p X) as [X1 X2]. pose proof (proj1 (min_level_spec all) l X1 X2). pose proof (proj1 (max_level_spec all) l X1 X2) as [? _].
        unfold ls. apply in_seq. lia. }
      assert (LS' : forall l, In l ls -> (l <= maxl)%nat).
      { intros l X. unfold ls in X. apply in_seq in X. destruct (lca_is_empty (c_at all (max_level all))) eqn:EA.
        - (* no cell at all *)
          exfalso. assert (NN : forall j, (j <= c_max all)%nat -> lca_is_empty (c_at all j) = true).
          { intros j Hj. destruct (lca_is_empty (c_at all j)) eqn:Ej; auto. destruct (proj1 (max_level_spec all) j Hj Ej) as [_ Y]. congruence. }
          pose proof (proj2 (max_level_spec all) NN). pose proof (proj2 (proj2 (min_level_spec all)) NN). lia.
        - apply (nonempty_mem n) in EA as (p & Hp); [|apply (AT (max_level all))]. apply AM, base_level in Hp. lia. }
      destruct (periodic_loop_spec n periodic domain L lo hi gw ls cl1 (c_at all) HD HG) as (cl2 & at2 & E3 & S2 & M2 & M2'); auto.
      { unfold ls. apply seq_NoDup. }
      { intros l X. apply LS' in X. split; [lia|]. split; [intros k Hk; apply HBD; auto|]. intros q k Hq Hk. apply AM in Hq. eapply base_bound; eauto. }
      change (fold_tags _ _ _) with (periodic_loop n periodic domain gw ls cl1 (c_at all)).
      fold all. fold ls. rewrite E3.
      assert (PB : forall l p, lca_mem n (at2 l) p <-> pb l p).
      { intros l p. destruct (in_dec Nat.eq_dec l ls) as [X|X].
        - rewrite M2 by auto. apply images_of_ext; auto. apply seq_dims.
        - rewrite M2', AM by auto. split; intros Y; exfalso; [apply X; eapply LS; eauto|]. apply pb_same in Y as (q & Y & _). apply X. eapply LS; eauto. }
      destruct (grown_spec n m minl maxl w s cells pb HI pb_length pb_bound u (max_level cells) 0 cl2 at2 lca_empty)
        as (at' & pr' & E2 & A1 & A2 & A3 & P1 & P2); auto.
      { intros l. apply (S2 l). }
      { intros l p _ Lp. rewrite <- PB. destruct (S2 l) as (_ & _ & _ & X). rewrite X. tauto. }
      { intros l. destruct (S2 l) as (_ & X & Y & _). auto. }
      { intros l p Hl. assert (l = 0)%nat as -> by lia. rewrite (grown_0 n minl cells pb p). apply PB. }
      { intros l. split; apply (EM l). }
      { intros l p. split; [intros X; destruct (proj2 (proj2 (EM l)) p X)|intros [X _]; lia]. }
      rewrite E2. rewrite Nat.add_0_l in *.
      assert (RL : forall l p, refined n minl cells l p -> (l < max_level cells)%nat).
      { intros l p (_ & l' & q & Hl' & Hq & _). apply LV in Hq. lia. }
      assert (WB : forall l p, (max_level cells < l)%nat -> (pw l p <-> pb l p)).
      { intros [|l] p Hl; [lia|]. rewrite (grown_S n minl cells pb). split; auto. intros [X|(_ & _ & X)]; auto. apply RL in X. lia. }
      assert (WM : forall l p, pw l p -> (l <= m)%nat) by (intros l p X; apply pw_level in X; lia).
      eexists. split; [reflexivity|]. cbn [r_ghosts r_proj r_all]. split; [|split; [exact GM|split; [|contradiction]]].
      + intros c [->|[->| ->]]; auto; (split; [intros l Hl; first [apply (P1 l)|apply (A1 l)]|]); (split; [reflexivity|]); intros l Hl; first [apply (P1 l)|apply (A1 l)].
      + intros _ l p. unfold ca_mem. cbn [c_max c_at].
        assert (AW : lca_mem n (at' l) p <-> pw l p).
        { destruct (Nat.le_gt_cases l (max_level cells)) as [Hl|Hl]; [apply A2; auto|rewrite A3, WB by auto; tauto]. }
        rewrite AW, P2. split.
        * split; [tauto|]. intros X. split; eauto.
        * split; [tauto|]. intros [X Y]. split; eauto.
  Qed.

  (** Without a periodic direction, this is the mesh of [update_sub_mesh]. *)
  Lemma grown_mono : forall B B' : nat -> list Z -> Prop, (forall l p, B l p -> B' l p) -> forall l p, grown_from n minl cells B l p -> grown_from n minl cells B' l p.
  Proof. intros B B' X l p Y. induction Y as [l p Y|l p Lp _ IH R]; [apply grown_base; auto|apply grown_child; auto]. Qed.
  Lemma wanted_grown : forall l p, wanted n minl w s cells l p <-> grown_from n minl cells (base n minl w s cells) l p.
  Proof.
    intros l. induction l as [|l IH]; intros p; [rewrite wanted_0, (grown_0 n minl cells); tauto|].
    rewrite wanted_S, (grown_S n minl cells). rewrite IH. tauto.
  Qed.

  Theorem C70_no_direction : (forall d, (d <= n)%nat -> nth d periodic false = false) -> forall l p, pw l p <-> wanted n minl w s cells l p.
  Proof.
    intros N l p. rewrite wanted_grown. assert (X : forall j q, pb j q <-> base n minl w s cells j q).
    { intros j q. apply images_of_none. intros d Hd. apply N, seq_dims; auto. }
    split; apply grown_mono; intros j q; apply X.
  Qed.

  (** The periodic directions only add cells. *)
  Theorem C70_contains : forall l p, wanted n minl w s cells l p -> pw l p.
  Proof. intros l p X. apply wanted_grown in X. revert X. apply grown_mono. intros j q Y. apply images_of_incl. auto. Qed.

  (** Each cell that is there is an image of a cell wanted for the leaves, or a child of a
      stored cell that contains finer leaves. *)
  Theorem C70_only : forall l p, pw l p ->
    (exists q, wanted n minl w s cells l q /\ same_image n (fun k => nth k periodic false) (scaled lo l) (scaled hi l) q p) \/
    (exists l', l = S l' /\ pw l' (ancestor 1 p) /\ refined n minl cells l' (ancestor 1 p)).
  Proof.
    intros l p [j q X|j q Lq X Y]; [left|right; eauto]. destruct (pb_same j q X) as (r & A & B). exists r. split; auto. apply base_wanted. auto.
  Qed.

  (** The mesh satisfies the hypotheses of C69: the image inside the box of each ghost of
      the periodic directions is stored. *)
  Hypothesis HIN : forall l q, ca_mem n cells l q -> inside n lo hi l q.

  Lemma refined_inside : forall l p, refined n minl cells l p -> inside n lo hi l p.
  Proof.
    intros l p (_ & l' & q & Hl & X & ->). apply HIN in X. replace l' with (l + (l' - l))%nat in X at 1 by lia. apply (inside_ancestor n lo hi l (l' - l) q). auto.
  Qed.
  Lemma child_inside : forall l p, length p = S n -> refined n minl cells l (ancestor 1 p) -> inside n lo hi (S l) p.
  Proof. intros l p Lp X. apply refined_inside in X. replace (S l) with (l + 1)%nat by lia. apply inside_ancestor. auto. Qed.

  Lemma pw_images : forall l, (l <= maxl)%nat -> (forall k, (k <= n)%nat -> nth k periodic false = true -> gw <= (nth k hi 0 - nth k lo 0) * 2 ^ Z.of_nat l) ->
    forall d, (d <= n)%nat -> nth d periodic false = true -> closed_in n (scaled lo l) (scaled hi l) gw d (pw l).
  Proof.
    pose proof H as (HI & (_ & _ & HLH & _) & HT & HG & HBD). intros l Hl HN d Hd Pd p q X F Lq A B.
    assert (P : 0 < 2 ^ Z.of_nat l) by (apply Z.pow_pos_nonneg; lia).
    destruct X as [l p X|l p Lp _ R].
    - apply grown_base. refine (images_of_closed n periodic _ _ gw (seq 0 (S n)) _ seq_dims (seq_NoDup _ _) HG _ (base_length l) d Hd Pd _ p q X F Lq A B).
      + intros k Hk. rewrite !nth_scaled. pose proof (HLH k Hk). split; [nia|]. intros Pk. pose proof (HN k Hk Pk). lia.
      + left. apply in_seq. lia.
    - exfalso. destruct (child_inside l p Lp R) as [_ Y]. specialize (Y d Hd). rewrite !nth_scaled in B. lia.
  Qed.

  Theorem C70_images_stored : forall r, update_sub_mesh_periodic n m minl maxl w s periodic domain cells = Some r -> maxl <> minl ->
    forall l, (l <= maxl)%nat -> (forall k, (k <= n)%nat -> nth k periodic false = true -> gw <= (nth k hi 0 - nth k lo 0) * 2 ^ Z.of_nat l) ->
    periodic_input n periodic (r_all r) domain L lo hi gw l.
  Proof.
    pose proof H as (HI & HD & HT & HG & HBD). pose proof HI as (_ & Hm & Hmm & _).
    intros r E NE l Hl HN. destruct C70_contents as (r' & E' & W & _ & C & _). rewrite E in E'. injection E' as <-.
    destruct (W (r_all r)) as (W1 & W2 & W3); auto. pose proof (fun l p => proj1 (C NE l p)) as C'. clear C W.
    assert (MW : forall p, lca_mem n (c_at (r_all r) l) p <-> pw l p).
    { intros p. rewrite <- C'. unfold ca_mem. rewrite W2. split; [intros; split; [lia|auto]|tauto]. }
    split; auto. split; [lia|]. split; auto. split; auto. split; [intros k Hk; apply HBD; auto|].
    split; [apply W1; lia|]. split; [apply W3; lia|]. split.
    - intros q k Hq Hk. apply MW in Hq. eapply (grown_bound n m minl maxl w s cells pb HI pb_length pb_bound); eauto.
    - intros d p q Hd Pd Hp F Lq A B. apply MW. apply MW in Hp. eapply pw_images; eauto.
  Qed.

  (** A uniform mesh: the margin of the leaves of a full box has them as well. *)
  Theorem C70_images_uniform : forall r, update_sub_mesh_periodic n m minl maxl w s periodic domain cells = Some r -> maxl = minl ->
    (forall p, inside n lo hi minl p -> ca_mem n cells minl p) -> s <= w ->
    (forall k, (k <= n)%nat -> nth k periodic false = true -> gw <= (nth k hi 0 - nth k lo 0) * 2 ^ Z.of_nat minl) ->
    periodic_input n periodic (r_all r) domain L lo hi gw minl.
  Proof.
    pose proof H as (HI & HD & HT & HG & HBD). pose proof HI as (_ & Hm & Hmm & _ & Hw & Hs & HR & HB). pose proof HD as (_ & _ & HLH & _).
    intros r E NE FULL SW HN. destruct C70_contents as (r' & E' & W & _ & _ & C). rewrite E in E'. injection E' as <-.
    destruct (W (r_all r)) as (W1 & W2 & W3); auto. pose proof (fun l p => proj1 (C NE l p)) as C'. clear C W.
    assert (P : 0 < 2 ^ Z.of_nat minl) by (apply Z.pow_pos_nonneg; lia).
    assert (MW : forall p, lca_mem n (c_at (r_all r) minl) p <-> margin n w cells minl p).
    { intros p. rewrite <- C'. unfold ca_mem. rewrite W2. split; [intros; split; [lia|auto]|tauto]. }
    split; auto. split; [lia|]. split; auto. split; auto. split; [intros k Hk; apply HBD; auto; lia|].
    split; [apply W1; lia|]. split; [apply W3; lia|]. split.
    - intros q k Hq Hk. apply MW in Hq. pose proof (margin_bound n m minl maxl w s cells HI minl q k Hq Hk). lia.
    - intros d p q Hd Pd Hp F Lq A B. apply MW. apply MW in Hp as (Lp & c & Hc & NR). split; auto.
      (* the closest cell of the box *)
      set (c' := map (fun k => Z.max (nth k lo 0 * 2 ^ Z.of_nat minl) (Z.min (nth k q 0) (nth k hi 0 * 2 ^ Z.of_nat minl - 1))) (seq 0 (S n))).
      assert (Nc : forall k, (k <= n)%nat -> nth k c' 0 = Z.max (nth k lo 0 * 2 ^ Z.of_nat minl) (Z.min (nth k q 0) (nth k hi 0 * 2 ^ Z.of_nat minl - 1))).
      { intros k Hk. unfold c'. apply (nth_map_seq (S n)). lia. }
      exists c'. split.
      + apply FULL. split; [unfold c'; rewrite map_length, seq_length; auto|]. intros k Hk. rewrite Nc by auto. pose proof (HLH k Hk). nia.
      + intros k Hk. rewrite Nc by auto. pose proof (HLH k Hk) as K. assert (K' : nth k lo 0 * 2 ^ Z.of_nat minl < nth k hi 0 * 2 ^ Z.of_nat minl) by nia.
        pose proof (proj2 (HIN _ _ Hc) k Hk) as IC. specialize (NR k Hk). pose proof (proj2 F k Hk) as FK. rewrite !nth_scaled in FK, B. specialize (HN d Hd Pd).
        destruct (Nat.eq_dec k d) as [->|Hkd]; [lia|]. rewrite A in * by auto. lia.
  Qed.
End Contents.

(** ** Cases *)

(** The mesh of C54 (leaves of levels 1 to 3, refined toward the corner (1, 1) of the unit
    square) with both directions periodic: on level 3 the margin of the corner appears at
    the three other corners as well; with one direction, at one corner. *)
Definition squareDomain : lca := lca_of_box 1 3 [0; 0] [8; 8].
Example C70_case : periodic_mesh 1 4 1 3 1 1 squareDomain 3 [0; 0] [1; 1] PropsAdapt.exMesh /\
  forall l q, ca_mem 1 PropsAdapt.exMesh l q -> inside 1 [0; 0] [1; 1] l q.
Proof.
  assert (Two : forall k, (k <= 1)%nat -> k = 0%nat \/ k = 1%nat) by (intros; lia).
  destruct C54_hypotheses as (A & T & _). split; [|apply T].
  split; [exact A|]. destruct (C14_box_array 1 3 [0; 0] [8; 8]) as (L1 & W1 & M1 & _); [intros d Hd; destruct (Two d Hd) as [->| ->]; cbn; lia|].
  split; [|split; [lia|split; [lia|]]].
  - split; [exact W1|]. split; [exact L1|]. split; [intros k Hk; destruct (Two k Hk) as [->| ->]; cbn; lia|]. intros p. unfold squareDomain. rewrite M1. unfold inside.
    split; intros [Lp X]; (split; [exact Lp|]); intros k Hk; specialize (X k Hk); destruct (Two k Hk) as [->| ->]; cbn in *; lia.
  - intros l k Hl Hk. assert (2 ^ Z.of_nat l <= 2 ^ 3) by (apply Z.pow_le_mono_r; lia). assert (0 < 2 ^ Z.of_nat l) by (apply Z.pow_pos_nonneg; lia).
    change (2 ^ 31) with 2147483648. change (2 ^ 3) with 8 in *. destruct (Two k Hk) as [->| ->]; cbn [nth]; lia.
Qed.
Example C70_example :
  option_map (fun r => (for_each_interval 1 (c_at (r_all r) 3), for_each_interval 1 (c_at (r_proj r) 2))) (update_sub_mesh_periodic 1 4 1 3 1 1 both squareDomain PropsAdapt.exMesh) =
  Some (Some (flat_map (fun y => [(mk (-1) 1, [y]); (mk 5 9, [y])]) [-1; 0; 5; 6; 7; 8]), Some [(mk 3 4, [3])]).
Proof. vm_compute. reflexivity. Qed.
Example C70_one_direction :
  option_map (fun r => for_each_interval 1 (c_at (r_all r) 3)) (update_sub_mesh_periodic 1 4 1 3 1 1 [true; false] squareDomain PropsAdapt.exMesh) =
  Some (Some (flat_map (fun y => [(mk (-1) 1, [y]); (mk 5 9, [y])]) [5; 6; 7; 8])).
Proof. vm_compute. reflexivity. Qed.

Print Assumptions C70_contents.
Print Assumptions C70_no_direction.
Print Assumptions C70_contains.
Print Assumptions C70_only.
Print Assumptions C70_images_stored.
Print Assumptions C70_images_uniform.
