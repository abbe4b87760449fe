(** Property C71: the values that update_ghost_mr puts in the ghosts of a mesh with periodic
    directions. *)
From Coq Require Import QArith.
From Verif Require Import Base IntervalModel Spec IntervalProofs LoiModel LcaModel LcaSpec InitProofs LcaProofs LcaProofs2 LcaProofs3 RowsProofs CellArrayModel CellArrayProofs PropsLca PropsCellArray
  SubsetModel TreeProofs SubsetSpec SubsetProofs2 PropsSubset StencilModel NumberingProofs StencilProofs PropsStencil MeshModel MeshProofs
  NumModel NumProofs NumSpec PropsNum AdaptModel AdaptProofs TagProofs PropsAdapt TransferProofs PropsTransfer GradModel GradProofs PropsGrad InterfaceModel PropsInterface MrModel MrProofs PropsMr
  GhostModel GhostProofs PropsGhost BcProofs HartenModel HartenProofs HartenProofs2 PeriodicModel PeriodicProofs PropsPeriodic PeriodicProofs2 PropsMesh PropsPeriodic2 PeriodicProofs3 PeriodicProofs4.
Open Scope Z_scope.

(** ** Hypotheses *)

(** A mesh of several levels that fills the box, graded also across the periodic
    directions; prediction order [s] up to the ghost width [w], which is 1 or 2; the period
    is at least the ghost width three levels below the coarsest leaves; coordinates away
    from the largest integer. *)
Definition periodic_ghosts_input (n m minl maxl : nat) (w : Z) (s : nat) (periodic : list bool) (domain : lca) (L : nat) (cells : ca) (lo hi : list Z) : Prop :=
  periodic_mesh n m minl maxl w (Z.of_nat s) domain L lo hi cells /\ maxl <> minl /\ tiles n cells lo hi /\ graded_periodic n periodic lo hi cells /\
  1 <= w <= 2 /\ Z.of_nat s <= w /\ (n <= 2)%nat /\ (exists l q, ca_mem n cells l q) /\
  (forall k, (k <= n)%nat -> 2 * (Z.max 0 (nth k hi 0) * 2 ^ Z.of_nat maxl + w + Z.of_nat s + 8) < 2 ^ 31 - 1) /\
  (forall k, (k <= n)%nat -> nth k periodic false = true -> w <= (nth k hi 0 - nth k lo 0) * 2 ^ Z.of_nat (minl - 3)).

(** What is asked from the boundary conditions: on each level they succeed and change only
    values stored outside the box in a direction that is not periodic, on that level. *)
Definition only_across (n maxl : nat) (periodic : list bool) (reference : ca) (lo hi : list Z) (bc : nat -> lfield -> option lfield) : Prop :=
  forall l u, (l <= maxl)%nat -> exists v, bc l u = Some v /\ (forall k, k <> l -> v k = u k) /\
    forall x y, beside n periodic lo hi l (x :: y) \/ ~ ca_mem n reference l (x :: y) -> v l x y = u l x y.

Section Update.
  Variables (n m minl maxl : nat) (w : Z) (s : nat) (periodic : list bool) (domain : lca) (L : nat) (cells : ca) (lo hi : list Z) (r : mr_mesh) (sub : lca).
  Hypothesis HI : periodic_ghosts_input n m minl maxl w s periodic domain L cells lo hi.
  Hypothesis HR : update_sub_mesh_periodic n m minl maxl w (Z.of_nat s) periodic domain cells = Some r.
  Hypothesis HD : construct_subdomain n maxl cells = Some sub.
  Notation pw := (pwanted n minl w (Z.of_nat s) periodic lo hi cells).
  Notation lmin := (min_level (r_all r)).
  Notation lmax := (max_level (r_all r)).
  Notation per := (update_ghost_periodic n periodic (r_all r) domain w).

  Lemma pi_mesh : periodic_mesh n m minl maxl w (Z.of_nat s) domain L lo hi cells.
  Proof. exact (proj1 HI). Qed.
  Lemma pi_in : mr_input n m minl maxl w (Z.of_nat s) cells.
  Proof. exact (proj1 pi_mesh). Qed.
  Lemma pi_range : forall l q, ca_mem n cells l q -> (minl <= l <= maxl)%nat.
  Proof. exact (in_range n m minl maxl w _ cells pi_in). Qed.
  Lemma pi_ne : maxl <> minl.
  Proof. exact (proj1 (proj2 HI)). Qed.
  Lemma pi_tiles : tiles n cells lo hi.
  Proof. exact (proj1 (proj2 (proj2 HI))). Qed.
  Lemma pi_max : (maxl <= m)%nat.
  Proof. exact (proj1 (proj2 (proj2 pi_in))). Qed.
  Lemma pi_lh : forall k, (k <= n)%nat -> nth k lo 0 < nth k hi 0.
  Proof. exact (proj1 (proj2 (proj2 (proj1 (proj2 pi_mesh))))). Qed.
  Lemma pi_gw : Z.max w (Z.of_nat s) = w.
  Proof. destruct HI as (_ & _ & _ & _ & _ & X & _). lia. Qed.

  Lemma p_contents : (forall c, c = r_proj r \/ c = r_all r -> ca_wf n c /\ c_max c = m /\ forall l, (l <= m)%nat -> a_level (c_at c l) = l) /\
    forall l p, (ca_mem n (r_all r) l p <-> pw l p) /\ (ca_mem n (r_proj r) l p <-> pw l p /\ refined n minl cells l p).
  Proof.
    destruct (C70_contents n m minl maxl w (Z.of_nat s) periodic domain L lo hi cells pi_mesh) as (r' & E & W & _ & M & _). rewrite HR in E. injection E as <-.
    split; [intros c Hc; apply W; tauto|apply M; apply pi_ne].
  Qed.
  Lemma p_all : forall l p, ca_mem n (r_all r) l p <-> pw l p.
  Proof. intros. apply p_contents. Qed.
  Lemma p_proj : forall l p, ca_mem n (r_proj r) l p <-> ca_mem n (r_all r) l p /\ (Nat.pred minl <= l)%nat /\ split_at n cells l p.
  Proof. intros l p. rewrite (proj2 (proj2 p_contents l p)), p_all. unfold refined, split_at. tauto. Qed.

  Lemma p_at : forall c l p, c = cells \/ c = r_proj r \/ c = r_all r -> (l <= m)%nat -> (ca_mem n c l p <-> lca_mem n (c_at c l) p).
  Proof.
    intros c l p Hc Hl. assert (E : c_max c = m) by (destruct Hc as [->|Hc]; [apply (in_max _ _ _ _ _ _ _ pi_in)|apply p_contents; auto]).
    unfold ca_mem. rewrite E. tauto.
  Qed.
  Lemma p_mem : forall c l p, c = cells \/ c = r_proj r \/ c = r_all r -> ca_mem n c l p -> (l <= m)%nat.
  Proof.
    intros c l p Hc [Hl _]. assert (E : c_max c = m) by (destruct Hc as [->|Hc]; [apply (in_max _ _ _ _ _ _ _ pi_in)|apply p_contents; auto]). lia.
  Qed.

  Lemma p_levels : forall l p, pw l p -> (minl <= l + 2 /\ l <= maxl)%nat.
  Proof.
    intros l p X. split; [|exact (pw_level _ _ _ _ _ _ _ _ _ _ _ _ pi_mesh l p X)]. destruct X as [l p X|l p _ _ (A & l' & q & Hl & Hq & _)]; [|apply pi_range in Hq; lia].
    destruct (pb_same _ _ _ _ _ _ _ _ l p X) as (q & (_ & [(_ & c & Hc & _)|[(h & (_ & c & Hc & _) & _)|(c & Hc & _)]]) & _); apply pi_range in Hc; lia.
  Qed.

  Lemma p_leaf : forall l p, ca_mem n cells l p -> ca_mem n (r_all r) l p.
  Proof.
    intros l p X. apply p_all. apply grown_base. apply images_of_incl. assert (Lp : length p = S n) by apply X. split; auto. left. split; auto.
    exists p. split; auto. intros k _. pose proof (in_w _ _ _ _ _ _ _ pi_in). lia.
  Qed.

  (** Bounds of the coordinates. *)
  Lemma p_inside_le : forall l p k, inside n lo hi l p -> (l <= maxl)%nat -> (k <= n)%nat -> nth k p 0 < Z.max 0 (nth k hi 0) * 2 ^ Z.of_nat maxl + 1.
  Proof.
    intros l p k [_ H] Hl Hk. specialize (H k Hk). assert (2 ^ Z.of_nat l <= 2 ^ Z.of_nat maxl) by (apply Z.pow_le_mono_r; lia).
    assert (0 < 2 ^ Z.of_nat l) by (apply Z.pow_pos_nonneg; lia). nia.
  Qed.
  Lemma images_le : forall l ds (A : list Z -> Prop) (M : nat -> Z), (forall d, In d ds -> (d <= n)%nat) ->
    (forall k, (k <= n)%nat -> nth k hi 0 * 2 ^ Z.of_nat l + Z.max w (Z.of_nat s) <= M k) -> (forall p k, A p -> (k <= n)%nat -> nth k p 0 <= M k) ->
    forall p k, images_of n periodic (scaled lo l) (scaled hi l) (Z.max w (Z.of_nat s)) ds A p -> (k <= n)%nat -> nth k p 0 <= M k.
  Proof.
    pose proof pi_lh as HL. clear HR HD. intros l ds. induction ds as [|d ds IH]; intros A M Hd HM HA p k X Hk; cbn [images_of] in X; [eapply HA; eauto|].
    assert (D : (d <= n)%nat) by (apply Hd; left; auto). refine (IH _ M _ HM _ p k X Hk); [intros; apply Hd; right; auto|].
    intros q j. destruct (nth d periodic false); [|apply HA]. intros [Y|(r0 & Y & (_ & Y1 & Y2))] Hj; [apply HA; auto|].
    rewrite !nth_scaled in Y2. pose proof (HM d D). pose proof (HL d D). assert (P : 0 < 2 ^ Z.of_nat l) by (apply Z.pow_pos_nonneg; lia). pose proof (HA r0 j Y Hj).
    destruct (Nat.eq_dec j d) as [->|Hjd]; [|destruct (Y1 j Hj Hjd) as [-> _]; auto].
    assert (0 < nth d hi 0 * 2 ^ Z.of_nat l - nth d lo 0 * 2 ^ Z.of_nat l) by nia. lia.
  Qed.
  Lemma p_bound : forall l p k, pw l p -> (k <= n)%nat -> nth k p 0 <= Z.max 0 (nth k hi 0) * 2 ^ Z.of_nat maxl + w + Z.of_nat s + 1.
  Proof.
    assert (Hw : 0 <= w) by exact (in_w _ _ _ _ _ _ _ pi_in). assert (T : forall l q, ca_mem n cells l q -> inside n lo hi l q) by apply pi_tiles.
    assert (TB : forall l q k, ca_mem n cells l q -> (k <= n)%nat -> nth k q 0 < Z.max 0 (nth k hi 0) * 2 ^ Z.of_nat maxl + 1).
    { intros l q k Hq Hk. apply (p_inside_le l); auto. apply (pi_range l q Hq). }
    assert (P : forall k, 0 <= Z.max 0 (nth k hi 0) * 2 ^ Z.of_nat maxl) by (intros k; apply Z.mul_nonneg_nonneg; [lia|apply Z.pow_nonneg; lia]).
    intros l p k X Hk. pose proof (p_levels l p X) as Hl. destruct X as [l p X|l p Lp _ R].
    - refine (images_le l (seq 0 (S n)) _ (fun k => Z.max 0 (nth k hi 0) * 2 ^ Z.of_nat maxl + w + Z.of_nat s + 1) (seq_dims n) _ _ p k X Hk).
      + intros j Hj. assert (2 ^ Z.of_nat l <= 2 ^ Z.of_nat maxl) by (apply Z.pow_le_mono_r; lia). assert (0 < 2 ^ Z.of_nat l) by (apply Z.pow_pos_nonneg; lia). nia.
      + intros q j (_ & [(_ & c & Hc & NC)|[(h & (_ & c & Hc & NC) & _ & NH)|(c & Hc & NC)]]) Hj; pose proof (TB _ _ j Hc Hj); pose proof (P j).
        * specialize (NC j Hj). lia.
        * specialize (NC j Hj). specialize (NH j Hj). pose proof (anc_le 1 h j). lia.
        * specialize (NC j Hj). pose proof (anc_le 2 c j). lia.
    - pose proof (child_inside n minl lo hi cells T l p Lp R) as Y. apply (p_inside_le _ _ k) in Y; auto; lia.
  Qed.
  Lemma p_small : forall l p k, ca_mem n (r_all r) l p -> (k <= n)%nat -> 2 * (nth k p 0 + 3) < 2 ^ 31 - 1 /\ nth k p 0 + 3 < 2 ^ 31 - 1.
  Proof.
    intros l p k H Hk. apply p_all in H. pose proof (p_bound l p k H Hk). destruct HI as (_ & _ & _ & _ & Hw & _ & _ & _ & HB & _). specialize (HB k Hk). lia.
  Qed.

  Lemma p_sub : wf n sub /\ a_level sub = maxl /\ below_max n sub /\
    forall l p, (l <= maxl)%nat -> length p = S n -> (denotes n l p (NMesh sub) <-> inside n lo hi l p).
  Proof.
    destruct (C26_subdomain n maxl cells (in_wf _ _ _ _ _ _ _ pi_in)) as (a & E & W & La & M).
    { intros l q Hq. apply (pi_range l q Hq). }
    rewrite HD in E. injection E as <-. destruct pi_tiles as (_ & TI & TC).
    assert (X : forall z, lca_mem n sub z <-> inside n lo hi maxl z).
    { intros z. rewrite M. split.
      - intros (l & Hl). pose proof (pi_range _ _ Hl). apply TI in Hl. replace maxl with (l + (maxl - l))%nat by lia. apply inside_ancestor.
        split; auto. rewrite <- (ancestor_length (maxl - l)). apply Hl.
      - intros Hz. destruct (TC maxl z) as (l & _ & Hl); auto; [intros l q Hq; apply (pi_range l q Hq)|eauto]. }
    split; auto. split; auto. split.
    - intros q k Hq Hk. apply X in Hq. pose proof (p_inside_le maxl q k Hq ltac:(lia) Hk). destruct HI as (_ & _ & _ & _ & Hw & _ & _ & _ & HB & _). specialize (HB k Hk). lia.
    - intros l p Hl Lp. rewrite denotes_mesh_coarse by lia. rewrite La. split.
      + intros (z & Hz & ->). apply X in Hz. replace maxl with (l + (maxl - l))%nat in Hz at 1 by lia. apply inside_ancestor in Hz. apply Hz.
      + intros Hp. destruct (descend (maxl - l) p) as (z & Lz & Az). exists z. split; auto. apply X.
        replace maxl with (l + (maxl - l))%nat by lia. apply inside_ancestor. rewrite Az. split; auto. lia.
  Qed.

  Lemma p_all_levels : forall l p, ca_mem n (r_all r) l p -> (lmin <= l <= lmax)%nat.
  Proof.
    intros l p [Hl Hp]. destruct (proj1 p_contents (r_all r)) as (W & _ & _); auto.
    assert (E : lca_is_empty (c_at (r_all r) l) = false) by (apply (nonempty_mem n); [apply W; auto|eauto]).
    destruct (min_level_spec (r_all r)) as (A & _). destruct (max_level_spec (r_all r)) as (B & _).
    pose proof (A l Hl E). pose proof (B l Hl E) as [B1 _]. lia.
  Qed.
  Lemma p_bounds : (lmin <= lmax <= maxl)%nat /\ (minl <= lmin + 2)%nat.
  Proof.
    destruct (proj1 p_contents (r_all r)) as (W & Em & _); auto.
    destruct HI as (_ & _ & _ & _ & _ & _ & _ & (l & q & Hq) & _). apply p_leaf in Hq. pose proof (p_all_levels l q Hq).
    destruct Hq as [Hl Hq]. assert (E : lca_is_empty (c_at (r_all r) l) = false) by (apply (nonempty_mem n); [apply W; auto|eauto]).
    destruct (min_level_spec (r_all r)) as (_ & A & _). destruct (max_level_spec (r_all r)) as (B & _).
    destruct (A l Hl E) as [A1 A2]. destruct (B l Hl E) as [B1 B2].
    apply (nonempty_mem n) in A2 as (p1 & P1); [|apply W; lia]. apply (nonempty_mem n) in B2 as (p2 & P2); [|apply W; lia].
    assert (Q1 : ca_mem n (r_all r) lmin p1) by (split; auto). assert (Q2 : ca_mem n (r_all r) lmax p2) by (split; auto; lia).
    apply p_all in Q1, Q2. apply p_levels in Q1, Q2. lia.
  Qed.

  Lemma p_stencils : forall l g, ca_mem n (r_all r) l g -> inside n lo hi l g -> ~ ca_mem n cells l g -> ~ split_at n cells l g ->
    (minl < l)%nat /\ ca_mem n cells (l - 1) (ancestor 1 g) /\ forall p, length p = S n -> near n (Z.of_nat s) p (ancestor 1 g) -> ca_mem n (r_all r) (l - 1) p.
  Proof.
    intros l g Hg H2 H3 H4. apply p_all in Hg. pose proof HI as (A1 & A2 & A3 & A4 & A5 & A6 & _).
    destruct (periodic_stencils n m minl maxl w (Z.of_nat s) periodic domain L cells lo hi A1 A3 A4 ltac:(lia) A5 l g Hg H2 H3 H4) as (X & Y & Z).
    split; auto. split; auto. intros p Lp Np. apply p_all. auto.
  Qed.

  Lemma p_topredict : forall l x y, (lmin < l <= lmax)%nat -> (topredict n cells r (inside n lo hi) l (x :: y) <->
    ca_mem n (r_all r) l (x :: y) /\ inside n lo hi l (x :: y) /\ ~ ca_mem n cells l (x :: y) /\ ~ split_at n cells l (x :: y)).
  Proof.
    intros l x y Hl. pose proof p_bounds as Hb. pose proof pi_max as Hm. unfold topredict. rewrite <- !p_at by (auto; lia). rewrite p_proj. split.
    - intros (H1 & H2 & H3 & H4 & _). split; auto. split; auto. split; auto. intros H. apply H3. split; auto. split; auto. lia.
    - intros (H1 & H2 & H3 & H4). split; auto. split; auto. split; [tauto|]. split; auto.
      destruct (p_stencils l (x :: y) H1 H2 H3 H4) as (_ & X & _). replace (Nat.pred l) with (l - 1)%nat by lia. apply p_leaf. auto.
  Qed.

  Lemma p_closed : forall l p, ca_mem n (r_proj r) l (ancestor 1 p) -> length p = S n -> ca_mem n (r_all r) (S l) p /\ (ca_mem n cells (S l) p \/ ca_mem n (r_proj r) (S l) p).
  Proof.
    intros l p Hp Lp. assert (X := Hp). apply (proj2 p_contents) in Hp as [A B]. assert (Y : ca_mem n (r_all r) (S l) p) by (apply p_all; apply grown_child; auto).
    split; auto. apply p_proj in X as (_ & X1 & X2). destruct (child_split n minl maxl cells lo hi pi_tiles pi_range l p X2 Lp) as [Z|Z]; auto.
    right. apply p_proj. split; auto.
  Qed.

  Lemma image_twice : forall l p, image n periodic lo hi l (image n periodic lo hi l p) = image n periodic lo hi l p.
  Proof.
    intros l p. apply (list_ext n); try apply wrap_length. intros k Hk. rewrite !nth_image by auto. destruct (nth k periodic false); auto.
    assert (0 < 2 ^ Z.of_nat l) by (apply Z.pow_pos_nonneg; lia). pose proof (pi_lh k Hk).
    rewrite Z.add_simpl_l, Z.mod_mod by nia. reflexivity.
  Qed.
  (** The copies on one level. *)
  Lemma p_input : forall l, (Nat.pred lmin <= l <= maxl)%nat -> periodic_input n periodic (r_all r) domain L lo hi w l.
  Proof.
    intros l Hl. pose proof p_bounds as Hb. rewrite <- pi_gw. apply (C70_images_stored n m minl maxl w (Z.of_nat s) periodic domain L lo hi cells pi_mesh); auto.
    - apply pi_tiles.
    - apply pi_ne.
    - lia.
    - intros k Hk Pk. rewrite pi_gw. destruct HI as (_ & _ & _ & _ & _ & _ & _ & _ & _ & X). specialize (X k Hk Pk). pose proof (pi_lh k Hk).
      assert (2 ^ Z.of_nat (minl - 3) <= 2 ^ Z.of_nat l) by (apply Z.pow_le_mono_r; lia). nia.
  Qed.
  Lemma per_outside : step_outside n maxl r (inside n lo hi) per.
  Proof.
    intros l u Hl. pose proof (p_input l Hl) as HP. destruct (C69_copies n periodic (r_all r) domain L lo hi w l u HP) as (v & E & F & P).
    exists v. split; auto. split; auto. intros x y [X|[Ly X]].
    - apply (C69_inside n periodic (r_all r) domain L lo hi w l u v HP E (x :: y) X).
    - apply (proj2 (P (x :: y) ltac:(cbn; lia))). tauto.
  Qed.

  Variable bc : nat -> lfield -> option lfield.
  Hypothesis HO : only_across n maxl periodic (r_all r) lo hi bc.
  Lemma bc_across : step_outside n maxl r (inside n lo hi) bc.
  Proof.
    intros l u Hl. pose proof pi_max. destruct (HO l u) as (v & E & F & P); [lia|]. exists v. split; auto. split; auto. intros x y X. apply P.
    destruct X as [X|[_ X]]; [left; apply inside_beside; auto|right; rewrite p_at by (auto; lia); auto].
  Qed.

  Notation stored_fat l p := (ca_mem n (r_all r) l p /\ fat n (scaled lo l) (scaled hi l) w p).

  Lemma p_values : forall u, exists v, update_ghost_mr_periodic n s per bc cells r sub u = Some v /\
    (forall l x y, ca_mem n cells l (x :: y) -> v l x y = u l x y) /\
    (forall l x y, ca_mem n (r_proj r) l (x :: y) -> is_mean (v (S l)) x y (v l x y)) /\
    (forall l x y, ca_mem n (r_all r) l (x :: y) -> inside n lo hi l (x :: y) -> ~ ca_mem n cells l (x :: y) -> ~ split_at n cells l (x :: y) ->
       (minl < l)%nat /\ is_predicted s (v (l - 1)%nat) x y (v l x y)) /\
    (forall l x y, length y = n -> ~ ca_mem n (r_all r) l (x :: y) -> v l x y = u l x y) /\
    (forall l p, stored_fat l p -> beside n periodic lo hi l p \/ l = lmin -> get (v l) p = get (v l) (image n periodic lo hi l p)) /\
    (forall l, (lmin < l <= lmax)%nat -> exists before after, bc l before = Some after /\ after l = v l /\
       forall x y, beside n periodic lo hi l (x :: y) -> before l x y = v l x y) /\
    (exists before after, bc lmin before = Some after /\ (forall x y, inside n lo hi lmin (x :: y) -> before lmin x y = v lmin x y) /\
       forall p, length p = S n -> (stored_fat lmin p -> get (v lmin) p = get (after lmin) (image n periodic lo hi lmin p)) /\
         (~ stored_fat lmin p -> get (v lmin) p = get (after lmin) p)).
  Proof.
    intros u. pose proof p_bounds as Hb. pose proof pi_max as Hm. destruct p_sub as (Ws & Ls & Bs & Ds).
    destruct (proj1 p_contents (r_all r)) as (WA & _ & LA); auto. destruct (proj1 p_contents (r_proj r)) as (WP & EP & LP); auto.
    assert (EA : c_max (r_all r) = m) by (apply p_contents; auto).
    assert (PL : forall l p, ca_mem n (r_proj r) l p -> (lmin <= l < lmax)%nat /\ inside n lo hi l p).
    { intros l p Hp. apply p_proj in Hp as (H1 & _ & H2). pose proof (p_all_levels l p H1). split; [|eapply split_inside; [apply pi_tiles|eauto]].
      destruct H2 as (l' & q & Hl' & Hq & _). apply p_leaf in Hq. apply p_all_levels in Hq. lia. }
    destruct (periodic_update_spec n s m maxl cells r sub per bc (inside n lo hi)) with (u := u) as (v & E & A & B & C & D & F & G); auto.
    - apply HI.
    - intros c l Hc Hl. destruct Hc as [->|[->| ->]]; (split; [|auto]).
      + apply (in_wf _ _ _ _ _ _ _ pi_in). rewrite (in_max _ _ _ _ _ _ _ pi_in). auto.
      + apply (in_level _ _ _ _ _ _ _ pi_in). auto.
      + apply WP. lia.
      + apply WA. lia.
    - intros l p Hl Hp. rewrite <- p_at in Hp |- * by auto. apply p_proj in Hp. apply Hp.
    - intros l p Hl Hp. rewrite <- p_at in Hp |- * by auto. apply p_leaf. auto.
    - intros l p k Hl Hp Hk. rewrite <- p_at in Hp by auto. eapply p_small; eauto.
    - intros l p Hl Lp Hp. rewrite <- p_at in Hp |- * by (auto; lia). apply (p_closed l p Hp Lp).
    - apply Hb.
    - intros l Hl p q Ht Lq Nq. destruct p as [|x y]; [destruct Ht as ((X & _) & _); discriminate|].
      apply p_topredict in Ht as (H1 & H2 & H3 & H4); auto.
      destruct (p_stencils l (x :: y) H1 H2 H3 H4) as (_ & _ & X).
      rewrite <- p_at by (auto; lia). replace (Nat.pred l) with (l - 1)%nat by lia. apply X; auto.
    - intros l p Hl Lp Hp. rewrite <- p_at in Hp by (auto; lia).
      destruct (p_closed l p Hp Lp) as [H1 H2].
      destruct p as [|x y]; [discriminate|]. rewrite p_topredict by lia. split.
      + apply PL in Hp as [_ Hp]. replace (S l) with (l + 1)%nat by lia. apply inside_ancestor. auto.
      + intros (_ & _ & H3 & H4). destruct H2 as [H2|H2]; [auto|]. apply H4. apply p_proj in H2. apply H2.
    - intros l p Hl Hp. rewrite <- p_at in Hp by auto. apply PL in Hp. tauto.
    - apply per_outside.
    - apply bc_across.
    - exists v. split; auto.
      assert (CP : forall l a b, (lmin <= l <= lmax)%nat -> done per l a b -> forall p, length p = S n ->
        (stored_fat l p -> stored_fat l (image n periodic lo hi l p) /\ get b p = get a (image n periodic lo hi l p)) /\ (~ stored_fat l p -> get b p = get a p)).
      { intros l a b Hl (u0 & v0 & E0 & <- & <-) p Lp. pose proof (p_input l ltac:(lia)) as HP.
        destruct (C69_copies n periodic (r_all r) domain L lo hi w l u0 HP) as (v1 & E1 & _ & P1). rewrite E0 in E1. injection E1 as <-.
        destruct (P1 p Lp) as [Q1 Q2]. rewrite <- !p_at in Q1 by (auto; lia). rewrite <- !p_at in Q2 by (auto; lia). split; [|exact Q2].
        intros [H1 H2]. destruct (Q1 H1 H2) as [Q3 Q4]. split; auto. split; auto.
        split; [apply wrap_length|]. intros k Hk. rewrite nth_image by auto. destruct H2 as [_ H2]. specialize (H2 k Hk). rewrite !nth_scaled in *.
        destruct (nth k periodic false); auto. pose proof (pi_lh k Hk). assert (0 < 2 ^ Z.of_nat l) by (apply Z.pow_pos_nonneg; lia).
        pose proof (Z.mod_pos_bound (nth k p 0 - nth k lo 0 * 2 ^ Z.of_nat l) ((nth k hi 0 - nth k lo 0) * 2 ^ Z.of_nat l) ltac:(nia)). pose proof (in_w _ _ _ _ _ _ _ pi_in). lia. }
      assert (BC : forall l a b, (l <= maxl)%nat -> done bc l a b -> forall x y, beside n periodic lo hi l (x :: y) -> b x y = a x y).
      { intros l a b Hl (u0 & v0 & E0 & <- & <-) x y X. destruct (HO l u0 Hl) as (v1 & E1 & _ & P1). rewrite E0 in E1. injection E1 as <-. auto. }
      split; [|split; [|split; [|split; [|split; [|split]]]]].
      + intros l x y Hc. pose proof (p_mem cells l _ ltac:(auto) Hc) as Hlm. apply C.
        * apply pi_tiles. auto.
        * rewrite <- p_at by auto. intros Hp. apply p_proj in Hp as (_ & _ & Hp).
          apply (above_not_split n cells lo hi pi_tiles l l (x :: y)); auto. rewrite Nat.sub_diag, ancestor_0. auto.
        * intros [Hl Ht]. apply p_topredict in Ht; auto. tauto.
      + intros l x y Hp. pose proof (p_mem (r_proj r) l _ ltac:(auto) Hp) as Hlm. apply A; auto. rewrite <- p_at by auto. auto.
      + intros l x y Ha Hi Hc Hs. destruct (p_stencils l (x :: y) Ha Hi Hc Hs) as (Hl & X & _).
        split; auto. pose proof (p_all_levels _ _ Ha). assert (Hl2 : (lmin < l)%nat) by (apply p_leaf, p_all_levels in X; lia).
        replace (l - 1)%nat with (Nat.pred l) by lia. apply B; [lia|]. apply p_topredict; [lia|]. auto.
      + intros l x y Ly Ha. destruct (Nat.le_gt_cases l m) as [Hl|Hl]; [apply D; right; rewrite <- p_at by auto; auto|].
        apply D. left. lia.
      + intros l p SF HB. assert (Lp : length p = S n) by apply SF. pose proof (p_all_levels l p (proj1 SF)) as Hl.
        destruct (Nat.eq_dec l lmin) as [->|Hne].
        * destruct F as (a & b & _ & Dp & _). destruct (proj1 (CP lmin b (v lmin) ltac:(lia) Dp p Lp) SF) as [SF2 ->].
          destruct (proj1 (CP lmin b (v lmin) ltac:(lia) Dp _ (wrap_length _ _ _ _ _)) SF2) as [_ ->]. rewrite (image_twice lmin p). reflexivity.
        * destruct HB as [HB|HB]; [|lia]. destruct (G l ltac:(lia)) as (a & b & Dp & Db & Hin).
          pose proof (image_inside n periodic lo hi pi_lh l p HB) as II.
          destruct (proj1 (CP l a b ltac:(lia) Dp p Lp) SF) as [_ E1].
          assert (E2 : get (v l) p = get b p). { destruct p as [|x y]; [discriminate|]. apply (BC l b (v l) ltac:(lia) Db x y HB). }
          rewrite E2, E1. set (q := image n periodic lo hi l p) in *. destruct q as [|x y]; [destruct II; discriminate|]. apply Hin. auto.
      + intros l Hl. destruct (G l Hl) as (a & b & _ & Db & _). pose proof (BC l b (v l) ltac:(lia) Db) as X. destruct Db as (u0 & v0 & E0 & <- & E1). exists u0, v0. split; auto. split; auto.
        intros x y Y. symmetry. auto.
      + destruct F as (a & b & Db & Dp & Hin). pose proof (CP lmin b (v lmin) ltac:(lia) Dp) as X. destruct Db as (u0 & v0 & E0 & <- & <-). exists u0, v0. split; auto. split; auto.
        intros p Lp. destruct (X p Lp) as [X1 X2]. split; auto. intros Y. apply X1. auto.
  Qed.
End Update.

(** ** The values after the update *)

(** With periodic directions [update_ghost_mr] succeeds: no value is read or written outside
    the storage. Leaves keep their values; a stored cell that contains finer leaves gets the
    mean of its children; a stored cell strictly inside a leaf gets the predicted value;
    values that are not in the storage do not change; a stored ghost across a periodic
    boundary, inside the box in the other directions, has the value of its image in the
    box; and the boundary conditions were applied on the final values of the box and of
    these ghosts (on the coarsest level of the storage: of the box). *)
Theorem C71_update : forall n m minl maxl w s periodic domain L cells lo hi r sub bc, periodic_ghosts_input n m minl maxl w s periodic domain L cells lo hi ->
  update_sub_mesh_periodic n m minl maxl w (Z.of_nat s) periodic domain cells = Some r -> construct_subdomain n maxl cells = Some sub ->
  only_across n maxl periodic (r_all r) lo hi bc ->
  forall u, exists v, update_ghost_mr_periodic n s (update_ghost_periodic n periodic (r_all r) domain w) bc cells r sub u = Some v /\
    (forall l x y, ca_mem n cells l (x :: y) -> v l x y = u l x y) /\
    (forall l x y, ca_mem n (r_all r) l (x :: y) -> (minl - 1 <= l)%nat -> split_at n cells l (x :: y) -> is_mean (v (S l)) x y (v l x y)) /\
    (forall l x y, ca_mem n (r_all r) l (x :: y) -> inside n lo hi l (x :: y) -> ~ ca_mem n cells l (x :: y) -> ~ split_at n cells l (x :: y) ->
       (minl < l)%nat /\ is_predicted s (v (l - 1)%nat) x y (v l x y)) /\
    (forall l x y, length y = n -> ~ ca_mem n (r_all r) l (x :: y) -> v l x y = u l x y) /\
    (forall l p, ca_mem n (r_all r) l p -> fat n (scaled lo l) (scaled hi l) w p -> beside n periodic lo hi l p \/ l = min_level (r_all r) ->
       get (v l) p = get (v l) (image n periodic lo hi l p)) /\
    (forall l, (min_level (r_all r) < l <= max_level (r_all r))%nat -> exists before after, bc l before = Some after /\ after l = v l /\
       forall x y, beside n periodic lo hi l (x :: y) -> before l x y = v l x y) /\
    (let l := min_level (r_all r) in exists before after, bc l before = Some after /\ (forall x y, inside n lo hi l (x :: y) -> before l x y = v l x y) /\
       forall p, length p = S n ->
         (ca_mem n (r_all r) l p /\ fat n (scaled lo l) (scaled hi l) w p -> get (v l) p = get (after l) (image n periodic lo hi l p)) /\
         (~ (ca_mem n (r_all r) l p /\ fat n (scaled lo l) (scaled hi l) w p) -> get (v l) p = get (after l) p)).
Proof.
  intros n m minl maxl w s periodic domain L cells lo hi r sub bc HI HR HD HO u.
  destruct (p_values n m minl maxl w s periodic domain L cells lo hi r sub HI HR HD bc HO u) as (v & E & A & B & C & D & F & G & K).
  exists v. split; auto. split; auto. split; [|split; auto; split; auto; split; auto].
  intros l x y Ha Hl Hs. apply B. eapply p_proj; eauto. split; auto. split; auto. lia.
Qed.

(** When all directions are periodic, the values stored up to the ghost width around the
    box, from one level below the coarsest leaves on, are functions of the values of the
    leaves. *)
Theorem C71_determined : forall n m minl maxl w s periodic domain L cells lo hi r sub bc, periodic_ghosts_input n m minl maxl w s periodic domain L cells lo hi ->
  (forall k, (k <= n)%nat -> nth k periodic false = true) ->
  update_sub_mesh_periodic n m minl maxl w (Z.of_nat s) periodic domain cells = Some r -> construct_subdomain n maxl cells = Some sub ->
  only_across n maxl periodic (r_all r) lo hi bc ->
  forall u u' v v', let update := update_ghost_mr_periodic n s (update_ghost_periodic n periodic (r_all r) domain w) bc cells r sub in
  update u = Some v -> update u' = Some v' -> (forall l x y, ca_mem n cells l (x :: y) -> (u l x y == u' l x y)%Q) ->
  forall l p, (minl - 1 <= l)%nat -> ca_mem n (r_all r) l p -> fat n (scaled lo l) (scaled hi l) w p -> (get (v l) p == get (v' l) p)%Q.
Proof.
  intros n m minl maxl w s periodic domain L cells lo hi r sub bc HI AP HR HD HO u u' v v' update E E' HU. unfold update in *. clear update.
  destruct (p_values n m minl maxl w s periodic domain L cells lo hi r sub HI HR HD bc HO u) as (v1 & E1 & A & B & C & _ & F & _). rewrite E in E1. injection E1 as <-.
  destruct (p_values n m minl maxl w s periodic domain L cells lo hi r sub HI HR HD bc HO u') as (v1 & E1 & A' & B' & C' & _ & F' & _). rewrite E' in E1. injection E1 as <-.
  pose proof (pi_tiles _ _ _ _ _ _ _ _ _ _ _ _ HI) as HT. pose proof (pi_range _ _ _ _ _ _ _ _ _ _ _ _ HI) as HRg. pose proof (pi_lh _ _ _ _ _ _ _ _ _ _ _ _ HI) as LH.
  pose proof HI as (_ & _ & _ & _ & Hw & Hsw & _).
  assert (AB : forall l p, length p = S n -> beside n periodic lo hi l p). { intros l p Lp. split; auto. intros k Hk Pk. rewrite AP in Pk by auto. discriminate. }
  assert (G : forall c l x y, (maxl <= l + c)%nat -> ca_mem n (r_proj r) l (x :: y) \/ ca_mem n cells l (x :: y) -> (v l x y == v' l x y)%Q).
  { induction c as [|c IH]; intros l x y Hc [Hp|Hleaf]; try (rewrite A, A' by auto; apply HU; auto).
    - exfalso. apply (p_proj n m minl maxl w s periodic domain L cells lo hi r HI HR) in Hp as (_ & _ & l' & q & Hl' & Hq & _). apply HRg in Hq. lia.
    - assert (Lp : length (x :: y) = S n) by apply Hp.
      apply (mean_local (v (S l)) (v' (S l)) x y); auto. intros cx cy Hcc. apply children_In in Hcc as (Ec & Lc & Ac). apply IH; [lia|].
      destruct (p_closed n m minl maxl w s periodic domain L cells lo hi r HI HR l (cx :: cy)) as [_ H2]; [|cbn in *; lia|tauto].
      rewrite ancestor_cons. change (2 ^ Z.of_nat 1) with 2. rewrite Ec, Ac. auto. }
  (* from the box to the ghosts *)
  assert (K : forall l, (forall x y, ca_mem n (r_all r) l (x :: y) -> inside n lo hi l (x :: y) -> (v l x y == v' l x y)%Q) ->
    forall p, ca_mem n (r_all r) l p -> fat n (scaled lo l) (scaled hi l) w p -> (get (v l) p == get (v' l) p)%Q).
  { intros l Hag p Hp Hf. assert (Lp : length p = S n) by apply Hp. rewrite F, F' by auto.
    pose proof (p_all_levels n m minl maxl w s periodic domain L cells lo hi r HI HR l p Hp) as Hl.
    pose proof (p_bounds n m minl maxl w s periodic domain L cells lo hi r sub HI HR) as Hb. pose proof (pi_max _ _ _ _ _ _ _ _ _ _ _ _ HI) as Hm.
    pose proof (p_input n m minl maxl w s periodic domain L cells lo hi r sub HI HR l ltac:(lia)) as HP.
    destruct (C69_copies n periodic (r_all r) domain L lo hi w l u HP) as (v1 & _ & _ & P1). destruct (P1 p Lp) as [P2 _].
    rewrite <- !(p_at n m minl maxl w s periodic domain L cells lo hi r HI HR) in P2 by (auto; lia). destruct (P2 Hp Hf) as [P3 _].
    pose proof (image_inside n periodic lo hi LH l p (AB l p Lp)) as II. set (q := image n periodic lo hi l p) in *. destruct q as [|x y]; [destruct II; discriminate|]. apply Hag; auto. }
  assert (I : forall l, (minl - 1 <= l)%nat -> forall x y, ca_mem n (r_all r) l (x :: y) -> inside n lo hi l (x :: y) -> (v l x y == v' l x y)%Q).
  { induction l as [l IH] using (well_founded_induction lt_wf). intros Hl x y Ha Hi.
    destruct (trichotomy n minl maxl cells lo hi HT HRg l (x :: y) Hi) as [(l0 & Hl0 & H0)|Hs].
    - destruct (Nat.eq_dec l0 l) as [->|Hne]; [rewrite Nat.sub_diag, ancestor_0 in H0; apply (G maxl); auto; lia|].
      assert (N1 : ~ ca_mem n cells l (x :: y)). { intros H1. assert (l0 = l); [|lia]. apply (proj1 HT l0 l _ _ H0 H1); auto. }
      assert (N2 : ~ split_at n cells l (x :: y)) by (intros H1; eapply above_not_split; eauto).
      destruct (C l x y Ha Hi N1 N2) as [Hl2 P1]. destruct (C' l x y Ha Hi N1 N2) as [_ P2].
      assert (Ly : length y = n) by (destruct Hi as [Li _]; cbn in Li; lia).
      destruct (p_stencils n m minl maxl w s periodic domain L cells lo hi r HI HR l (x :: y) Ha Hi N1 N2) as (_ & _ & X).
      apply (predicted_local n s (v (l - 1)%nat) (v' (l - 1)%nat) x y); auto. intros p Lp Np. destruct p as [|px py]; [discriminate|]. cbn [value_at].
      apply (K (l - 1)%nat (IH (l - 1)%nat ltac:(lia) ltac:(lia)) (px :: py)); auto.
      replace l with (l - 1 + 1)%nat in Hi by lia. apply inside_ancestor in Hi as [_ [_ Hi]]. split; auto. intros k Hk. rewrite !nth_scaled. specialize (Hi k Hk). specialize (Np k Hk). lia.
    - apply (G maxl); [lia|]. left. apply (p_proj n m minl maxl w s periodic domain L cells lo hi r HI HR). split; auto. split; auto. lia. }
  intros l p Hl Hp Hf. apply K; auto.
Qed.

(** ** The boundary conditions *)

(** When all directions are periodic, they change nothing. *)
Lemma crosses_all : forall periodic dir, length dir = length periodic -> (forall k, (k < length periodic)%nat -> nth k periodic false = true) ->
  crosses periodic dir = false -> forallb (Z.eqb 0) dir = true.
Proof.
  unfold crosses. induction periodic as [|b periodic IH]; intros [|x dir] E A H; try discriminate; auto. cbn [combine existsb forallb] in *.
  apply orb_false_iff in H as [H1 H2]. pose proof (A 0%nat ltac:(cbn; lia)) as A0. cbn in A0. subst b. rewrite andb_true_r in H1. apply negb_false_iff in H1. rewrite Z.eqb_sym, H1.
  cbn [andb]. apply IH; auto. intros k Hk. apply (A (S k)). cbn. lia.
Qed.
Lemma zero_not_cartesian : forall dir, forallb (Z.eqb 0) dir = true -> is_cartesian dir = false.
Proof.
  intros dir H. unfold is_cartesian. assert (X : fold_right (fun x s => Z.abs x + s) 0 dir = 0); [|rewrite X; reflexivity].
  induction dir as [|x dir IH]; auto. cbn [forallb] in H. apply andb_prop in H as [H1 H2]. apply Z.eqb_eq in H1. subst. cbn. apply IH. auto.
Qed.

Theorem C71_no_condition : forall n periodic cells reference domain minl maxl width order dx bs level v,
  length periodic = S n -> (forall k, (k <= n)%nat -> nth k periodic false = true) -> (level <= a_level domain)%nat ->
  (forall b dir a, In b bs -> In (dir, a) (bc_region b) -> length dir = S n) ->
  exists v', update_bc_periodic n periodic cells reference domain minl maxl width order dx bs level v = Some v' /\ forall l x y, v' l x y = v l x y.
Proof.
  intros n periodic cells reference domain minl maxl width order dx bs level v LP AP HL HB.
  assert (CA : forall dir, length dir = S n -> crosses periodic dir = false -> forallb (Z.eqb 0) dir = true).
  { intros dir Ld. apply crosses_all; [lia|]. intros k Hk. apply AP. lia. }
  assert (EX : forall corners only layers u, extrapolate_layers_periodic n periodic cells reference domain level corners only layers u = Some u).
  { intros corners only layers. induction layers as [|k layers IH]; intros u; auto. cbn [extrapolate_layers_periodic].
    assert (X : apply_extrapolation_periodic n periodic cells reference domain (2 * k) level (corners k) only u = Some u).
    { unfold apply_extrapolation_periodic. rewrite (proj2 (Nat.leb_le _ _) HL). cbn [checked].
      assert (Y : forall dir, In dir (filter (fun dir => negb (crosses periodic dir)) (nested_loop (S n) (-1) 2)) -> forallb (Z.eqb 0) dir = true).
      { intros dir Hd. apply filter_In in Hd as [Hd Hc]. apply CA; [apply nested_loop_In in Hd; apply Hd|]. apply negb_true_iff. auto. }
      induction (filter (fun dir => negb (crosses periodic dir)) (nested_loop (S n) (-1) 2)) as [|dir dirs IHd]; auto.
      cbn [extrapolate_directions]. rewrite Y by (left; auto). cbn [orb]. apply IHd. intros d Hd. apply Y. right. auto. }
    rewrite X. destruct (Nat.leb (2 * k) 6); apply IH. }
  assert (BS : forall u, apply_bcs n cells reference minl maxl (dx level) (map (without_periodic periodic) bs) level u = Some u).
  { intros u. clear v. revert u. induction bs as [|b bs IH]; intros u; auto. cbn [map apply_bcs].
    assert (X : forall reg, (forall dir a, In (dir, a) reg -> length dir = S n) ->
      apply_bc_impl n cells reference minl maxl (dx level) (without_periodic periodic b) level (filter (fun '(dir, _) => negb (crosses periodic dir)) reg) u = Some u).
    { induction reg as [|[dir a] reg IHr]; intros HR; auto. cbn [filter]. destruct (crosses periodic dir) eqn:Ec; cbn [negb]; [apply IHr; intros; eapply HR; right; eauto|].
      cbn [apply_bc_impl]. unfold apply_bc_direction. rewrite zero_not_cartesian by (apply CA; auto; eapply HR; left; eauto). apply IHr. intros; eapply HR; right; eauto. }
    cbn [without_periodic bc_region]. rewrite X by (intros; eapply HB; [left; auto|eauto]). apply IH. intros; eapply HB; [right|]; eauto. }
  unfold update_bc_periodic. exists (upd v level (v level)). split.
  - destruct (Nat.ltb order width && negb (Nat.eqb minl maxl)); [rewrite EX|]; rewrite BS, EX; auto.
  - intros l x y. unfold upd. destruct (Nat.eqb_spec l level) as [->|]; auto.
Qed.

(** ** Cases *)

(** The square [0, 2)^2 on level 1, except its four corners, which meet on the torus: they
    are on level 2, with one cell on level 3. *)
Definition torusTree : nat -> list lcl_call := fun l =>
  match l with
  | 1%nat => [AddI [0] (mk 1 3); AddI [1] (mk 0 4); AddI [2] (mk 0 4); AddI [3] (mk 1 3)]
  | 2%nat => flat_map (fun y => [AddI [y] (mk 0 2); AddI [y] (mk 6 8)]) [0; 1; 6] ++ [AddI [7] (mk 0 2); AddI [7] (mk 6 7)]
  | 3%nat => [AddI [14] (mk 14 16); AddI [15] (mk 14 16)]
  | _ => []
  end.
Definition torusMesh : ca := client_ca 1 4 torusTree true.
Definition torusDomain : lca := lca_of_box 1 3 [0; 0] [16; 16].

Lemma torusMesh_wf : ca_wf 1 torusMesh.
Proof.
  assert (G : good_hist 1 4 torusTree).
  { intros l Hl. split; [|apply adds_filled]; destruct l as [|[|[|[|l]]]]; cbn; repeat constructor; simpl; lia. }
  destruct (ca_update_index_spec 1 (client_ca 1 4 torusTree false) (raw_wf _ _ _ G)) as (cs & _ & W & _). exact W.
Qed.

Definition graded_periodicb (n : nat) (periodic : list bool) (lo hi : list Z) (cs : list (nat * list Z)) : bool :=
  forallb (fun '(l, p) => forallb (fun '(l', q) => implb (Nat.leb (l + 2) l')
    (forallb (fun v => negb (zlist_eqb (image n periodic lo hi l (ancestor (l' - l) (vadd n q v))) p)) (nested_loop (S n) (-1) 2))) cs) cs.
Lemma graded_periodic_check : forall n periodic lo hi c cs, ca_wf n c -> ca_for_each_cell n c = Some cs ->
  graded_periodicb n periodic lo hi (leaf_cells cs) = true -> graded_periodic n periodic lo hi c.
Proof.
  intros n periodic lo hi c cs W E H l l' p q v Hp Hq Hl Hv Eq. destruct (ca_for_each_cell_spec n c W) as (cs' & E' & [_ EN] & _). rewrite E in E'. injection E' as <-.
  apply EN in Hp, Hq. unfold graded_periodicb in H. rewrite forallb_forall in H. specialize (H _ Hp). cbn beta iota in H.
  rewrite forallb_forall in H. specialize (H _ Hq). cbn beta iota in H. apply Nat.leb_le in Hl. rewrite Hl in H. cbn [implb] in H.
  rewrite forallb_forall in H. set (v' := map (fun k => nth k v 0) (seq 0 (S n))).
  assert (N : forall k, (k <= n)%nat -> nth k v' 0 = nth k v 0) by (intros k Hk; apply (nth_map_seq (S n)); lia).
  assert (I : In v' (nested_loop (S n) (-1) 2)).
  { assert (Lv : length v' = S n) by (unfold v'; rewrite map_length, seq_length; auto). apply nested_loop_In. split; auto.
    apply forall_nth. intros k Hk. rewrite N by lia. specialize (Hv k ltac:(lia)). lia. }
  apply H in I. replace (vadd n q v') with (vadd n q v) in I.
  - rewrite (proj2 (zlist_eqb_eq _ _) Eq) in I. discriminate.
  - apply (list_ext n); try apply vadd_length. intros k Hk. rewrite !nth_vadd, N by auto. auto.
Qed.

Definition run_of (mesh : option mr_mesh) (sub : option lca) (region : option (list (list Z * lca))) (F : mr_mesh -> lca -> list (list Z * lca) -> option lfield)
  : option (mr_mesh * lfield) :=
  let* r := mesh in let* sub := sub in let* region := region in let* v := F r sub region in Some (r, v).
Notation torusUpdate periodic u :=
  (run_of (update_sub_mesh_periodic 1 4 1 3 1 1 periodic torusDomain torusMesh) (construct_subdomain 1 3 torusMesh) (everywhere 1 torusDomain) (fun r sub region =>
    update_ghost_mr_periodic 1 1 (update_ghost_periodic 1 periodic (r_all r) torusDomain 1)
      (update_bc_periodic 1 periodic torusMesh (r_all r) torusDomain 1 3 1 1 (fun _ => 1%Q) [exBc region]) torusMesh r sub u)).
(** Leaves at x + 2 y, [g] elsewhere. *)
Definition torusStart (g : Q) : lfield := fun l x y =>
  if stored 1 torusMesh l (x :: y) then Qmake (2 ^ (3 - Z.of_nat l) * (2 * x + 1 + 2 * (2 * nth 0 y 0 + 1))) 2 else g.
Definition values_of (o : option (mr_mesh * lfield)) (ps : list (nat * list Z)) : option (list Q) :=
  let* (r, v) := o in Some (map (fun '(l, p) => Qred (value_at (v l) p)) ps).
Notation torusShow periodic g ps := (values_of (torusUpdate periodic (torusStart g)) ps).

Example C71_case : forall periodic, In periodic [both; [true; false]] -> periodic_ghosts_input 1 4 1 3 1 1 periodic torusDomain 3 torusMesh [0; 0] [2; 2].
Proof.
  intros periodic HPer. assert (Two : forall k, (k <= 1)%nat -> k = 0%nat \/ k = 1%nat) by (intros; lia).
  assert (T : tiles 1 torusMesh [0; 0] [2; 2] /\ forall l q, ca_mem 1 torusMesh l q -> (l <= 3)%nat).
  { eapply tiles_check; [exact torusMesh_wf|vm_compute; reflexivity|reflexivity|reflexivity|vm_compute; reflexivity]. }
  destruct T as [T TL].
  assert (PW : forall l, (l <= 3)%nat -> 0 < 2 ^ Z.of_nat l <= 8).
  { intros l Hl. change 8 with (2 ^ 3). split; [apply Z.pow_pos_nonneg; lia|apply Z.pow_le_mono_r; lia]. }
  split; [|split; [lia|split; [exact T|split; [|split; [lia|split; [lia|split; [lia|split; [|split]]]]]]]].
  - split; [|split; [|split; [lia|split; [lia|]]]].
    + split; [exact torusMesh_wf|]. split; [reflexivity|]. split; [lia|].
      split; [intros l Hl; destruct l as [|[|[|[|[|l]]]]]; [vm_compute; reflexivity..|lia]|]. split; [lia|]. split; [lia|].
      assert (X : forall l q, ca_mem 1 torusMesh l q -> (1 <= l)%nat).
      { intros l q Hq. destruct (min_level_spec torusMesh) as (A & _). destruct Hq as [Hl Hq].
        change 1%nat with (min_level torusMesh). apply A; auto. apply (nonempty_mem 1); [apply torusMesh_wf; auto|eauto]. }
      split; [intros l q Hq; split; [apply (X l q Hq)|apply (TL l q Hq)]|].
      intros l q k Hq Hk. pose proof (PW l (TL _ _ Hq)). apply T in Hq as [_ Hq]. specialize (Hq k Hk).
      assert (nth k [2; 2] 0 = 2) as E1 by (destruct k as [|[|k]]; [reflexivity|reflexivity|lia]). rewrite E1 in Hq. lia.
    + destruct (C14_box_array 1 3 [0; 0] [16; 16]) as (L1 & W1 & M1 & _); [intros d Hd; destruct (Two d Hd) as [->| ->]; cbn; lia|].
      split; [exact W1|]. split; [exact L1|]. split; [intros k Hk; destruct (Two k Hk) as [->| ->]; cbn; lia|]. intros p. unfold torusDomain. rewrite M1. unfold inside.
      split; intros [Lp X]; (split; [exact Lp|]); intros k Hk; specialize (X k Hk); destruct (Two k Hk) as [->| ->]; cbn in *; lia.
    + intros l k Hl Hk. pose proof (PW l Hl). change (2 ^ 31) with 2147483648. destruct (Two k Hk) as [->| ->]; cbn [nth]; lia.
  - eapply graded_periodic_check; [exact torusMesh_wf|vm_compute; reflexivity|]. destruct HPer as [<-|[<-|[]]]; vm_compute; reflexivity.
  - exists 1%nat, [1; 0]. split; [cbn; lia|]. apply stored_mem; [apply torusMesh_wf; cbn; lia|reflexivity|vm_compute; reflexivity].
  - intros k Hk. destruct (Two k Hk) as [->| ->]; vm_compute; reflexivity.
  - intros k Hk _. destruct (Two k Hk) as [->| ->]; vm_compute; discriminate.
Qed.

(** On the torus: two leaves, the ghost of level 2 across the corner (the value of the leaf
    (0, 0)), two cells predicted from values on the two sides of the corner, their copies,
    a cell with finer leaves, its copy, and the cell of level 0. *)
Example C71_example : torusShow both 100 [(2%nat, [1; 0]); (2%nat, [0; 0]); (2%nat, [8; 8]); (3%nat, [0; 0]); (3%nat, [0; 15]); (3%nat, [16; 16]); (3%nat, [16; 15]);
    (1%nat, [3; 3]); (1%nat, [-1; -1]); (0%nat, [0; 0])] =
  Some [5; 3; 3; 15 # 2; 59 # 2; 15 # 2; 59 # 2; 42; 42; 12]%Q.
Proof. vm_compute. reflexivity. Qed.

Lemma show_run : forall o ps out, values_of o ps = Some out -> exists r v, o = Some (r, v) /\ map (fun '(l, p) => Qred (value_at (v l) p)) ps = out.
Proof. intros [[r v]|] ps out H; [|discriminate]. injection H as H. eauto. Qed.
Lemma run_mesh : forall mesh sub region F r v, run_of mesh sub region F = Some (r, v) -> mesh = Some r.
Proof. intros [r0|] [a|] [b|] F r v H; try discriminate. unfold run_of in H. destruct (F r0 a b); [|discriminate]. congruence. Qed.
Lemma run_stored : forall o r, o = Some r -> option_map (fun r => stored 1 (r_all r) 3 [0; 15]) o = Some true -> stored 1 (r_all r) 3 [0; 15] = true.
Proof. intros o r -> H. injection H as H. exact H. Qed.

Lemma torus_leaves : forall g g' l x y, ca_mem 1 torusMesh l (x :: y) -> torusStart g l x y = torusStart g' l x y.
Proof.
  intros g g' l x y [H1 H2]. unfold torusStart. replace (stored 1 torusMesh l (x :: y)) with true; auto. symmetry. apply stored_mem; auto; [apply torusMesh_wf; auto|apply H2].
Qed.
Notation mixedMesh := (update_sub_mesh_periodic 1 4 1 3 1 1 [true; false] torusDomain torusMesh).
Lemma mixed_mesh : forall u r v, torusUpdate [true; false] u = Some (r, v) -> mixedMesh = Some r.
Proof. intros u r v H. exact (run_mesh mixedMesh _ _ _ r v H). Qed.
Lemma mixed_stored : option_map (fun r => stored 1 (r_all r) 3 [0; 15]) mixedMesh = Some true.
Proof. vm_compute. reflexivity. Qed.
Lemma mixed_100 : torusShow [true; false] 100 [(3%nat, [0; 15])] = Some [(1585 # 64)%Q].
Proof. vm_compute. reflexivity. Qed.
Lemma mixed_7 : torusShow [true; false] 7 [(3%nat, [0; 15])] = Some [(839 # 32)%Q].
Proof. vm_compute. reflexivity. Qed.
Lemma mixed_mem : forall r, mixedMesh = Some r -> ca_mem 1 (r_all r) 3 [0; 15].
Proof.
  intros r ER. pose proof (run_stored _ _ ER mixed_stored) as M.
  destruct (C70_contents 1 4 1 3 1 1 [true; false] torusDomain 3 [0; 0] [2; 2] torusMesh) as (r0 & E0 & W & _).
  { apply (C71_case [true; false]). right. left. auto. }
  rewrite ER in E0. injection E0 as <-. destruct (W (r_all r)) as (W1 & W2 & _); auto. split; [lia|]. apply stored_mem; auto. apply W1. lia.
Qed.

(** With one periodic direction of the two, [C71_determined] is false: above the coarsest
    level the copies are made before the boundary conditions, and the latter leave out the
    diagonals, so that the ghosts at the corners are copied from ghosts not yet computed.
    Here a predicted value of the box depends on what was in the ghosts before. *)
Theorem C71_mixed_refuted : exists periodic u u' r v v' l x y,
  periodic_ghosts_input 1 4 1 3 1 1 periodic torusDomain 3 torusMesh [0; 0] [2; 2] /\
  (forall l x y, ca_mem 1 torusMesh l (x :: y) -> u l x y = u' l x y) /\
  torusUpdate periodic u = Some (r, v) /\ torusUpdate periodic u' = Some (r, v') /\
  (1 <= l)%nat /\ ca_mem 1 (r_all r) l (x :: y) /\ inside 1 [0; 0] [2; 2] l (x :: y) /\ ~ (v l x y == v' l x y)%Q.
Proof.
  destruct (show_run _ _ _ mixed_100) as (r & v & E & Y). destruct (show_run _ _ _ mixed_7) as (r' & v' & E' & Y').
  pose proof (mixed_mesh _ _ _ E) as ER. pose proof (mixed_mesh _ _ _ E') as ER'. assert (r' = r) as -> by congruence.
  exists [true; false], (torusStart 100), (torusStart 7), r, v, v', 3%nat, 0, [15].
  split; [apply C71_case; right; left; auto|]. split; [apply torus_leaves|]. split; [exact E|]. split; [exact E'|]. split; [lia|].
  split; [apply mixed_mem; exact ER|]. split; [split; [reflexivity|]; intros k Hk; destruct k as [|[|k]]; [cbn; lia|cbn; lia|lia]|].
  intros Z. apply Qred_complete in Z. cbn [map value_at] in Y, Y'. injection Y as Y. injection Y' as Y'. rewrite Y, Y' in Z. discriminate.
Qed.

Print Assumptions C71_update.
Print Assumptions C71_determined.
Print Assumptions C71_no_condition.
Print Assumptions C71_mixed_refuted.
