(** Property C55: the values that update_ghost_mr puts in the ghosts. *)
From Coq Require Import QArith Permutation.
From Verif Require Import Base IntervalModel Spec LoiModel LcaModel LcaSpec LcaProofs RowsProofs CellArrayModel CellArrayProofs PropsLca PropsCellArray
  SubsetModel TreeProofs SubsetSpec SubsetProofs2 PropsSubset StencilModel MeshModel MeshProofs PropsMesh NumModel NumProofs PropsNum AdaptModel AdaptProofs TagProofs
  TransferProofs PropsAdapt PropsTransfer MrModel MrProofs PropsMr GhostModel GhostProofs.
Open Scope Z_scope.

(** ** Hypotheses *)

(** A graded mesh of several levels that fills the box from [lo] to [hi] (in units of
    level 0), with a prediction of order [s] whose stencils are in the reference (C54),
    and coordinates away from the largest integer. *)
Definition ghost_input (n m minl maxl : nat) (w : Z) (s : nat) (cells : ca) (lo hi : list Z) : Prop :=
  mr_input n m minl maxl w (Z.of_nat s) cells /\ maxl <> minl /\ tiles n cells lo hi /\ graded_box n cells /\
  1 <= w /\ (Z.of_nat s <= 1 + w / 2 \/ Z.of_nat s + (w + 1) / 2 <= 3) /\ (n <= 2)%nat /\
  (exists l q, ca_mem n cells l q) /\
  (forall k, (k <= n)%nat -> 2 * (Z.max 0 (nth k hi 0) * 2 ^ Z.of_nat maxl + w + Z.of_nat s + 8) < 2 ^ 31 - 1).

(** What is asked from the boundary conditions: on each level they succeed and change
    only values stored outside the box, on that level. *)
Definition only_outside (n maxl : nat) (reference : ca) (lo hi : list Z) (bc : nat -> lfield -> option lfield) : Prop :=
  forall l u, (l <= maxl)%nat -> exists v, bc l u = Some v /\ (forall k, k <> l -> v k = u k) /\
    forall x y, inside n lo hi l (x :: y) \/ ~ ca_mem n reference l (x :: y) -> v l x y = u l x y.

(** Around a cell [p] of the box that has its neighbours up to the distance [s] in the
    storage, the values after the boundary conditions depend only on the values stored
    in the box. *)
Definition fills (n : nat) (s : Z) (reference : ca) (lo hi : list Z) (bc : nat -> lfield -> option lfield) : Prop :=
  forall l u u' v v', bc l u = Some v -> bc l u' = Some v' ->
    (forall x y, ca_mem n reference l (x :: y) -> inside n lo hi l (x :: y) -> (u l x y == u' l x y)%Q) ->
    forall p, ca_mem n reference l p -> inside n lo hi l p -> (forall q, length q = S n -> near n s q p -> ca_mem n reference l q) ->
    forall x y, length y = n -> near n s (x :: y) p -> (v l x y == v' l x y)%Q.

Section Update.
  Variables (n m minl maxl : nat) (w : Z) (s : nat) (cells : ca) (lo hi : list Z) (r : mr_mesh) (sub : lca).
  Hypothesis HI : ghost_input n m minl maxl w s cells lo hi.
  Hypothesis HR : update_sub_mesh n m minl maxl w (Z.of_nat s) cells = Some r.
  Hypothesis HD : construct_subdomain n maxl cells = Some sub.

  Notation wtd := (wanted n minl w (Z.of_nat s) cells).

  Lemma gi_in : mr_input n m minl maxl w (Z.of_nat s) cells.
  Proof. exact (proj1 HI). Qed.
  Lemma gi_range : forall l q, ca_mem n cells l q -> (minl <= l <= maxl)%nat.
  Proof. exact (proj1 (proj2 (proj2 (proj2 (proj2 (proj2 (proj2 gi_in))))))). Qed.
  Lemma gi_tiles : tiles n cells lo hi.
  Proof. exact (proj1 (proj2 (proj2 HI))). Qed.
  Lemma gi_ne : maxl <> minl.
  Proof. exact (proj1 (proj2 HI)). Qed.
  Lemma gi_max : (maxl <= m)%nat.
  Proof. exact (proj1 (proj2 (proj2 gi_in))). Qed.

  Lemma contents : (forall c, c = r_proj r \/ c = r_all r -> ca_wf n c /\ c_max c = m /\ forall l, (l <= m)%nat -> a_level (c_at c l) = l) /\
    forall l p, (ca_mem n (r_all r) l p <-> wtd l p) /\ (ca_mem n (r_proj r) l p <-> wtd l p /\ refined n minl cells l p).
  Proof.
    destruct (C54_contents n m minl maxl w (Z.of_nat s) cells gi_in) as (r' & E & W & _ & M & _). rewrite HR in E. injection E as <-.
    split; [intros c Hc; apply W; tauto|apply M; apply gi_ne].
  Qed.
  Lemma all_wanted : forall l p, ca_mem n (r_all r) l p <-> wtd l p.
  Proof. intros. apply contents. Qed.
  Lemma proj_wanted : forall l p, ca_mem n (r_proj r) l p <-> wtd l p /\ refined n minl cells l p.
  Proof. intros. apply contents. Qed.

  Lemma wanted_levels : forall l p, wtd l p -> (minl <= l + 2 /\ l <= maxl)%nat.
  Proof.
    intros l p H. destruct H as [l p (_ & q & Hq & _)|l p h _ (_ & q & Hq & _) _ _|l p q _ Hq _|l p _ _ (Hl & l' & q & Hl' & Hq & _)];
      apply gi_range in Hq; lia.
  Qed.

  Lemma wanted_le : forall l p k, wtd l p -> (k <= n)%nat -> exists l' q, ca_mem n cells l' q /\ nth k p 0 <= Z.max 0 (nth k q 0) + w + Z.of_nat s + 1.
  Proof.
    assert (Hw : 0 <= w) by exact (in_w _ _ _ _ _ _ _ gi_in).
    intros l p k H Hk. destruct H as [l p (_ & q & Hq & N)|l p h _ (_ & q & Hq & N) _ N'|l p q _ Hq N|l p _ _ (Hl & l' & q & Hl' & Hq & E)].
    - exists l, q. split; auto. specialize (N k Hk). lia.
    - exists (S l), q. split; auto. specialize (N k Hk). specialize (N' k Hk). pose proof (anc_le 1 h k). lia.
    - exists (S (S l)), q. split; auto. specialize (N k Hk). pose proof (anc_le 2 q k). lia.
    - exists l', q. split; auto. apply (f_equal (fun z => nth k z 0)) in E. rewrite !nth_ancestor in E.
      change (2 ^ Z.of_nat 1) with 2 in E. replace (l' - l)%nat with (S (l' - l - 1)) in E by lia.
      rewrite Nat2Z.inj_succ, Z.pow_succ_r in E by lia. assert (P : 0 < 2 ^ Z.of_nat (l' - l - 1)) by (apply Z.pow_pos_nonneg; lia).
      set (Q := 2 ^ Z.of_nat (l' - l - 1)) in *. pose proof (Z.div_mod (nth k p 0) 2 ltac:(lia)). pose proof (Z.mod_pos_bound (nth k p 0) 2 ltac:(lia)).
      assert (0 < 2 * Q) by lia. pose proof (Z.mul_div_le (nth k q 0) (2 * Q) ltac:(lia)). rewrite <- E in *. nia.
  Qed.

  Lemma inside_le : forall l p k, inside n lo hi l p -> (l <= maxl)%nat -> (k <= n)%nat -> nth k p 0 < Z.max 0 (nth k hi 0) * 2 ^ Z.of_nat maxl + 1.
  Proof.
    intros l p k [_ H] Hl Hk. specialize (H k Hk). assert (2 ^ Z.of_nat l <= 2 ^ Z.of_nat maxl) by (apply Z.pow_le_mono_r; lia).
    assert (0 < 2 ^ Z.of_nat l) by (apply Z.pow_pos_nonneg; lia). nia.
  Qed.

  Lemma all_bound : forall l p k, ca_mem n (r_all r) l p -> (k <= n)%nat -> 2 * (nth k p 0 + 3) < 2 ^ 31 - 1 /\ nth k p 0 + 3 < 2 ^ 31 - 1.
  Proof.
    intros l p k H Hk. apply all_wanted in H. destruct (wanted_le l p k H Hk) as (l' & q & Hq & Hle).
    pose proof (proj1 (proj2 gi_tiles) l' q Hq) as Hin. pose proof (gi_range l' q Hq). pose proof (inside_le l' q k Hin ltac:(lia) Hk).
    destruct HI as (_ & _ & _ & _ & Hw & _ & _ & _ & HB). specialize (HB k Hk). lia.
  Qed.

  Lemma sub_inside : wf n sub /\ a_level sub = maxl /\ below_max n sub /\
    forall l p, (l <= maxl)%nat -> length p = S n -> (denotes n l p (NMesh sub) <-> inside n lo hi l p).
  Proof.
    destruct (C26_subdomain n maxl cells (in_wf _ _ _ _ _ _ _ gi_in)) as (a & E & W & L & M).
    { intros l q Hq. apply (gi_range l q Hq). }
    rewrite HD in E. injection E as <-. destruct gi_tiles as (_ & TI & TC).
    assert (X : forall z, lca_mem n sub z <-> inside n lo hi maxl z).
    { intros z. rewrite M. split.
      - intros (l & Hl). pose proof (gi_range _ _ Hl). apply TI in Hl. replace maxl with (l + (maxl - l))%nat by lia. apply inside_ancestor.
        split; auto. rewrite <- (ancestor_length (maxl - l)). apply Hl.
      - intros Hz. destruct (TC maxl z) as (l & _ & Hl); auto; [intros l q Hq; apply (gi_range l q Hq)|eauto]. }
    split; auto. split; auto. split.
    - intros q k Hq Hk. apply X in Hq. pose proof (inside_le maxl q k Hq ltac:(lia) Hk). destruct HI as (_ & _ & _ & _ & Hw & _ & _ & _ & HB). specialize (HB k Hk). lia.
    - intros l p Hl Lp. rewrite denotes_mesh_coarse by lia. rewrite L. split.
      + intros (z & Hz & ->). apply X in Hz. replace maxl with (l + (maxl - l))%nat in Hz at 1 by lia. apply inside_ancestor in Hz. apply Hz.
      + intros Hp. destruct (descend (maxl - l) p) as (z & Lz & Az). exists z. split; auto. apply X.
        replace maxl with (l + (maxl - l))%nat by lia. apply inside_ancestor. rewrite Az. split; auto. lia.
  Qed.

  Lemma leaf_wanted : forall l p, ca_mem n cells l p -> wtd l p.
  Proof.
    intros l p H. apply wanted_margin. split; [apply H|]. exists p. split; auto. intros k _. pose proof (in_w _ _ _ _ _ _ _ gi_in). lia.
  Qed.

  Lemma at_level : forall c l p, c = cells \/ c = r_proj r \/ c = r_all r -> (l <= m)%nat -> (ca_mem n c l p <-> lca_mem n (c_at c l) p).
  Proof.
    intros c l p Hc Hl. assert (E : c_max c = m) by (destruct Hc as [->|Hc]; [apply (in_max _ _ _ _ _ _ _ gi_in)|apply contents; auto]).
    unfold ca_mem. rewrite E. tauto.
  Qed.
  Lemma mem_level : forall c l p, c = cells \/ c = r_proj r \/ c = r_all r -> ca_mem n c l p -> (l <= m)%nat.
  Proof.
    intros c l p Hc [Hl _]. assert (E : c_max c = m) by (destruct Hc as [->|Hc]; [apply (in_max _ _ _ _ _ _ _ gi_in)|apply contents; auto]). lia.
  Qed.

  Notation lmin := (min_level (r_all r)).
  Notation lmax := (max_level (r_all r)).

  Lemma all_levels : forall l p, ca_mem n (r_all r) l p -> (lmin <= l <= lmax)%nat.
  Proof.
    intros l p [Hl Hp]. destruct (proj1 contents (r_all r)) as (W & _ & _); auto.
    assert (E : lca_is_empty (c_at (r_all r) l) = false) by (apply (nonempty_mem n); [apply W; auto|eauto]).
    destruct (min_level_spec (r_all r)) as (A & _). destruct (max_level_spec (r_all r)) as (B & _).
    pose proof (A l Hl E). pose proof (B l Hl E) as [B1 _]. lia.
  Qed.

  Lemma bounds : (lmin <= lmax <= maxl)%nat /\ (minl <= lmin + 2)%nat.
  Proof.
    destruct (proj1 contents (r_all r)) as (W & Em & _); auto.
    destruct HI as (_ & _ & _ & _ & _ & _ & _ & (l & q & Hq) & _). apply leaf_wanted in Hq. apply all_wanted in Hq. pose proof (all_levels l q Hq).
    destruct Hq as [Hl Hq]. assert (E : lca_is_empty (c_at (r_all r) l) = false) by (apply (nonempty_mem n); [apply W; auto|eauto]).
    destruct (min_level_spec (r_all r)) as (_ & A & _). destruct (max_level_spec (r_all r)) as (B & _).
    destruct (A l Hl E) as [A1 A2]. destruct (B l Hl E) as [B1 B2].
    apply (nonempty_mem n) in A2 as (p1 & P1); [|apply W; lia]. apply (nonempty_mem n) in B2 as (p2 & P2); [|apply W; lia].
    assert (Q1 : ca_mem n (r_all r) lmin p1) by (split; auto). assert (Q2 : ca_mem n (r_all r) lmax p2) by (split; auto; lia).
    apply all_wanted in Q1, Q2. apply wanted_levels in Q1, Q2. lia.
  Qed.

  Lemma proj_split : forall l p, ca_mem n (r_proj r) l p <-> ca_mem n (r_all r) l p /\ (Nat.pred minl <= l)%nat /\ split_at n cells l p.
  Proof.
    intros l p. rewrite proj_wanted, all_wanted. unfold refined, split_at. tauto.
  Qed.

  Lemma topredict_iff : forall l x y, (lmin < l <= lmax)%nat -> (topredict n cells r (inside n lo hi) l (x :: y) <->
    ca_mem n (r_all r) l (x :: y) /\ inside n lo hi l (x :: y) /\ ~ ca_mem n cells l (x :: y) /\ ~ split_at n cells l (x :: y)).
  Proof.
    intros l x y Hl. pose proof bounds as Hb. pose proof gi_max as Hm. unfold topredict. rewrite <- !at_level by (auto; lia). rewrite proj_split. split.
    - intros (H1 & H2 & H3 & H4 & _). split; auto. split; auto. split; auto. intros H. apply H3. split; auto. split; auto. lia.
    - intros (H1 & H2 & H3 & H4). split; auto. split; auto. split; [tauto|]. split; auto.
      pose proof HI as (A1 & A2 & A3 & A4 & A5 & A6 & _).
      destruct (C54_prediction_stencils n m minl maxl w (Z.of_nat s) cells r lo hi A1 A2 A3 A4 A5 A6 HR l (x :: y) H1 H2 H3 H4) as [_ X].
      replace (Nat.pred l) with (l - 1)%nat by lia. apply X; [rewrite ancestor_length; apply H2|]. intros k _. lia.
  Qed.

  Variable bc : nat -> lfield -> option lfield.
  Hypothesis HO : only_outside n maxl (r_all r) lo hi bc.

  Lemma update_values : forall u, exists v, update_ghost_mr n s bc cells r sub u = Some v /\
    (forall l x y, ca_mem n cells l (x :: y) -> v l x y = u l x y) /\
    (forall l x y, ca_mem n (r_proj r) l (x :: y) -> is_mean (v (S l)) x y (v l x y)) /\
    (forall l x y, ca_mem n (r_all r) l (x :: y) -> inside n lo hi l (x :: y) -> ~ ca_mem n cells l (x :: y) -> ~ split_at n cells l (x :: y) ->
       (minl < l)%nat /\ is_predicted s (v (l - 1)%nat) x y (v l x y)) /\
    (forall l x y, ~ ca_mem n (r_all r) l (x :: y) -> v l x y = u l x y) /\
    (forall l, (lmin <= l <= lmax)%nat -> exists before after, bc l before = Some after /\ after l = v l /\
       forall x y, inside n lo hi l (x :: y) -> before l x y = v l x y).
  Proof.
    intros u. pose proof bounds as Hb. pose proof gi_max as Hm. destruct sub_inside as (Ws & Ls & Bs & Ds).
    destruct (proj1 contents (r_all r)) as (WA & _ & LA); auto. destruct (proj1 contents (r_proj r)) as (WP & EP & LP); auto.
    assert (EA : c_max (r_all r) = m) by (apply contents; auto).
    assert (PL : forall l p, ca_mem n (r_proj r) l p -> (lmin <= l < lmax)%nat /\ inside n lo hi l p).
    { intros l p Hp. apply proj_split in Hp as (H1 & _ & H2). pose proof (all_levels l p H1). split; [|eapply split_inside; [apply gi_tiles|eauto]].
      destruct H2 as (l' & q & Hl' & Hq & _). apply leaf_wanted in Hq. apply all_wanted in Hq. apply all_levels in Hq. lia. }
    destruct (update_spec n s m maxl cells r sub bc (inside n lo hi)) with (u := u) as (v & E & A & B & C & D & F); auto.
    - apply HI.
    - intros c l Hc Hl. destruct Hc as [->|[->| ->]]; (split; [|auto]).
      + apply (in_wf _ _ _ _ _ _ _ gi_in). rewrite (in_max _ _ _ _ _ _ _ gi_in). auto.
      + apply (in_level _ _ _ _ _ _ _ gi_in). auto.
      + apply WP. lia.
      + apply WA. lia.
    - intros l p Hl Hp. rewrite <- at_level in Hp |- * by auto. apply proj_split in Hp. apply Hp.
    - intros l p Hl Hp. rewrite <- at_level in Hp |- * by auto. apply all_wanted. apply leaf_wanted. auto.
    - intros l p k Hl Hp Hk. rewrite <- at_level in Hp by auto. eapply all_bound; eauto.
    - intros l p Hl Lp Hp. rewrite <- at_level in Hp |- * by (auto; lia). 
      apply (C54_projection_closed n m minl maxl w (Z.of_nat s) cells r lo hi gi_in gi_ne gi_tiles HR l p Hp Lp).
    - intros l u0 Hl. destruct (HO l u0 Hl) as (v0 & E0 & F0 & S0). exists v0. split; auto. split; auto. intros x y H. apply S0.
      rewrite at_level by (auto; lia). auto.
    - apply Hb.
    - intros l Hl p q Ht Lq Nq. destruct p as [|x y]; [destruct Ht as ((X & _) & _); discriminate|].
      apply topredict_iff in Ht as (H1 & H2 & H3 & H4); auto. pose proof HI as (A1 & A2 & A3 & A4 & A5 & A6 & _).
      destruct (C54_prediction_stencils n m minl maxl w (Z.of_nat s) cells r lo hi A1 A2 A3 A4 A5 A6 HR l (x :: y) H1 H2 H3 H4) as [_ X].
      rewrite <- at_level by (auto; lia). replace (Nat.pred l) with (l - 1)%nat by lia. apply X; auto.
    - intros l p Hl Lp Hp. rewrite <- at_level in Hp by (auto; lia).
      destruct (C54_projection_closed n m minl maxl w (Z.of_nat s) cells r lo hi gi_in gi_ne gi_tiles HR l p Hp Lp) as [H1 H2].
      destruct p as [|x y]; [discriminate|]. rewrite topredict_iff by lia. split.
      + apply PL in Hp as [_ Hp]. replace (S l) with (l + 1)%nat by lia. apply inside_ancestor. auto.
      + intros (_ & _ & H3 & H4). destruct H2 as [H2|H2]; [auto|]. apply H4. apply proj_split in H2. apply H2.
    - intros l p Hl Hp. rewrite <- at_level in Hp by auto. apply PL in Hp. tauto.
    - exists v. split; auto. split; [|split; [|split; [|split]]].
      + intros l x y Hc. pose proof (mem_level cells l _ ltac:(auto) Hc) as Hlm. apply C.
        * apply gi_tiles. auto.
        * rewrite <- at_level by auto. intros Hp. apply proj_split in Hp as (_ & _ & Hp). 
          apply (above_not_split n cells lo hi gi_tiles l l (x :: y)); auto. rewrite Nat.sub_diag, ancestor_0. auto.
        * intros [Hl Ht]. apply topredict_iff in Ht; auto. tauto.
      + intros l x y Hp. pose proof (mem_level (r_proj r) l _ ltac:(auto) Hp) as Hlm. apply A; auto. rewrite <- at_level by auto. auto.
      + intros l x y Ha Hi Hc Hs. pose proof HI as (A1 & A2 & A3 & A4 & A5 & A6 & _).
        destruct (C54_prediction_stencils n m minl maxl w (Z.of_nat s) cells r lo hi A1 A2 A3 A4 A5 A6 HR l (x :: y) Ha Hi Hc Hs) as [Hl X].
        split; auto. pose proof (all_levels _ _ Ha). assert (Hl2 : (lmin < l)%nat).
        { assert (Y : ca_mem n (r_all r) (l - 1) (ancestor 1 (x :: y))) by (apply X; [rewrite ancestor_length; apply Hi|intros k _; lia]). apply all_levels in Y. lia. }
        replace (l - 1)%nat with (Nat.pred l) by lia. apply B; [lia|]. apply topredict_iff; [lia|]. auto.
      + intros l x y Ha. destruct (Nat.le_gt_cases l m) as [Hl|Hl]; [apply D; right; rewrite <- at_level by auto; auto|]. 
        apply D. left. lia.
      + intros l Hl. destruct (F l Hl) as (pre & (u0 & v0 & E0 & <- & E1) & Hin). exists u0, v0. auto.
  Qed.
End Update.

(** ** The values after the update *)

(** [update_ghost_mr] succeeds: no value is read or written outside the storage. Leaves
    keep their values; a stored cell that contains finer leaves gets the mean of its
    children; a stored cell strictly inside a leaf gets the predicted value; values that
    are not in the storage do not change; and on each level of the reference the
    boundary conditions were applied on the final values of the box. *)
Theorem C55_update : forall n m minl maxl w s cells lo hi r sub bc, ghost_input n m minl maxl w s cells lo hi ->
  update_sub_mesh n m minl maxl w (Z.of_nat s) cells = Some r -> construct_subdomain n maxl cells = Some sub ->
  only_outside n maxl (r_all r) lo hi bc ->
  forall u, exists v, update_ghost_mr n s bc cells r sub u = Some v /\
    (forall l x y, ca_mem n cells l (x :: y) -> v l x y = u l x y) /\
    (forall l x y, ca_mem n (r_all r) l (x :: y) -> (minl - 1 <= l)%nat -> split_at n cells l (x :: y) -> is_mean (v (S l)) x y (v l x y)) /\
    (forall l x y, ca_mem n (r_all r) l (x :: y) -> inside n lo hi l (x :: y) -> ~ ca_mem n cells l (x :: y) -> ~ split_at n cells l (x :: y) ->
       (minl < l)%nat /\ is_predicted s (v (l - 1)%nat) x y (v l x y)) /\
    (forall l x y, ~ ca_mem n (r_all r) l (x :: y) -> v l x y = u l x y) /\
    (forall l, (min_level (r_all r) <= l <= max_level (r_all r))%nat -> exists before after, bc l before = Some after /\ after l = v l /\
       forall x y, inside n lo hi l (x :: y) -> before l x y = v l x y).
Proof.
  intros n m minl maxl w s cells lo hi r sub bc HI HR HD HO u.
  destruct (update_values n m minl maxl w s cells lo hi r sub HI HR HD bc HO u) as (v & E & A & B & C & D & F). exists v. split; auto. split; auto. split; [|auto].
  intros l x y Ha Hl Hs. apply B. eapply proj_split; eauto. split; auto. split; auto. lia.
Qed.

(** ** The averages *)

(** The leaves in a cell of a level at least [l]. *)
Definition below (l : nat) (p : list Z) (b : nat * list Z) : bool := Nat.leb l (fst b) && zlist_eqb (ancestor (fst b - l) (snd b)) p.
Lemma below_iff : forall l p l' q, below l p (l', q) = true <-> (l <= l')%nat /\ ancestor (l' - l) q = p.
Proof. intros. unfold below. cbn [fst snd]. rewrite andb_true_iff, Nat.leb_le, zlist_eqb_eq. tauto. Qed.

Lemma NoDup_flat_map : forall A B (f : A -> list B) l, NoDup l -> (forall a, In a l -> NoDup (f a)) ->
  (forall a a' b, In a l -> In a' l -> In b (f a) -> In b (f a') -> a = a') -> NoDup (flat_map f l).
Proof.
  intros A B f l ND. induction ND as [|a l N ND IH]; intros H1 H2; [constructor|]. cbn [flat_map]. apply NoDup_app2.
  - apply H1. left; auto.
  - apply IH; [intros; apply H1; right; auto|]. intros x y b Hx Hy. apply H2; right; auto.
  - intros b Ha Hb. apply in_flat_map in Hb as (a' & Ha' & Hb). assert (a = a') by (eapply H2; eauto; [left; auto|right; auto]). subst. auto.
Qed.

Lemma below_kids : forall n cs l p, NoDup cs -> (forall l' q, In (l', q) cs -> length q = S n) -> length p = S n ->
  (forall q, In (l, q) cs -> q <> p) ->
  Permutation (filter (below l p) cs) (flat_map (fun b => filter (below (fst b) (snd b)) cs) (kids (l, p))).
Proof.
  intros n cs l p ND HL Lp Hp. assert (Np : p <> []) by (intros ->; discriminate).
  apply NoDup_Permutation.
  - apply NoDup_filter. auto.
  - apply NoDup_flat_map; [apply kids_NoDup|intros; apply NoDup_filter; auto|].
    intros [l1 p1] [l2 p2] [l' q] H1 H2 H3 H4. cbn [fst snd] in *. apply kids_In in H1 as (-> & _ & _); auto. apply kids_In in H2 as (-> & _ & _); auto.
    apply filter_In in H3 as [_ H3]. apply filter_In in H4 as [_ H4]. apply below_iff in H3, H4. destruct H3 as [_ <-], H4 as [_ <-]. auto.
  - intros [l' q]. rewrite filter_In, in_flat_map, below_iff. split.
    + intros (Hin & Hl & <-). exists (S l, ancestor (l' - S l) q). cbn [fst snd]. assert (Hl' : l <> l').
      { intros <-. apply (Hp q Hin). rewrite Nat.sub_diag, ancestor_0. auto. }
      split.
      * apply kids_In; auto. split; auto. split; [rewrite !ancestor_length; auto|]. rewrite ancestor_add. f_equal. lia.
      * apply filter_In. split; auto. apply below_iff. split; auto. lia.
    + intros ([l1 p1] & Hk & Hf). cbn [fst snd] in Hf. apply kids_In in Hk as (-> & _ & Ep); auto. apply filter_In in Hf as [Hin Hf].
      apply below_iff in Hf as [Hl <-]. split; auto. split; [lia|]. rewrite <- Ep, ancestor_add. f_equal. lia.
Qed.

(** A stored cell that contains leaves gets their exact average: its value times its
    volume is the integral of the leaves it contains. *)
Theorem C55_average : forall n m minl maxl w s cells lo hi r sub bc, ghost_input n m minl maxl w s cells lo hi ->
  update_sub_mesh n m minl maxl w (Z.of_nat s) cells = Some r -> construct_subdomain n maxl cells = Some sub ->
  only_outside n maxl (r_all r) lo hi bc ->
  forall u v, update_ghost_mr n s bc cells r sub u = Some v ->
  forall l x y leaves, ca_mem n (r_all r) l (x :: y) -> (minl - 1 <= l)%nat -> split_at n cells l (x :: y) ->
    NoDup leaves -> (forall l' q, In (l', q) leaves <-> ca_mem n cells l' q /\ (l <= l')%nat /\ ancestor (l' - l) q = x :: y) ->
    (v l x y * vol n l == integral n u leaves)%Q.
Proof.
  intros n m minl maxl w s cells lo hi r sub bc HI HR HD HO u v E l x y leaves Ha Hl Hs ND HL.
  destruct (update_values n m minl maxl w s cells lo hi r sub HI HR HD bc HO u) as (v' & E' & A & B & _). rewrite E in E'. injection E' as <-.
  pose proof (gi_in _ _ _ _ _ _ _ _ _ HI) as Hin. pose proof (gi_tiles _ _ _ _ _ _ _ _ _ HI) as HT. pose proof (gi_range _ _ _ _ _ _ _ _ _ HI) as HRg.
  destruct (ca_for_each_cell_spec n cells (in_wf _ _ _ _ _ _ _ Hin)) as (ccs & _ & EN & _). pose proof (sorted_leaves_NoDup _ _ _ EN) as ND'. destruct EN as [_ EN]. set (cs := leaf_cells ccs) in *.
  assert (LC : forall l' q, In (l', q) cs -> length q = S n) by (intros l' q Hq; apply EN in Hq; apply Hq).
  assert (GL : forall l x y, ca_mem n cells l (x :: y) -> (v l x y * vol n l == integral n u (filter (below l (x :: y)) cs))%Q).
  { clear l x y leaves Ha Hl Hs ND HL. intros l x y Hleaf.
    rewrite A by auto. assert (P : Permutation [(l, x :: y)] (filter (below l (x :: y)) cs)).
      { apply NoDup_Permutation; [repeat constructor; auto|apply NoDup_filter; auto|]. intros [l' q]. rewrite filter_In, below_iff. split.
        - intros [H|[]]. injection H as <- <-. split; [apply EN; auto|]. rewrite Nat.sub_diag, ancestor_0. auto.
        - intros (Hq & Hl & Eq). apply EN in Hq. left. assert (l = l') as <- by (apply (proj1 HT l l' (x :: y) q); auto). rewrite Nat.sub_diag, ancestor_0 in Eq. congruence. }
      rewrite <- (integral_perm n u _ _ P). unfold integral. cbn. ring. }
  assert (G : forall c l x y, (maxl <= l + c)%nat -> ca_mem n (r_proj r) l (x :: y) \/ ca_mem n cells l (x :: y) ->
    (v l x y * vol n l == integral n u (filter (below l (x :: y)) cs))%Q).
  { clear l x y leaves Ha Hl Hs ND HL. induction c as [|c IH]; intros l x y Hc [Hp|Hleaf].
    - exfalso. apply (proj_split n m minl maxl w s cells lo hi r HI HR) in Hp as (_ & _ & l' & q & Hl' & Hq & _). apply HRg in Hq. lia.
    - auto.
    - assert (Lp : length (x :: y) = S n) by apply Hp. assert (Hsp := Hp). apply (proj_split n m minl maxl w s cells lo hi r HI HR) in Hsp as (_ & _ & Hsp).
      rewrite (integral_perm n u _ _ (below_kids n cs l (x :: y) ND' LC Lp ltac:(intros q Hq ->; apply EN in Hq; apply (above_not_split n cells lo hi HT l l (x :: y)); auto; rewrite Nat.sub_diag, ancestor_0; auto))).
      assert (X : forall ks, (forall b, In b ks -> In b (kids (l, x :: y))) ->
        (integral n u (flat_map (fun b => filter (below (fst b) (snd b)) cs) ks) == integral n v ks)%Q).
      { induction ks as [|[l1 p1] ks IHk]; intros Hk; [reflexivity|]. cbn [flat_map fst snd]. rewrite integral_app, IHk by (intros; apply Hk; right; auto).
        assert (Hk1 : In (l1, p1) (kids (l, x :: y))) by (apply Hk; left; auto). apply kids_In in Hk1 as (-> & L1 & E1); [|discriminate].
        destruct p1 as [|x1 y1]; [discriminate|].
        destruct (C54_projection_closed n m minl maxl w (Z.of_nat s) cells r lo hi Hin (gi_ne _ _ _ _ _ _ _ _ _ HI) HT HR l (x1 :: y1)) as [_ H2]; [rewrite E1; auto|lia|].
        rewrite <- (IH (S l) x1 y1) by (try lia; tauto). unfold integral at 2. cbn [map qsum fold_right]. reflexivity. }
      rewrite X by auto. rewrite integral_kids. pose proof (B l x y Hp) as M. unfold is_mean in M. rewrite <- M.
      cbn [length] in Lp. injection Lp as Ly. rewrite Ly. rewrite (vol_S n l). ring.
    - auto. }
  rewrite (G maxl l x y) by (try lia; left; apply (proj_split n m minl maxl w s cells lo hi r HI HR); split; auto; split; auto; lia).
  apply integral_perm. apply NoDup_Permutation; [apply NoDup_filter; auto|auto|]. intros [l' q]. rewrite filter_In, below_iff, HL, <- (EN l' q). tauto.
Qed.

(** ** The ghosts depend only on the leaves *)

(** With boundary conditions that fill the cells around the box, all the stored values of
    the box (from one level below the coarsest leaves on), and those of the stored cells
    around it, are functions of the values of the leaves. *)
Theorem C55_determined : forall n m minl maxl w s cells lo hi r sub bc, ghost_input n m minl maxl w s cells lo hi ->
  update_sub_mesh n m minl maxl w (Z.of_nat s) cells = Some r -> construct_subdomain n maxl cells = Some sub ->
  only_outside n maxl (r_all r) lo hi bc -> fills n (Z.of_nat s) (r_all r) lo hi bc ->
  forall u u' v v', update_ghost_mr n s bc cells r sub u = Some v -> update_ghost_mr n s bc cells r sub u' = Some v' ->
  (forall l x y, ca_mem n cells l (x :: y) -> (u l x y == u' l x y)%Q) ->
  forall l, (minl - 1 <= l)%nat ->
    (forall x y, ca_mem n (r_all r) l (x :: y) -> inside n lo hi l (x :: y) -> (v l x y == v' l x y)%Q) /\
    (forall p, ca_mem n (r_all r) l p -> inside n lo hi l p -> (forall q, length q = S n -> near n (Z.of_nat s) q p -> ca_mem n (r_all r) l q) ->
      forall x y, length y = n -> near n (Z.of_nat s) (x :: y) p -> (v l x y == v' l x y)%Q).
Proof.
  intros n m minl maxl w s cells lo hi r sub bc HI HR HD HO HF u u' v v' E E' HU.
  destruct (update_values n m minl maxl w s cells lo hi r sub HI HR HD bc HO u) as (v1 & E1 & A & B & C & D & F). rewrite E in E1. injection E1 as <-.
  destruct (update_values n m minl maxl w s cells lo hi r sub HI HR HD bc HO u') as (v1 & E1 & A' & B' & C' & D' & F'). rewrite E' in E1. injection E1 as <-.
  pose proof (gi_in _ _ _ _ _ _ _ _ _ HI) as Hin. pose proof (gi_tiles _ _ _ _ _ _ _ _ _ HI) as HT. pose proof (gi_range _ _ _ _ _ _ _ _ _ HI) as HRg.
  assert (G : forall c l x y, (maxl <= l + c)%nat -> ca_mem n (r_proj r) l (x :: y) \/ ca_mem n cells l (x :: y) -> (v l x y == v' l x y)%Q).
  { induction c as [|c IH]; intros l x y Hc [Hp|Hleaf]; try (rewrite A, A' by auto; apply HU; auto).
    - exfalso. apply (proj_split n m minl maxl w s cells lo hi r HI HR) in Hp as (_ & _ & l' & q & Hl' & Hq & _). apply HRg in Hq. lia.
    - assert (Lp : length (x :: y) = S n) by apply Hp.
      apply (mean_local (v (S l)) (v' (S l)) x y); auto. intros cx cy Hcc. apply children_In in Hcc as (Ec & Lc & Ac). apply IH; [lia|].
      destruct (C54_projection_closed n m minl maxl w (Z.of_nat s) cells r lo hi Hin (gi_ne _ _ _ _ _ _ _ _ _ HI) HT HR l (cx :: cy)) as [_ H2]; [|cbn in *; lia|tauto].
      rewrite ancestor_cons. change (2 ^ Z.of_nat 1) with 2. rewrite Ec, Ac. auto. }
  assert (K : forall l, (minl - 1 <= l)%nat -> (forall x y, ca_mem n (r_all r) l (x :: y) -> inside n lo hi l (x :: y) -> (v l x y == v' l x y)%Q) ->
    forall p, ca_mem n (r_all r) l p -> inside n lo hi l p -> (forall q, length q = S n -> near n (Z.of_nat s) q p -> ca_mem n (r_all r) l q) ->
      forall x y, length y = n -> near n (Z.of_nat s) (x :: y) p -> (v l x y == v' l x y)%Q).
  { intros l Hl Hag p Hp Hpi Hbox x y Ly Ny. pose proof (all_levels n m minl maxl w s cells lo hi r HI HR l p Hp) as Hlv.
    destruct (F l Hlv) as (b & a & Eb & Ea & Hb). destruct (F' l Hlv) as (b' & a' & Eb' & Ea' & Hb'). rewrite <- Ea, <- Ea'.
    apply (HF l b b' a a' Eb Eb') with (p := p); auto. intros x0 y0 H1 H2. rewrite Hb, Hb' by auto. apply Hag; auto. }
  assert (I : forall l, (minl - 1 <= l)%nat -> forall x y, ca_mem n (r_all r) l (x :: y) -> inside n lo hi l (x :: y) -> (v l x y == v' l x y)%Q).
  { induction l as [l IH] using (well_founded_induction lt_wf). intros Hl x y Ha Hi.
    destruct (trichotomy n minl maxl cells lo hi HT HRg l (x :: y) Hi) as [(l0 & Hl0 & H0)|Hs].
    - destruct (Nat.eq_dec l0 l) as [->|Hne]; [rewrite Nat.sub_diag, ancestor_0 in H0; apply (G maxl); auto; lia|].
      assert (N1 : ~ ca_mem n cells l (x :: y)). { intros H1. assert (l0 = l); [|lia]. apply (proj1 HT l0 l _ _ H0 H1); auto. }
      assert (N2 : ~ split_at n cells l (x :: y)) by (intros H1; eapply above_not_split; eauto).
      destruct (C l x y Ha Hi N1 N2) as [Hl2 P1]. destruct (C' l x y Ha Hi N1 N2) as [_ P2].
      assert (Ly : length y = n) by (destruct Hi as [Li _]; cbn in Li; lia).
      pose proof HI as (A1 & A2 & A3 & A4 & A5 & A6 & _).
      destruct (C54_prediction_stencils n m minl maxl w (Z.of_nat s) cells r lo hi A1 A2 A3 A4 A5 A6 HR l (x :: y) Ha Hi N1 N2) as [_ X].
      assert (Lanc : length (ancestor 1 (x :: y)) = S n) by (rewrite ancestor_length; cbn; lia).
      apply (predicted_local n s (v (l - 1)%nat) (v' (l - 1)%nat) x y); auto. intros p Lp Np. destruct p as [|px py]; [discriminate|]. cbn [value_at].
      apply (K (l - 1)%nat ltac:(lia) (IH (l - 1)%nat ltac:(lia) ltac:(lia)) (ancestor 1 (x :: y))); auto.
      + apply X; auto. intros k _. lia.
      + replace l with (l - 1 + 1)%nat in Hi by lia. apply inside_ancestor in Hi. apply Hi.
    - apply (G maxl); [lia|]. left. apply (proj_split n m minl maxl w s cells lo hi r HI HR). split; auto. split; auto. lia. }
  intros l Hl. split; [apply I; auto|apply K; auto].
Qed.

(** ** Example *)
Lemma exMesh_ghosts : ghost_input 1 4 1 3 1 1 exMesh [0; 0] [1; 1].
Proof.
  destruct C54_hypotheses as (A & B & C & _). split; [exact A|]. split; [lia|]. split; [exact B|]. split; [exact C|]. split; [lia|].
  split; [left; vm_compute; discriminate|]. split; [lia|]. split.
  - destruct (ca_for_each_cell_spec 1 exMesh exMesh_wf) as (cs & E & [_ EN] & _).
    destruct (leaf_cells cs) as [|[l q] t] eqn:L; [|exists l, q; apply EN; left; auto].
    exfalso. revert E L. clear. intros E L. assert (X : option_map (@length _) (ca_for_each_cell 1 exMesh) <> Some 0%nat) by (vm_compute; discriminate).
    rewrite E in X. cbn [option_map] in X. destruct cs; [apply X; auto|discriminate].
  - intros k Hk. destruct k as [|[|k]]; [vm_compute; reflexivity..|lia].
Qed.

(** The domain, on level 3, and the boundary condition of order 1 with value 5. *)
Definition exDomain : lca := client_lca 1 3 (map (fun y => AddI [y] (mk 0 8)) (zrange 0 8)).
Definition exBc (region : list (list Z * lca)) : bc := mkBc 2 region (fun _ _ _ => 5%Q) (dirichlet 1).
Definition exUpdate (u : lfield) : option (mr_mesh * lfield) :=
  let* r := update_sub_mesh 1 4 1 3 1 1 exMesh in
  let* sub := construct_subdomain 1 3 exMesh in
  let* region := everywhere 1 exDomain in
  let* v := update_ghost_mr 1 1 (update_bc 1 exMesh (r_all r) exDomain 1 3 1 1 (fun _ => 1%Q) [exBc region]) exMesh r sub u in
  Some (r, v).

(** Leaves at x + 2 y (in cells of level 3, at their centres), 100 elsewhere. *)
Definition exStart : lfield := fun l x y =>
  if stored 1 exMesh l (x :: y) then Qmake (2 ^ (3 - Z.of_nat l) * (2 * x + 1 + 2 * (2 * nth 0 y 0 + 1))) 2 else 100%Q.
Definition exShow (ps : list (nat * list Z)) : option (list Q) :=
  let* (r, v) := exUpdate exStart in Some (map (fun '(l, p) => Qred (value_at (v l) p)) ps).

(** A leaf, two cells with finer leaves, two predicted ghosts of the box, a ghost across a
    face of the box (2 * 5 - 41 / 2), the one at its corner, and a cell that is not stored. *)
Example C55_example : exShow [(2%nat, [2; 2]); (1%nat, [1; 1]); (0%nat, [0; 0]); (2%nat, [1; 2]); (3%nat, [5; 6]); (3%nat, [8; 6]); (3%nat, [8; 8]); (0%nat, [2; 2])] =
  Some [15; 18; 12; 281 # 16; 361 # 16; - 21 # 2; 45 # 2; 100]%Q.
Proof. vm_compute. reflexivity. Qed.

Print Assumptions C55_update.
Print Assumptions C55_average.
Print Assumptions C55_determined.
