(** C61: a field that the prediction reproduces is adapted to the coarsest mesh. *)
From Coq Require Import QArith Qabs Lqa.
From Verif Require Import Base IntervalModel Spec IntervalProofs LoiModel LcaModel LcaSpec LcaProofs LcaProofs2 LcaProofs3 RowsProofs CellArrayModel CellArrayProofs PropsLca PropsCellArray
  SubsetModel TreeProofs SubsetSpec SubsetProofs2 PropsSubset StencilModel NumberingProofs StencilProofs PropsStencil MeshModel MeshProofs PropsMesh
  NumModel NumProofs NumSpec PolyProofs PropsNum AdaptModel AdaptProofs TagProofs PropsAdapt TransferProofs PropsTransfer MrModel MrProofs PropsMr
  GhostModel GhostProofs PropsGhost BcProofs PropsOuter HartenModel HartenProofs HartenProofs2 HartenProofs3 PropsHarten DetailProofs CriteriaProofs AroundProofs PropsDetail
  LoopProofs PropsLoop.
Open Scope Z_scope.

(** Values for all the cells of all the levels, such that the value of a cell is the mean of
    its children and is given by the prediction (e.g. the averages of a polynomial). *)
Definition exact_family (n s : nat) (f : lfield) : Prop :=
  (forall l x y, length y = n -> is_mean (f (S l)) x y (f l x y)) /\
  (forall l x y, length y = n -> exists p, is_predicted s (f l) x y p /\ (p == f (S l) x y)%Q).

(** From the values of [f] in the domain, the boundary conditions give the values of [f] in
    the ghosts that the prediction reads. *)
Definition extends (n : nat) (g : setting) (lo hi : list Z) (bc : ca -> ca -> nat -> lfield -> option lfield) (f : lfield) : Prop :=
  forall cells r l u v, usable n g lo hi cells ->
    update_sub_mesh n (h_max g) (h_min_level g) (h_max_level g) (h_width g) (Z.of_nat (h_order g)) cells = Some r ->
    (l <= h_max_level g)%nat -> bc cells (r_all r) l u = Some v ->
    (forall x y, ca_mem n (r_all r) l (x :: y) -> inside n lo hi l (x :: y) -> (u l x y == f l x y)%Q) ->
    forall p, ca_mem n (r_all r) l p -> inside n lo hi l p -> (forall q, length q = S n -> near n (Z.of_nat (h_order g)) q p -> ca_mem n (r_all r) l q) ->
      forall x y, length y = n -> near n (Z.of_nat (h_order g)) (x :: y) p -> (v l x y == f l x y)%Q.

Section Exact.
  Variables (n : nat) (g : setting) (lo hi : list Z) (bc : ca -> ca -> nat -> lfield -> option lfield) (f : lfield).
  Notation minl := (h_min_level g).
  Notation maxl := (h_max_level g).
  Notation s := (h_order g).
  Notation sub_mesh := (update_sub_mesh n (h_max g) minl maxl (h_width g) (Z.of_nat s)).
  Hypothesis HB : harmless n g lo hi bc.
  Hypothesis HE : exact_family n s f.
  Hypothesis HX : extends n g lo hi bc f.

  Section Ghosts.
    Variables (cells : ca) (r : mr_mesh) (u u' : lfield).
    Hypothesis HU : usable n g lo hi cells.
    Hypothesis HR : sub_mesh cells = Some r.
    Hypothesis HG : with_ghosts n g bc cells r u u'.
    Hypothesis Hf : forall l x y, ca_mem n cells l (x :: y) -> (u l x y == f l x y)%Q.

    Lemma ghosts_exact : forall l, (minl - 1 <= l)%nat ->
      (forall x y, ca_mem n (r_all r) l (x :: y) -> inside n lo hi l (x :: y) -> (u' l x y == f l x y)%Q) /\
      (forall p, ca_mem n (r_all r) l p -> inside n lo hi l p -> (forall q, length q = S n -> near n (Z.of_nat s) q p -> ca_mem n (r_all r) l q) ->
        forall x y, length y = n -> near n (Z.of_nat s) (x :: y) p -> (u' l x y == f l x y)%Q).
    Proof.
      destruct HG as (sub & HD & E). pose proof HU as (HI & _). pose proof (HB cells r HU HR) as HO.
      destruct (update_values n _ minl maxl _ s cells lo hi r sub HI HR HD (bc cells (r_all r)) HO u) as (v1 & E1 & A & B & C & D & F). rewrite E in E1. injection E1 as <-.
      pose proof (gi_in _ _ _ _ _ _ _ _ _ HI) as Hin. pose proof (gi_tiles _ _ _ _ _ _ _ _ _ HI) as HT. pose proof (gi_range _ _ _ _ _ _ _ _ _ HI) as HRg.
      destruct HE as [EM EP].
      assert (G : forall c l x y, (maxl <= l + c)%nat -> ca_mem n (r_proj r) l (x :: y) \/ ca_mem n cells l (x :: y) -> (u' l x y == f l x y)%Q).
      { induction c as [|c IH]; intros l x y Hc [Hp|Hleaf]; try (rewrite A by auto; apply Hf; auto).
        - exfalso. apply (proj_split n _ minl maxl _ s cells lo hi r HI HR) in Hp as (_ & _ & l' & q & Hl' & Hq & _). apply HRg in Hq. lia.
        - assert (Lp : length (x :: y) = S n) by apply Hp.
          apply (mean_local (u' (S l)) (f (S l)) x y); auto. intros cx cy Hcc. apply children_In in Hcc as (Ec & Lc & Ac). apply IH; [lia|].
          destruct (C54_projection_closed n _ minl maxl _ (Z.of_nat s) cells r lo hi Hin (gi_ne _ _ _ _ _ _ _ _ _ HI) HT HR l (cx :: cy)) as [_ H2]; [|cbn in *; lia|tauto].
          rewrite ancestor_cons. change (2 ^ Z.of_nat 1) with 2. rewrite Ec, Ac. auto. }
      assert (K : forall l, (minl - 1 <= l)%nat -> (forall x y, ca_mem n (r_all r) l (x :: y) -> inside n lo hi l (x :: y) -> (u' l x y == f l x y)%Q) ->
        forall p, ca_mem n (r_all r) l p -> inside n lo hi l p -> (forall q, length q = S n -> near n (Z.of_nat s) q p -> ca_mem n (r_all r) l q) ->
          forall x y, length y = n -> near n (Z.of_nat s) (x :: y) p -> (u' l x y == f l x y)%Q).
      { intros l Hl Hag p Hp Hpi Hbox x y Ly Ny. pose proof (all_levels n _ minl maxl _ s cells lo hi r HI HR l p Hp) as Hlv.
        assert (Hlm : (l <= maxl)%nat).
        { apply (all_wanted n _ minl maxl _ s cells lo hi r HI HR) in Hp. apply (wanted_levels n _ minl maxl _ s cells lo hi HI) in Hp. lia. }
        destruct (F l Hlv) as (b & a & Eb & Ea & Hb). rewrite <- Ea.
        apply (HX cells r l b a HU HR Hlm Eb) with (p := p); auto. intros x0 y0 H1 H2. rewrite Hb by auto. apply Hag; auto. }
      assert (I : forall l, (minl - 1 <= l)%nat -> forall x y, ca_mem n (r_all r) l (x :: y) -> inside n lo hi l (x :: y) -> (u' l x y == f l x y)%Q).
      { induction l as [l IH] using (well_founded_induction lt_wf). intros Hl x y Ha Hi.
        destruct (trichotomy n minl maxl cells lo hi HT HRg l (x :: y) Hi) as [(l0 & Hl0 & H0)|Hs].
        - destruct (Nat.eq_dec l0 l) as [->|Hne]; [rewrite Nat.sub_diag, ancestor_0 in H0; apply (G maxl); auto; lia|].
          assert (N1 : ~ ca_mem n cells l (x :: y)). { intros H1. assert (l0 = l); [|lia]. apply (proj1 HT l0 l _ _ H0 H1); auto. }
          assert (N2 : ~ split_at n cells l (x :: y)) by (intros H1; eapply above_not_split; eauto).
          destruct (C l x y Ha Hi N1 N2) as [Hl2 P1].
          assert (Ly : length y = n) by (destruct Hi as [Li _]; cbn in Li; lia).
          destruct (EP (l - 1)%nat x y Ly) as (p2 & P2 & P3). replace (S (l - 1)) with l in P3 by lia. rewrite <- P3.
          pose proof HI as (A1 & A2 & A3 & A4 & A5 & A6 & _).
          destruct (C54_prediction_stencils n _ minl maxl _ (Z.of_nat s) cells r lo hi A1 A2 A3 A4 A5 A6 HR l (x :: y) Ha Hi N1 N2) as [_ X].
          assert (Lanc : length (ancestor 1 (x :: y)) = S n) by (rewrite ancestor_length; cbn; lia).
          apply (predicted_local n s (u' (l - 1)%nat) (f (l - 1)%nat) x y); auto. intros p Lp Np. destruct p as [|px py]; [discriminate|]. cbn [value_at].
          apply (K (l - 1)%nat ltac:(lia) (IH (l - 1)%nat ltac:(lia) ltac:(lia)) (ancestor 1 (x :: y))); auto.
          + apply X; auto. intros k _. lia.
          + replace l with (l - 1 + 1)%nat in Hi by lia. apply inside_ancestor in Hi. apply Hi.
        - apply (G maxl); [lia|]. left. apply (proj_split n _ minl maxl _ s cells lo hi r HI HR). split; auto. split; auto. lia. }
      intros l Hl. split; [apply I; auto|apply K; auto].
    Qed.

    (** The details vanish. *)
    Lemma detail_zero : forall l x y q, (minl - 1 <= l)%nat -> length y = n ->
      ca_mem n (r_all r) (S l) (x :: y) -> inside n lo hi (S l) (x :: y) ->
      (forall p, length p = S n -> near n (Z.of_nat s) p (ancestor 1 (x :: y)) -> ca_mem n (r_all r) l p) ->
      is_detail s u' (S l) x y q -> (q == 0)%Q.
    Proof.
      intros l x y q Hl Ly Hm Hi Hbox (p & Hp & ->). destruct (ghosts_exact (S l) ltac:(lia)) as [G1 _]. rewrite (G1 x y Hm Hi).
      destruct HE as [_ EP]. destruct (EP l x y Ly) as (p2 & P2 & P3). cbn [Nat.pred] in Hp.
      assert (Lanc : length (ancestor 1 (x :: y)) = S n) by (rewrite ancestor_length; cbn; lia).
      assert (E : (p == p2)%Q).
      { apply (predicted_local n s (u' l) (f l) x y); auto. intros z Lz Nz. destruct z as [|zx zy]; [discriminate|]. cbn [value_at].
        destruct (ghosts_exact l Hl) as [_ G2]. apply (G2 (ancestor 1 (x :: y))); auto.
        - apply Hbox; auto. intros k _. lia.
        - replace (S l) with (l + 1)%nat in Hi by lia. apply inside_ancestor in Hi. apply Hi. }
      rewrite E, P3. ring.
    Qed.
  End Ghosts.

  Hypothesis Heps : (0 < h_eps g)%Q.
  Hypothesis Hfac : (0 <= h_factor g)%Q.

  Lemma threshold_pos : forall l, (0 < threshold n maxl (h_eps g) l)%Q.
  Proof using Heps.
    intros l. unfold threshold, Qdiv. apply Qmult_lt_0_compat; auto. apply Qinv_lt_0_compat. change 0%Q with (inject_Z 0). rewrite <- Zlt_Qlt. apply Z.pow_pos_nonneg; [lia|apply Z.mul_nonneg_nonneg; apply Zle_0_nat].
  Qed.

  Section Step.
    Variables (ite : nat) (cells : ca) (u : lfield).
    Notation top := (maxl - ite)%nat.
    Hypothesis HU : usable n g lo hi cells.
    Hypothesis Hf : forall l x y, ca_mem n cells l (x :: y) -> (u l x y == f l x y)%Q.
    Hypothesis Htop : forall l q, ca_mem n cells l q -> (l <= top)%nat.

    Section Details.
      Variables (r : mr_mesh) (u' d : lfield).
      Hypothesis HR : sub_mesh cells = Some r.
      Hypothesis HG : with_ghosts n g bc cells r u u'.
      Hypothesis HD : compute_details n s minl top cells (r_all r) u' = Some d.
      Notation refine := (to_refine n minl maxl top (h_eps g) (h_factor g) (h_enlarge g) cells d).
      Notation coarsen := (to_coarsen n minl maxl top (h_eps g) (h_factor g) (h_enlarge g) cells d).

      Lemma sibling_detail : forall l q x y, ca_mem n cells l q -> ancestor 1 (x :: y) = ancestor 1 q -> (d l x y == 0)%Q.
      Proof.
        intros l q x y Hq Ea. pose proof HU as (HI & _ & Hmin & _). pose proof (gi_range _ _ _ _ _ _ _ _ _ HI _ _ Hq) as Hl. pose proof (Htop _ _ Hq).
        destruct (C59_details n _ minl maxl _ s cells lo hi r ite u' HI HR) as (d0 & E0 & D1 & _). rewrite HD in E0. injection E0 as <-.
        assert (Ly : length y = n). { apply (f_equal (@length Z)) in Ea. rewrite !ancestor_length in Ea. destruct Hq as (_ & Lq & _). cbn [length] in Ea. lia. }
        specialize (D1 l q x y ltac:(lia) Hq Ea). destruct l as [|l]; [lia|].
        destruct (C54_leaf_stencils n _ minl maxl _ (Z.of_nat s) cells r (gi_in _ _ _ _ _ _ _ _ _ HI) (gi_ne _ _ _ _ _ _ _ _ _ HI) HR _ q Hq) as (A1 & A2 & _).
        { apply (hm_tiles _ _ _ _ _ _ _ _ _ HI). }
        apply (detail_zero cells r u u' HU HR HG Hf l x y); auto; [lia| | |].
        - apply A1; [cbn; lia|]. intros k Hk. apply (f_equal (fun z => nth k z 0)) in Ea. rewrite !nth_ancestor in Ea. change (2 ^ Z.of_nat 1) with 2 in Ea.
          pose proof HI as (_ & _ & _ & _ & Hw & _). lia.
        - replace (S l) with (l + 1)%nat by lia. apply inside_ancestor. split; [cbn; lia|]. rewrite Ea. apply (hm_tiles _ _ _ _ _ _ _ _ _ HI) in Hq. replace (S l) with (l + 1)%nat in Hq by lia. apply inside_ancestor in Hq. apply Hq.
        - intros p Lp Np. rewrite Ea in Np. replace l with (S l - 1)%nat by lia. apply A2; auto. lia.
      Qed.

      Lemma parent_detail : forall l q x y, (minl <= l)%nat -> ca_mem n cells (S l) q -> ancestor 1 q = x :: y -> (d l x y == 0)%Q.
      Proof.
        intros l q x y Hml Hq Ea. pose proof HU as (HI & _ & Hmin & _). pose proof (gi_range _ _ _ _ _ _ _ _ _ HI _ _ Hq) as Hl. pose proof (Htop _ _ Hq).
        destruct (C59_details n _ minl maxl _ s cells lo hi r ite u' HI HR) as (d0 & E0 & _ & D1 & _). rewrite HD in E0. injection E0 as <-.
        assert (Ly : length y = n). { apply (f_equal (@length Z)) in Ea. rewrite !ancestor_length in Ea. destruct Hq as (_ & Lq & _). cbn [length] in Ea. lia. }
        specialize (D1 l q x y ltac:(lia) ltac:(lia) Hq Ea). pose proof (parent_ref _ _ _ _ _ _ _ _ _ r HI HR l q Hq) as PR. rewrite Ea in PR.
        apply (hm_tiles _ _ _ _ _ _ _ _ _ HI) in Hq as Hi. replace (S l) with (l + 1)%nat in Hi by lia. apply inside_ancestor in Hi as [_ Hi]. rewrite Ea in Hi.
        destruct l as [|l]; [lia|]. apply (detail_zero cells r u u' HU HR HG Hf l x y); auto; [lia|].
        intros p Lp Np. change l with (Nat.pred (S l)). apply (parent_stencil2 n _ minl maxl _ s cells lo hi r HI HR (S l) (x :: y)); auto; [lia|lia|]. exists q. auto.
      Qed.

      Lemma nothing_asked : forall l q, ~ asked n maxl top (h_eps g) (h_factor g) cells d l q.
      Proof.
        intros l q (Hq & _ & _ & H). destruct q as [|x y]; [destruct Hq as (_ & Lq & _); discriminate|]. unfold size in H. cbn [hd tl] in H.
        rewrite (sibling_detail l (x :: y) x y Hq eq_refl) in H. cbn [Qabs Z.abs] in H. change (Qabs 0) with 0%Q in H.
        pose proof (Qmult_le_0_compat _ _ Hfac (Qlt_le_weak _ _ (threshold_pos l))). apply Qle_not_lt in H0. auto.
      Qed.

      Lemma all_quiet : forall l q, ca_mem n cells l q -> (minl < l)%nat -> ~ stays n minl maxl top (h_eps g) (h_factor g) cells d l q.
      Proof.
        intros l q Hq Hl [H|(y & _ & H)]; [|apply (nothing_asked _ _ H)]. apply H. pose proof (Htop _ _ Hq). split; [lia|]. split.
        - intros c (Lc & Ec & _). destruct c as [|x y]; [discriminate|]. unfold size. cbn [hd tl]. rewrite (sibling_detail l q x y Hq Ec). apply threshold_pos.
        - destruct l as [|l]; [lia|]. cbn [Nat.pred]. destruct (ancestor 1 q) as [|x y] eqn:Ea.
          { apply (f_equal (@length Z)) in Ea. rewrite ancestor_length in Ea. destruct Hq as (_ & Lq & _). rewrite Lq in Ea. discriminate. }
          unfold size. cbn [hd tl]. rewrite (parent_detail l q x y ltac:(lia) Hq Ea). change (Qabs 0) with 0%Q. unfold Qdiv.
          apply Qmult_le_0_compat; [apply Qmult_le_0_compat; auto; apply Qlt_le_weak, threshold_pos|]. apply Qlt_le_weak, Qinv_lt_0_compat. change 0%Q with (inject_Z 0). rewrite <- Zlt_Qlt. apply Z.pow_pos_nonneg; lia.
      Qed.

      Lemma nothing_refined : forall l q, ~ refine l q.
      Proof.
        intros l q H. induction H as [l q H|l q y He Hq Hy Ht _ Hs|l q y _ _ IH _]; auto.
        - apply (nothing_asked _ _ H).
        - apply (all_quiet (S l) y); auto. pose proof HU as (HI & _). apply (gi_range _ _ _ _ _ _ _ _ _ HI) in Hq. lia.
      Qed.

      (** The leaves of the finest level are coarsened. *)
      Lemma finest_coarsened : forall l q, (minl < l)%nat -> ca_mem n cells l q -> (forall l' q', ca_mem n cells l' q' -> (l' <= l)%nat) -> coarsen l q.
      Proof.
        intros l q Hl Hq Hfin. pose proof (all_quiet l q Hq Hl) as NS. assert (Lq : length q = S n) by apply Hq. split; auto. split.
        { destruct (quiet_dec n minl maxl top (h_eps g) (h_factor g) d l q Lq) as [Y|Y]; auto. exfalso. apply NS. left. auto. }
        pose proof HU as (HI & _). pose proof (gi_tiles _ _ _ _ _ _ _ _ _ HI) as HT. pose proof (gi_range _ _ _ _ _ _ _ _ _ HI) as HRg.
        intros q' Lq' Eq'. split; [|split; [|split]].
        - assert (Hi : inside n lo hi l q').
          { apply (proj1 (proj2 HT)) in Hq. replace l with (l - 1 + 1)%nat in * by lia. apply inside_ancestor in Hq as [_ Hq]. apply inside_ancestor. split; auto. rewrite Eq'. auto. }
          destruct (trichotomy n minl maxl cells lo hi HT HRg l q' Hi) as [(l0 & Hl0 & H0)|(l' & z & Hl' & Hz & _)]; [|apply Hfin in Hz; lia].
          destruct (Nat.eq_dec l0 l) as [->|Hne]; [rewrite Nat.sub_diag, ancestor_0 in H0; auto|]. exfalso.
          assert (l0 = l); [|lia]. apply (proj1 HT l0 l _ q H0 Hq ltac:(lia)). replace (l - l0)%nat with (l - l0 - 1 + 1)%nat by lia. rewrite <- !ancestor_add. f_equal. auto.
        - intros y Hy. apply Hfin in Hy. lia.
        - intros y _. apply nothing_refined.
        - intros _ y Hy _. apply all_quiet; auto.
      Qed.
    End Details.

    Lemma finest : exists l q, ca_mem n cells l q /\ forall l' q', ca_mem n cells l' q' -> (l' <= l)%nat.
    Proof using HU Hf Htop.
      pose proof HU as (HI & _). pose proof HI as (_ & _ & _ & _ & _ & _ & _ & (l0 & q0 & H0) & _). pose proof (gi_range _ _ _ _ _ _ _ _ _ HI) as HRg.
      destruct (ca_for_each_cell_spec n cells (in_wf _ _ _ _ _ _ _ (gi_in _ _ _ _ _ _ _ _ _ HI))) as (cs & _ & [_ EN] & _).
      assert (G : forall k, (forall l q, ca_mem n cells l q -> (l <= k)%nat) -> exists l q, ca_mem n cells l q /\ forall l' q', ca_mem n cells l' q' -> (l' <= l)%nat).
      { clear -EN H0. induction k as [|k IH]; intros Hk.
        - exists l0, q0. split; auto. intros l' q' H. apply Hk in H. lia.
        - destruct (existsb (fun c => Nat.eqb (fst c) (S k)) (leaf_cells cs)) eqn:E.
          + apply existsb_exists in E as ([l q] & Hi & E). apply Nat.eqb_eq in E. cbn in E. subst l. exists (S k), q. split; [apply EN; auto|]. apply Hk.
          + apply IH. intros l q Hq. pose proof (Hk _ _ Hq). destruct (Nat.eq_dec l (S k)) as [->|]; [|lia]. exfalso.
            assert (X : existsb (fun c => Nat.eqb (fst c) (S k)) (leaf_cells cs) = true) by (apply existsb_exists; exists (S k, q); split; [apply EN; auto|apply Nat.eqb_refl]). congruence. }
      apply (G maxl). intros l q Hq. apply HRg in Hq. lia.
    Qed.

    Lemma exact_step : exists same next v, harten n g bc ite cells u = Some (same, (next, v)) /\ usable n g lo hi next /\
      (forall l x y, ca_mem n next l (x :: y) -> (v l x y == f l x y)%Q) /\
      (forall l q, ca_mem n next l q -> l = minl \/ (S l <= top)%nat) /\ (same = true -> forall l q, ca_mem n next l q -> l = minl).
    Proof.
      destruct (C60_iteration n g lo hi bc ite cells u HU HB) as (r & u' & d & same & next & v & E & UN & HR & HG & HD & X & CV & SM & _).
      exists same, next, v. split; auto. split; auto. pose proof HU as (HI & _). pose proof (gi_range _ _ _ _ _ _ _ _ _ HI) as HRg.
      destruct finest as (lf & qf & Hqf & Hfin).
      assert (LV : forall l q, ca_mem n next l q -> l = minl \/ (S l <= lf)%nat).
      { intros l q Hq. apply (gi_range _ _ _ _ _ _ _ _ _ (proj1 UN)) in Hq as Hl. destruct (Nat.eq_dec l minl) as [|Hne]; [left; auto|right].
        apply X in Hq as (Lq & [(l0 & _ & H)|[(H1 & _ & H2)|(q2 & H1 & _)]]).
        - exfalso. apply (nothing_refined r u' d HR HG HD _ _ H).
        - pose proof (Hfin _ _ H1). destruct (Nat.eq_dec l lf) as [->|]; [|lia]. exfalso. apply H2. apply (finest_coarsened r u' d HR HG HD); auto. lia.
        - destruct H1 as (H1 & _). apply Hfin in H1. auto. }
      split; [|split].
      - intros l x y Hp. destruct (CV l x y Hp) as (C1 & C2 & _ & C4). assert (Lp : length (x :: y) = S n) by apply Hp. destruct C4 as [H|[H|(m0 & -> & H)]].
        + rewrite C1 by auto. auto.
        + destruct (C2 H) as [C5 C6]. apply (mean_local (u (S l)) (f (S l)) x y); auto; [|apply HE; cbn in Lp; lia].
          intros cx cy Hc. apply children_In in Hc as (Ec & Lc & Ac). apply Hf. apply C5; [cbn in *; lia|]. rewrite ancestor_cons. change (2 ^ Z.of_nat 1) with 2. congruence.
        + exfalso. pose proof (proj1 (gi_tiles _ _ _ _ _ _ _ _ _ HI)) as NO. apply X in Hp as (_ & [(l0 & _ & H1)|[(H1 & _)|(q2 & (H1 & _) & E2)]]).
          * apply (nothing_refined r u' d HR HG HD _ _ H1).
          * assert (m0 = S m0); [|lia]. apply (NO m0 (S m0) _ _ H H1 ltac:(lia)). replace (S m0 - m0)%nat with 1%nat by lia. auto.
          * assert (m0 = S (S m0)); [|lia]. apply (NO m0 (S (S m0)) _ _ H H1 ltac:(lia)). replace (S (S m0) - m0)%nat with (1 + 1)%nat by lia. rewrite <- ancestor_add, E2. auto.
      - intros l q Hq. pose proof (Htop _ _ Hqf). apply LV in Hq. lia.
      - intros Hs l q Hq. specialize (SM Hs). subst next. pose proof (HRg _ _ Hq). destruct (LV _ _ Hqf) as [Y|Y]; [|lia]. apply Hfin in Hq. lia.
    Qed.
  End Step.

  Lemma exact_loop : forall k ite cells u, usable n g lo hi cells -> (forall l x y, ca_mem n cells l (x :: y) -> (u l x y == f l x y)%Q) ->
    (forall l q, ca_mem n cells l q -> (l <= minl + k)%nat) -> (minl + k = maxl - ite)%nat ->
    exists next v, adapt_loop n g bc k ite cells u = Some (next, v) /\ usable n g lo hi next /\
      (forall l x y, ca_mem n next l (x :: y) -> (v l x y == f l x y)%Q) /\ forall l q, ca_mem n next l q -> l = minl.
  Proof.
    induction k as [|k IH]; intros ite cells u HU Hf Ht Hk; cbn [adapt_loop].
    - exists cells, u. split; auto. split; auto. split; auto. intros l q Hq. pose proof (Ht _ _ Hq). apply (gi_range _ _ _ _ _ _ _ _ _ (proj1 HU)) in Hq. lia.
    - destruct (exact_step ite cells u HU Hf) as (same & next & v & E & UN & Hv & HL & HS); [intros l q Hq; apply Ht in Hq; lia|]. rewrite E. destruct same.
      + exists next, v. split; auto. split; auto. split; auto. apply HS; auto.
      + cbn [fst snd]. apply IH; auto; [|lia]. intros l q Hq. destruct (HL _ _ Hq); lia.
  Qed.
End Exact.

Theorem C61_exact : forall n g lo hi bc f cells u, usable n g lo hi cells -> harmless n g lo hi bc -> (0 < h_eps g)%Q -> (0 <= h_factor g)%Q ->
  exact_family n (h_order g) f -> extends n g lo hi bc f -> (forall l x y, ca_mem n cells l (x :: y) -> (u l x y == f l x y)%Q) ->
  exists next v, adapt n g bc cells u = Some (next, v) /\
    (forall l p, ca_mem n next l p <-> l = h_min_level g /\ inside n lo hi l p) /\
    forall l x y, ca_mem n next l (x :: y) -> (v l x y == f l x y)%Q.
Proof.
  intros n g lo hi bc f cells u HU HB Heps Hfac HE HX Hf. unfold adapt. pose proof HU as (HI & _). destruct (Nat.eqb_spec (h_min_level g) (h_max_level g)) as [E|E]; [destruct (gi_ne _ _ _ _ _ _ _ _ _ HI); auto|].
  assert (Hmm : (h_min_level g <= h_max_level g)%nat). { pose proof HI as (_ & _ & _ & _ & _ & _ & _ & (l0 & q0 & H0) & _). apply (gi_range _ _ _ _ _ _ _ _ _ HI) in H0. lia. }
  destruct (exact_loop n g lo hi bc f HB HE HX Heps Hfac (h_max_level g - h_min_level g) 0 cells u HU Hf) as (next & v & E1 & UN & Hv & HL); [|lia|].
  { intros l q Hq. apply (gi_range _ _ _ _ _ _ _ _ _ HI) in Hq. lia. }
  exists next, v. split; auto. split; auto. intros l p. pose proof (gi_tiles _ _ _ _ _ _ _ _ _ (proj1 UN)) as HT. pose proof (gi_range _ _ _ _ _ _ _ _ _ (proj1 UN)) as HRg. split.
  - intros Hp. split; [apply (HL l p Hp)|apply HT; auto].
  - intros [-> Hi]. destruct (trichotomy n (h_min_level g) (h_max_level g) next lo hi HT HRg _ _ Hi) as [(l0 & Hl0 & H0)|(l' & z & Hl' & Hz & _)].
    + pose proof (HL _ _ H0). subst l0. rewrite Nat.sub_diag, ancestor_0 in H0. auto.
    + apply HL in Hz. lia.
Qed.

(** ** Families the prediction reproduces *)

(** The means follow from the predictions. *)
Lemma exact_of_predictions : forall n s f, (n <= 2)%nat -> (forall l x y p, length y = n -> is_predicted s (f l) x y p -> (p == f (S l) x y)%Q) -> exact_family n s f.
Proof.
  intros n s f Hn HP. split.
  - intros l x y Ly. subst n. unfold is_mean. rewrite <- (pred_cells_mean s (f l) x y Hn). unfold children. rewrite map_map. cbn [fst snd].
    assert (G : forall ps, (forall p, In p ps -> In p (parities (S (length y)))) ->
      (qsum (map (fun par => pred_cell signs_true s (f l) par x y) ps) == qsum (map (fun par => f (S l) (finer par x) (fine_row y (tl par))) ps))%Q).
    { induction ps as [|p ps IH]; intros H; cbn [map qsum fold_right]; [reflexivity|]. change (fold_right Qplus 0%Q) with qsum. rewrite IH by (intros; apply H; right; auto).
      destruct (predicted_cell s (f l) p x y (H p ltac:(left; auto))) as [Hp Hc]. apply children_In in Hc as (_ & Lc & _). rewrite (HP l _ _ _ Lc Hp). reflexivity. }
    apply (G (parities (S (length y)))). auto.
  - intros l x y Ly. assert (Hc : In (x, y) (children (x / 2) (ancestor 1 y))) by (apply children_In; rewrite ancestor_length; auto).
    unfold children in Hc. apply in_map_iff in Hc as (par & E & Hpar). apply pair_equal_spec in E as [Ex Ey].
    destruct (predicted_cell s (f l) par (x / 2) (ancestor 1 y) Hpar) as [Hp _]. unfold finer in Hp. rewrite Ex, Ey in Hp. eexists. split; [exact Hp|]. apply HP; auto.
Qed.

Lemma avg_from_ext : forall p m a b a' b', (a == a')%Q -> (b == b')%Q -> (avg_from m p a b == avg_from m p a' b')%Q.
Proof.
  assert (P : forall k a a', (a == a')%Q -> (qpow a k == qpow a' k)%Q) by (induction k as [|k IH]; intros a a' E; cbn [qpow]; [reflexivity|rewrite (IH a a' E), E; reflexivity]).
  induction p as [|c p IH]; intros m a b a' b' Ea Eb; cbn [avg_from]; [reflexivity|]. rewrite (IH (S m) a b a' b' Ea Eb). unfold mono_avg. rewrite (P _ a a' Ea), (P _ b b' Eb), Ea, Eb. reflexivity.
Qed.

(** The averages over the cells, of sides [h], [h / 2], [h / 4], ... on the successive levels, of a sum
    of polynomials in each variable. *)
Definition averages (h : Q) (p1 p2 p3 : list Q) : lfield := fun l x y =>
  let a p z := cell_avg p (h / inject_Z (2 ^ Z.of_nat l)) z in
  match y with [] => a p1 x | [y] => (a p1 x + a p2 y)%Q | [y; z] => (a p1 x + a p2 y + a p3 z)%Q | _ => 0%Q end.

Lemma pow_nz : forall l, ~ (inject_Z (2 ^ Z.of_nat l) == 0)%Q.
Proof.
  intros l X. change 0%Q with (inject_Z 0) in X. pose proof (proj1 (inject_Z_injective _ _) X) as Y. pose proof (pow_pos l) as PP. rewrite Y in PP. discriminate.
Qed.
Lemma step_half : forall h l p x, (cell_avg p (h / inject_Z (2 ^ Z.of_nat l) / 2) x == cell_avg p (h / inject_Z (2 ^ Z.of_nat (S l))) x)%Q.
Proof.
  intros h l p x. assert (E : (h / inject_Z (2 ^ Z.of_nat l) / 2 == h / inject_Z (2 ^ Z.of_nat (S l)))%Q).
  { rewrite Nat2Z.inj_succ, Z.pow_succ_r by lia. rewrite inject_Z_mult. change (inject_Z 2) with 2%Q. field.
    apply pow_nz. }
  unfold cell_avg, poly_avg. apply avg_from_ext; rewrite E; reflexivity.
Qed.

Theorem C61_polynomials : forall n s h p1 p2 p3, (n <= 2)%nat -> (s <= 5)%nat -> ~ (h == 0)%Q ->
  (length p1 <= 2 * s + 1)%nat -> (length p2 <= 2 * s + 1)%nat -> (length p3 <= 2 * s + 1)%nat -> exact_family n s (averages h p1 p2 p3).
Proof.
  intros n s h p1 p2 p3 Hn Hs Hh L1 L2 L3. apply exact_of_predictions; auto. intros l x y p Ly (ws & E & Hin). set (hl := (h / inject_Z (2 ^ Z.of_nat l))%Q).
  assert (Hhl : ~ (hl == 0)%Q).
  { intros X. apply Hh. assert (NZ : ~ (inject_Z (2 ^ Z.of_nat l) == 0)%Q).
    { apply pow_nz. }
    assert (Y : (h == hl * inject_Z (2 ^ Z.of_nat l))%Q) by (unfold hl; field; auto). rewrite Y, X. ring. }
  destruct y as [|y [|z [|? ?]]]; cbn [length] in Ly; [..|lia].
  - cbn [ancestor map] in E. rewrite (C37_exact_on_polynomials s p1 hl (averages h p1 p2 p3 l) (mk (x / 2) (x / 2 + 1)) ws Hs L1 Hhl eq_refl (fun x => Qeq_refl _) E x [] p Hin). apply step_half.
  - destruct (C38_sums_partial s p1 p2 p3 hl (averages h p1 p2 p3 l) (mk (x / 2) (x / 2 + 1)) (ancestor 1 [y]) ws Hs L1 L2 L3 Hhl eq_refl (or_introl eq_refl)
      (fun _ _ => Qeq_refl _) (fun _ _ _ => Qeq_refl _) E) as [H _]. rewrite (H x y p Hin). unfold hl. rewrite !step_half. reflexivity.
  - destruct (C38_sums_partial s p1 p2 p3 hl (averages h p1 p2 p3 l) (mk (x / 2) (x / 2 + 1)) (ancestor 1 [y; z]) ws Hs L1 L2 L3 Hhl eq_refl (or_intror eq_refl)
      (fun _ _ => Qeq_refl _) (fun _ _ _ => Qeq_refl _) E) as [_ H]. rewrite (H x y z p Hin). unfold hl. rewrite !step_half. reflexivity.
Qed.

(** ** Conditions that extend a family *)

(** Conditions of order 1 of C57, in dimensions 1 and 2: a cell outside across a face gets the value
    computed from the cell inside, a cell outside across a corner copies the corner cell. *)
Definition matching (n : nat) (g : setting) (lo hi : list Z) (dx : nat -> Q) (bs : list bc) (f : lfield) : Prop :=
  forall l dir p, (l <= h_max_level g)%nat -> good_dir n dir -> (exists k, (k <= n)%nat /\ nth k dir 0 <> 0) -> crossing n lo hi l dir p ->
    (bs = [] \/ is_cartesian dir = false -> (value_at (f l) (add_vec p dir) == value_at (f l) p)%Q) /\
    (is_cartesian dir = true -> forall b, In b bs -> (ghost_value b (dx l) (bc_value b l dir p) (value_at (f l) p) == value_at (f l) (add_vec p dir))%Q).

Theorem C61_extends : forall n g lo hi dx bs f, h_width g = 1 -> h_order g = 1%nat -> (h_max_level g < 30)%nat -> (n <= 1)%nat ->
  (forall b, In b bs -> order_one b /\ on_boundary n (h_max_level g) lo hi b) -> bs = [] \/ covering n (h_max_level g) lo hi bs ->
  matching n g lo hi dx bs f -> extends n g lo hi (conditions n g dx bs) f.
Proof.
  intros n g lo hi dx bs f Hw Ho Hm Hn1 Hb HC HM cells r l u v (HG & HBx & _) HR Hl E HU p Hp Hpi Hbox x y Ly Ny. rewrite Hw, Ho in *. change (Z.of_nat 1) with 1 in *.
  assert (HI : outer_input n (h_max g) (h_min_level g) (h_max_level g) cells lo hi (h_domain g) bs) by (split; auto).
  destruct (outer_spec n (h_max g) (h_min_level g) (h_max_level g) cells lo hi (h_domain g) bs r HI HR dx l u Hl) as (v1 & E1 & _ & B & D).
  unfold conditions in E. rewrite E in E1. injection E1 as <-.
  destruct (D Hn1) as (D1 & D2 & D3). set (q := x :: y) in *. change (value_at (v l) q == value_at (f l) q)%Q.
  assert (Lq : length q = S n) by (cbn; lia). assert (Rq : ca_mem n (r_all r) l q) by (apply Hbox; auto).
  destruct (insideb n lo hi l q) eqn:EI.
  - apply insideb_iff in EI. rewrite B by auto. apply HU; auto.
  - assert (Hout : ~ inside n lo hi l q) by (intros X; apply insideb_iff in X; congruence). clear EI.
    destruct (closest_spec n lo hi l p q Lq Hpi Ny) as (Hg & Hc & Nc & Eq & Hnz). specialize (Hnz Hout).
    set (c := closest n lo hi l q) in *. set (dir := outward n lo hi l q) in *. rewrite <- Eq.
    assert (Lc : length c = S n) by apply Hc. assert (Hci : inside n lo hi l c) by apply Hc.
    assert (Rc : ca_mem n (r_all r) l c) by (apply Hbox; auto).
    assert (Uc : (value_at (u l) c == value_at (f l) c)%Q) by (destruct c as [|cx cy]; [discriminate|]; apply HU; auto).
    assert (Rq' : ca_mem n (r_all r) l (add_vec c dir)) by (rewrite Eq; auto).
    destruct (HM l dir c Hl Hg Hnz Hc) as [M1 M2].
    destruct (Bool.bool_dec (is_cartesian dir) true) as [EC|EC].
    + destruct HC as [->|HC].
      { assert (Hh : handled n false dir) by (split; auto; discriminate). rewrite (D1 dir c Hg Hh Hc Rq'), M1 by auto. auto. }
      destruct Hg as [Ld Hd]. destruct (extreme n (h_max_level g) lo hi l dir c Hl Ld EC Hc) as (z & Lz & Az & Iz & Oz). destruct (HC dir z Ld EC Iz Oz) as (b & a & Hb0 & Ha & Hz).
      assert (La : a_level a = h_max_level g) by (apply (proj2 (Hb b Hb0) dir a Ha EC)).
      assert (Hhit : hit n l (r_all r) (b, (dir, a)) c).
      { split; auto. split; auto. split; [|rewrite Eq; apply Rq]. apply denotes_mesh_coarse; [lia|auto|]. exists z. rewrite La. auto. }
      destruct (last_split _ (fun e => hit n l (r_all r) e c /\ fst (snd e) = dir) (entries bs)) as (pre & [b1 [dir1 a1]] & post & EQ & [H1 H2] & H3).
      { intros e He. destruct (D3 e c He) as [X|X]; [|tauto]. destruct (list_eq_dec Z.eq_dec (fst (snd e)) dir); tauto. }
      { exists (b, (dir, a)). split; [apply entry_In; auto|auto]. }
      cbn [fst snd] in H2. subst dir1.
      assert (H4 : forall b' a', In (b', (dir, a')) post -> ~ hit n l (r_all r) (b', (dir, a')) c) by (intros b' a' Hin X; apply (H3 _ Hin); auto).
      rewrite (D2 pre b1 dir a1 post c EQ H1 H4).
      assert (Hb1 : In b1 bs).
      { assert (X : In (b1, (dir, a1)) (entries bs)) by (rewrite EQ; apply in_or_app; right; left; auto).
        unfold entries in X. apply in_flat_map in X as (b2 & X1 & X2). apply in_map_iff in X2 as (e & X2 & _). apply pair_equal_spec in X2 as [<- _]. auto. }
      rewrite (proj2 (proj1 (Hb b1 Hb1)) _ _ _ _ Uc). apply M2; auto.
    + apply not_true_is_false in EC. assert (Hh : handled n (match bs with [] => false | _ => true end) dir) by (split; auto).
      rewrite (D1 dir c Hg Hh Hc Rq'), M1 by auto. auto.
Qed.

(** ** Constants, and affine functions in dimension 1 *)

Lemma average_affine : forall b a h x, ~ (h == 0)%Q -> (cell_avg [b; a] h x == b + a * ((inject_Z x + (1 # 2)) * h))%Q.
Proof.
  intros b a h x Hh. unfold cell_avg, poly_avg. cbn [avg_from]. unfold mono_avg. cbn [qpow Z.of_nat Pos.of_succ_nat Pos.succ]. change (inject_Z 1) with 1%Q. change (inject_Z 2) with 2%Q.
  field. intros X. apply Hh. rewrite <- X. ring.
Qed.
Lemma average_constant : forall c h x, ~ (h == 0)%Q -> (cell_avg [c] h x == c)%Q.
Proof.
  intros c h x Hh. unfold cell_avg, poly_avg. cbn [avg_from]. unfold mono_avg. cbn [qpow Z.of_nat Pos.of_succ_nat]. change (inject_Z 1) with 1%Q.
  field. intros X. apply Hh. rewrite <- X. ring.
Qed.
Lemma hl_nz : forall h l, ~ (h == 0)%Q -> ~ (h / inject_Z (2 ^ Z.of_nat l) == 0)%Q.
Proof.
  intros h l Hh X. apply Hh. assert (Y : (h == h / inject_Z (2 ^ Z.of_nat l) * inject_Z (2 ^ Z.of_nat l))%Q) by (field; apply pow_nz). rewrite Y, X. ring.
Qed.

Theorem C61_constant : forall n g lo hi dx region c apply_ value cells u,
  usable n g lo hi cells -> (n <= 1)%nat -> h_width g = 1 -> h_order g = 1%nat -> (h_max_level g < 30)%nat -> (0 < h_eps g)%Q -> (0 <= h_factor g)%Q ->
  everywhere n (h_domain g) = Some region ->
  (apply_ = dirichlet 1 /\ (forall l dir p, (value l dir p == c)%Q) \/ apply_ = neumann /\ (forall l dir p, (value l dir p == 0)%Q)) ->
  (forall l x y, ca_mem n cells l (x :: y) -> (u l x y == c)%Q) ->
  forall bs, bs = [] \/ bs = [mkBc 2 region value apply_] ->
  exists next v, adapt n g (conditions n g dx bs) cells u = Some (next, v) /\
    (forall l p, ca_mem n next l p <-> l = h_min_level g /\ inside n lo hi l p) /\
    forall l x y, ca_mem n next l (x :: y) -> (v l x y == c)%Q.
Proof.
  intros n g lo hi dx region c apply_ value cells u HU Hn Hw Ho Hm Heps Hfac ER HA Hc bs Hbs.
  set (f := averages 1 [c] [] []). assert (F : forall l p, length p = S n -> (value_at (f l) p == c)%Q).
  { intros l [|x [|y [|z p]]] L; cbn [length] in L; try lia; cbn [value_at f averages]; rewrite average_constant by (apply hl_nz; discriminate); [reflexivity|].
    unfold cell_avg at 1. cbn [poly_avg avg_from]. ring. }
  pose proof HU as (HI & HBx & _).
  assert (Hh : forall k, (k <= n)%nat -> 2 * (Z.max 0 (nth k hi 0) * 2 ^ Z.of_nat (h_max_level g) + 8) < 2 ^ 31 - 1).
  { destruct HI as (_ & _ & _ & _ & _ & _ & _ & _ & H). intros k Hk. specialize (H k Hk). lia. }
  destruct (everywhere_conditions n (h_max_level g) lo hi (h_domain g) region value apply_ ltac:(lia) HBx Hm Hh ER) as (HO & HC & _).
  assert (Hb : forall b, In b bs -> order_one b /\ on_boundary n (h_max_level g) lo hi b).
  { destruct Hbs as [-> | ->]; [intros ? []|]. intros b [<-|[]]. split; auto. destruct HA as [[-> _]|[-> _]]; [apply dirichlet_order_one|apply neumann_order_one]. }
  assert (HM : matching n g lo hi dx bs f).
  { intros l dir p Hl Hg Hnz Hcr. assert (Lp : length p = S n) by apply Hcr. assert (La : length (add_vec p dir) = S n) by (rewrite add_vec_length; [auto|rewrite Lp; symmetry; apply Hg]).
    split; [intros _; rewrite !F by auto; reflexivity|]. intros _ b Hin. destruct Hbs as [-> | ->]; [destruct Hin|]. destruct Hin as [<-|[]]. cbn [bc_value].
    destruct HA as [[-> HV]|[-> HV]]; unfold ghost_value, dirichlet, neumann; cbn [bc_apply nth]; rewrite !F, HV by auto; ring. }
  destruct (C61_exact n g lo hi (conditions n g dx bs) f cells u) as (next & v & E & M & V); auto.
  - apply C60_conditions; auto.
  - rewrite Ho. apply C61_polynomials; cbn [length]; try lia. discriminate.
  - apply C61_extends; auto. destruct Hbs as [-> | ->]; auto.
  - intros l x y Hl. rewrite (Hc l x y Hl). symmetry. apply (F l (x :: y)). apply Hl.
  - exists next, v. split; auto. split; auto. intros l x y Hl. rewrite (V l x y Hl). apply (F l (x :: y)). apply Hl.
Qed.

(** [b + a t] on the interval from [lo * h] to [hi * h], whose cells have the length [h / 2^l]: the
    leaves hold the averages, the conditions are the values, or the outgoing derivatives, at the ends. *)
Theorem C61_affine : forall g lo hi h a b region value apply_ cells u,
  usable 0 g [lo] [hi] cells -> h_width g = 1 -> h_order g = 1%nat -> (h_max_level g < 30)%nat -> (0 < h_eps g)%Q -> (0 <= h_factor g)%Q -> ~ (h == 0)%Q ->
  everywhere 0 (h_domain g) = Some region ->
  (apply_ = dirichlet 1 /\ (forall l p, (value l [1]%Z p == b + a * (inject_Z hi * h))%Q /\ (value l [-1]%Z p == b + a * (inject_Z lo * h))%Q) \/
   apply_ = neumann /\ (forall l p, (value l [1]%Z p == a)%Q /\ (value l [-1]%Z p == - a)%Q)) ->
  (forall l x, ca_mem 0 cells l [x] -> (u l x [] == cell_avg [b; a] (h / inject_Z (2 ^ Z.of_nat l)) x)%Q) ->
  exists next v, adapt 0 g (conditions 0 g (fun l => (h / inject_Z (2 ^ Z.of_nat l))%Q) [mkBc 2 region value apply_]) cells u = Some (next, v) /\
    (forall l p, ca_mem 0 next l p <-> l = h_min_level g /\ inside 0 [lo] [hi] l p) /\
    forall l x, ca_mem 0 next l [x] -> (v l x [] == cell_avg [b; a] (h / inject_Z (2 ^ Z.of_nat l)) x)%Q.
Proof.
  intros g lo hi h a b region value apply_ cells u HU Hw Ho Hm Heps Hfac Hh ER HA Hc. set (dx := fun l => (h / inject_Z (2 ^ Z.of_nat l))%Q). set (bs := [mkBc 2 region value apply_]).
  set (f := averages h [b; a] [] []). pose proof HU as (HI & HBx & _).
  assert (Hb2 : forall k, (k <= 0)%nat -> 2 * (Z.max 0 (nth k [hi] 0) * 2 ^ Z.of_nat (h_max_level g) + 8) < 2 ^ 31 - 1).
  { destruct HI as (_ & _ & _ & _ & _ & _ & _ & _ & H). intros k Hk. specialize (H k Hk). lia. }
  destruct (everywhere_conditions 0 (h_max_level g) [lo] [hi] (h_domain g) region value apply_ ltac:(lia) HBx Hm Hb2 ER) as (HO & HC & _).
  assert (Hb : forall b, In b bs -> order_one b /\ on_boundary 0 (h_max_level g) [lo] [hi] b).
  { intros b0 [<-|[]]. split; auto. destruct HA as [[-> _]|[-> _]]; [apply dirichlet_order_one|apply neumann_order_one]. }
  assert (HM : matching 0 g [lo] [hi] dx bs f).
  { intros l dir p Hl [Ld Hd] (k & Hk & Hnz) [[Lp Hp] Hcr]. destruct k; [|lia]. specialize (Hd 0%nat Hk). specialize (Hp 0%nat Hk). specialize (Hcr 0%nat Hk Hnz).
    destruct dir as [|d [|? ?]]; try discriminate. destruct p as [|x [|? ?]]; try discriminate. cbn [nth] in *.
    split; [intros [X|X]; [discriminate|exfalso; assert (d = 1 \/ d = -1) as [-> | ->] by lia; discriminate]|].
    intros _ b0 [<-|[]]. pose proof (pow_nz l) as PN. change (add_vec [x] [d]) with [x + d]. cbn [bc_value].
    assert (A : forall z, (value_at (f l) [z] == b + a * ((inject_Z z + (1 # 2)) * (h / inject_Z (2 ^ Z.of_nat l))))%Q) by (intros z; apply average_affine, hl_nz; auto).
    assert (HP : forall z, (inject_Z z * h == inject_Z (z * 2 ^ Z.of_nat l) * (h / inject_Z (2 ^ Z.of_nat l)))%Q) by (intros z; rewrite inject_Z_mult; field; auto).
    unfold dx. set (hl := (h / inject_Z (2 ^ Z.of_nat l))%Q) in *. set (H := 2 ^ Z.of_nat l) in *. clearbody hl H.
    assert (d = 1 /\ x = hi * H - 1 \/ d = -1 /\ x = lo * H) as [[-> ->]|[-> ->]] by lia;
      (destruct HA as [[-> HV]|[-> HV]]; unfold ghost_value, dirichlet, neumann; cbn [bc_apply nth]; rewrite !A, ?(proj1 (HV l _)), ?(proj2 (HV l _)), ?HP; unfold Z.sub; rewrite !inject_Z_plus;
       change (inject_Z 1) with 1%Q; change (inject_Z (-1)) with (-1)%Q; change (inject_Z (- (1))) with (-1)%Q; ring). }
  destruct (C61_exact 0 g [lo] [hi] (conditions 0 g dx bs) f cells u) as (next & v & E & M & V); auto.
  - apply C60_conditions; auto.
  - rewrite Ho. apply C61_polynomials; cbn [length]; try lia. auto.
  - apply C61_extends; auto.
  - intros l x y Hl. destruct y; [apply Hc; auto|]. destruct Hl as (_ & Lx & _). discriminate.
  - exists next, v. split; auto. split; auto. intros l x Hl. apply (V l x [] Hl).
Qed.

(** ** Examples *)

(** 3 t + 1 on the line mesh, with its values at the ends: the mesh becomes the two cells of level 1. *)
Definition slope : lfield := averages 1 [1; 3]%Q [] [].
Definition slopeBcs : list bc := match everywhere 0 lineDomain with
  | Some region => [mkBc 2 region (fun _ dir _ => if zlist_eqb dir [1] then 4%Q else 1%Q) (dirichlet 1)] | None => [] end.
Definition slopeRun (eps factor : Q) : option (ca * lfield) :=
  adapt 0 (lineSetting eps factor) (conditions 0 (lineSetting eps factor) (fun l => (1 / inject_Z (2 ^ Z.of_nat l))%Q) slopeBcs) lineMesh slope.
Example C61_example :
  (exists region value, everywhere 0 lineDomain = Some region /\ slopeBcs = [mkBc 2 region value (dirichlet 1)] /\
     forall l p, (value l [1]%Z p == 1 + 3 * (inject_Z 1 * 1))%Q /\ (value l [-1]%Z p == 1 + 3 * (inject_Z 0 * 1))%Q) /\
  usable 0 (lineSetting (1 # 1000) 4) [0] [1] lineMesh /\
  show 0 (Some (lineMesh, slope)) = Some [(1%nat, [0], (7 # 4)%Q); (2%nat, [2], (23 # 8)%Q); (3%nat, [6], (55 # 16)%Q); (3%nat, [7], (61 # 16)%Q)] /\
  show 0 (slopeRun (1 # 1000) 4) = Some [(1%nat, [0], (7 # 4)%Q); (1%nat, [1], (13 # 4)%Q)].
Proof.
  split; [|split; [apply line_usable|split; vm_compute; reflexivity]].
  assert (X : everywhere 0 lineDomain <> None) by (vm_compute; discriminate). unfold slopeBcs. destruct (everywhere 0 lineDomain) as [region|]; [|congruence].
  exists region, (fun _ dir _ => if zlist_eqb dir [1] then 4%Q else 1%Q). split; auto. split; auto. intros l p. split; reflexivity.
Qed.

(** The value of Dirichlet that gives the ghost the value of [F]. *)
Lemma dirichlet_mean : forall region (F : nat -> list Z -> Q) l dir p dx,
  let b := mkBc 2 region (fun l dir p => ((F l p + F l (add_vec p dir)) / 2)%Q) (dirichlet 1) in
  (ghost_value b dx (bc_value b l dir p) (F l p) == F l (add_vec p dir))%Q.
Proof.
  intros region F l dir p dx b. change (2 * ((F l p + F l (add_vec p dir)) / 2) - F l p == F l (add_vec p dir))%Q. field.
Qed.

(** In dimension 2 this does not hold for affine functions: the outer corner ghosts copy the corner
    cells. On the mesh of C55 with the averages of 1 + 2 x + y and, on every face, the value that makes
    the ghost exact, the adaptation refines everything and the leaf (0, 0) of level 2 gets
    173/128 instead of 11/8. *)
Definition plane : lfield := averages 1 [1; 2]%Q [0; 1]%Q [].
Definition planeSetting : setting := mkSetting 4 1 3 1 1 1 (1 # 1000) 8 false (box_domain 1 3 [0; 0] [1; 1]).
Definition planeBcs (regions : option (list (list Z * lca))) : list bc := match regions with
  | Some region => [mkBc 2 region (fun l dir p => ((value_at (plane l) p + value_at (plane l) (add_vec p dir)) / 2)%Q) (dirichlet 1)] | None => [] end.
Theorem C61_corner_refuted :
  usable 1 planeSetting [0; 0] [1; 1] exMesh /\ exact_family 1 1 plane /\
  (forall b, In b (planeBcs (everywhere 1 (h_domain planeSetting))) -> forall l dir p, (ghost_value b 1 (bc_value b l dir p) (value_at (plane l) p) == value_at (plane l) (add_vec p dir))%Q) /\
  option_map (fun cs => (length cs, hd (0%nat, [], 0%Q) cs)) (show 1 (adapt 1 planeSetting (conditions 1 planeSetting (fun _ => 1%Q) (planeBcs (everywhere 1 (h_domain planeSetting)))) exMesh plane)) =
    Some (28%nat, (2%nat, [0; 0], (173 # 128)%Q)) /\
  Qred (plane 2%nat 0 [0]) = (11 # 8)%Q.
Proof.
  split; [|split; [|split; [|split]]].
  - split; [exact exMesh_ghosts|]. split; [apply box_domain_ok; [reflexivity|reflexivity|]; intros [|[|k]] Hk; [reflexivity|reflexivity|lia]|]. split; [apply Nat.le_refl|]. split; reflexivity.
  - apply C61_polynomials; cbn [length]; try lia. discriminate.
  - generalize (everywhere 1 (h_domain planeSetting)). intros [region|] b Hb l dir p; [|destruct Hb]. destruct Hb as [<-|[]].
    exact (dirichlet_mean region (fun l => value_at (plane l)) l dir p 1%Q).
  - vm_compute. reflexivity.
  - vm_compute. reflexivity.
Qed.

Print Assumptions C61_exact.
Print Assumptions C61_polynomials.
Print Assumptions C61_extends.
Print Assumptions C61_constant.
Print Assumptions C61_affine.
Print Assumptions C61_corner_refuted.
