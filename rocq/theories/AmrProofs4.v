(** [update_ghost] on the sub-meshes of an AMR mesh that fills a box. *)
From Coq Require Import QArith.
From Verif Require Import Base IntervalModel Spec IntervalProofs LoiModel LcaModel LcaSpec InitProofs LcaProofs RowsProofs CellArrayModel CellArrayProofs PropsLca PropsCellArray
  SubsetModel TreeProofs SubsetSpec SubsetProofs2 PropsSubset StencilModel NumberingProofs StencilProofs PropsStencil MeshModel MeshProofs PropsMesh
  NumModel NumProofs NumSpec PropsNum AdaptModel AdaptProofs TagProofs PropsAdapt TransferProofs PropsTransfer MrModel MrProofs PropsMr
  GhostModel GhostProofs PropsGhost BcProofs HartenModel HartenProofs HartenProofs2 AmrModel AmrProofs2 AmrProofs3.
Open Scope Z_scope.

(** ** The leaf next to a cell to predict *)

Section Beside.
  Variables (n minl maxl : nat) (cells : ca) (lo hi : list Z).
  Hypothesis HT : tiles n cells lo hi.
  Hypothesis HR : forall l q, ca_mem n cells l q -> (minl <= l <= maxl)%nat.
  Hypothesis HG : graded_box n cells.
  Notation leaf := (ca_mem n cells).
  Notation split := (split_at n cells).

  (** The cell of the group of [c] that is the nearest to [h], and the walk from it to [h]. *)
  Definition nearest (c h : Z) : Z := if 2 * (c / 2) + 1 <? h then 2 * (c / 2) + 1 else if h <? 2 * (c / 2) then 2 * (c / 2) else h.
  Definition walk1 (j c h : Z) : Z := if nearest c h <=? h then Z.min h (nearest c h + j) else Z.max h (nearest c h - j).
  Definition walk (j : Z) (c h : list Z) : list Z := map (fun k => walk1 j (nth k c 0) (nth k h 0)) (seq 0 (S n)).
  Lemma walk_length : forall j c h, length (walk j c h) = S n.
  Proof. intros. unfold walk. rewrite map_length, seq_length. auto. Qed.
  Lemma nth_walk : forall j c h k, (k <= n)%nat -> nth k (walk j c h) 0 = walk1 j (nth k c 0) (nth k h 0).
  Proof.
    intros j c h k Hk. unfold walk. rewrite nth_indep with (d' := (fun k => walk1 j (nth k c 0) (nth k h 0)) 0%nat) by (rewrite map_length, seq_length; lia).
    rewrite (map_nth (fun k => walk1 j (nth k c 0) (nth k h 0))), seq_nth by lia. auto.
  Qed.
  Lemma walk1_start : forall c h, walk1 0 c h / 2 = c / 2.
  Proof. intros c h. unfold walk1, nearest. destruct (Z.ltb_spec (2 * (c / 2) + 1) h), (Z.ltb_spec h (2 * (c / 2))); match goal with |- context [?a <=? ?b] => destruct (Z.leb_spec a b) end; lia. Qed.
  Lemma walk1_end : forall w c h, h - w <= c <= h + w -> walk1 w c h = h.
  Proof. intros w c h H. unfold walk1, nearest. destruct (Z.ltb_spec (2 * (c / 2) + 1) h), (Z.ltb_spec h (2 * (c / 2))); match goal with |- context [?a <=? ?b] => destruct (Z.leb_spec a b) end; lia. Qed.
  Lemma walk1_step : forall j c h, 0 <= j -> -1 <= walk1 (j + 1) c h - walk1 j c h <= 1.
  Proof. intros j c h H. unfold walk1. destruct (Z.leb_spec (nearest c h) h); lia. Qed.
  Lemma walk1_between : forall j c h, 0 <= j -> (walk1 j c h <= h /\ (c <= walk1 j c h \/ walk1 j c h / 2 = c / 2)) \/ (h <= walk1 j c h /\ (walk1 j c h <= c \/ walk1 j c h / 2 = c / 2)).
  Proof.
    intros j c h H. unfold walk1, nearest. destruct (Z.ltb_spec (2 * (c / 2) + 1) h), (Z.ltb_spec h (2 * (c / 2))); match goal with |- context [?a <=? ?b] => destruct (Z.leb_spec a b) end; lia.
  Qed.
  Lemma walk1_close : forall w j c h, 0 <= j -> h - w <= c <= h + w -> 1 <= w -> h / 2 - (w - 1) / 2 <= walk1 (j + 1) c h / 2 <= h / 2 + (w - 1) / 2.
  Proof.
    intros w j c h H H1 Hw. unfold walk1, nearest. destruct (Z.ltb_spec (2 * (c / 2) + 1) h), (Z.ltb_spec h (2 * (c / 2))); match goal with |- context [?a <=? ?b] => destruct (Z.leb_spec a b) end; lia.
  Qed.

  Lemma beside : forall l w c h, leaf (S l) c -> length h = S n -> 1 <= w -> near n w h c -> inside n lo hi (S l) h -> ~ leaf (S l) h -> ~ split (S l) h ->
    exists q, leaf l q /\ near n ((w - 1) / 2) (ancestor 1 h) q.
  Proof.
    intros l w c h Hc Lh Hw N Ih NL NS. assert (Lc : length c = S n) by apply Hc.
    assert (IN : forall j, 0 <= j -> inside n lo hi (S l) (walk j c h)).
    { intros j Hj. split; [apply walk_length|]. intros k Hk. rewrite nth_walk by auto. apply HT in Hc as [_ Hc]. specialize (Hc k Hk). destruct Ih as [_ Ih]. specialize (Ih k Hk).
      pose proof (walk1_between j (nth k c 0) (nth k h 0) Hj) as B. assert (E : 2 ^ Z.of_nat (S l) = 2 * 2 ^ Z.of_nat l) by (rewrite Nat2Z.inj_succ, Z.pow_succ_r by lia; auto).
      rewrite E in *. lia. }
    assert (W : forall j : nat, (leaf (S l) (walk (Z.of_nat j) c h) \/ split (S l) (walk (Z.of_nat j) c h)) \/ exists q, leaf l q /\ near n ((w - 1) / 2) (ancestor 1 h) q).
    { induction j as [|j [IH|IH]]; [| |right; auto].
      - left. apply (child_split n minl maxl cells lo hi HT HR); [|apply walk_length]. exists (S l), c. split; [lia|]. split; auto. replace (S l - l)%nat with 1%nat by lia.
        apply (list_ext n); [rewrite ancestor_length; apply walk_length|rewrite ancestor_length; auto|]. intros k Hk. rewrite !nth_ancestor, nth_walk by auto. change (2 ^ Z.of_nat 1) with 2. apply walk1_start.
      - set (x := walk (Z.of_nat j) c h) in *. set (y := walk (Z.of_nat (S j)) c h).
        destruct (trichotomy n minl maxl cells lo hi HT HR (S l) y (IN (Z.of_nat (S j)) (Zle_0_nat (S j)))) as [(l0 & Hl0 & H0)|H0]; [|left; right; auto].
        destruct (Nat.eq_dec l0 (S l)) as [->|Hne]; [rewrite Nat.sub_diag, ancestor_0 in H0; left; left; auto|]. right.
        set (v := map (fun k => nth k y 0 - nth k x 0) (seq 0 (S n))).
        assert (NV : forall k, (k <= n)%nat -> nth k v 0 = nth k y 0 - nth k x 0).
        { intros k Hk. unfold v. rewrite nth_indep with (d' := (fun k => nth k y 0 - nth k x 0) 0%nat) by (rewrite map_length, seq_length; lia).
          rewrite (map_nth (fun k => nth k y 0 - nth k x 0)), seq_nth by lia. auto. }
        assert (VU : forall k, (k <= n)%nat -> -1 <= nth k v 0 <= 1).
        { intros k Hk. rewrite NV by auto. unfold x, y. rewrite !nth_walk by auto. replace (Z.of_nat (S j)) with (Z.of_nat j + 1) by lia. apply walk1_step. lia. }
        assert (EV : vadd n x v = y).
        { apply (list_ext n); [apply vadd_length|apply walk_length|]. intros k Hk. rewrite nth_vadd, NV by auto. lia. }
        assert (Y : exists l1 z, (S l <= l1)%nat /\ leaf l1 z /\ ancestor (l1 - S l) (vadd n z v) = y).
        { destruct IH as [IH|IH].
          - exists (S l), x. split; auto. split; auto. rewrite Nat.sub_diag, ancestor_0. auto.
          - destruct (side_leaf n minl maxl cells lo hi HT HR (S l) x v IH VU) as (l1 & z & Hl1 & Hz & _ & Bz). exists l1, z. split; [lia|]. split; auto. rewrite Bz. auto. }
        destruct Y as (l1 & z & Hl1 & Hz & Ez). assert (l0 = l).
        { destruct (Nat.eq_dec l0 l) as [|Hn]; auto. exfalso. apply (HG l0 l1 (ancestor (S l - l0) y) z v); auto; [lia|]. rewrite <- Ez, ancestor_add. f_equal. lia. }
        subst l0. replace (S l - l)%nat with 1%nat in H0 by lia. exists (ancestor 1 y). split; auto. intros k Hk. rewrite !nth_ancestor. change (2 ^ Z.of_nat 1) with 2.
        unfold y. rewrite nth_walk by auto. replace (Z.of_nat (S j)) with (Z.of_nat j + 1) by lia. pose proof (walk1_close w (Z.of_nat j) (nth k c 0) (nth k h 0) ltac:(lia)) as X. specialize (N k Hk). lia. }
    destruct (W (Z.to_nat w)) as [X|X]; auto. exfalso. rewrite Z2Nat.id in X by lia. replace (walk w c h) with h in X; [tauto|].
    apply (list_ext n); [auto|apply walk_length|]. intros k Hk. rewrite nth_walk by auto. specialize (N k Hk). rewrite walk1_end by lia. auto.
  Qed.
End Beside.

(** ** The update *)

Section Update.
  Variables (n m minl maxl : nat) (w : Z) (s : nat) (d : nat) (domain : lca) (cells : ca) (lo hi : list Z) (r : amr_mesh).
  Hypothesis HI : amr_sub_input n m minl maxl w (Z.of_nat s) d domain cells lo hi.
  Hypothesis HR : amr_sub_mesh n m minl maxl w (Z.of_nat s) domain cells = Some r.
  Hypothesis dim : (n <= 2)%nat.
  Hypothesis HG : graded_box n cells.
  Hypothesis HW : 1 <= w /\ 2 * Z.of_nat s <= w + 2.
  Notation leaf := (ca_mem n cells).
  Notation split := (split_at n cells).
  Notation all := (ca_mem n (a_all r)).
  Notation prd := (to_predict n w cells lo hi).

  Lemma up_contents : (forall c, c = a_ghosts r \/ c = a_proj r \/ c = a_pred r \/ c = a_all r -> ca_wf n c /\ c_max c = m /\ forall l, (l <= m)%nat -> a_level (c_at c l) = l) /\
    forall l p, (ca_mem n (a_ghosts r) l p <-> amr_ghost n w (Z.of_nat s) cells lo hi l p) /\ (ca_mem n (a_proj r) l p <-> to_project n w cells l p) /\
      (ca_mem n (a_pred r) l p <-> prd l p) /\ (all l p <-> amr_ghost n w (Z.of_nat s) cells lo hi l p \/ to_project n w cells l p).
  Proof. destruct (amr_contents n m minl maxl w (Z.of_nat s) d domain cells lo hi HI) as (r' & E & X). rewrite HR in E. injection E as <-. exact X. Qed.
  Lemma up_tiles : tiles n cells lo hi.
  Proof. apply HI. Qed.
  Lemma up_range : forall l q, leaf l q -> (minl <= l <= maxl)%nat.
  Proof. apply (in_range _ _ _ _ _ _ _ (si_in _ _ _ _ _ _ _ _ _ _ _ HI)). Qed.
  Lemma up_top : (maxl <= m)%nat.
  Proof. apply (in_top _ _ _ _ _ _ _ (si_in _ _ _ _ _ _ _ _ _ _ _ HI)). Qed.

  (** Every cell that a prediction reads is in the margin of the leaves of its level. *)
  Lemma stencil_margin : forall l h p, prd (S l) h -> length p = S n -> near n (Z.of_nat s) p (ancestor 1 h) -> margin n w cells l p.
  Proof.
    intros l h p ((Lh & c & Hc & N) & NS & NL & Ih & _) Lp Np. split; auto.
    destruct (beside n minl maxl cells lo hi up_tiles up_range HG l w c h Hc Lh (proj1 HW) N Ih NL NS) as (q & Hq & Nq). exists q. split; auto.
    intros k Hk. specialize (Np k Hk). specialize (Nq k Hk). destruct HW. lia.
  Qed.
  Lemma all_iff : forall l p, all l p <-> margin n w cells l p \/ to_project n w cells l p.
  Proof.
    intros l p. rewrite (proj2 (proj2 (proj2 (proj2 up_contents l p)))). unfold amr_ghost. split; [intros [[H|(Lp & h & Hh & N)]|H]; auto; left; eapply stencil_margin; eauto|tauto].
  Qed.

  (** The cells to average, which are the parents of the cells to project. *)
  Definition avg (l : nat) (p : list Z) : Prop := all l p /\ split l p.
  Lemma avg_iff : forall l p c, length c = S n -> ancestor 1 c = p -> (avg l p <-> to_project n w cells (S l) c).
  Proof.
    intros l p c Lc Ec. unfold avg. rewrite all_iff. split.
    - intros [[H|H] HS]; [apply project_margin|apply project_child]; auto; rewrite Ec; auto;
        intros Hp; apply (above_not_split n cells lo hi up_tiles l l p); auto; rewrite Nat.sub_diag, ancestor_0; auto.
    - intros H. apply project_inv in H as (NL & [(Hm & HS)|H]); rewrite Ec in *; auto. split; auto.
      destruct (project_inside n m minl maxl w (Z.of_nat s) d domain cells lo hi HI l p H); [contradiction|auto].
  Qed.
  Lemma avg_child : forall l p c, avg l p -> length c = S n -> ancestor 1 c = p -> all (S l) c /\ inside n lo hi (S l) c /\ ~ prd (S l) c /\ (leaf (S l) c \/ avg (S l) c).
  Proof.
    intros l p c Ha Lc Ec. pose proof (proj1 (avg_iff l p c Lc Ec) Ha) as Hc. assert (HA : all (S l) c) by (apply all_iff; auto). split; auto.
    pose proof (project_inside n m minl maxl w (Z.of_nat s) d domain cells lo hi HI (S l) c Hc) as X. split; [|split].
    - destruct X as [X|X]; [apply up_tiles; auto|apply (split_inside n cells lo hi up_tiles); auto].
    - intros (_ & NS & NL & _). tauto.
    - destruct X as [X|X]; [auto|right; split; auto].
  Qed.
  Lemma avg_level : forall l p, avg l p -> (l < maxl)%nat.
  Proof. intros l p (_ & l' & q & Hl & Hq & _). apply up_range in Hq. lia. Qed.
  Lemma all_level : forall l p, all l p -> (min_level (a_all r) <= l <= maxl)%nat.
  Proof.
    intros l p H. destruct (proj1 up_contents (a_all r)) as (W & E & _); auto. split.
    - destruct (min_level_spec (a_all r)) as (A & _). destruct H as [H1 H2]. apply A; auto. apply (nonempty_mem n); [apply W; auto|eauto].
    - apply all_iff in H as [(_ & q & Hq & _)|H]; [apply up_range in Hq; lia|]. apply (project_inside n m minl maxl w (Z.of_nat s) d domain cells lo hi HI) in H as [H|(l' & q & Hl & Hq & _)]; [apply up_range in H|apply up_range in Hq]; lia.
  Qed.
  Lemma all_positive : forall l p, all l p -> (1 <= l)%nat.
  Proof.
    intros l p H. apply all_iff in H as [(_ & q & Hq & _)|H]; [apply (si_low _ _ _ _ _ _ _ _ _ _ _ HI l q Hq)|]. destruct H; lia.
  Qed.
  Lemma min_positive : (1 <= min_level (a_all r))%nat.
  Proof.
    destruct (proj1 up_contents (a_all r)) as (W & E & _); auto. destruct (min_level_spec (a_all r)) as (_ & B & C).
    destruct (forallb (fun l => lca_is_empty (c_at (a_all r) l)) (seq 0 (S m))) eqn:F.
    - rewrite C, E; [lia|]. intros l Hl. rewrite forallb_forall in F. apply F. apply in_seq. lia.
    - assert (X : exists l, (l <= m)%nat /\ lca_is_empty (c_at (a_all r) l) = false).
      { clear - F. apply not_true_iff_false in F. rewrite forallb_forall in F. destruct (existsb (fun l => negb (lca_is_empty (c_at (a_all r) l))) (seq 0 (S m))) eqn:G.
        - apply existsb_exists in G as (l & Hl & G). apply in_seq in Hl. apply negb_true_iff in G. exists l. split; [lia|auto].
        - exfalso. apply F. intros l Hl. destruct (lca_is_empty (c_at (a_all r) l)) eqn:Y; auto. assert (existsb (fun l => negb (lca_is_empty (c_at (a_all r) l))) (seq 0 (S m)) = true); [|congruence].
          apply existsb_exists. exists l. rewrite Y. auto. }
      destruct X as (l & Hl & Hne). destruct (B l) as [B1 B2]; [lia|auto|]. apply (nonempty_mem n) in B2 as (p & Hp); [|apply W; auto]. apply (all_positive _ p). split; auto.
  Qed.
  Lemma all_bound : forall l p k, all l p -> (k <= n)%nat -> 2 * (nth k p 0 + 3) < 2 ^ 31 - 1.
  Proof.
    intros l p k H Hk. apply (proj2 up_contents) in H as [H|H]; [apply (ghost_small n m minl maxl w (Z.of_nat s) d domain cells lo hi HI l p k H Hk)|].
    apply (project_inside n m minl maxl w (Z.of_nat s) d domain cells lo hi HI) in H. pose proof (leaf_or_split_bound n m minl maxl w (Z.of_nat s) d domain cells lo hi HI l p k H Hk). destruct HW. lia.
  Qed.
  Lemma prd_all : forall l p, prd l p -> (1 <= l)%nat /\ all l p /\ forall q, length q = S n -> near n (Z.of_nat s) q (ancestor 1 p) -> all (Nat.pred l) q.
  Proof.
    intros l p H. assert (Hl : (1 <= l)%nat) by (destruct H as (_ & _ & _ & _ & l' & q & Hl & _); lia). split; auto. split; [apply all_iff; left; apply H|].
    intros q Lq Nq. apply all_iff. left. destruct l as [|l]; [lia|]. cbn [Nat.pred]. apply (stencil_margin l p q); auto.
  Qed.
  Lemma at_lev : forall c l p, c = a_proj r \/ c = a_pred r \/ c = a_all r -> (l <= m)%nat -> (lca_mem n (c_at c l) p <-> ca_mem n c l p).
  Proof. intros c l p Hc Hl. destruct (proj1 up_contents c) as (_ & E & _); [tauto|]. unfold ca_mem. rewrite E. tauto. Qed.
  Lemma is_stored : forall l p, (l <= m)%nat -> length p = S n -> all l p -> stored n (a_all r) l p = true.
  Proof. intros l p Hl Lp H. destruct (proj1 up_contents (a_all r)) as (W & E & _); auto. apply stored_mem; [apply W; lia|auto|]. apply at_lev; auto. Qed.

  Lemma projection_step_ok : forall v l, (S l <= maxl)%nat -> exists v', amr_projection_step n r v (S l) = Some v' /\
    (forall k, k <> l -> v' k = v k) /\
    forall x y, (avg l (x :: y) /\ is_mean (v (S l)) x y (v' l x y)) \/ (~ avg l (x :: y) /\ v' l x y = v l x y).
  Proof.
    intros v l Hl. pose proof up_top as HM. unfold amr_projection_step. cbn [Nat.pred].
    destruct (proj1 up_contents (a_all r)) as (Wa & Ea & La); auto. destruct (proj1 up_contents (a_proj r)) as (Wp & Ep & Lp); auto.
    specialize (La l ltac:(lia)). specialize (Lp (S l) ltac:(lia)). specialize (Wa l ltac:(lia)). specialize (Wp (S l) ltac:(lia)).
    destruct (inter_spec n (c_at (a_proj r) (S l)) (c_at (a_all r) l) l Wp Wa) as (calls & E & V & _ & _ & M).
    { rewrite La, Lp. replace (Nat.min l (Nat.max (S l) l)) with l by lia. apply fits_le; [|lia]. intros q k Hq Hk. apply at_lev in Hq; [|auto|lia].
      pose proof (all_bound (S l) q k) as B. apply (proj2 up_contents) in Hq. assert (all (S l) q) as Y by (apply all_iff; auto). specialize (B Y Hk). lia. }
    { rewrite La, Lp. replace (Nat.min l (Nat.max (S l) l)) with l by lia. apply fits_le; [|lia]. intros q k Hq Hk. apply at_lev in Hq; [|auto|lia]. pose proof (all_bound l q k Hq Hk). lia. }
    assert (HC : forall p, In p (cells_of_calls calls) <-> avg l p).
    { intros p. rewrite M. split.
      - intros (Hp & D1 & D2). apply denotes_mesh_coarse in D1 as (c & Hc & Ec); [|lia|auto]. rewrite Lp in Ec. replace (S l - l)%nat with 1%nat in Ec by lia.
        apply (avg_iff l p c); [apply Hc|auto|]. apply at_lev in Hc; [|auto|lia]. apply (proj2 up_contents) in Hc. auto.
      - intros Hp. assert (Lq : length p = S n) by apply Hp. split; auto. split; [|apply same_denotes; auto; apply at_lev; [auto|lia|apply Hp]].
        apply denotes_mesh_coarse; [lia|auto|]. rewrite Lp. replace (S l - l)%nat with 1%nat by lia.
        destruct (descend 1 p) as (z & Lz & Az). exists z. split; auto. apply at_lev; [auto|lia|]. apply (proj2 up_contents). apply (avg_iff l p z); auto. lia. }
    destruct (apply_op_spec n l (on (inter (c_at (a_proj r) (S l)) (c_at (a_all r) l)) l) (projection_ghost n (a_all r) (S l) (v (S l))) v calls
        (fun i yz x y => y = yz /\ In x (strided i)) (fun x y q => is_mean (v (S l)) x y q) E) as (v1 & E1 & F1 & P1).
    { intros i yz Hin. destruct (V i yz Hin) as (H1 & _ & H2). apply projection_ghost_spec; auto; [lia|].
      intros x Hx. assert (Hp : avg l (x :: yz)).
      { apply HC. apply cells_of_calls_step; [intros i' yz' H'; apply (V i' yz' H')|]. eauto. }
      cbn [Nat.pred]. split.
      - apply is_stored; [lia|cbn; lia|apply Hp].
      - intros cx cyz Hc. apply children_In in Hc as (Ec & L & A). apply is_stored; [lia|cbn; lia|]. apply (avg_child l (x :: yz)); auto; [cbn; lia|].
        rewrite ancestor_cons. change (2 ^ Z.of_nat 1) with 2. rewrite Ec, A. auto. }
    exists v1. split; auto. split; auto. intros x y.
    assert (X : (exists i yz, In (i, yz) calls /\ y = yz /\ In x (strided i)) <-> avg l (x :: y)).
    { rewrite <- HC, cells_of_calls_step by (intros i yz Hin; apply (V i yz Hin)). split; [intros (i & yz & H1 & -> & H2)|intros (i & H1 & H2)]; eauto. }
    rewrite <- X. apply P1.
  Qed.

  Lemma predict_ok : forall v l, (S l <= maxl)%nat -> exists v',
    apply_op n (S l) (on (inter (c_at (a_pred r) (S l)) (c_at (a_all r) l)) (S l)) (prediction_ghost n s (a_all r) (S l) (v l)) v = Some v' /\
    (forall k, k <> S l -> v' k = v k) /\
    forall x y, (prd (S l) (x :: y) /\ is_predicted s (v l) x y (v' (S l) x y)) \/ (~ prd (S l) (x :: y) /\ v' (S l) x y = v (S l) x y).
  Proof.
    intros v l Hl. pose proof up_top as HM.
    destruct (proj1 up_contents (a_all r)) as (Wa & Ea & La); auto. destruct (proj1 up_contents (a_pred r)) as (Wp & Ep & Lp); auto.
    specialize (La l ltac:(lia)). specialize (Lp (S l) ltac:(lia)). specialize (Wa l ltac:(lia)). specialize (Wp (S l) ltac:(lia)).
    destruct (inter_spec n (c_at (a_pred r) (S l)) (c_at (a_all r) l) (S l) Wp Wa) as (calls & E & V & _ & _ & M).
    { rewrite La, Lp. replace (Nat.min (S l) (Nat.max (S l) l)) with (S l) by lia. apply fits_le; [|lia]. intros q k Hq Hk. apply at_lev in Hq; [|auto|lia].
      apply (proj2 up_contents) in Hq. apply prd_all in Hq as (_ & Hq & _). pose proof (all_bound (S l) q k Hq Hk). lia. }
    { rewrite La, Lp. replace (Nat.min (S l) (Nat.max (S l) l)) with (S l) by lia. intros q k Hq Hk. rewrite La. apply at_lev in Hq; [|auto|lia]. pose proof (all_bound l q k Hq Hk).
      replace (Z.max 0 (Z.of_nat (S l) - Z.of_nat l)) with 1 by lia. change (2 ^ 1) with 2. lia. }
    assert (HC : forall p, In p (cells_of_calls calls) <-> prd (S l) p).
    { intros p. rewrite M. split.
      - intros (Hp & D1 & _). apply (same_denotes n _ (S l) p Lp Hp) in D1. apply at_lev in D1; [|auto|lia]. apply (proj2 up_contents) in D1. auto.
      - intros Hp. assert (Lq : length p = S n) by apply Hp. split; auto. split; [apply same_denotes; auto; apply at_lev; [auto|lia|apply (proj2 up_contents); auto]|].
        rewrite denotes_mesh_fine by lia. rewrite La. replace (S l - l)%nat with 1%nat by lia. apply at_lev; [auto|lia|]. apply (proj2 (proj2 (prd_all (S l) p Hp))); [rewrite ancestor_length; auto|].
        intros k _. lia. }
    destruct (apply_op_spec n (S l) (on (inter (c_at (a_pred r) (S l)) (c_at (a_all r) l)) (S l)) (prediction_ghost n s (a_all r) (S l) (v l)) v calls
        (fun i yz x y => y = yz /\ In x (strided i)) (fun x y q => is_predicted s (v l) x y q) E) as (v1 & E1 & F1 & P1).
    { intros i yz Hin. destruct (V i yz Hin) as (H1 & _ & H2). apply prediction_ghost_spec; auto.
      intros x Hx. assert (Hp : prd (S l) (x :: yz)).
      { apply HC. apply cells_of_calls_step; [intros i' yz' H'; apply (V i' yz' H')|]. eauto. }
      destruct (prd_all _ _ Hp) as (_ & P1 & P2). cbn [Nat.pred] in *. split.
      - apply is_stored; [lia|cbn; lia|auto].
      - intros p Lq Nq. apply is_stored; [lia|auto|auto]. }
    exists v1. split; auto. split; auto. intros x y.
    assert (X : (exists i yz, In (i, yz) calls /\ y = yz /\ In x (strided i)) <-> prd (S l) (x :: y)).
    { rewrite <- HC, cells_of_calls_step by (intros i yz Hin; apply (V i yz Hin)). split; [intros (i & yz & H1 & -> & H2)|intros (i & H1 & H2)]; eauto. }
    rewrite <- X. apply P1.
  Qed.

  Lemma projection_levels : forall c a v, (a + c <= maxl)%nat -> exists v', fold_levels (amr_projection_step n r) (rev (seq (S a) c)) v = Some v' /\
    (forall l, (l < a \/ a + c <= l)%nat -> v' l = v l) /\
    forall l x y, (a <= l < a + c)%nat -> (avg l (x :: y) /\ is_mean (v' (S l)) x y (v' l x y)) \/ (~ avg l (x :: y) /\ v' l x y = v l x y).
  Proof.
    induction c as [|c IH]; intros a v Hc.
    - exists v. split; auto. split; auto. intros; lia.
    - rewrite seq_S, rev_app_distr. cbn [rev app fold_levels]. replace (S a + c)%nat with (S (a + c)) by lia.
      destruct (projection_step_ok v (a + c)) as (v1 & E1 & F1 & P1); [lia|]. rewrite E1.
      destruct (IH a v1) as (v2 & E2 & F2 & P2); [lia|]. exists v2. split; auto. split.
      + intros l Hl. rewrite F2, F1 by lia. auto.
      + intros l x y Hl. destruct (Nat.eq_dec l (a + c)) as [->|Hne].
        * rewrite !F2 by lia. rewrite (F1 (S (a + c))) by lia. apply P1.
        * destruct (P2 l x y) as [H|[H1 H2]]; [lia|left; auto|right]. split; auto. rewrite H2, F1 by lia. auto.
  Qed.

  Variable bc : nat -> lfield -> option lfield.
  Hypothesis HO : only_outside n maxl (a_all r) lo hi bc.

  Lemma bcs_same : forall l a b x y, (l <= maxl)%nat -> bc_done bc l a b -> inside n lo hi l (x :: y) \/ ~ all l (x :: y) -> b x y = a x y.
  Proof.
    intros l a b x y Hl (u & v & E & <- & <-) H. destruct (HO l u Hl) as (v' & E' & _ & Sv). rewrite E in E'. injection E' as <-. auto.
  Qed.

  Lemma prediction_levels : forall c a v, (1 <= a)%nat -> (a + c <= S maxl)%nat ->
    exists v', fold_levels (amr_prediction_step n s bc r) (seq a c) v = Some v' /\
    (forall l, (l < a \/ a + c <= l)%nat -> v' l = v l) /\
    forall l, (a <= l < a + c)%nat -> exists mid, bc_done bc l mid (v' l) /\
      forall x y, (prd l (x :: y) /\ is_predicted s (v' (Nat.pred l)) x y (mid x y)) \/ (~ prd l (x :: y) /\ mid x y = v l x y).
  Proof.
    induction c as [|c IH]; intros a v Ha Hc.
    - exists v. split; auto. split; auto. intros; lia.
    - rewrite seq_S, fold_levels_app. destruct (IH a v) as (v1 & E1 & F1 & P1); [lia|lia|]. rewrite E1.
      destruct a as [|a]; [lia|]. replace (S a + c)%nat with (S (a + c)) by lia. cbn [fold_levels amr_prediction_step].
      destruct (predict_ok v1 (a + c)) as (v2 & E2 & F2 & P2); [lia|]. rewrite E2.
      destruct (HO (S (a + c)) v2) as (v3 & E3 & F3 & _); [lia|]. rewrite E3.
      exists v3. split; auto. split.
      + intros l Hl. rewrite F3, F2, F1 by lia. auto.
      + intros l Hl. destruct (Nat.eq_dec l (S (a + c))) as [->|Hne].
        * exists (v2 (S (a + c))). split; [exists v2, v3; auto|]. intros x y. cbn [Nat.pred] in *. rewrite (F3 (a + c)%nat), (F2 (a + c)%nat) by lia.
          rewrite <- (F1 (S (a + c))) by lia. apply P2.
        * destruct (P1 l) as (mid & H1 & H2); [lia|]. exists mid. rewrite (F3 l), (F2 l), (F3 (Nat.pred l)), (F2 (Nat.pred l)) by lia. auto.
  Qed.

  Notation lmin := (min_level (a_all r)).
  Lemma amr_update_values : forall u, exists v, update_ghost n s maxl bc r u = Some v /\
    (forall l x y, avg l (x :: y) -> is_mean (v (S l)) x y (v l x y)) /\
    (forall l x y, prd l (x :: y) -> is_predicted s (v (Nat.pred l)) x y (v l x y)) /\
    (forall l x y, inside n lo hi l (x :: y) \/ ~ all l (x :: y) -> ~ avg l (x :: y) -> ~ prd l (x :: y) -> v l x y = u l x y) /\
    (forall l, (lmin <= l <= maxl)%nat -> exists before after, bc l before = Some after /\ after l = v l /\
       forall x y, inside n lo hi l (x :: y) -> before l x y = v l x y).
  Proof.
    intros u. unfold update_ghost. pose proof min_positive as MP.
    destruct (projection_levels maxl 0 u) as (v1 & E1 & F1 & P1); [lia|]. rewrite E1. cbn [Nat.add] in *.
    destruct (HO 0%nat v1) as (v2 & E2 & F2 & S2); [lia|]. rewrite E2. cbv zeta.
    assert (G2 : forall l x y, v2 l x y = v1 l x y).
    { intros l x y. destruct (Nat.eq_dec l 0) as [->|Hne]; [|rewrite F2; auto]. apply S2. right. intros Y. apply all_positive in Y. lia. }
    destruct (Nat.le_gt_cases lmin maxl) as [HL|HL].
    - destruct (prediction_levels (S maxl - lmin) lmin v2) as (v & E & F & P); [auto|lia|]. exists v. split; auto.
      assert (G : forall l x y, inside n lo hi l (x :: y) \/ ~ all l (x :: y) -> ~ prd l (x :: y) -> v l x y = v1 l x y).
      { intros l x y H Ht. rewrite <- G2. destruct (Nat.le_gt_cases lmin l) as [Hle|Hgt]; [|rewrite F by lia; auto].
        destruct (Nat.le_gt_cases l maxl) as [Hle2|Hgt2]; [|rewrite F by lia; auto].
        destruct (P l) as (mid & H1 & H2); [lia|]. rewrite (bcs_same l mid _ x y) by auto. destruct (H2 x y) as [[H3 _]|[_ H3]]; [contradiction|auto]. }
      assert (NP : forall l p, avg l p -> inside n lo hi l p /\ ~ prd l p).
      { intros l p [_ Ha]. split; [apply (split_inside n cells lo hi up_tiles); auto|]. intros (_ & NS & _). auto. }
      split; [|split; [|split]].
      + intros l x y Ha. destruct (NP _ _ Ha) as [I1 I2]. pose proof (avg_level _ _ Ha) as Hl. destruct (P1 l x y ltac:(lia)) as [[_ HM]|[HN _]]; [|contradiction].
        rewrite (G l x y) by auto. eapply is_mean_same; [|exact HM]. intros cx cy Hc. apply children_In in Hc as (Ec & Lc & Ac). assert (Lp : length (x :: y) = S n) by apply Ha.
        destruct (avg_child l (x :: y) (cx :: cy) Ha) as (C1 & C2 & C3 & _); [cbn in *; lia|rewrite ancestor_cons; change (2 ^ Z.of_nat 1) with 2; rewrite Ec, Ac; auto|].
        symmetry. apply G; auto.
      + intros l x y Hp. destruct (prd_all l _ Hp) as (H0 & Ha & _). pose proof (all_level _ _ Ha) as Hl. destruct (P l) as (mid & H1 & H2); [lia|].
        rewrite (bcs_same l mid _ x y); [|lia|auto|left; apply Hp]. destruct (H2 x y) as [[_ H3]|[H3 _]]; [auto|contradiction].
      + intros l x y H NA NPr. rewrite G by auto. destruct (Nat.le_gt_cases maxl l) as [Hle|Hgt]; [rewrite F1 by lia; auto|].
        destruct (P1 l x y ltac:(lia)) as [[Y _]|[_ Y]]; [contradiction|auto].
      + intros l Hl. destruct (P l) as (mid & H1 & H2); [lia|]. pose proof H1 as (b & a & Eb & Eq1 & Eq2). exists b, a. split; auto. split; auto.
        intros x y Hi. rewrite Eq1. symmetry. apply (bcs_same l mid (v l)); auto. lia.
    - (* nothing is stored *)
      replace (S maxl - lmin)%nat with 0%nat by lia. cbn [seq fold_levels]. exists v2. split; auto.
      assert (NA : forall l p, ~ all l p) by (intros l p Y; apply all_level in Y; lia).
      split; [|split; [|split]].
      + intros l x y [Y _]. destruct (NA _ _ Y).
      + intros l x y Y. apply prd_all in Y as (_ & Y & _). destruct (NA _ _ Y).
      + intros l x y _ Na _. rewrite G2. destruct (Nat.le_gt_cases maxl l) as [Hle|Hgt]; [rewrite F1 by lia; auto|]. destruct (P1 l x y ltac:(lia)) as [[Y _]|[_ Y]]; [contradiction|auto].
      + intros l Hl. lia.
  Qed.
End Update.
