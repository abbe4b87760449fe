(** The adaptation of an AMR mesh: update_ghost on any mesh, the numbering, and what the
    tags outside the leaves change. *)
From Coq Require Import QArith.
From Verif Require Import Base IntervalModel Spec IntervalProofs LoiModel LcaModel LcaSpec InitProofs LcaProofs RowsProofs CellArrayModel CellArrayProofs PropsLca PropsCellArray
  SubsetModel TreeProofs SubsetSpec SubsetProofs2 PropsSubset StencilModel NumberingProofs StencilProofs PropsStencil MeshModel MeshProofs PropsMesh
  NumModel NumProofs NumSpec PropsNum AdaptModel AdaptProofs TagProofs PropsAdapt TransferProofs PropsTransfer MrModel MrProofs PropsMr
  GhostModel GhostProofs PropsGhost BcProofs HartenModel HartenProofs HartenProofs2 LcaProofs2 LoopProofs AmrModel AmrProofs AmrProofs2 AmrProofs3 AmrLoopModel.
From Verif Require AmrProofs4.
Open Scope Z_scope.

(** ** update_ghost on a mesh that is not graded in all directions
    It succeeds and the values of the leaves stay. *)
Section Update.
  Variables (n m minl maxl : nat) (w : Z) (s : nat) (d : nat) (domain : lca) (cells : ca) (lo hi : list Z) (r : amr_mesh).
  Hypothesis HI : amr_sub_input n m minl maxl w (Z.of_nat s) d domain cells lo hi.
  Hypothesis HR : amr_sub_mesh n m minl maxl w (Z.of_nat s) domain cells = Some r.
  Hypothesis dim : (n <= 2)%nat.
  Notation leaf := (ca_mem n cells).
  Notation split := (split_at n cells).
  Notation all := (ca_mem n (a_all r)).
  Notation prd := (to_predict n w cells lo hi).
  Notation prj := (to_project n w cells).

  Lemma lo_contents : (forall c, c = a_ghosts r \/ c = a_proj r \/ c = a_pred r \/ c = a_all r -> ca_wf n c /\ c_max c = m /\ forall l, (l <= m)%nat -> a_level (c_at c l) = l) /\
    forall l p, (ca_mem n (a_ghosts r) l p <-> amr_ghost n w (Z.of_nat s) cells lo hi l p) /\ (ca_mem n (a_proj r) l p <-> prj l p) /\
      (ca_mem n (a_pred r) l p <-> prd l p) /\ (all l p <-> amr_ghost n w (Z.of_nat s) cells lo hi l p \/ prj l p).
  Proof using HI HR. destruct (amr_contents n m minl maxl w (Z.of_nat s) d domain cells lo hi HI) as (r' & E & X). rewrite HR in E. injection E as <-. exact X. Qed.
  Lemma lo_range : forall l q, leaf l q -> (minl <= l <= maxl)%nat.
  Proof using HI. apply (in_range _ _ _ _ _ _ _ (si_in _ _ _ _ _ _ _ _ _ _ _ HI)). Qed.
  Lemma lo_top : (maxl <= m)%nat.
  Proof using HI. apply (in_top _ _ _ _ _ _ _ (si_in _ _ _ _ _ _ _ _ _ _ _ HI)). Qed.
  Lemma lo_sizes : 0 <= w.
  Proof using HI. apply (in_w _ _ _ _ _ _ _ (si_in _ _ _ _ _ _ _ _ _ _ _ HI)). Qed.
  Lemma lo_margin : forall l p, leaf l p -> margin n w cells l p.
  Proof using HI. clear dim. intros l p Hp. split; [apply Hp|]. exists p. split; auto. intros k _. pose proof lo_sizes. lia. Qed.
  Lemma lo_level : forall l p, all l p -> (1 <= l <= maxl)%nat.
  Proof using HI HR. clear dim.
    intros l p H. apply (proj2 lo_contents) in H as [[(_ & q & Hq & _)|(_ & h & ((_ & q & Hq & _) & _ & _ & _ & l' & q' & Hl & Hq') & _)]|H].
    - pose proof (si_low _ _ _ _ _ _ _ _ _ _ _ HI l q Hq). apply lo_range in Hq. lia.
    - pose proof (si_low _ _ _ _ _ _ _ _ _ _ _ HI l' q' Hq'). apply lo_range in Hq. lia.
    - split; [destruct H; lia|]. apply (project_inside n m minl maxl w (Z.of_nat s) d domain cells lo hi HI) in H as [H|(l' & q & Hl & Hq & _)]; [apply lo_range in H|apply lo_range in Hq]; lia.
  Qed.
  Lemma lo_bound : forall l p k, all l p -> (k <= n)%nat -> 2 * (nth k p 0 + 3) < 2 ^ 31 - 1.
  Proof using HI HR. clear dim.
    intros l p k H Hk. apply (proj2 lo_contents) in H as [H|H]; [apply (ghost_small n m minl maxl w (Z.of_nat s) d domain cells lo hi HI l p k H Hk)|].
    apply (project_inside n m minl maxl w (Z.of_nat s) d domain cells lo hi HI) in H. pose proof (leaf_or_split_bound n m minl maxl w (Z.of_nat s) d domain cells lo hi HI l p k H Hk). pose proof lo_sizes. lia.
  Qed.
  Lemma lo_at : forall c l p, c = a_proj r \/ c = a_pred r \/ c = a_all r -> (l <= m)%nat -> (lca_mem n (c_at c l) p <-> ca_mem n c l p).
  Proof using HI HR. clear dim. intros c l p Hc Hl. destruct (proj1 lo_contents c) as (_ & E & _); [tauto|]. unfold ca_mem. rewrite E. tauto. Qed.
  Lemma lo_stored : forall l p, length p = S n -> all l p -> stored n (a_all r) l p = true.
  Proof using HI HR. clear dim.
    intros l p Lp H. pose proof (lo_level l p H). pose proof lo_top. destruct (proj1 lo_contents (a_all r)) as (W & E & _); auto. apply stored_mem; [apply W; lia|auto|]. apply lo_at; auto. lia.
  Qed.
  Lemma lo_min : (1 <= min_level (a_all r))%nat.
  Proof using HI HR. clear dim.
    destruct (proj1 lo_contents (a_all r)) as (W & E & _); auto. destruct (min_level_spec (a_all r)) as (_ & B & C).
    destruct (forallb (fun l => lca_is_empty (c_at (a_all r) l)) (seq 0 (S m))) eqn:F.
    - rewrite C, E; [lia|]. intros l Hl. rewrite forallb_forall in F. apply F. apply in_seq. lia.
    - assert (X : exists l, (l <= m)%nat /\ lca_is_empty (c_at (a_all r) l) = false).
      { clear - F. apply not_true_iff_false in F. rewrite forallb_forall in F. destruct (existsb (fun l => negb (lca_is_empty (c_at (a_all r) l))) (seq 0 (S m))) eqn:G.
        - apply existsb_exists in G as (l & Hl & G). apply in_seq in Hl. apply negb_true_iff in G. exists l. split; [lia|auto].
        - exfalso. apply F. intros l Hl. destruct (lca_is_empty (c_at (a_all r) l)) eqn:Y; auto. assert (existsb (fun l => negb (lca_is_empty (c_at (a_all r) l))) (seq 0 (S m)) = true); [|congruence].
          apply existsb_exists. exists l. rewrite Y. auto. }
      destruct X as (l & Hl & Hne). destruct (B l) as [B1 B2]; [lia|auto|]. apply (nonempty_mem n) in B2 as (p & Hp); [|apply W; auto]. apply (lo_level _ p). split; auto.
  Qed.

  Lemma project_loose : forall v l, (S l <= maxl)%nat -> exists v', amr_projection_step n r v (S l) = Some v' /\
    (forall k, k <> l -> v' k = v k) /\ forall x y, leaf l (x :: y) -> v' l x y = v l x y.
  Proof using HI HR dim.
    intros v l Hl. pose proof lo_top as HM. unfold amr_projection_step. cbn [Nat.pred].
    destruct (proj1 lo_contents (a_all r)) as (Wa & Ea & La); auto. destruct (proj1 lo_contents (a_proj r)) as (Wp & Ep & Lp); auto.
    specialize (La l ltac:(lia)). specialize (Lp (S l) ltac:(lia)). specialize (Wa l ltac:(lia)). specialize (Wp (S l) ltac:(lia)).
    destruct (inter_spec n (c_at (a_proj r) (S l)) (c_at (a_all r) l) l Wp Wa) as (calls & E & V & _ & _ & M).
    { rewrite La, Lp. replace (Nat.min l (Nat.max (S l) l)) with l by lia. apply fits_le; [|lia]. intros q k Hq Hk. apply lo_at in Hq; [|auto|lia].
      apply (proj2 lo_contents) in Hq. assert (all (S l) q) as Y by (apply lo_contents; auto). pose proof (lo_bound (S l) q k Y Hk). lia. }
    { rewrite La, Lp. replace (Nat.min l (Nat.max (S l) l)) with l by lia. apply fits_le; [|lia]. intros q k Hq Hk. apply lo_at in Hq; [|auto|lia]. pose proof (lo_bound l q k Hq Hk). lia. }
    assert (HC : forall p, In p (cells_of_calls calls) -> all l p /\ exists c, length c = S n /\ ancestor 1 c = p /\ prj (S l) c).
    { intros p Hp. apply M in Hp as (Hp & D1 & D2). split; [apply lo_at; auto; [lia|]; apply same_denotes in D2; auto|].
      apply denotes_mesh_coarse in D1 as (c & Hc & Ec); [|lia|auto]. rewrite Lp in Ec. replace (S l - l)%nat with 1%nat in Ec by lia.
      exists c. split; [apply Hc|]. split; [auto|]. apply lo_at in Hc; [|auto|lia]. apply (proj2 lo_contents) in Hc. auto. }
    destruct (apply_op_spec n l (on (inter (c_at (a_proj r) (S l)) (c_at (a_all r) l)) l) (projection_ghost n (a_all r) (S l) (v (S l))) v calls
        (fun i yz x y => y = yz /\ In x (strided i)) (fun x y q => is_mean (v (S l)) x y q) E) as (v1 & E1 & F1 & P1).
    { intros i yz Hin. destruct (V i yz Hin) as (H1 & _ & H2). apply projection_ghost_spec; auto; [lia|].
      intros x Hx. assert (Hp : In (x :: yz) (cells_of_calls calls)).
      { apply cells_of_calls_step; [intros i' yz' H'; apply (V i' yz' H')|]. eauto. }
      apply HC in Hp as (Ha & c & Lc & Ec & Hc). cbn [Nat.pred]. split.
      - apply lo_stored; [cbn; lia|auto].
      - intros cx cyz Hch. apply children_In in Hch as (Eh & L & A). assert (Lh : length (cx :: cyz) = S n) by (cbn; lia). apply lo_stored; auto. apply lo_contents. right.
        assert (Eq : ancestor 1 (cx :: cyz) = ancestor 1 c) by (rewrite Ec, ancestor_cons; change (2 ^ Z.of_nat 1) with 2; rewrite Eh, A; auto).
        apply project_inv in Hc as (NL & [(Hm & HS)|Hc]); rewrite <- Eq in *; [apply project_margin|apply project_child]; auto. }
    exists v1. split; auto. split; auto. intros x y Hx. destruct (P1 x y) as [[(i & yz & Hin & -> & Hx2) _]|[_ H]]; auto. exfalso.
    assert (Hp : In (x :: yz) (cells_of_calls calls)). { apply cells_of_calls_step; [intros i' yz' H'; apply (V i' yz' H')|]. eauto. }
    apply HC in Hp as (_ & c & Lc & Ec & Hc). apply project_inv in Hc as [NL _]. rewrite Ec in NL. auto.
  Qed.

  Lemma predict_loose : forall v l, (S l <= maxl)%nat -> exists v',
    apply_op n (S l) (on (inter (c_at (a_pred r) (S l)) (c_at (a_all r) l)) (S l)) (prediction_ghost n s (a_all r) (S l) (v l)) v = Some v' /\
    (forall k, k <> S l -> v' k = v k) /\ forall x y, leaf (S l) (x :: y) -> v' (S l) x y = v (S l) x y.
  Proof using HI HR dim.
    intros v l Hl. pose proof lo_top as HM.
    destruct (proj1 lo_contents (a_all r)) as (Wa & Ea & La); auto. destruct (proj1 lo_contents (a_pred r)) as (Wp & Ep & Lp); auto.
    specialize (La l ltac:(lia)). specialize (Lp (S l) ltac:(lia)). specialize (Wa l ltac:(lia)). specialize (Wp (S l) ltac:(lia)).
    assert (PA : forall h, prd (S l) h -> all (S l) h) by (intros h Hh; apply lo_contents; left; left; apply Hh).
    destruct (inter_spec n (c_at (a_pred r) (S l)) (c_at (a_all r) l) (S l) Wp Wa) as (calls & E & V & _ & _ & M).
    { rewrite La, Lp. replace (Nat.min (S l) (Nat.max (S l) l)) with (S l) by lia. apply fits_le; [|lia]. intros q k Hq Hk. apply lo_at in Hq; [|auto|lia].
      apply (proj2 lo_contents) in Hq. pose proof (lo_bound (S l) q k (PA q Hq) Hk). lia. }
    { rewrite La, Lp. replace (Nat.min (S l) (Nat.max (S l) l)) with (S l) by lia. intros q k Hq Hk. rewrite La. apply lo_at in Hq; [|auto|lia]. pose proof (lo_bound l q k Hq Hk).
      replace (Z.max 0 (Z.of_nat (S l) - Z.of_nat l)) with 1 by lia. change (2 ^ 1) with 2. lia. }
    assert (HC : forall p, In p (cells_of_calls calls) -> prd (S l) p).
    { intros p Hp. apply M in Hp as (Hp & D1 & _). apply (same_denotes n _ (S l) p Lp Hp) in D1. apply lo_at in D1; [|auto|lia]. apply (proj2 lo_contents) in D1. auto. }
    destruct (apply_op_spec n (S l) (on (inter (c_at (a_pred r) (S l)) (c_at (a_all r) l)) (S l)) (prediction_ghost n s (a_all r) (S l) (v l)) v calls
        (fun i yz x y => y = yz /\ In x (strided i)) (fun x y q => is_predicted s (v l) x y q) E) as (v1 & E1 & F1 & P1).
    { intros i yz Hin. destruct (V i yz Hin) as (H1 & _ & H2). apply prediction_ghost_spec; auto.
      intros x Hx. assert (Hp : prd (S l) (x :: yz)).
      { apply HC. apply cells_of_calls_step; [intros i' yz' H'; apply (V i' yz' H')|]. eauto. }
      cbn [Nat.pred]. split; [apply lo_stored; [cbn; lia|auto]|]. intros p Lq Nq. apply lo_stored; auto. apply lo_contents. left. right. split; auto. eauto. }
    exists v1. split; auto. split; auto. intros x y Hx. destruct (P1 x y) as [[(i & yz & Hin & -> & Hx2) _]|[_ H]]; auto. exfalso.
    assert (Hp : prd (S l) (x :: yz)). { apply HC. apply cells_of_calls_step; [intros i' yz' H'; apply (V i' yz' H')|]. eauto. }
    destruct Hp as (_ & _ & NL & _). auto.
  Qed.

  Variable bc : nat -> lfield -> option lfield.
  Hypothesis HO : only_outside n maxl (a_all r) lo hi bc.
  Definition keeps (u v : lfield) : Prop := forall l x y, leaf l (x :: y) -> v l x y = u l x y.

  Lemma bc_loose : forall l u, (l <= maxl)%nat -> exists v, bc l u = Some v /\ keeps u v.
  Proof using HI HO. clear dim.
    intros l u Hl. destruct (HO l u Hl) as (v & E & F & G). exists v. split; auto. intros k x y Hk. destruct (Nat.eq_dec k l) as [->|Hne]; [|rewrite F; auto].
    apply G. left. apply (si_tiles _ _ _ _ _ _ _ _ _ _ _ HI). auto.
  Qed.
  Lemma update_loose : forall u, exists v, update_ghost n s maxl bc r u = Some v /\ keeps u v.
  Proof using HI HR HO dim.
    intros u. unfold update_ghost. pose proof lo_min as MP.
    assert (P1 : forall ls v, (forall l, In l ls -> (1 <= l <= maxl)%nat) -> exists v', fold_levels (amr_projection_step n r) ls v = Some v' /\ keeps v v').
    { induction ls as [|l ls IH]; intros v Hls; cbn [fold_levels]; [exists v; split; auto; intros ? ? ? _; auto|]. pose proof (Hls l (or_introl eq_refl)) as Hl. destruct l as [|l]; [lia|].
      destruct (project_loose v l ltac:(lia)) as (v1 & E1 & F1 & G1). rewrite E1. destruct (IH v1) as (v2 & E2 & G2); [intros k Hk; apply Hls; right; auto|].
      exists v2. split; auto. intros k x y Hk. rewrite G2 by auto. destruct (Nat.eq_dec k l) as [->|Hne]; [auto|rewrite F1; auto]. }
    destruct (P1 (rev (seq 1 maxl)) u) as (v1 & E1 & G1). { intros l Hl. apply in_rev, in_seq in Hl. lia. } rewrite E1.
    destruct (bc_loose 0%nat v1 ltac:(lia)) as (v2 & E2 & G2). rewrite E2. cbv zeta.
    assert (P2 : forall ls v, (forall l, In l ls -> (1 <= l <= maxl)%nat) -> exists v', fold_levels (amr_prediction_step n s bc r) ls v = Some v' /\ keeps v v').
    { induction ls as [|l ls IH]; intros v Hls; cbn [fold_levels]; [exists v; split; auto; intros ? ? ? _; auto|]. pose proof (Hls l (or_introl eq_refl)) as Hl. destruct l as [|l]; [lia|].
      cbn [amr_prediction_step]. destruct (predict_loose v l ltac:(lia)) as (v3 & E3 & F3 & G3). rewrite E3. destruct (bc_loose (S l) v3 ltac:(lia)) as (v4 & E4 & G4). rewrite E4.
      destruct (IH v4) as (v5 & E5 & G5); [intros k Hk; apply Hls; right; auto|].
      exists v5. split; auto. intros k x y Hk. rewrite G5, G4 by auto. destruct (Nat.eq_dec k (S l)) as [->|Hne]; [auto|rewrite F3; auto]. }
    destruct (P2 (seq (min_level (a_all r)) (S maxl - min_level (a_all r))) v2) as (v3 & E3 & G3). { intros l Hl. apply in_seq in Hl. lia. }
    exists v3. split; auto. intros l x y Hl. rewrite G3, G2, G1; auto.
  Qed.

  (** ** The numbering *)
  Lemma pred_in_all : forall l p, ca_mem n (a_pred r) l p -> all l p.
  Proof using HI HR. clear dim. intros l p H. apply (proj2 lo_contents) in H. apply lo_contents. left. left. apply H. Qed.
  Lemma leaf_in_all : forall l p, leaf l p -> all l p.
  Proof using HI HR. clear dim. intros l p H. apply lo_contents. left. left. apply lo_margin. auto. Qed.

  (** The leaves with the numbers of the reference. *)
  Definition amr_numbered (cells' reference : ca) : Prop :=
    ca_wf n cells' /\ c_max cells' = m /\ (forall l, (l <= m)%nat -> a_level (c_at cells' l) = l) /\ same_leaves n cells cells' /\
    ca_wf n reference /\ (forall l p, ca_mem n reference l p <-> all l p) /\
    (forall l p, leaf l p -> ca_mem n reference l p /\ ca_get_index n cells' l p = ca_get_index n reference l p) /\
    (forall l p l' p' i, ca_mem n reference l p -> ca_mem n reference l' p' -> ca_get_index n reference l p = Some i ->
       ca_get_index n reference l' p' = Some i -> l = l' /\ p = p').
  Lemma amr_renumbered : exists cells' a b c, amr_renumber n cells r = Some [cells'; a; b; c; ca_update_index (a_all r)] /\
    renumber_sub_mesh n (ca_update_index (a_all r)) cells = Some cells' /\ amr_numbered cells' (ca_update_index (a_all r)).
  Proof using HI HR. clear dim.
    destruct (C27_shared_numbering n [cells; a_ghosts r; a_proj r; a_pred r; a_all r] 4 (a_all r) eq_refl) as (subs & a & E1 & E2 & E3 & R).
    { destruct (proj1 lo_contents (a_all r)) as (WA & XA & _); auto. rewrite XA. intros c [<-|[<-|[<-|[<-|[<-|[]]]]]].
      - split; [apply (in_wf _ _ _ _ _ _ _ (si_in _ _ _ _ _ _ _ _ _ _ _ HI))|]. split; [apply (in_max _ _ _ _ _ _ _ (si_in _ _ _ _ _ _ _ _ _ _ _ HI))|]. apply leaf_in_all.
      - destruct (proj1 lo_contents (a_ghosts r)) as (W1 & X1 & _); auto. split; auto. split; auto. intros l p Hp. apply (proj2 lo_contents) in Hp. apply lo_contents. auto.
      - destruct (proj1 lo_contents (a_proj r)) as (W1 & X1 & _); auto. split; auto. split; auto. intros l p Hp. apply (proj2 lo_contents) in Hp. apply lo_contents. auto.
      - destruct (proj1 lo_contents (a_pred r)) as (W1 & X1 & _); auto. split; auto. split; auto. apply pred_in_all.
      - auto. }
    destruct subs as [|c0 [|c1 [|c2 [|c3 [|c4 [|c5 subs]]]]]]; try discriminate E3. cbn [nth_error] in E2. injection E2 as ->.
    destruct R as (R1 & R2 & R3 & R4). exists c0, c1, c2, c3.
    assert (D : a = ca_update_index (a_all r) /\ renumber_sub_mesh n a cells = Some c0).
    { revert E1. unfold renumbering. cbn [nth_error length seq combine mapM Nat.eqb]. set (ref := ca_update_index (a_all r)).
      destruct (renumber_sub_mesh n ref cells) as [x0|] eqn:E0; [|discriminate]. destruct (renumber_sub_mesh n ref (a_ghosts r)); [|discriminate].
      destruct (renumber_sub_mesh n ref (a_proj r)); [|discriminate]. destruct (renumber_sub_mesh n ref (a_pred r)); [|discriminate].
      intros Q. injection Q as <- <- <- <- <-. auto. }
    destruct D as [-> D]. split; [exact E1|]. split; auto. destruct (proj1 lo_contents (a_all r)) as (WA & XA & _); auto.
    destruct (ca_update_index_spec n (a_all r) WA) as (_ & _ & Wref & _ & _ & _ & SS).
    pose proof (si_in _ _ _ _ _ _ _ _ _ _ _ HI) as (HW & Hm & HMx & HL & _).
    unfold renumber_sub_mesh in D. destruct (levels_spec cells) as (S1 & S2 & S3).
    destruct (renumber_levels_spec n (ca_update_index (a_all r)) (levels cells) (c_at cells)) as (at' & Ea & P1 & P2 & P3).
    - unfold levels. apply seq_NoDup.
    - intros l Hl. specialize (S2 l Hl). split; [apply Wref; cbn; lia|]. split; [apply HW; auto|]. intros p Hp. apply (shape_mem n _ _ (SS l)). apply leaf_in_all. split; auto.
    - rewrite Ea in D. injection D as <-. destruct (R4 0%nat _ _ eq_refl eq_refl) as [X1 X2]. split; [|split; [|split; [|split; [|split; [|split; [|split]]]]]].
      + apply (shape_ca_wf n cells); auto. intros l. apply P1.
      + auto.
      + intros l Hl. cbn [c_at]. rewrite (proj2 (P1 l)). auto.
      + intros l q. symmetry. apply X1.
      + exact Wref.
      + exact R1.
      + intros l p Hp. split; [apply R1, leaf_in_all; auto|apply X2; auto].
      + exact R3.
  Qed.
End Update.
