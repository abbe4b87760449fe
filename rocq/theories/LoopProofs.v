(** Lemmas on whole iterations of the adaptation: the meshes with the same leaves, the
    numbered mesh, the storage of the tags, the new mesh. *)
From Coq Require Import QArith.
From Verif Require Import Base IntervalModel Spec IntervalProofs LoiModel LcaModel LcaSpec LcaProofs LcaProofs2 LcaProofs3 RowsProofs CellArrayModel CellArrayProofs PropsLca PropsCellArray
  SubsetModel TreeProofs SubsetSpec SubsetProofs2 PropsSubset StencilModel NumberingProofs StencilProofs PropsStencil MeshModel MeshProofs PropsMesh
  NumModel NumProofs NumSpec PropsNum AdaptModel AdaptProofs TagProofs PropsAdapt TransferProofs PropsTransfer MrModel MrProofs PropsMr
  GhostModel GhostProofs PropsGhost BcProofs PropsOuter HartenModel HartenProofs HartenProofs2 HartenProofs3 PropsHarten DetailProofs CriteriaProofs AroundProofs PropsDetail.
Open Scope Z_scope.

(** ** Meshes with the same leaves *)
Definition same_leaves (n : nat) (c c' : ca) : Prop := forall l q, ca_mem n c l q <-> ca_mem n c' l q.
Lemma same_leaves_sym : forall n c c', same_leaves n c c' -> same_leaves n c' c.
Proof. intros n c c' H l q. symmetry. apply H. Qed.

Lemma refines_same : forall n c c' t l q, same_leaves n c c' -> refines n c t l q -> refines n c' t l q.
Proof.
  intros n c c' t l q E H. induction H as [l q A B|l q p y A B C D F G|l q p y A B C D _ IH].
  - apply refines_asked; auto. apply E; auto.
  - apply (refines_kept n c' t l q p y); auto; apply E; auto.
  - apply (refines_touched n c' t l q p y); auto. apply E; auto.
Qed.
Lemma refines_iff : forall n c c' t l q, same_leaves n c c' -> (refines n c t l q <-> refines n c' t l q).
Proof. intros n c c' t l q E. split; apply refines_same; auto using same_leaves_sym. Qed.
Lemma coarsens_same : forall n minl c c' t l q, same_leaves n c c' -> coarsens n minl c t l q -> coarsens n minl c' t l q.
Proof.
  intros n minl c c' t l q E (A & B & C). split; auto. split; [apply E; auto|]. intros q' L E'. destruct (C q' L E') as (C1 & C2 & C3 & C4). split; [apply E; auto|]. split; auto. split.
  - intros y Hy. apply C3, E, Hy.
  - intros y Ny Hy. apply (C4 y Ny). apply (refines_iff n c c'); auto.
Qed.
Lemma coarsens_iff : forall n minl c c' t l q, same_leaves n c c' -> (coarsens n minl c t l q <-> coarsens n minl c' t l q).
Proof. intros n minl c c' t l q E. split; apply coarsens_same; auto using same_leaves_sym. Qed.
Lemma marked_same : forall n minl maxl c c' t, same_leaves n c c' -> marked n minl maxl c t -> marked n minl maxl c' t.
Proof. intros n minl maxl c c' t E H l q Hq. apply H, E, Hq. Qed.
Lemma tiles_same : forall n c c' lo hi, same_leaves n c c' -> tiles n c lo hi -> tiles n c' lo hi.
Proof.
  intros n c c' lo hi E (A & B & C). split; [|split].
  - intros l l' p q Hp Hq. apply A; apply E; auto.
  - intros l q Hq. apply B, E, Hq.
  - intros K0 z HK Hz. destruct (C K0 z) as (l & Hl & Hm); auto. { intros l q Hq. apply (HK l q), E, Hq. } exists l. split; auto. apply E; auto.
Qed.
Lemma graded_same : forall n c c', same_leaves n c c' -> graded_box n c -> graded_box n c'.
Proof. intros n c c' E H l l' p q v Hp Hq. apply H; apply E; auto. Qed.

(** What is asked from an array for a set of leaves. *)
Lemma ghost_input_same : forall n m minl maxl w s c c' lo hi, ghost_input n m minl maxl w s c lo hi ->
  ca_wf n c' -> c_max c' = m -> (forall l, (l <= m)%nat -> a_level (c_at c' l) = l) -> same_leaves n c c' -> ghost_input n m minl maxl w s c' lo hi.
Proof.
  intros n m minl maxl w s c c' lo hi (HI & H1 & H2 & H3 & H4 & H5 & H6 & (l & q & H7) & H8) W M L E.
  destruct HI as (_ & _ & I1 & _ & I2 & I3 & I4 & I5). split.
  - split; auto. split; auto. split; auto. split; auto. split; auto. split; auto. split.
    + intros l0 q0 Hq. apply (I4 l0 q0), E, Hq.
    + intros l0 q0 k Hq. apply (I5 l0 q0 k), E, Hq.
  - split; auto. split; [apply (tiles_same n c); auto|]. split; [apply (graded_same n c); auto|]. split; auto. split; auto. split; auto. split; auto. exists l, q. apply E, H7.
Qed.

(** From the contents only. *)
Lemma ghost_input_new : forall n m minl maxl w s c c' lo hi, ghost_input n m minl maxl w s c lo hi ->
  ca_wf n c' -> c_max c' = m -> (forall l, (l <= m)%nat -> a_level (c_at c' l) = l) -> tiles n c' lo hi -> graded_box n c' ->
  (forall l p, ca_mem n c' l p -> (minl <= l <= maxl)%nat) -> ghost_input n m minl maxl w s c' lo hi.
Proof.
  intros n m minl maxl w s c c' lo hi (HI & H1 & H2 & H3 & H4 & H5 & H6 & (l & q & H7) & H8) W M L T G R.
  destruct HI as (_ & _ & I1 & _ & I2 & I3 & I4 & I5). split.
  - split; auto. split; auto. split; auto. split; auto. split; auto. split; auto. split; auto.
    intros l0 q0 k Hq Hk. destruct T as (_ & T & _). apply T in Hq as Hi. destruct Hi as [_ Hi]. specialize (Hi k Hk). specialize (R _ _ Hq). specialize (H8 k Hk).
    assert (P : 2 ^ Z.of_nat l0 <= 2 ^ Z.of_nat maxl) by (apply Z.pow_le_mono_r; lia). pose proof (pow_pos l0). nia.
  - split; auto. split; auto. split; auto. split; auto. split; auto. split; auto. split; auto.
    destruct H2 as (_ & IN & _). pose proof (IN _ _ H7) as Hi. pose proof (I4 _ _ H7) as Hl. destruct (descend (maxl - l) q) as (z & Lz & Ez).
    destruct T as (_ & _ & T). destruct (T maxl z) as (l' & _ & Hm).
    + intros l0 q0 Hq. apply R in Hq. lia.
    + replace maxl with (l + (maxl - l))%nat at 1 by lia. apply inside_ancestor. rewrite Ez. split; auto. rewrite Lz. apply Hi.
    + eauto.
Qed.

(** ** The numbered mesh *)
Lemma shape_ca_wf : forall n c c', ca_wf n c -> c_max c' = c_max c -> (forall l, same_shape (c_at c l) (c_at c' l)) -> ca_wf n c'.
Proof.
  intros n c c' W M S0 l Hl. rewrite M in Hl. destruct (W l Hl) as [H|H]; [left|right; apply (shape_wf n _ _ (S0 l)); auto].
  destruct (S0 l) as (A & B & C). destruct H as [H1 H2]. split.
  - intros d Hd. destruct d as [|d]; [|rewrite A by auto; auto]. rewrite H1 in B by auto. destruct (a_cells (c_at c' l) 0); [auto|discriminate].
  - intros d Hd. rewrite C. auto.
Qed.

Section Numbered.
  Variables (n m minl maxl : nat) (w s : Z) (cells : ca) (r : mr_mesh).
  Hypothesis HI : mr_input n m minl maxl w s cells.
  Hypothesis HR : update_sub_mesh n m minl maxl w s cells = Some r.

  (** The leaves with the numbers of the reference. *)
  Definition numbered_as (cells' reference : ca) : Prop :=
    ca_wf n cells' /\ c_max cells' = m /\ (forall l, (l <= m)%nat -> a_level (c_at cells' l) = l) /\ same_leaves n cells cells' /\
    ca_wf n reference /\ (forall l p, ca_mem n reference l p <-> ca_mem n (r_all r) l p) /\
    (forall l p, ca_mem n cells l p -> ca_mem n reference l p /\ ca_get_index n cells' l p = ca_get_index n reference l p) /\
    (forall l p l' p' i, ca_mem n reference l p -> ca_mem n reference l' p' -> ca_get_index n reference l p = Some i ->
       ca_get_index n reference l' p' = Some i -> l = l' /\ p = p').

  Lemma renumber_numbered : exists cells' a b c reference, mr_renumber n cells r = Some [cells'; a; b; c; reference] /\
    reference = ca_update_index (r_all r) /\ renumber_sub_mesh n reference cells = Some cells' /\ numbered_as cells' reference.
  Proof.
    destruct (C54_numbering n m minl maxl w s cells r HI HR) as (cells' & ghosts' & proj' & none & all' & E & M & _ & J & X).
    exists cells', ghosts', proj', none, all'. split; auto.
    destruct (C54_contents n m minl maxl w s cells HI) as (r' & E' & W & _). rewrite HR in E'. injection E' as <-.
    pose proof HI as (HW & Hm & HM & HL & _).
    assert (D : all' = ca_update_index (r_all r) /\ renumber_sub_mesh n all' cells = Some cells').
    { revert E. unfold mr_renumber, renumbering. cbn [nth_error length seq combine mapM Nat.eqb]. set (ref := ca_update_index (r_all r)).
      destruct (renumber_sub_mesh n ref cells) as [x0|] eqn:E0; [|discriminate]. destruct (renumber_sub_mesh n ref (r_ghosts r)); [|discriminate].
      destruct (renumber_sub_mesh n ref (r_proj r)); [|discriminate]. destruct (renumber_sub_mesh n ref (mkCa _ _)); [|discriminate].
      intros Q. injection Q as <- <- <- <- <-. auto. }
    destruct D as [-> D]. split; auto. split; auto.
    destruct (W (r_all r)) as (WA & XA & _); auto. destruct (ca_update_index_spec n (r_all r) WA) as (_ & _ & Wref & _ & _ & _ & SS).
    assert (CM : forall l p, ca_mem n cells l p -> ca_mem n (r_all r) l p).
    { intros l p Hp. destruct (X cells cells' ltac:(left; auto)) as [_ X2]. specialize (X2 l p Hp).
      apply M. destruct (C54_contents n m minl maxl w s cells HI) as (r' & E' & _ & _ & M1 & M2). rewrite HR in E'. injection E' as <-. apply M.
      assert (Mg : margin n w cells l p). { split; [apply Hp|]. exists p. split; auto. intros k _. rewrite Z.sub_diag. cbn. destruct HI as (_ & _ & _ & _ & Hw & _). lia. }
      destruct (Nat.eq_dec maxl minl) as [Eq|Ne]; [apply M2; auto|apply M1; auto; apply wanted_margin; auto]. }
    unfold renumber_sub_mesh in D. destruct (levels_spec cells) as (S1 & S2 & S3).
    destruct (renumber_levels_spec n (ca_update_index (r_all r)) (levels cells) (c_at cells)) as (at' & Ea & P1 & P2 & P3).
    - unfold levels. apply seq_NoDup.
    - intros l Hl. specialize (S2 l Hl). split; [apply Wref; cbn; lia|]. split; [apply HW; auto|]. intros p Hp. apply (shape_mem n _ _ (SS l)). apply CM. split; auto.
    - rewrite Ea in D. injection D as <-. destruct (X _ _ (or_introl eq_refl)) as [X1 X2]. split; [|split; [|split; [|split; [|split; [|split; [|split]]]]]].
      + apply (shape_ca_wf n cells); auto. intros l. apply P1.
      + auto.
      + intros l Hl. cbn [c_at]. rewrite (proj2 (P1 l)). auto.
      + intros l q. symmetry. apply X1.
      + exact Wref.
      + exact M.
      + intros l p Hp. split; [apply M, CM; auto|apply X2; auto].
      + exact J.
  Qed.
End Numbered.

(** The storage of the tags gives the tag of a leaf. *)
Lemma storage_of_spec : forall n c numbers t l q k, ca_for_each_cell n c = Some numbers -> ca_wf n c ->
  (forall l p l' p' i, ca_mem n c l p -> ca_mem n c l' p' -> ca_get_index n c l p = Some i -> ca_get_index n c l' p' = Some i -> l = l' /\ p = p') ->
  ca_mem n c l q -> ca_get_index n c l q = Some k -> storage_of numbers t k = tg t l q.
Proof.
  intros n c numbers t l q k E W J Hq Hk. destruct (ca_for_each_cell_spec n c W) as (cs & E' & [_ EN] & HN). rewrite E in E'. injection E' as <-.
  assert (IN : forall l p k, In (l, (p, k)) numbers -> ca_mem n c l p).
  { intros l0 p0 k0 H. apply EN. unfold leaf_cells. apply in_map_iff. exists (l0, (p0, k0)). auto. }
  unfold storage_of. destruct (List.find _ numbers) as [[l0 [p0 k0]]|] eqn:F.
  - apply find_some in F as [F1 F2]. cbn beta iota in F2. apply Z.eqb_eq in F2. subst k0. destruct (J l0 p0 l q k) as [-> ->]; eauto.
  - exfalso. apply EN in Hq as Hi. unfold leaf_cells in Hi. apply in_map_iff in Hi as ([l0 [p0 k0]] & X & Hi). injection X as -> ->.
    pose proof (find_none _ _ F _ Hi) as Y. cbn beta iota in Y. apply HN in Hi. rewrite Hk in Hi. injection Hi as <-. rewrite Z.eqb_refl in Y. discriminate.
Qed.
