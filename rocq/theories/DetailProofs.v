(** Proofs about the details and the criteria of HartenModel. *)
From Coq Require Import QArith Qabs.
From Verif Require Import Base IntervalModel Spec IntervalProofs LoiModel LcaModel LcaSpec LcaProofs RowsProofs CellArrayModel CellArrayProofs PropsLca PropsCellArray
  SubsetModel TreeProofs SubsetSpec SubsetProofs2 PropsSubset StencilModel NumberingProofs StencilProofs PropsStencil MeshModel MeshProofs
  NumModel NumProofs NumSpec PropsNum AdaptModel AdaptProofs TagProofs PropsAdapt TransferProofs PropsTransfer MrModel MrProofs PropsMr
  GhostModel GhostProofs PropsGhost BcProofs PropsOuter HartenModel HartenProofs HartenProofs2 HartenProofs3 PropsHarten.
Open Scope Z_scope.

(** The difference between the value of a cell and the value predicted from the coarser level. *)
Definition is_detail (s : nat) (u : lfield) (l : nat) (x : Z) (y : list Z) (q : Q) : Prop :=
  exists p, is_predicted s (u (Nat.pred l)) x y p /\ q = (u l x y - p)%Q.

(** The cells of [C] get their detail, the others do not change. *)
Definition settles (n s : nat) (u : lfield) (C : nat -> list Z -> Prop) (d d' : lfield) : Prop :=
  forall l x y, length y = n -> (C l (x :: y) /\ is_detail s u l x y (d' l x y)) \/ (~ C l (x :: y) /\ d' l x y = d l x y).
Lemma settles_refl : forall n s u d, settles n s u (fun _ _ => False) d d.
Proof. intros n s u d l x y _. right. auto. Qed.
Lemma settles_ext : forall n s u (C C' : nat -> list Z -> Prop) d d', (forall l p, length p = S n -> (C l p <-> C' l p)) -> settles n s u C d d' -> settles n s u C' d d'.
Proof.
  intros n s u C C' d d' H St l x y Ly. assert (L : length (x :: y) = S n) by (cbn; lia). pose proof (H l (x :: y) L). destruct (St l x y Ly) as [[A B]|[A B]]; [left|right]; tauto.
Qed.
Lemma settles_trans : forall n s u C C' d d1 d2, settles n s u C d d1 -> settles n s u C' d1 d2 -> settles n s u (fun l p => C l p \/ C' l p) d d2.
Proof.
  intros n s u C C' d d1 d2 S1 S2 l x y Ly. destruct (S2 l x y Ly) as [[A B]|[A B]]; [left; auto|]. rewrite B.
  destruct (S1 l x y Ly) as [[A' B']|[A' B']]; [left; auto|right; tauto].
Qed.
Lemma fold_settles : forall n s u A (f : lfield -> A -> option lfield) (C : A -> nat -> list Z -> Prop) (xs : list A) d,
  (forall x d, In x xs -> exists d', f d x = Some d' /\ settles n s u (C x) d d') ->
  exists d', fold_tags f xs d = Some d' /\ settles n s u (fun l p => exists x, In x xs /\ C x l p) d d'.
Proof.
  intros n s u A f C. induction xs as [|x xs IH]; intros d H.
  - exists d. split; auto. eapply settles_ext; [|apply settles_refl]. intros l p _. split; [tauto|]. intros (x & [] & _).
  - cbn [fold_tags]. destruct (H x d ltac:(left; auto)) as (d1 & E1 & S1). rewrite E1. destruct (IH d1) as (d2 & E2 & S2); [intros; apply H; right; auto|].
    exists d2. split; auto. eapply settles_ext; [|apply (settles_trans _ _ _ _ _ _ _ _ S1 S2)]. intros l p _. cbn [In]. split.
    + intros [X|(z & Hz & X)]; [exists x|exists z]; auto.
    + intros (z & [->|Hz] & X); [left|right; exists z]; auto.
Qed.

Lemma minus_writes_In : forall u ws x y q, In (x, y, q) (minus_writes u ws) -> exists p, In (x, y, p) ws /\ q = (u x y - p)%Q.
Proof.
  intros u ws x y q H. apply in_map_iff in H as ([[x0 y0] p] & E & H). injection E as <- <- <-. eauto.
Qed.
Lemma minus_writes_fst : forall u ws, map fst (minus_writes u ws) = map fst ws.
Proof. intros u ws. unfold minus_writes. rewrite map_map. apply map_ext. intros [[x y] p]. reflexivity. Qed.

(** A list of predicted values turned into details. *)
Lemma write_details : forall n s u l ws (C : list Z -> Prop) d,
  (forall x y q, In (x, y, q) ws -> is_predicted s (u (Nat.pred l)) x y q) ->
  (forall x y, length y = n -> (In (x, y) (map fst ws) <-> C (x :: y))) ->
  settles n s u (fun l' p => l' = l /\ C p) d (upd d l (write_all (minus_writes (u l) ws) (d l))).
Proof.
  intros n s u l ws C d HP HC l' x y Ly. unfold upd. destruct (Nat.eqb_spec l' l) as [->|Hl]; [|right; split; [tauto|auto]].
  destruct (write_all_spec (fun x y q => is_detail s u l x y q) (minus_writes (u l) ws) (d l) x y) as [[A B]|[A B]].
  - intros x0 y0 q H. apply minus_writes_In in H as (p & H & ->). exists p. auto.
  - rewrite minus_writes_fst, HC in A by auto. left. auto.
  - rewrite minus_writes_fst, HC in A by auto. right. split; auto. tauto.
Qed.

Section Details.
  Variables (n m minl maxl : nat) (w : Z) (s : nat) (cells : ca) (lo hi : list Z) (r : mr_mesh).
  Hypothesis HI : ghost_input n m minl maxl w s cells lo hi.
  Hypothesis HR : update_sub_mesh n m minl maxl w (Z.of_nat s) cells = Some r.
  Notation leaf l p := (ca_mem n cells l p).
  Notation ref l p := (ca_mem n (r_all r) l p).
  Notation parent l p := (has_leaf n cells l p).

  (** The set of both loops: the parents of leaves. *)
  Lemma parent_calls : forall l a b, (S l <= maxl)%nat -> (a = c_at cells (S l) /\ b = c_at (r_all r) l) \/ (a = c_at (r_all r) l /\ b = c_at cells (S l)) ->
    exists calls, subset_calls n (on (inter a b) l) = Some calls /\
    (forall i yz, In (i, yz) calls -> length yz = n /\ istart i < iend i /\ istep i = 1) /\ NoDup (cells_of_calls calls) /\
    forall p, In p (cells_of_calls calls) <-> parent l p.
  Proof.
    intros l a b Hl HAB. pose proof (hm_top _ _ _ _ _ _ _ _ _ HI) as HT. destruct (hm_cells_wf _ _ _ _ _ _ _ _ _ HI (S l) ltac:(lia)) as [Wc Lc].
    destruct (hm_ref_wf _ _ _ _ _ _ _ _ _ _ HI HR l ltac:(lia)) as [Wa La].
    assert (X : Nat.min l (Nat.max (a_level a) (a_level b)) = l) by (destruct HAB as [[-> ->]|[-> ->]]; lia).
    assert (F1 : fits n l (c_at cells (S l))).
    { intros q k Hq Hk. rewrite Lc. replace (Z.max 0 (Z.of_nat l - Z.of_nat (S l))) with 0 by lia.
      rewrite <- (hm_leaf_at _ _ _ _ _ _ _ _ _ _ HI HR) in Hq by lia. apply (leaf_ref _ _ _ _ _ _ _ _ _ _ HI HR) in Hq. pose proof (hm_bound _ _ _ _ _ _ _ _ _ _ HI HR _ _ _ Hq Hk). lia. }
    assert (F2 : fits n l (c_at (r_all r) l)).
    { intros q k Hq Hk. rewrite La, Z.sub_diag. change (Z.max 0 0) with 0. rewrite <- (hm_ref_at _ _ _ _ _ _ _ _ _ _ HI HR) in Hq by lia.
      pose proof (hm_bound _ _ _ _ _ _ _ _ _ _ HI HR _ _ _ Hq Hk). lia. }
    assert (D1 : forall p, length p = S n -> (denotes n l p (NMesh (c_at cells (S l))) <-> parent l p)).
    { intros p Lp. rewrite (denotes_mesh_coarse n (c_at cells (S l)) p l) by (auto; lia). rewrite Lc. replace (S l - l)%nat with 1%nat by lia. unfold has_leaf.
      assert (HL : forall q, leaf (S l) q <-> lca_mem n (c_at cells (S l)) q) by (intros q; apply (hm_leaf_at _ _ _ _ _ _ _ _ _ _ HI HR); lia).
      split; intros (q & Hq & E); exists q; (split; [first [exact (proj1 (HL q) Hq)|exact (proj2 (HL q) Hq)]|congruence]). }
    assert (D2 : forall p, length p = S n -> (denotes n l p (NMesh (c_at (r_all r) l)) <-> ref l p)).
    { intros p Lp. rewrite (denotes_mesh_fine n (c_at (r_all r) l) p l) by (auto; lia). rewrite La, Nat.sub_diag, ancestor_0. rewrite (hm_ref_at _ _ _ _ _ _ _ _ _ _ HI HR) by lia. tauto. }
    assert (PR : forall p, parent l p -> length p = S n /\ ref l p).
    { intros p Hp. split; [apply (has_leaf_length _ _ _ _ Hp)|apply (has_leaf_ref _ _ _ _ _ _ _ _ _ _ HI HR _ _ Hp)]. }
    destruct (inter_spec n a b l) as (calls & EC & V & ND & _ & M).
    - destruct HAB as [[-> ->]|[-> ->]]; auto.
    - destruct HAB as [[-> ->]|[-> ->]]; auto.
    - rewrite X. destruct HAB as [[-> ->]|[-> ->]]; auto.
    - rewrite X. destruct HAB as [[-> ->]|[-> ->]]; auto.
    - exists calls. split; auto. split; auto. split; auto. intros p. rewrite M.
      assert (G : length p = S n /\ denotes n l p (NMesh (c_at cells (S l))) /\ denotes n l p (NMesh (c_at (r_all r) l)) <-> parent l p).
      { split; [intros (Lp & A & _); apply (proj1 (D1 p Lp) A)|]. intros Hp. destruct (PR p Hp) as [Lp Rp]. split; [auto|]. split; [apply (proj2 (D1 p Lp) Hp)|apply (proj2 (D2 p Lp) Rp)]. }
      destruct HAB as [[-> ->]|[-> ->]]; tauto.
  Qed.

  (** *** compute_detail *)
  Lemma parent_stencil : forall l p q, (S l <= maxl)%nat -> parent l p -> length q = S n -> near n (Z.of_nat s) q p -> ref l q.
  Proof.
    intros l p q Hl (c & Hc & <-) Lq N.
    destruct (C54_leaf_stencils n m minl maxl w (Z.of_nat s) cells r (gi_in _ _ _ _ _ _ _ _ _ HI) (gi_ne _ _ _ _ _ _ _ _ _ HI) HR _ c Hc) as (_ & A & _);
      [apply (hm_tiles _ _ _ _ _ _ _ _ _ HI)|]. replace l with (S l - 1)%nat by lia. apply A; auto. lia.
  Qed.
  Lemma parent_stencil2 : forall l p q, (S l <= maxl)%nat -> (1 <= l)%nat -> parent l p -> length q = S n -> near n (Z.of_nat s) q (ancestor 1 p) -> ref (Nat.pred l) q.
  Proof.
    intros l p q Hl H1 (c & Hc & <-) Lq N.
    destruct (C54_leaf_stencils n m minl maxl w (Z.of_nat s) cells r (gi_in _ _ _ _ _ _ _ _ _ HI) (gi_ne _ _ _ _ _ _ _ _ _ HI) HR _ c Hc) as (_ & _ & A);
      [apply (hm_tiles _ _ _ _ _ _ _ _ _ HI)|]. replace (Nat.pred l) with (S l - 2)%nat by lia. apply A; [auto|lia|]. rewrite ancestor_add in N. exact N.
  Qed.

  Lemma detail_op_spec : forall u l i yz d, (S l <= maxl)%nat -> istep i = 1 -> length yz = n -> (forall p, In p (row_cells i yz) -> parent l p) ->
    exists d', detail_op n s (r_all r) u l i yz d = Some d' /\
      settles n s u (fun l' p => (l' = S l /\ In (ancestor 1 p) (row_cells i yz)) \/ (l' = l /\ (1 <= l)%nat /\ In p (row_cells i yz))) d d'.
  Proof.
    intros u l i yz d Hl Hst Ly HP. pose proof (hm_top _ _ _ _ _ _ _ _ _ HI) as HT. pose proof (hm_dim _ _ _ _ _ _ _ _ _ HI) as Hn.
    assert (RS : forall l p, (l <= m)%nat -> ref l p -> stored n (r_all r) l p = true).
    { intros l0 p Hl0 Hp. apply (ref_stored _ _ _ _ _ _ _ _ _ _ HI HR); auto. apply Hp. }
    assert (C1 : forallb (stored n (r_all r) (S l)) (projection_reads i yz) = true).
    { apply forallb_forall. intros c Hc. apply in_flat_map in Hc as (x & Hx & Hc). apply in_map_iff in Hc as ([cx cyz] & <- & Hc).
      apply children_In in Hc as (Hc1 & Hc2 & Hc3). destruct (HP (x :: yz)) as (q & Hq & Eq); [apply in_map_iff; exists x; auto|].
      apply RS; [lia|]. apply (family_ref _ _ _ _ _ _ _ _ _ _ HI HR l q); auto; [cbn; lia|]. rewrite Eq, ancestor_cons. change (2 ^ Z.of_nat 1) with 2. f_equal; auto. }
    assert (NR : forall (p v : list Z), length p = S n -> In v (nested_loop (S n) (- Z.of_nat s) (Z.of_nat s + 1)) -> length (add_vec p v) = S n /\ near n (Z.of_nat s) (add_vec p v) p).
    { intros p v Lp Hv. apply nested_loop_In in Hv as [Lv Fv]. split; [apply moved_length; auto|]. intros k Hk. rewrite nth_add_vec by lia. rewrite Forall_forall in Fv.
      assert (Iv : In (nth k v 0) v) by (apply nth_In; lia). specialize (Fv _ Iv). lia. }
    assert (C2 : forallb (stored n (r_all r) l) (stencil_cells n s i yz) = true).
    { apply forallb_forall. intros c Hc. apply in_flat_map in Hc as (p & Hp & Hc). apply in_map_iff in Hc as (v & <- & Hv).
      assert (Lp : length p = S n) by (apply in_map_iff in Hp as (x & <- & _); cbn; lia). destruct (NR p v Lp Hv) as [La N].
      apply RS; [lia|]. apply (parent_stencil l p); auto. }
    unfold detail_op. rewrite C1, C2. cbn [andb checked].
    destruct (prediction_op_spec s (u l) i yz Hst) as (ws & Ew & Vw & Mw). rewrite Ew.
    assert (S1 : settles n s u (fun l' p => l' = S l /\ In (ancestor 1 p) (row_cells i yz)) d (upd d (S l) (write_all (minus_writes (u (S l)) ws) (d (S l))))).
    { apply write_details; [exact Vw|]. intros x y Hy. rewrite Mw, ancestor_cons. change (2 ^ Z.of_nat 1) with 2. unfold row_cells. rewrite in_map_iff. split.
      - intros (_ & <- & H). exists (x / 2). auto.
      - intros (z & E & Hz). injection E as -> E. split; [lia|]. auto. }
    destruct (Nat.leb_spec 1 l) as [H1|H1].
    - assert (C3 : forallb (stored n (r_all r) (Nat.pred l)) (prediction_reads n s i yz) = true).
      { apply forallb_forall. intros c Hc. apply in_flat_map in Hc as (x & Hx & Hc). apply in_map_iff in Hc as (v & <- & Hv).
        assert (EA : map (fun y => Z.shiftr y 1) (x :: yz) = ancestor 1 (x :: yz)) by (apply map_ext; intros; rewrite Z.shiftr_div_pow2 by lia; reflexivity).
        rewrite EA. destruct (NR (ancestor 1 (x :: yz)) v) as [La N]; [rewrite ancestor_length; cbn; lia|auto|].
        apply RS; [lia|]. apply (parent_stencil2 l (x :: yz)); auto. apply HP. apply in_map_iff. exists x. auto. }
      assert (C4 : forallb (stored n (r_all r) l) (row_cells i yz) = true).
      { apply forallb_forall. intros p Hp. apply RS; [lia|]. apply (has_leaf_ref _ _ _ _ _ _ _ _ _ _ HI HR). auto. }
      rewrite C3, C4. cbn [andb checked].
      destruct (C39_level_based_is_cellwise s (u (Nat.pred l)) i yz Hst ltac:(lia)) as (ws' & Ew' & _ & Mw' & Vw'). rewrite Ew'.
      eexists. split; [reflexivity|].
      eapply settles_ext; [|eapply settles_trans; [exact S1|apply (write_details n s u l ws' (fun p => In p (row_cells i yz)))]].
      + intros l' p _. tauto.
      + intros x y q Hq. destruct (Vw' x y q Hq) as (ws0 & E0 & I0). exists ws0. split; auto.
        assert (y = yz) as -> by (apply (in_map fst) in Hq; apply Mw' in Hq; apply Hq).
        rewrite <- E0. reflexivity.
      + intros x y Hy. rewrite Mw'. unfold row_cells. rewrite in_map_iff. split.
        * intros [-> H]. exists x. split; auto. apply strided_In; auto.
        * intros (z & E & Hz). injection E as -> ->. split; auto. apply strided_In in Hz; auto.
    - eexists. split; [reflexivity|]. eapply settles_ext; [|exact S1]. intros l' p _. split; [tauto|]. intros [H|(_ & H & _)]; [auto|lia].
  Qed.

  Lemma details_level : forall u l d, (S l <= maxl)%nat ->
    exists d', apply_tags n (on (inter (c_at (r_all r) l) (c_at cells (S l))) l) (detail_op n s (r_all r) u l) d = Some d' /\
      settles n s u (fun l' p => (l' = S l /\ parent l (ancestor 1 p)) \/ (l' = l /\ (1 <= l)%nat /\ parent l p)) d d'.
  Proof.
    intros u l d Hl. destruct (parent_calls l (c_at (r_all r) l) (c_at cells (S l)) Hl ltac:(auto)) as (calls & EC & V & _ & M). unfold apply_tags. rewrite EC, fold_calls_tags.
    assert (RC : forall i yz p, In (i, yz) calls -> In p (row_cells i yz) -> In p (cells_of_calls calls)).
    { intros i yz p Hin Hp. apply in_map_iff in Hp as (x & <- & Hx). apply cells_of_calls_step; [intros i0 yz0 H0; apply (V _ _ H0)|]. exists i. auto. }
    destruct (fold_settles n s u _ (fun d '(i, yz) => detail_op n s (r_all r) u l i yz d)
      (fun '(i, yz) l' p => (l' = S l /\ In (ancestor 1 p) (row_cells i yz)) \/ (l' = l /\ (1 <= l)%nat /\ In p (row_cells i yz))) calls d) as (d' & E & St).
    - intros [i yz] d0 Hin. destruct (V i yz Hin) as (Ly & _ & Hst). apply detail_op_spec; auto. intros p Hp. apply M. eapply RC; eauto.
    - exists d'. split; auto. eapply settles_ext; [|exact St]. intros l' p Lp.
      assert (G : forall q, length q = S n -> (parent l q <-> exists i yz, In (i, yz) calls /\ In q (row_cells i yz))).
      { intros q Lq. rewrite <- M. split.
        - intros Hq. destruct q as [|x yz]; [discriminate|]. apply cells_of_calls_step in Hq as (i & Hin & Hx); [|intros i0 yz0 H0; apply (V _ _ H0)].
          exists i, yz. split; auto. apply in_map_iff. exists x. auto.
        - intros (i & yz & Hin & Hq). eapply RC; eauto. }
      rewrite (G p Lp), (G (ancestor 1 p)) by (rewrite ancestor_length; auto). split.
      + intros ([i yz] & Hin & [[-> H]|(-> & H1 & H)]); [left|right]; (split; [auto|]); [|split; [auto|]]; exists i, yz; auto.
      + intros [[-> (i & yz & Hin & H)]|(-> & H1 & i & yz & Hin & H)]; exists (i, yz); auto.
  Qed.

  (** The cells that have a detail. *)
  Definition detailed (top l : nat) (p : list Z) : Prop := (1 <= l)%nat /\
    (((minl <= l <= top)%nat /\ parent (Nat.pred l) (ancestor 1 p)) \/ ((minl <= S l <= top)%nat /\ parent l p)).

  Lemma compute_details_spec : forall u top, (top <= maxl)%nat -> exists d, compute_details n s minl top cells (r_all r) u = Some d /\
    settles n s u (detailed top) (fun _ _ _ => 0%Q) d.
  Proof.
    intros u top Ht. unfold compute_details.
    destruct (fold_settles n s u _ (fun d l => apply_tags n (on (inter (c_at (r_all r) l) (c_at cells (S l))) l) (detail_op n s (r_all r) u l) d)
      (fun l l' p => (l' = S l /\ parent l (ancestor 1 p)) \/ (l' = l /\ (1 <= l)%nat /\ parent l p)) (seq (Nat.pred minl) (top - Nat.pred minl)) (fun _ _ _ => 0%Q)) as (d & E & St).
    - intros l d Hl. apply in_seq in Hl. apply details_level. lia.
    - exists d. split; auto. eapply settles_ext; [|exact St]. intros l p Lp. unfold detailed. split.
      + intros (k & Hk & [[-> H]|(-> & H1 & H)]); apply in_seq in Hk; (split; [lia|]).
        * left. cbn [Nat.pred]. split; auto. destruct H as (q & Hq & _). apply (hm_range _ _ _ _ _ _ _ _ _ HI) in Hq. lia.
        * right. split; auto. lia.
      + intros (H1 & [[Hl H]|[Hl H]]).
        * exists (Nat.pred l). split; [apply in_seq; lia|]. left. split; [lia|auto].
        * exists l. split; [apply in_seq; lia|]. right. auto.
  Qed.
End Details.
