(** Proofs about the margins around the tagged leaves and about the tags of one iteration. *)
From Coq Require Import QArith Qabs.
From Verif Require Import Base IntervalModel Spec IntervalProofs LoiModel LcaModel LcaSpec LcaProofs RowsProofs CellArrayModel CellArrayProofs PropsLca PropsCellArray
  SubsetModel TreeProofs SubsetSpec SubsetProofs2 PropsSubset StencilModel NumberingProofs StencilProofs PropsStencil MeshModel MeshProofs
  NumModel NumProofs NumSpec PropsNum AdaptModel AdaptProofs TagProofs PropsAdapt TransferProofs PropsTransfer MrModel MrProofs PropsMr
  GhostModel GhostProofs PropsGhost BcProofs PropsOuter HartenModel HartenProofs HartenProofs2 HartenProofs3 PropsHarten DetailProofs CriteriaProofs.
Open Scope Z_scope.

(** The first tags. *)
Lemma twrite_tg : forall t l p v l' c, p <> [] -> c <> [] -> tg (twrite t l (hd 0 p) (tl p) v) l' c = v /\ l' = l /\ c = p \/ tg (twrite t l (hd 0 p) (tl p) v) l' c = tg t l' c /\ ~ (l' = l /\ c = p).
Proof.
  intros t l [|x yz] v l' [|x' yz'] Hp Hc; try congruence. unfold tg, twrite. cbn [hd tl].
  destruct (Nat.eqb_spec l' l) as [->|Hl]; cbn [andb]; [|right; split; [auto|tauto]].
  destruct (Z.eqb_spec x' x) as [->|Hx]; cbn [andb]; [|right; split; [auto|intros [_ E]; congruence]].
  destruct (zlist_eqb yz' yz) eqn:E.
  - left. apply zlist_eqb_eq in E. subst. auto.
  - right. split; auto. intros [_ X]. injection X as ->. rewrite (proj2 (zlist_eqb_eq yz yz) eq_refl) in E. discriminate.
Qed.

Lemma first_tags_spec : forall n cells, ca_wf n cells -> exists t, first_tags n cells = Some t /\
  forall l c, length c = S n -> (ca_mem n cells l c /\ tg t l c = 1) \/ (~ ca_mem n cells l c /\ tg t l c = 0).
Proof.
  intros n cells W. destruct (ca_for_each_cell_spec n cells W) as (cs & E & [_ EN] & _). unfold first_tags. rewrite E. eexists. split; [reflexivity|].
  assert (G : forall cs t, (forall l p k, In (l, (p, k)) cs -> length p = S n) -> forall l c, length c = S n ->
    (In (l, c) (leaf_cells cs) /\ tg (fold_left keep_leaf cs t) l c = 1) \/ (~ In (l, c) (leaf_cells cs) /\ tg (fold_left keep_leaf cs t) l c = tg t l c)).
  { clear. induction cs as [|[l0 [p0 k0]] cs IH]; intros t HL l c Lc; [right; cbn; tauto|]. cbn [fold_left keep_leaf].
    destruct (IH (twrite t l0 (hd 0 p0) (tl p0) flag_keep) ltac:(intros; eapply HL; right; eauto) l c Lc) as [[A B]|[A B]].
    - left. split; auto. cbn. auto.
    - rewrite B. specialize (HL l0 p0 k0 ltac:(left; auto)). destruct (twrite_tg t l0 p0 flag_keep l c) as [(X & -> & ->)|[X Y]].
      + intros ->. discriminate.
      + intros ->. discriminate.
      + left. split; [left; auto|auto].
      + right. split; auto. cbn. intros [Z|Z]; [injection Z as -> ->; tauto|tauto]. }
  assert (HL : forall l p k, In (l, (p, k)) cs -> length p = S n).
  { intros l p k H. assert (X : In (l, p) (leaf_cells cs)) by (apply in_map_iff; exists (l, (p, k)); auto). apply EN in X. apply X. }
  intros l c Lc. rewrite <- EN. destruct (G cs (fun _ _ _ => 0) HL l c Lc) as [[A B]|[A B]]; [left|right]; auto.
Qed.

Section Around.
  Variables (n m minl maxl : nat) (w : Z) (s : nat) (cells : ca) (lo hi : list Z) (r : mr_mesh).
  Hypothesis HI : ghost_input n m minl maxl w s cells lo hi.
  Hypothesis HR : update_sub_mesh n m minl maxl w (Z.of_nat s) cells = Some r.
  Notation leaf l p := (ca_mem n cells l p).
  Notation ref l p := (ca_mem n (r_all r) l p).
  Notation parent l p := (has_leaf n cells l p).

  Lemma ghosts_margin : forall l p, (l <= m)%nat -> (lca_mem n (c_at (r_ghosts r) l) p <-> margin n w cells l p).
  Proof.
    intros l p Hl. destruct (C54_contents n m minl maxl w (Z.of_nat s) cells (gi_in _ _ _ _ _ _ _ _ _ HI)) as (r' & E & W & G & _). rewrite HR in E. injection E as <-.
    rewrite <- G. unfold ca_mem. destruct (W (r_ghosts r)) as (_ & -> & _); auto. tauto.
  Qed.
  Lemma margin_ref : forall l p, margin n w cells l p -> ref l p.
  Proof. intros l p H. apply (all_wanted n m minl maxl w s cells lo hi r HI HR). apply wanted_margin. auto. Qed.
  Lemma near_margin : forall l p q, length p = S n -> leaf l q -> near n 1 p q -> margin n w cells l p.
  Proof. intros l p q Lp Hq N. split; auto. exists q. split; auto. intros k Hk. specialize (N k Hk). assert (1 <= w) by apply HI. lia. Qed.

  Lemma ghost_calls : forall l, (l <= maxl)%nat -> exists calls, subset_calls n (inter (c_at (r_ghosts r) l) (c_at (r_ghosts r) l)) = Some calls /\
    (forall i yz, In (i, yz) calls -> length yz = n /\ istart i < iend i) /\ forall p, In p (cells_of_calls calls) <-> margin n w cells l p.
  Proof.
    intros l Hl. pose proof (hm_top _ _ _ _ _ _ _ _ _ HI).
    assert (W : wf n (c_at (r_ghosts r) l) /\ a_level (c_at (r_ghosts r) l) = l).
    { destruct (C54_contents n m minl maxl w (Z.of_nat s) cells (gi_in _ _ _ _ _ _ _ _ _ HI)) as (r' & E & W & _). rewrite HR in E. injection E as <-.
      destruct (W (r_ghosts r)) as (W1 & W2 & W3); auto. split; [apply W1|apply W3]; lia. }
    destruct W as [Wc Lc]. assert (B : below_max n (c_at (r_ghosts r) l)).
    { intros q k Hq Hk. apply ghosts_margin in Hq; [|lia]. apply margin_ref in Hq. pose proof (hm_bound _ _ _ _ _ _ _ _ _ _ HI HR _ _ _ Hq Hk). lia. }
    destruct (inter_calls n (c_at (r_ghosts r) l) (c_at (r_ghosts r) l) l) as (calls & E & V & C); auto. exists calls. split; auto. split; [exact V|].
    intros p. rewrite C, ghosts_margin by lia. tauto.
  Qed.

  (** A flag of the leaves spread to the cells around them. *)
  Lemma leaf_spread : forall a b l t, (l <= maxl)%nat -> 0 <= a -> 0 <= b -> a <> b ->
    exists t', apply_tags n (inter (c_at cells l) (c_at cells l)) (spread_op n (r_all r) l (box1 n) (2 ^ a) (2 ^ b)) t = Some t' /\
      marks n l b (fun q => exists p, leaf l p /\ near n 1 q p /\ Z.testbit (tg t l p) a = true) t t'.
  Proof.
    intros a b l t Hl Ha Hb Hab. pose proof (hm_top _ _ _ _ _ _ _ _ _ HI). destruct (leaf_calls _ _ _ _ _ _ _ _ _ _ HI HR l Hl) as (calls & EC & V & C).
    pose proof (box1_In n) as BI.
    destruct (spread_spec n (r_all r) l (box1 n) a b Ha Hb Hab (fun v Hv => proj1 (proj1 (BI v) Hv)) _ calls t EC) as (t1 & E1 & M1).
    { intros i yz Hin. apply (V i yz Hin). }
    { intros p v Hp Hv. apply C in Hp. apply BI in Hv as [Lv Bv]. assert (Lp : length p = S n) by apply Hp.
      apply (ref_stored _ _ _ _ _ _ _ _ _ _ HI HR); [lia|apply moved_length; auto|]. apply (leaf_near _ _ _ _ _ _ _ _ _ _ HI HR _ p); auto; [apply moved_length; auto|]. intros k Hk.
      rewrite nth_add_vec by lia. specialize (Bv k Hk). lia. }
    exists t1. split; auto. eapply marks_weaken; [|exact M1]. intros q Lq. cbn beta. split.
    - intros (p & v & Hp & Hv & Hbit & ->). apply C in Hp. apply BI in Hv as [Lv Bv]. exists p. split; auto. split; auto. assert (Lp : length p = S n) by apply Hp.
      intros k Hk. rewrite nth_add_vec by lia. specialize (Bv k Hk). lia.
    - intros (p & Hp & Np & Hbit). assert (Lp : length p = S n) by apply Hp. exists p, (add_vec q (opposite p)). rewrite C.
      assert (Lo : length (opposite p) = S n) by (rewrite opposite_length; auto).
      assert (Lm : length (add_vec q (opposite p)) = S n) by (apply moved_length; auto).
      split; auto. split; [apply BI; split; auto; intros k Hk; rewrite nth_add_vec, nth_opposite by lia; specialize (Np k Hk); lia|]. split; auto.
      apply (list_ext n); [auto|apply moved_length; auto|]. intros k Hk. rewrite !nth_add_vec, nth_opposite by lia. lia.
  Qed.

  Lemma nested_zero : forall v, In v (nested_loop (S n) 0 1) <-> length v = S n /\ forall k, (k <= n)%nat -> nth k v 0 = 0.
  Proof.
    intros v. rewrite nested_loop_In. split; intros [L F]; split; auto.
    - intros k Hk. rewrite Forall_forall in F. specialize (F (nth k v 0)). assert (X : In (nth k v 0) v) by (apply nth_In; lia). specialize (F X). lia.
    - apply Forall_forall. intros x Hx. apply (In_nth _ _ 0) in Hx as (k & Hk & <-). specialize (F k ltac:(lia)). lia.
  Qed.

  Lemma keep_enlarged : forall l t, (l <= maxl)%nat ->
    exists t', apply_tags n (inter (c_at (r_ghosts r) l) (c_at (r_ghosts r) l)) (tag_to_keep n (r_all r) l flag_enlarge) t = Some t' /\
      marks n l 0 (fun q => margin n w cells l q /\ Z.testbit (tg t l q) 3 = true) t t'.
  Proof.
    intros l t Hl. pose proof (hm_top _ _ _ _ _ _ _ _ _ HI). destruct (ghost_calls l Hl) as (calls & EC & V & C).
    assert (AZ : forall p v, length p = S n -> In v (nested_loop (S n) 0 1) -> add_vec p v = p).
    { intros p v Lp Hv. apply nested_zero in Hv as [Lv Zv]. apply (list_ext n); [apply moved_length; auto|auto|]. intros k Hk. rewrite nth_add_vec, Zv by lia. lia. }
    destruct (spread_spec n (r_all r) l (nested_loop (S n) 0 1) 3 0 ltac:(lia) ltac:(lia) ltac:(lia) (fun v Hv => proj1 (proj1 (nested_zero v) Hv)) _ calls t EC) as (t1 & E1 & M1).
    { intros i yz Hin. apply (V i yz Hin). }
    { intros p v Hp Hv. apply C in Hp. assert (Lp : length p = S n) by apply Hp. rewrite AZ by auto. apply (ref_stored _ _ _ _ _ _ _ _ _ _ HI HR); [lia|auto|]. apply margin_ref. auto. }
    exists t1. split; [exact E1|]. eapply marks_weaken; [|exact M1]. intros q Lq. cbn beta. split.
    - intros (p & v & Hp & Hv & Hbit & ->). apply C in Hp. assert (Lp : length p = S n) by apply Hp. rewrite AZ by auto. auto.
    - intros (Hp & Hbit). exists q, (repeat 0 (S n)). rewrite C. assert (Hz : In (repeat 0 (S n)) (nested_loop (S n) 0 1)).
      { apply nested_zero. split; [apply repeat_length|]. intros k Hk. apply nth_repeat. }
      split; auto. split; auto. split; auto. rewrite AZ; auto.
  Qed.

  Definition same_bits (l : nat) (t t' : tfield) (j : Z) : Prop := forall c, length c = S n -> Z.testbit (tg t' l c) j = Z.testbit (tg t l c) j.
  (** The cells that are kept: those that were, those next to a leaf to refine, and with
      [enlarged] those next to such a leaf. *)
  Definition near_refine (t : tfield) (l : nat) (c : list Z) : Prop := exists y, leaf l y /\ near n 1 c y /\ Re t l y.
  Definition kept_around (enlarged : bool) (t : tfield) (l : nat) (c : list Z) : Prop :=
    K t l c \/ near_refine t l c \/ (enlarged = true /\ exists y, leaf l y /\ near n 1 c y /\ (K t l y \/ near_refine t l y)).

  Lemma marks_other : forall l b D t t' l' j, marks n l b D t t' -> 0 <= j -> l' <> l \/ j <> b -> same_bits l' t t' j.
  Proof. intros l b D t t' l' j M Hj H c Lc. pose proof (M l' c j Lc Hj) as X. apply bit_eq; intros Y; [apply X in Y as [Y|(? & ? & _)]; auto; exfalso; tauto|apply X; auto]. Qed.

  Lemma around_step_spec : forall enlarged l t, (l <= maxl)%nat -> (forall c, length c = S n -> Z.testbit (tg t l c) 3 = false) ->
    exists t', around_step n enlarged cells (r_ghosts r) (r_all r) t l = Some t' /\
      (forall l' j, 0 <= j -> l' <> l -> same_bits l' t t' j) /\ same_bits l t t' 1 /\ same_bits l t t' 2 /\
      forall c, length c = S n -> (K t' l c <-> kept_around enlarged t l c).
  Proof.
    intros enlarged l t Hl H3. unfold around_step. destruct (leaf_spread 2 0 l t Hl ltac:(lia) ltac:(lia) ltac:(lia)) as (t1 & E1 & M1).
    unfold keep_around_refine. change flag_refine with (2 ^ 2). change flag_keep with (2 ^ 0). rewrite E1.
    assert (K1 : forall c, length c = S n -> (K t1 l c <-> K t l c \/ near_refine t l c)).
    { intros c Lc. unfold K. rewrite (M1 l c 0 Lc ltac:(lia)). unfold near_refine. tauto. }
    destruct enlarged.
    - destruct (leaf_spread 0 3 l t1 Hl ltac:(lia) ltac:(lia) ltac:(lia)) as (t2 & E2 & M2). unfold enlarge.
      change flag_enlarge with (2 ^ 3) at 1. change flag_keep with (2 ^ 0). rewrite E2. destruct (keep_enlarged l t2 Hl) as (t3 & E3 & M3). exists t3. split; [exact E3|].
      assert (SB : forall l' j, 0 <= j -> (l' <> l \/ j <> 0) -> (l' <> l \/ j <> 3) -> same_bits l' t t3 j).
      { intros l' j Hj X Y c Lc. rewrite (marks_other _ _ _ _ _ _ _ M3 Hj X c Lc), (marks_other _ _ _ _ _ _ _ M2 Hj Y c Lc). apply (marks_other _ _ _ _ _ _ _ M1 Hj X c Lc). }
      split; [intros; apply SB; auto|]. split; [apply SB; auto; lia|]. split; [apply SB; auto; lia|].
      intros c Lc. unfold K at 1. rewrite (M3 l c 0 Lc ltac:(lia)), (marks_other _ _ _ _ _ l 0 M2 ltac:(lia) ltac:(lia) c Lc), (M2 l c 3 Lc ltac:(lia)).
      rewrite (marks_other _ _ _ _ _ l 3 M1 ltac:(lia) ltac:(lia) c Lc), H3 by auto. fold (K t1 l c). rewrite K1 by auto. unfold kept_around. split.
      + intros [[X|X]|(_ & _ & _ & [X|(_ & _ & y & Hy & Ny & X)])]; auto; [discriminate|]. right. right. split; auto. exists y. split; auto. split; auto. apply K1; auto. apply Hy.
      + intros [X|[X|(_ & y & Hy & Ny & X)]]; auto. right. split; auto. split; auto. split; [apply (near_margin _ _ y); auto|]. right. split; auto. split; auto.
        exists y. split; auto. split; auto. apply K1; auto. apply Hy.
    - exists t1. split; auto. split; [intros; eapply marks_other; eauto|]. split; [eapply marks_other; eauto; lia|]. split; [eapply marks_other; eauto; lia|].
      intros c Lc. rewrite K1 by auto. unfold kept_around. split; [tauto|]. intros [X|[X|(X & _)]]; auto. discriminate.
  Qed.

  Lemma around_spec : forall enlarged top t, (top <= maxl)%nat -> (forall l c, length c = S n -> Z.testbit (tg t l c) 3 = false) ->
    exists t', around n enlarged minl top cells (r_ghosts r) (r_all r) t = Some t' /\
      (forall l, same_bits l t t' 1 /\ same_bits l t t' 2) /\
      (forall l c, length c = S n -> (K t' l c <-> if Nat.leb minl l && Nat.leb l top then kept_around enlarged t l c else K t l c)).
  Proof.
    intros enlarged top t Ht H3. unfold around.
    assert (G : forall k a t, (a + k <= S maxl)%nat -> (forall l c, (a <= l)%nat -> length c = S n -> Z.testbit (tg t l c) 3 = false) ->
      exists t', fold_tags (around_step n enlarged cells (r_ghosts r) (r_all r)) (seq a k) t = Some t' /\
        (forall l j, 0 <= j -> ~ (a <= l < a + k)%nat -> same_bits l t t' j) /\ (forall l, same_bits l t t' 1 /\ same_bits l t t' 2) /\
        (forall l c, (a <= l < a + k)%nat -> length c = S n -> (K t' l c <-> kept_around enlarged t l c))).
    { clear t H3. induction k as [|k IH]; intros a t Hk H3.
      - exists t. split; auto. split; [intros; intros c Lc; auto|]. split; [intros l; split; intros c Lc; auto|]. intros l c Hl. lia.
      - cbn [seq fold_tags]. destruct (around_step_spec enlarged a t ltac:(lia) ltac:(intros; apply H3; auto)) as (t1 & E1 & O1 & B1 & B2 & K1). rewrite E1.
        destruct (IH (S a) t1 ltac:(lia)) as (t2 & E2 & O2 & S2 & K2).
        { intros l c Hl Lc. rewrite (O1 l 3) by (auto; lia). apply H3; auto. lia. }
        exists t2. split; auto. split; [|split].
        + intros l j Hj Hl c Lc. rewrite (O2 l j) by (auto; lia). apply O1; auto. lia.
        + assert (X : forall l j, (j = 1 \/ j = 2) -> same_bits l t t2 j).
          { intros l j Hj c Lc. assert (Y : same_bits l t1 t2 j) by (destruct Hj as [->| ->]; apply S2). rewrite Y by auto.
            destruct (Nat.eq_dec l a) as [->|Hl]; [destruct Hj as [->| ->]; [apply B1|apply B2]; auto|apply O1; auto; lia]. }
          intros l. split; apply X; auto.
        + intros l c Hl Lc. destruct (Nat.eq_dec l a) as [->|Hne].
          * unfold K at 1. rewrite (O2 a 0) by (auto; lia). apply K1. auto.
          * rewrite K2 by (auto; lia). unfold kept_around, near_refine, K.
            assert (X : forall c, length c = S n -> Z.testbit (tg t1 l c) 0 = Z.testbit (tg t l c) 0 /\ Z.testbit (tg t1 l c) 2 = Z.testbit (tg t l c) 2).
            { intros c0 Lc0. split; apply O1; auto; lia. }
            rewrite (proj1 (X c Lc)). assert (Y : forall c, (exists y, leaf l y /\ near n 1 c y /\ Re t1 l y) <-> (exists y, leaf l y /\ near n 1 c y /\ Re t l y)).
            { intros c0. split; intros (y & Hy & Ny & Z); exists y; (split; [auto|split; [auto|]]); rewrite ?(proj2 (X y (proj1 (proj2 Hy)))) in *; auto. }
            rewrite Y. split.
            -- intros [Z|[Z|(Z & y & Hy & Ny & Z')]]; auto. right. right. split; auto. exists y. split; auto. split; auto. rewrite <- Y, <- (proj1 (X y (proj1 (proj2 Hy)))). auto.
            -- intros [Z|[Z|(Z & y & Hy & Ny & Z')]]; auto. right. right. split; auto. exists y. split; auto. split; auto. rewrite Y, (proj1 (X y (proj1 (proj2 Hy)))). auto. }
    destruct (Nat.le_gt_cases minl (S top)) as [Hm|Hm].
    - destruct (G (S top - minl)%nat minl t ltac:(lia) ltac:(auto)) as (t' & E & O & B & KK). exists t'. split; auto. split; auto.
      intros l c Lc. destruct (Nat.leb_spec minl l), (Nat.leb_spec l top); cbn [andb]; [apply KK; auto; lia| | |]; unfold K; rewrite (O l 0) by (auto; lia); tauto.
    - replace (S top - minl)%nat with 0%nat by lia. exists t. split; auto. split; [intros l; split; intros c Lc; auto|]. intros l c Lc.
      destruct (Nat.leb_spec minl l), (Nat.leb_spec l top); cbn [andb]; try tauto. lia.
  Qed.
End Around.
