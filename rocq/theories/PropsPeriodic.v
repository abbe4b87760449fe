(** Property C69: the copies of the periodic directions. *)
From Coq Require Import QArith.
From Verif Require Import Base IntervalModel Spec IntervalProofs LoiModel LcaModel LcaSpec InitProofs LcaProofs LcaProofs2 LcaProofs3 RowsProofs CellArrayModel CellArrayProofs PropsLca PropsCellArray
  SubsetModel TreeProofs SubsetSpec SubsetProofs2 PropsSubset StencilModel NumberingProofs StencilProofs PropsStencil MeshModel MeshProofs
  NumModel NumProofs NumSpec PropsNum AdaptModel AdaptProofs TagProofs PropsAdapt TransferProofs PropsTransfer GradModel GradProofs PropsGrad InterfaceModel PropsInterface MrModel MrProofs PropsMr
  GhostModel GhostProofs PropsGhost BcProofs HartenModel HartenProofs HartenProofs2 PeriodicModel PeriodicProofs.
Open Scope Z_scope.

(** ** Words of the statements *)

(** The domain is the box from [lo] to [hi], in cells of level 0. *)
Definition domain_box (n : nat) (domain : lca) (L : nat) (lo hi : list Z) : Prop :=
  wf n domain /\ a_level domain = L /\ (forall k, (k <= n)%nat -> nth k lo 0 < nth k hi 0) /\
  forall p, lca_mem n domain p <-> inside n lo hi L p.
(** A corner of the box on level [l]. *)
Definition scaled (c : list Z) (l : nat) : list Z := map (fun x => x * 2 ^ Z.of_nat l) c.
Lemma nth_scaled : forall c l k, nth k (scaled c l) 0 = nth k c 0 * 2 ^ Z.of_nat l.
Proof. intros. unfold scaled. change 0 with ((fun x => x * 2 ^ Z.of_nat l) 0) at 1. apply map_nth. Qed.

(** A stored cell outside the box in one periodic direction has its image by one period
    in that direction in the storage. *)
Definition images_stored (n : nat) (periodic : list bool) (a : lca) (low high : list Z) (gw : Z) : Prop :=
  forall d p q, (d <= n)%nat -> nth d periodic false = true -> lca_mem n a p -> fat n low high gw p -> length q = S n ->
    (forall k, (k <= n)%nat -> k <> d -> nth k q 0 = nth k p 0) ->
    (nth d p 0 < nth d low 0 /\ nth d q 0 = nth d p 0 + (nth d high 0 - nth d low 0)) \/
    (nth d high 0 <= nth d p 0 /\ nth d q 0 = nth d p 0 - (nth d high 0 - nth d low 0)) -> lca_mem n a q.

(** Hypotheses on one level: the period is at least the ghost width. *)
Definition periodic_input (n : nat) (periodic : list bool) (reference : ca) (domain : lca) (L : nat) (lo hi : list Z) (gw : Z) (l : nat) : Prop :=
  domain_box n domain L lo hi /\ (l <= L)%nat /\ 1 <= gw /\
  (forall k, (k <= n)%nat -> nth k periodic false = true -> gw <= (nth k hi 0 - nth k lo 0) * 2 ^ Z.of_nat l) /\
  (forall k, (k <= n)%nat -> nth k hi 0 * 2 ^ Z.of_nat l + gw + 3 < 2 ^ 31 - 1) /\
  wf n (c_at reference l) /\ a_level (c_at reference l) = l /\ below_max n (c_at reference l) /\
  images_stored n periodic (c_at reference l) (scaled lo l) (scaled hi l) gw.

Notation image n periodic lo hi l p := (wrap n (fun k => nth k periodic false) (scaled lo l) (scaled hi l) p).

Section Level.
  Variables (n : nat) (periodic : list bool) (reference : ca) (domain : lca) (L : nat) (lo hi : list Z) (gw : Z) (l : nat).
  Hypothesis H : periodic_input n periodic reference domain L lo hi gw l.
  Notation ref := (c_at reference l).

  Lemma level_extent : exists e, extent_at n domain l = Some e /\
    (forall k, (k <= n)%nat -> nth k (e_low e) 0 = nth k (scaled lo l) 0 /\ nth k (e_high e) 0 = nth k (scaled hi l) 0) /\
    (forall k, (k <= n)%nat -> nth k (e_low e) 0 < nth k (e_high e) 0 /\ nth k (e_period e) 0 = nth k (e_high e) 0 - nth k (e_low e) 0) /\
    (forall k, (k <= n)%nat -> nth k periodic false = true -> gw <= nth k (e_high e) 0 - nth k (e_low e) 0) /\
    (forall k, (k <= n)%nat -> nth k (e_high e) 0 + gw + 3 < 2 ^ 31 - 1) /\
    (forall p, fat n (e_low e) (e_high e) gw p <-> fat n (scaled lo l) (scaled hi l) gw p) /\
    (forall P p, wrap n P (e_low e) (e_high e) p = wrap n P (scaled lo l) (scaled hi l) p) /\
    (forall P p q, same_image n P (e_low e) (e_high e) p q <-> same_image n P (scaled lo l) (scaled hi l) p q) /\
    (forall d p, (d <= n)%nat -> nth d periodic false = true -> lca_mem n ref p -> fat n (e_low e) (e_high e) gw p ->
      (nth d p 0 < nth d (e_low e) 0 -> lca_mem n ref (add_vec p (period_vector n e d))) /\
      (nth d (e_high e) 0 <= nth d p 0 -> lca_mem n ref (add_vec p (opposite (period_vector n e d))))).
  Proof.
    destruct H as ((W & EL & HL & HD) & Hl & HG & HN & HB & WR & LR & BR & IM).
    destruct (extent_spec n domain L lo hi l W EL HL HD Hl) as (e & E & X). exists e. split; auto.
    assert (P : 0 < 2 ^ Z.of_nat l) by (apply Z.pow_pos_nonneg; lia).
    assert (S1 : forall k, (k <= n)%nat -> nth k (e_low e) 0 = nth k (scaled lo l) 0) by (intros k Hk; rewrite nth_scaled; apply X; auto).
    assert (S2 : forall k, (k <= n)%nat -> nth k (e_high e) 0 = nth k (scaled hi l) 0) by (intros k Hk; rewrite nth_scaled; apply X; auto).
    assert (HE : forall k, (k <= n)%nat -> nth k (e_low e) 0 < nth k (e_high e) 0 /\ nth k (e_period e) 0 = nth k (e_high e) 0 - nth k (e_low e) 0).
    { intros k Hk. destruct (X k Hk) as (-> & -> & ->). pose proof (HL k Hk). split; [nia|ring]. }
    assert (F : forall p, fat n (e_low e) (e_high e) gw p <-> fat n (scaled lo l) (scaled hi l) gw p).
    { intros p. unfold fat. split; intros [Lp A]; (split; [auto|]); intros k Hk; specialize (A k Hk); rewrite S1, S2 in *; auto. }
    split; auto. split; auto. split; [intros k Hk Hp; destruct (X k Hk) as (-> & -> & _); pose proof (HN k Hk Hp); lia|].
    split; [intros k Hk; destruct (X k Hk) as (_ & -> & _); auto|]. split; auto. split; [|split].
    - intros Q p. apply (list_ext n); [apply wrap_length|apply wrap_length|]. intros k Hk. rewrite !nth_wrap, S1, S2 by auto. reflexivity.
    - intros Q p q. unfold same_image. split; intros (L1 & L2 & A); (split; [auto|split; [auto|]]); intros k Hk; specialize (A k Hk); rewrite S1, S2 in * by auto; auto.
    - intros d p Hd Pd M Fp. assert (Lp : length p = S n) by apply M. split; intros Y.
      + apply (IM d p); auto; [apply F; auto|apply plus_length; auto| |].
        * intros k Hk Hkd. rewrite (nth_plus n e HE) by auto. destruct (Nat.eqb_spec k d); [contradiction|lia].
        * left. rewrite <- S1, <- S2 by auto. split; auto. rewrite (nth_plus n e HE), Nat.eqb_refl by auto. auto.
      + apply (IM d p); auto; [apply F; auto|apply minus_length; auto| |].
        * intros k Hk Hkd. rewrite (nth_minus n e HE) by auto. destruct (Nat.eqb_spec k d); [contradiction|lia].
        * right. rewrite <- S1, <- S2 by auto. split; auto. rewrite (nth_minus n e HE), Nat.eqb_refl by auto. auto.
  Qed.

  Lemma image_spec : forall p, lca_mem n ref p -> fat n (scaled lo l) (scaled hi l) gw p -> lca_mem n ref (image n periodic lo hi l p) /\ fat n (scaled lo l) (scaled hi l) gw (image n periodic lo hi l p).
  Proof.
    destruct level_extent as (e & E & _ & HE & HN & HB & F & Wr & _ & IM). pose proof H as (_ & _ & HG & _ & _ & WR & LR & BR & _).
    intros p M Fp. apply F in Fp.
    destruct (wrap_upto_stored n l reference periodic e gw HE HG HN HB LR IM (S n) p ltac:(lia) M Fp) as [A B].
    rewrite (wrap_ext n e (upto periodic (S n)) (fun k => nth k periodic false) p) in A, B by (intros; apply (upto_all n periodic); auto).
    rewrite Wr in A, B. rewrite F in B. auto.
  Qed.
End Level.

(** ** The ghosts *)

(** The copies succeed. A stored cell of the box widened by the ghosts gets the value of
    its image in the box by whole periods, in all the periodic directions at once (edges
    and corners included); the image is stored; nothing else changes. *)
Theorem C69_copies : forall n periodic reference domain L lo hi gw l v, periodic_input n periodic reference domain L lo hi gw l ->
  exists v', update_ghost_periodic n periodic reference domain gw l v = Some v' /\ (forall k, k <> l -> v' k = v k) /\
    forall p, length p = S n ->
      (lca_mem n (c_at reference l) p -> fat n (scaled lo l) (scaled hi l) gw p ->
         lca_mem n (c_at reference l) (image n periodic lo hi l p) /\ get (v' l) p = get (v l) (image n periodic lo hi l p)) /\
      (~ (lca_mem n (c_at reference l) p /\ fat n (scaled lo l) (scaled hi l) gw p) -> get (v' l) p = get (v l) p).
Proof.
  intros n periodic reference domain L lo hi gw l v H. destruct (level_extent _ _ _ _ _ _ _ _ _ H) as (e & E & _ & HE & HN & HB & F & Wr & _ & IM).
  pose proof H as (_ & _ & HG & _ & _ & WR & LR & BR & _). unfold update_ghost_periodic, periodic_directions. rewrite E.
  destruct (copy_directions n l reference periodic e gw HE HG HN HB WR LR BR IM (S n) 0 (v l) (v l) ltac:(lia)) as (u & Eu & P).
  { intros p Lp. split; auto. intros _ _. rewrite wrap_none by auto. reflexivity. }
  rewrite Eu. exists (upd v l u). split; auto. split; [intros k Hk; apply upd_other; auto|]. intros p Lp. rewrite upd_same. destruct (P p Lp) as [A B].
  rewrite F in A, B. rewrite (wrap_ext n e (upto periodic (S n)) (fun k => nth k periodic false) p) in A by (intros; apply upto_all; auto). rewrite Wr in A. split; auto.
  intros M Fp. split; auto. apply (image_spec n periodic reference domain L lo hi gw l H p M Fp).
Qed.

(** Cells of the box keep their values. *)
Theorem C69_inside : forall n periodic reference domain L lo hi gw l v v', periodic_input n periodic reference domain L lo hi gw l ->
  update_ghost_periodic n periodic reference domain gw l v = Some v' ->
  forall p, inside n lo hi l p -> get (v' l) p = get (v l) p.
Proof.
  intros n periodic reference domain L lo hi gw l v v' H E p [Lp Hp]. destruct (C69_copies n periodic reference domain L lo hi gw l v H) as (w & E' & _ & P).
  rewrite E in E'. injection E' as <-. destruct (P p Lp) as [A B].
  assert (X : image n periodic lo hi l p = p).
  { apply (list_ext n); [apply wrap_length|auto|]. intros k Hk. rewrite nth_wrap, !nth_scaled by auto. destruct (nth k periodic false); auto.
    specialize (Hp k Hk). rewrite Z.mod_small; lia. }
  assert (F : fat n (scaled lo l) (scaled hi l) gw p).
  { split; auto. intros k Hk. rewrite !nth_scaled. specialize (Hp k Hk). destruct H as (_ & _ & HG & _). lia. }
  destruct (stored n reference l p) eqn:S.
  - pose proof H as (_ & _ & _ & _ & _ & WR & _). apply (stored_mem n reference l p WR Lp) in S. destruct (A S F) as [_ ->]. rewrite X. reflexivity.
  - apply B. intros [M _]. pose proof H as (_ & _ & _ & _ & _ & WR & _). apply (stored_mem n reference l p WR Lp) in M. congruence.
Qed.

(** ** The tags *)

(** Tags are only added; a tag of a stored cell reaches its image in the box, and a tag of
    the image reaches the cell; every tag comes from a cell a whole number of periods
    away. *)
Theorem C69_tags : forall n periodic reference domain L lo hi gw l t, periodic_input n periodic reference domain L lo hi gw l ->
  exists t', update_tag_periodic n periodic reference domain gw l t = Some t' /\ (forall k, k <> l -> t' k = t k) /\
    (forall p j, length p = S n -> Z.testbit (get (t l) p) j = true -> Z.testbit (get (t' l) p) j = true) /\
    (forall p j, length p = S n -> Z.testbit (get (t' l) p) j = true ->
       exists q, same_image n (fun k => nth k periodic false) (scaled lo l) (scaled hi l) p q /\ Z.testbit (get (t l) q) j = true) /\
    (forall p j, lca_mem n (c_at reference l) p -> fat n (scaled lo l) (scaled hi l) gw p ->
       (Z.testbit (get (t l) p) j = true -> Z.testbit (get (t' l) (image n periodic lo hi l p)) j = true) /\
       (Z.testbit (get (t l) (image n periodic lo hi l p)) j = true -> Z.testbit (get (t' l) p) j = true)).
Proof.
  intros n periodic reference domain L lo hi gw l t H. destruct (level_extent _ _ _ _ _ _ _ _ _ H) as (e & E & _ & HE & HN & HB & F & Wr & SI & IM).
  pose proof H as (_ & _ & HG & _ & _ & WR & LR & BR & _). unfold update_tag_periodic, periodic_directions. rewrite E.
  destruct (join_directions n l reference periodic e gw HE HG HN HB WR LR BR IM (S n) 0 (t l) (t l) ltac:(lia)) as (u & Eu & [G1 G2] & P).
  { apply grown_refl. }
  { intros p M _. rewrite wrap_none by (apply M). split; intros j X; auto. }
  rewrite Eu. exists (upd t l u). split; auto. split; [intros k Hk; apply upd_other; auto|]. rewrite upd_same. split; [intros p j Lp; apply G1; auto|]. split.
  - intros p j Lp X. destruct (G2 p j Lp X) as (q & Sq & Y). exists q. split; auto. apply SI. auto.
  - intros p j M Fp. destruct (P p M (proj2 (F p) Fp)) as [A B].
    rewrite (wrap_ext n e (upto periodic (S n)) (fun k => nth k periodic false) p) in A, B by (intros; apply upto_all; auto). rewrite Wr in A, B. split; [apply A|apply B].
Qed.

(** ** Cases *)

(** A box of 4 cells of level 1 by 4, all its ghosts stored: the hypotheses hold. *)
Definition boxDomain : lca := lca_of_box 1 1 [0; 0] [4; 4].
Definition boxReference : ca := mkCa 1 (fun l => lca_of_box 1 l [-1; -1] [5; 5]).
Definition both : list bool := [true; true].

Example C69_case : periodic_input 1 both boxReference boxDomain 1 [0; 0] [2; 2] 1 1.
Proof.
  assert (Two : forall k, (k <= 1)%nat -> k = 0%nat \/ k = 1%nat) by (intros; lia).
  destruct (C14_box_array 1 1 [0; 0] [4; 4]) as (L1 & W1 & M1 & _); [intros d Hd; destruct (Two d Hd) as [->| ->]; cbn; lia|].
  destruct (C14_box_array 1 1 [-1; -1] [5; 5]) as (L2 & W2 & M2 & _); [intros d Hd; destruct (Two d Hd) as [->| ->]; cbn; lia|].
  split; [|split; [lia|split; [lia|split; [|split; [|split; [exact W2|split; [exact L2|split]]]]]]].
  - split; [exact W1|]. split; [exact L1|]. split; [intros k Hk; destruct (Two k Hk) as [->| ->]; cbn; lia|]. intros p. unfold boxDomain. rewrite M1. unfold inside.
    split; intros [Lp X]; (split; [exact Lp|]); intros k Hk; specialize (X k Hk); destruct (Two k Hk) as [->| ->]; cbn in *; lia.
  - intros k Hk _. destruct (Two k Hk) as [->| ->]; cbn; lia.
  - intros k Hk. destruct (Two k Hk) as [->| ->]; cbn; lia.
  - intros q k Hq Hk. apply M2 in Hq as [_ Hq]. specialize (Hq k Hk). destruct (Two k Hk) as [->| ->]; cbn in *; lia.
  - intros d p q Hd _ Hp [Lp F] Lq HQ Hc. apply M2. split; auto. intros k Hk. apply M2 in Hp as [_ Hp]. specialize (Hp k Hk). pose proof (F d Hd) as Fd.
    destruct (Nat.eq_dec k d) as [->|Hkd]; [|rewrite HQ; auto]. rewrite !nth_scaled in *. destruct (Two d Hd) as [->| ->]; cbn in *; lia.
Qed.

(** A corner ghost gets the value of the opposite corner of the box, an edge ghost that
    of the opposite edge. *)
Example C69_corner : option_map (fun v => (get (v 1%nat) [-1; -1], get (v 1%nat) [4; -1], get (v 1%nat) [-1; 2], get (v 1%nat) [0; 3]))
  (update_ghost_periodic 1 both boxReference boxDomain 1 1 (fun _ x yz => inject_Z (10 * hd 0 yz + x))) =
  Some (inject_Z 33, inject_Z 30, inject_Z 23, inject_Z 30).
Proof. vm_compute. reflexivity. Qed.
(** With one periodic direction the other ghosts keep their values. *)
Example C69_one_direction : option_map (fun v => (get (v 1%nat) [-1; -1], get (v 1%nat) [4; -1], get (v 1%nat) [-1; 2]))
  (update_ghost_periodic 1 [false; true] boxReference boxDomain 1 1 (fun _ x yz => inject_Z (10 * hd 0 yz + x))) =
  Some (inject_Z 29, inject_Z 34, inject_Z 19).
Proof. vm_compute. reflexivity. Qed.
(** The tags of a corner ghost reach the opposite corner. *)
Example C69_tag_corner : option_map (fun t => (get (t 1%nat) [3; 3], get (t 1%nat) [-1; -1], get (t 1%nat) [4; 0], get (t 1%nat) [1; 1]))
  (update_tag_periodic 1 both boxReference boxDomain 1 1 (fun _ x yz => if zlist_eqb (x :: yz) [-1; -1] then 4 else if zlist_eqb (x :: yz) [0; 0] then 2 else 0)) =
  Some (4, 4, 2, 0).
Proof. vm_compute. reflexivity. Qed.

(** On a level where the box is narrower than the ghost width the far ghosts get the old
    value of a ghost: here one cell and two ghosts, and the ghost -2 gets the value that
    the ghost -1 had. *)
Theorem C69_narrow_refuted : exists n periodic reference domain L lo hi gw l v v',
  domain_box n domain L lo hi /\ (l <= L)%nat /\ 1 <= gw /\ wf n (c_at reference l) /\ a_level (c_at reference l) = l /\ below_max n (c_at reference l) /\
  images_stored n periodic (c_at reference l) (scaled lo l) (scaled hi l) gw /\
  update_ghost_periodic n periodic reference domain gw l v = Some v' /\
  exists p, lca_mem n (c_at reference l) p /\ fat n (scaled lo l) (scaled hi l) gw p /\ ~ (get (v' l) p == get (v l) (image n periodic lo hi l p))%Q.
Proof.
  assert (One : forall k, (k <= 0)%nat -> k = 0%nat) by (intros; lia).
  destruct (C14_box_array 0 0 [0] [1]) as (L1 & W1 & M1 & _); [intros d Hd; rewrite (One d Hd); cbn; lia|].
  destruct (C14_box_array 0 0 [-2] [3]) as (L2 & W2 & M2 & _); [intros d Hd; rewrite (One d Hd); cbn; lia|].
  exists 0%nat, [true], (mkCa 0 (fun l => lca_of_box 0 l [-2] [3])), (lca_of_box 0 0 [0] [1]), 0%nat, [0], [1], 2, 0%nat, (fun _ x _ => inject_Z x).
  eexists. split; [|split; [lia|split; [lia|split; [exact W2|split; [exact L2|split; [|split; [|split; [reflexivity|]]]]]]]].
  - split; [exact W1|]. split; [exact L1|]. split; [intros k Hk; rewrite (One k Hk); cbn; lia|]. intros p. rewrite M1. unfold inside.
    split; intros [Lp X]; (split; [exact Lp|]); intros k Hk; specialize (X k Hk); rewrite (One k Hk) in *; cbn in *; lia.
  - intros q k Hq Hk. apply M2 in Hq as [_ Hq]. specialize (Hq k Hk). rewrite (One k Hk) in *. cbn in *. lia.
  - intros d p q Hd _ Hp [Lp F] Lq HQ Hc. apply M2. split; auto. intros k Hk. apply M2 in Hp as [_ Hp]. specialize (Hp k Hk). pose proof (F d Hd) as Fd.
    rewrite (One d Hd), (One k Hk) in *. rewrite !nth_scaled in *. cbn in *. lia.
  - exists [-2]. split; [apply M2; split; [reflexivity|intros k Hk; rewrite (One k Hk); cbn; lia]|]. split.
    + split; [reflexivity|]. intros k Hk. rewrite (One k Hk). cbn. lia.
    + vm_compute. discriminate.
Qed.

Print Assumptions C69_copies.
Print Assumptions C69_inside.
Print Assumptions C69_tags.
Print Assumptions C69_narrow_refuted.
