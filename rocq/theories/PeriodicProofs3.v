(** Proofs about the prediction stencils of a mesh with periodic directions: the leaves are
    repeated by periodicity, and the arguments of C54 apply to the repeated leaves. *)
From Coq Require Import QArith.
From Verif Require Import Base IntervalModel Spec IntervalProofs LoiModel LcaModel LcaSpec InitProofs LcaProofs LcaProofs2 LcaProofs3 RowsProofs CellArrayModel CellArrayProofs PropsLca PropsCellArray
  SubsetModel TreeProofs SubsetSpec SubsetProofs2 PropsSubset StencilModel NumberingProofs StencilProofs PropsStencil MeshModel MeshProofs
  NumModel NumProofs NumSpec PropsNum AdaptModel AdaptProofs TagProofs PropsAdapt TransferProofs PropsTransfer GradModel GradProofs PropsGrad InterfaceModel PropsInterface MrModel MrProofs PropsMr
  GhostModel GhostProofs PropsGhost BcProofs HartenModel HartenProofs HartenProofs2 PeriodicModel PeriodicProofs PropsPeriodic PeriodicProofs2 PropsMesh PropsPeriodic2.
Open Scope Z_scope.

(** ** Leaves given by a predicate, in a convex domain *)
Section Extended.
  Variables (n maxl : nat) (leaf dom : nat -> list Z -> Prop).
  Definition esplit (l : nat) (p : list Z) : Prop := exists l' q, (l < l')%nat /\ leaf l' q /\ p = ancestor (l' - l) q.
  Hypothesis dom_length : forall l p, dom l p -> length p = S n.
  Hypothesis leaf_dom : forall l p, leaf l p -> dom l p.
  Hypothesis leaf_level : forall l p, leaf l p -> (l <= maxl)%nat.
  Hypothesis alone : forall l l' p q, leaf l p -> leaf l' q -> (l <= l')%nat -> ancestor (l' - l) q = p -> l = l'.
  Hypothesis cover : forall K z, (maxl <= K)%nat -> dom K z -> exists l0, (l0 <= K)%nat /\ leaf l0 (ancestor (K - l0) z).
  Hypothesis dom_ancestor : forall l j z, dom (l + j) z <-> length z = S n /\ dom l (ancestor j z).
  Hypothesis dom_between : forall l c g x, dom l c -> dom l g -> length x = S n ->
    (forall k, (k <= n)%nat -> Z.min (nth k c 0) (nth k g 0) <= nth k x 0 <= Z.max (nth k c 0) (nth k g 0)) -> dom l x.
  Hypothesis graded : forall l l' p q v, leaf l p -> leaf l' q -> (l + 2 <= l')%nat -> (forall k, (k <= n)%nat -> -1 <= nth k v 0 <= 1) ->
    ancestor (l' - l) (vadd n q v) <> p.

  Lemma e_trichotomy : forall l p, dom l p -> (exists l0, (l0 <= l)%nat /\ leaf l0 (ancestor (l - l0) p)) \/ esplit l p.
  Proof.
    intros l p Hp. set (K := Nat.max l maxl). destruct (descend (K - l) p) as (z & Lz & Az).
    destruct (cover K z) as (l0 & Hl0 & H0).
    - lia.
    - replace K with (l + (K - l))%nat by lia. apply dom_ancestor. split; [rewrite Lz; eapply dom_length; eauto|]. rewrite Az. auto.
    - destruct (Nat.le_gt_cases l0 l) as [Hle|Hgt].
      + left. exists l0. split; auto. rewrite <- Az, ancestor_add. replace (l - l0 + (K - l))%nat with (K - l0)%nat by lia. auto.
      + right. exists l0, (ancestor (K - l0) z). split; auto. split; auto. rewrite ancestor_add, <- Az. f_equal. lia.
  Qed.
  Lemma e_above : forall l l0 p, (l0 <= l)%nat -> leaf l0 (ancestor (l - l0) p) -> esplit l p -> False.
  Proof.
    intros l l0 p Hl H0 (l' & q & Hl' & Hq & ->). assert (l0 = l'); [|lia]. apply (alone l0 l' _ _ H0 Hq); [lia|]. rewrite ancestor_add. f_equal. lia.
  Qed.
  Lemma e_split_dom : forall l p, esplit l p -> dom l p.
  Proof.
    intros l p (l' & q & Hl' & Hq & ->). apply leaf_dom in Hq. replace l' with (l + (l' - l))%nat in Hq at 1 by lia. apply dom_ancestor in Hq. apply Hq.
  Qed.
  Lemma e_side_leaf : forall l x v, esplit l x -> (forall k, (k <= n)%nat -> -1 <= nth k v 0 <= 1) ->
    exists l1 y, (l < l1)%nat /\ leaf l1 y /\ ancestor (l1 - l) (vadd n y v) = vadd n x v.
  Proof.
    intros l x v Hx Hv. pose proof (e_split_dom l x Hx) as HI. pose proof (dom_length _ _ HI) as Lx.
    pose proof Hx as (l' & q & Hl' & Hq & _). pose proof (leaf_level _ _ Hq) as Hlm.
    destruct (corner_point n maxl l x v Lx ltac:(lia) Hv) as (z & Lz & Az & Bz).
    destruct (cover maxl z) as (l1 & Hl1 & H1); auto.
    { replace maxl with (l + (maxl - l))%nat by lia. apply dom_ancestor. rewrite Az. auto. }
    assert (l < l1)%nat.
    { destruct (Nat.le_gt_cases l1 l) as [Hle|Hgt]; auto. exfalso. apply (e_above l l1 x); auto. rewrite <- Az, ancestor_add.
      replace (l - l1 + (maxl - l))%nat with (maxl - l1)%nat by lia. auto. }
    exists l1, (ancestor (maxl - l1) z). split; auto. split; auto. apply Bz. lia.
  Qed.
  Lemma e_beside : forall l x v l0, esplit l x -> (forall k, (k <= n)%nat -> -1 <= nth k v 0 <= 1) -> (l0 < l)%nat -> ~ leaf l0 (ancestor (l - l0) (vadd n x v)).
  Proof.
    intros l x v l0 Hx Hv Hl H0. destruct (e_side_leaf l x v Hx Hv) as (l1 & y & Hl1 & Hy & E).
    apply (graded l0 l1 _ y v H0 Hy); auto; [lia|]. rewrite <- E, ancestor_add. f_equal. lia.
  Qed.

  (** At most two cells from a leaf or a split cell, the leaf above [g] is one level
      coarser. *)
  Lemma e_leaf_near : forall l x g, leaf l x \/ esplit l x -> dom l g -> near n 2 g x -> ~ leaf l g -> ~ esplit l g ->
    (1 <= l)%nat /\ leaf (l - 1) (ancestor 1 g).
  Proof.
    intros l x g Hx Hg N N1 N2. pose proof (dom_length _ _ Hg) as Lg.
    destruct (e_trichotomy l g Hg) as [(l0 & Hl0 & H0)|H]; [|contradiction].
    assert (l0 <> l) by (intros ->; rewrite Nat.sub_diag, ancestor_0 in H0; contradiction). split; [lia|].
    assert (SN : esplit (l - 1) (ancestor 1 x)).
    { destruct Hx as [Hx|(l' & q & Hl' & Hq & E)].
      - exists l, x. split; [lia|]. split; auto. f_equal. lia.
      - exists l', q. split; [lia|]. split; auto. rewrite E, ancestor_add. f_equal. lia. }
    set (N0 := ancestor 1 x) in *. set (P := ancestor 1 g) in *. set (v := toward n N0 P).
    assert (EP : vadd n N0 v = P).
    { apply (list_ext n); [apply vadd_length|unfold P; rewrite ancestor_length; auto|]. intros k Hk.
      rewrite nth_vadd by auto. unfold v. rewrite nth_toward by auto. unfold N0, P. rewrite !nth_ancestor. change (2 ^ Z.of_nat 1) with 2.
      specialize (N k Hk). pose proof (Z.div_mod (nth k x 0) 2 ltac:(lia)). pose proof (Z.mod_pos_bound (nth k x 0) 2 ltac:(lia)).
      pose proof (Z.div_mod (nth k g 0) 2 ltac:(lia)). pose proof (Z.mod_pos_bound (nth k g 0) 2 ltac:(lia)). lia. }
    assert (UV : forall k, (k <= n)%nat -> -1 <= nth k v 0 <= 1) by (intros k Hk; unfold v; rewrite nth_toward by auto; lia).
    destruct (Nat.eq_dec l0 (l - 1)) as [E0|Hne].
    - rewrite E0 in H0. replace (l - (l - 1))%nat with 1%nat in H0 by lia. exact H0.
    - exfalso. apply (e_beside (l - 1)%nat N0 v l0 SN UV); [lia|]. rewrite EP. unfold P. rewrite ancestor_add.
      replace (l - 1 - l0 + 1)%nat with (l - l0)%nat by lia. auto.
  Qed.

  Lemma e_leaf_above : forall l c g, esplit l c -> dom l g -> near n 3 g c -> ~ leaf l g -> ~ esplit l g -> (1 <= l)%nat /\ leaf (l - 1) (ancestor 1 g).
  Proof.
    intros l c g Hc Hg N N1 N2. pose proof (e_split_dom l c Hc) as HI. set (x := vadd n c (toward n c g)).
    assert (Hx : forall k, (k <= n)%nat -> nth k x 0 = nth k c 0 + Z.max (-1) (Z.min 1 (nth k g 0 - nth k c 0))).
    { intros k Hk. unfold x. rewrite nth_vadd, nth_toward by auto. auto. }
    assert (Ix : dom l x).
    { apply (dom_between l c g); auto; [apply vadd_length|]. intros k Hk. rewrite Hx by auto. lia. }
    apply (e_leaf_near l x g); auto; [|intros k Hk; rewrite Hx by auto; specialize (N k Hk); lia].
    destruct (e_trichotomy l x Ix) as [(l0 & Hl0 & H0)|H]; auto.
    left. destruct (Nat.eq_dec l0 l) as [->|Hne]; [rewrite Nat.sub_diag, ancestor_0 in H0; auto|]. exfalso.
    apply (e_beside l c (toward n c g) l0); auto; [|lia]. intros k Hk. rewrite nth_toward by auto. lia.
  Qed.
End Extended.

(** ** The repeated leaves *)

(** Leaves that touch, possibly across the periodic sides, differ by at most one level. *)
Definition graded_periodic (n : nat) (periodic : list bool) (lo hi : list Z) (cells : ca) : Prop :=
  forall l l' p q v, ca_mem n cells l p -> ca_mem n cells l' q -> (l + 2 <= l')%nat ->
    (forall k, (k <= n)%nat -> -1 <= nth k v 0 <= 1) -> image n periodic lo hi l (ancestor (l' - l) (vadd n q v)) <> p.

(** Inside the box in the directions that are not periodic. *)
Definition beside (n : nat) (periodic : list bool) (lo hi : list Z) (l : nat) (p : list Z) : Prop :=
  length p = S n /\ forall k, (k <= n)%nat -> nth k periodic false = false -> nth k lo 0 * 2 ^ Z.of_nat l <= nth k p 0 < nth k hi 0 * 2 ^ Z.of_nat l.

Section Repeated.
  Variables (n minl maxl : nat) (periodic : list bool) (cells : ca) (lo hi : list Z).
  Notation img l p := (image n periodic lo hi l p).
  Notation per k := (nth k periodic false).
  Hypothesis HLH : forall k, (k <= n)%nat -> nth k lo 0 < nth k hi 0.
  Definition rleaf (l : nat) (q : list Z) : Prop := length q = S n /\ ca_mem n cells l (img l q).

  Lemma pow_pos : forall l, 0 < 2 ^ Z.of_nat l.
  Proof. intros. apply Z.pow_pos_nonneg; lia. Qed.
  Lemma nth_image : forall l p k, (k <= n)%nat -> nth k (img l p) 0 =
    if per k then nth k lo 0 * 2 ^ Z.of_nat l + (nth k p 0 - nth k lo 0 * 2 ^ Z.of_nat l) mod ((nth k hi 0 - nth k lo 0) * 2 ^ Z.of_nat l) else nth k p 0.
  Proof. intros l p k Hk. rewrite nth_wrap, !nth_scaled by auto. destruct (per k); auto. do 2 f_equal. ring. Qed.

  Lemma image_ancestor : forall l j q, ancestor j (img (l + j) q) = img l (ancestor j q).
  Proof.
    intros l j q. apply (list_ext n); [rewrite ancestor_length; apply wrap_length|apply wrap_length|]. intros k Hk.
    rewrite nth_ancestor, !nth_image, nth_ancestor by auto. destruct (per k); auto.
    rewrite Nat2Z.inj_add, Z.pow_add_r by lia. pose proof (pow_pos l) as PL. pose proof (pow_pos j) as PJ. pose proof (HLH k Hk) as HH.
    set (Q := 2 ^ Z.of_nat j) in *. set (A := nth k lo 0). set (D := nth k hi 0 - A). assert (0 < D) by (unfold D, A; lia).
    set (P := 2 ^ Z.of_nat l) in *. set (x := nth k q 0). clearbody Q P A D x. assert (0 < D * P) by nia.
    replace (A * (P * Q)) with (A * P * Q) by ring. replace (D * (P * Q)) with (Q * (D * P)) by ring.
    rewrite Z.rem_mul_r by lia.
    replace (A * P * Q + ((x - A * P * Q) mod Q + Q * (((x - A * P * Q) / Q) mod (D * P)))) with ((x - A * P * Q) mod Q + (A * P + ((x - A * P * Q) / Q) mod (D * P)) * Q) by ring.
    rewrite Z.div_add by lia. rewrite (Z.div_small ((x - A * P * Q) mod Q)) by (apply Z.mod_pos_bound; lia).
    replace (x - A * P * Q) with (x + (- (A * P)) * Q) by ring. rewrite Z.div_add by lia. rewrite Z.add_0_l. do 2 f_equal.
  Qed.
  Lemma image_ancestor' : forall l l' q, (l <= l')%nat -> ancestor (l' - l) (img l' q) = img l (ancestor (l' - l) q).
  Proof. intros l l' q H. pose proof (image_ancestor l (l' - l) q) as E. replace (l + (l' - l))%nat with l' in E by lia. auto. Qed.

  Lemma image_same : forall l p q, same_image n (fun k => per k) (scaled lo l) (scaled hi l) p q -> img l p = img l q.
  Proof.
    intros l p q (_ & _ & X). apply (list_ext n); [apply wrap_length|apply wrap_length|]. intros k Hk. rewrite !nth_image by auto.
    destruct (X k Hk) as (z & E & Hz). rewrite !nth_scaled in E. rewrite E. destruct (per k).
    - f_equal. replace (nth k p 0 + z * (nth k hi 0 * 2 ^ Z.of_nat l - nth k lo 0 * 2 ^ Z.of_nat l) - nth k lo 0 * 2 ^ Z.of_nat l) with
        (nth k p 0 - nth k lo 0 * 2 ^ Z.of_nat l + z * ((nth k hi 0 - nth k lo 0) * 2 ^ Z.of_nat l)) by ring.
      rewrite Z_mod_plus_full. reflexivity.
    - rewrite Hz by auto. lia.
  Qed.
  Lemma same_own_image : forall l p, length p = S n -> same_image n (fun k => per k) (scaled lo l) (scaled hi l) p (img l p).
  Proof.
    intros l p Lp. split; auto. split; [apply wrap_length|]. intros k Hk. rewrite nth_image by auto. rewrite !nth_scaled. pose proof (pow_pos l). pose proof (HLH k Hk).
    assert (0 < (nth k hi 0 - nth k lo 0) * 2 ^ Z.of_nat l) by nia.
    destruct (per k).
    - exists (- ((nth k p 0 - nth k lo 0 * 2 ^ Z.of_nat l) / ((nth k hi 0 - nth k lo 0) * 2 ^ Z.of_nat l))). split; [|discriminate].
      rewrite Z.mod_eq by lia. ring.
    - exists 0. split; [ring|auto].
  Qed.
  Lemma image_inside : forall l p, beside n periodic lo hi l p -> inside n lo hi l (img l p).
  Proof.
    intros l p [Lp X]. split; [apply wrap_length|]. intros k Hk. rewrite nth_image by auto. pose proof (pow_pos l). pose proof (HLH k Hk). destruct (per k) eqn:Pk; auto.
    pose proof (Z.mod_pos_bound (nth k p 0 - nth k lo 0 * 2 ^ Z.of_nat l) ((nth k hi 0 - nth k lo 0) * 2 ^ Z.of_nat l) ltac:(nia)). lia.
  Qed.
  Lemma inside_image : forall l p, inside n lo hi l p -> img l p = p.
  Proof.
    intros l p [Lp X]. apply (list_ext n); auto; [apply wrap_length|]. intros k Hk. rewrite nth_image by auto. destruct (per k); auto.
    specialize (X k Hk). rewrite Z.mod_small by lia. lia.
  Qed.
  Lemma image_beside : forall l p, length p = S n -> inside n lo hi l (img l p) -> beside n periodic lo hi l p.
  Proof. intros l p Lp [_ X]. split; auto. intros k Hk Pk. specialize (X k Hk). rewrite nth_image, Pk in X by auto. auto. Qed.
  Lemma inside_beside : forall l p, inside n lo hi l p -> beside n periodic lo hi l p.
  Proof. intros l p [Lp X]. split; auto. Qed.
  Lemma beside_ancestor : forall l j z, beside n periodic lo hi (l + j) z <-> length z = S n /\ beside n periodic lo hi l (ancestor j z).
  Proof.
    intros l j z. split.
    - intros X. assert (Lz : length z = S n) by apply X. split; auto. apply image_inside in X. apply inside_ancestor in X as [_ X]. rewrite image_ancestor in X.
      apply image_beside in X; auto. rewrite ancestor_length. auto.
    - intros [Lz X]. apply image_inside in X. rewrite <- image_ancestor in X. apply image_beside; auto. apply inside_ancestor. split; auto. apply wrap_length.
  Qed.

  Hypothesis HT : tiles n cells lo hi.
  Hypothesis HR : forall l q, ca_mem n cells l q -> (minl <= l <= maxl)%nat.
  Hypothesis HG : graded_periodic n periodic lo hi cells.

  Lemma rleaf_leaf : forall l p, inside n lo hi l p -> (rleaf l p <-> ca_mem n cells l p).
  Proof. intros l p X. unfold rleaf. rewrite inside_image by auto. split; [tauto|]. intros Y. split; auto. apply X. Qed.
  Lemma rsplit_split : forall l p, inside n lo hi l p -> (esplit rleaf l p <-> split_at n cells l p).
  Proof.
    intros l p X. split.
    - intros (l' & q & Hl & [Lq Hq] & ->). exists l', (img l' q). split; auto. split; auto. rewrite image_ancestor' by lia. symmetry. apply inside_image. auto.
    - intros (l' & q & Hl & Hq & ->). exists l', q. split; auto. split; auto. apply rleaf_leaf; auto. apply HT. auto.
  Qed.
  (** A split cell moved by periods. *)
  Lemma rsplit_moved : forall l p q, split_at n cells l p -> same_image n (fun k => per k) (scaled lo l) (scaled hi l) p q -> esplit rleaf l q.
  Proof.
    intros l p q (l' & c & Hl & Hc & ->) (_ & Lq & X). assert (Lc : length c = S n) by apply Hc.
    set (c' := map (fun k => nth k c 0 + (nth k q 0 - nth k (ancestor (l' - l) c) 0) * 2 ^ Z.of_nat (l' - l)) (seq 0 (S n))).
    assert (Nc : forall k, (k <= n)%nat -> nth k c' 0 = nth k c 0 + (nth k q 0 - nth k (ancestor (l' - l) c) 0) * 2 ^ Z.of_nat (l' - l)).
    { intros k Hk. unfold c'. apply (nth_map_seq (S n)). lia. }
    assert (Lc' : length c' = S n) by (unfold c'; rewrite map_length, seq_length; auto).
    exists l', c'. split; auto. split.
    - split; auto. assert (E : img l' c = img l' c').
      { apply image_same. split; auto. split; auto. intros k Hk. destruct (X k Hk) as (z & E & Hz). exists z. split; auto. rewrite Nc, E, !nth_scaled by auto.
        replace (2 ^ Z.of_nat l') with (2 ^ Z.of_nat l * 2 ^ Z.of_nat (l' - l)) by (rewrite <- Z.pow_add_r by lia; f_equal; lia). ring. }
      rewrite <- E, inside_image by (apply HT; auto). auto.
    - apply (list_ext n); auto; [rewrite ancestor_length; auto|]. intros k Hk. rewrite nth_ancestor, Nc, nth_ancestor by auto. pose proof (pow_pos (l' - l)).
      rewrite Z.div_add by lia. lia.
  Qed.
  Lemma rleaf_moved : forall l p q, ca_mem n cells l p -> same_image n (fun k => per k) (scaled lo l) (scaled hi l) p q -> rleaf l q.
  Proof.
    intros l p q Hp S. split; [apply S|]. rewrite <- (image_same l p q S), inside_image; auto. apply HT. auto.
  Qed.

  Lemma repeated_near : forall l x g, rleaf l x \/ esplit rleaf l x -> inside n lo hi l g -> near n 2 g x \/ (esplit rleaf l x /\ near n 3 g x) ->
    ~ ca_mem n cells l g -> ~ split_at n cells l g -> (1 <= l)%nat /\ ca_mem n cells (l - 1) (ancestor 1 g).
  Proof.
    intros l x g Hx Hg N N1 N2.
    assert (N1' : ~ rleaf l g) by (rewrite rleaf_leaf; auto). assert (N2' : ~ esplit rleaf l g) by (rewrite rsplit_split; auto).
    assert (D1 : forall l p, beside n periodic lo hi l p -> length p = S n) by (intros ? ? X; apply X).
    assert (D2 : forall l p, rleaf l p -> beside n periodic lo hi l p) by (intros j p [Lp X]; apply image_beside; auto; apply HT; auto).
    assert (D3 : forall l p, rleaf l p -> (l <= maxl)%nat) by (intros j p [_ X]; apply HR in X; lia).
    assert (D4 : forall l l' p q, rleaf l p -> rleaf l' q -> (l <= l')%nat -> ancestor (l' - l) q = p -> l = l').
    { intros j j' p q [_ X] [_ Y] Hj E. apply (proj1 HT j j' _ _ X Y Hj). rewrite image_ancestor', E by auto. auto. }
    assert (D5 : forall K z, (maxl <= K)%nat -> beside n periodic lo hi K z -> exists l0, (l0 <= K)%nat /\ rleaf l0 (ancestor (K - l0) z)).
    { intros K z HK X. assert (Lz : length z = S n) by apply X. apply image_inside in X. destruct HT as (_ & _ & HC).
      destruct (HC K (img K z)) as (l0 & Hl0 & H0); auto; [intros j q Y; apply HR in Y; lia|]. exists l0. split; auto. split; [rewrite ancestor_length; auto|].
      rewrite <- image_ancestor' by auto. auto. }
    assert (D6 : forall l c g x, beside n periodic lo hi l c -> beside n periodic lo hi l g -> length x = S n ->
      (forall k, (k <= n)%nat -> Z.min (nth k c 0) (nth k g 0) <= nth k x 0 <= Z.max (nth k c 0) (nth k g 0)) -> beside n periodic lo hi l x).
    { intros j c h y [_ X] [_ Y] Ly B. split; auto. intros k Hk Pk. specialize (X k Hk Pk). specialize (Y k Hk Pk). specialize (B k Hk). lia. }
    assert (D7 : forall l l' p q v, rleaf l p -> rleaf l' q -> (l + 2 <= l')%nat -> (forall k, (k <= n)%nat -> -1 <= nth k v 0 <= 1) -> ancestor (l' - l) (vadd n q v) <> p).
    { intros j j' p q v [Lp X] [Lq Y] Hj Hv E. apply (HG j j' _ _ v X Y Hj Hv). rewrite <- image_ancestor' by lia.
      replace (img j' (vadd n (img j' q) v)) with (img j' (vadd n q v)); [rewrite image_ancestor' by lia; rewrite E; auto|].
      apply image_same. destruct (same_own_image j' q Lq) as (_ & _ & Z). split; [apply vadd_length|]. split; [apply vadd_length|]. intros k Hk.
      destruct (Z k Hk) as (z & E' & Hz). exists z. rewrite !nth_vadd by auto. split; auto. lia. }
    assert (R : (1 <= l)%nat /\ rleaf (l - 1) (ancestor 1 g)).
    { destruct N as [N|[SX N]].
      - eapply (e_leaf_near n maxl rleaf (beside n periodic lo hi)) with (x := x); eauto; [apply beside_ancestor|apply inside_beside; auto].
      - eapply (e_leaf_above n maxl rleaf (beside n periodic lo hi)) with (c := x); eauto; [apply beside_ancestor|apply inside_beside; auto]. }
    destruct R as [R1 R2]. split; auto. apply rleaf_leaf; auto. replace l with (l - 1 + 1)%nat in Hg by lia. apply inside_ancestor in Hg. apply Hg.
  Qed.
End Repeated.
