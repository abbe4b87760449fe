(** The faces of the leaves of a graded tiling (property C67). *)
From Coq Require Import QArith Qpower Permutation.
From Verif Require Import Base IntervalModel Spec IntervalProofs LoiModel LcaModel LcaSpec LcaProofs LcaProofs2 LcaProofs3 RowsProofs CellArrayModel CellArrayProofs PropsLca PropsCellArray
  SubsetModel TreeProofs SubsetSpec SubsetProofs2 PropsSubset StencilModel NumberingProofs StencilProofs PropsStencil MeshModel MeshProofs PropsMesh
  NumModel NumProofs NumSpec PropsNum AdaptModel AdaptProofs TagProofs PropsAdapt GradModel GradProofs PropsGrad InterfaceModel InterfaceProofs PropsInterface
  TransferProofs PropsTransfer MrModel MrProofs PropsMr GeomModel GhostModel GhostProofs PropsGhost BcProofs HartenModel HartenProofs HartenProofs2 DetermProofs
  FluxModel BoundaryProofs PropsBoundary FluxProofs PropsFlux IterProofs FvModel FvProofs.
Open Scope Z_scope.

(** Leaves with a common face have levels that differ by one at most. *)
Definition graded_axes (n : nat) (cells : ca) : Prop :=
  forall l l' p q d s, ca_mem n cells l p -> ca_mem n cells l' q -> (l + 2 <= l')%nat -> (d <= n)%nat -> s = 1 \/ s = -1 ->
    ancestor (l' - l) (vadd n q (unit_mult n d s)) <> p.

Lemma unit_range : forall n d s k, s = 1 \/ s = -1 -> (k <= n)%nat -> -1 <= nth k (unit_mult n d s) 0 <= 1.
Proof. intros n d s k Hs Hk. rewrite nth_unit by auto. destruct (Nat.eqb k d); lia. Qed.
Lemma unit_back : forall n d s p, length p = S n -> vadd n (vadd n p (unit_mult n d s)) (unit_mult n d (- s)) = p.
Proof.
  intros n d s p Lp. apply (list_ext n); [apply vadd_length|auto|]. intros k Hk. rewrite !nth_vadd, !nth_unit by auto. destruct (Nat.eqb k d); lia.
Qed.
Lemma inside_dec : forall n lo hi l p, inside n lo hi l p \/ ~ inside n lo hi l p.
Proof.
  intros n lo hi l p. destruct (insideb n lo hi l p) eqn:E; [left; apply insideb_iff; auto|right; intros H; apply insideb_iff in H; congruence].
Qed.

Lemma nested_NoDup : forall k a b, NoDup (nested_loop k a b).
Proof.
  intros k a b. pose proof (nested_loop_sorted k a b) as H. induction H as [|x xs H IH F]; constructor; auto. intros Hx. rewrite Forall_forall in F. apply (IterProofs.lex_lt_irrefl x). auto.
Qed.

Section Sides.
  Variables (n minl maxl : nat) (cells : ca) (lo hi : list Z).
  Hypothesis HT : tiles n cells lo hi.
  Hypothesis HR : forall l q, ca_mem n cells l q -> (minl <= l <= maxl)%nat.
  Hypothesis HG : graded_axes n cells.
  Variables (d : nat) (s : Z).
  Hypothesis Hd : (d <= n)%nat.
  Hypothesis Hs : s = 1 \/ s = -1.
  Notation leaf := (ca_mem n cells).

  Definition no_neighbour (l : nat) (p : list Z) : Prop :=
    ~ inside n lo hi l (vadd n p (unit_mult n d s)) /\ forall l2 p2, leaf l2 p2 -> ~ touches n d s l p l2 p2.
  Definition one_neighbour (l : nat) (p : list Z) (l2 : nat) (p2 : list Z) : Prop :=
    leaf l2 p2 /\ (l2 <= l)%nat /\ touches n d s l p l2 p2 /\ forall l3 p3, leaf l3 p3 -> touches n d s l p l3 p3 -> (l3, p3) = (l2, p2).
  Definition finer_neighbours (l : nat) (p : list Z) : Prop :=
    (forall z, In z (face_kids n d s p) -> leaf (S l) z /\ touches n d s l p (S l) z) /\
    forall l3 p3, leaf l3 p3 -> touches n d s l p l3 p3 -> l3 = S l /\ In p3 (face_kids n d s p).

  Lemma face_kid_length : forall p z, In z (face_kids n d s p) -> length z = S n.
  Proof using. clear. intros p z Hz. unfold face_kids in Hz. apply cart_In in Hz. rewrite (Forall2_len _ _ _ _ _ Hz). unfold face_choices. rewrite map_length, seq_length. reflexivity. Qed.

  Lemma touches_coarse : forall l p l2 p2, leaf l p -> leaf l2 p2 -> (l2 <= l)%nat -> touches n d s l p l2 p2 -> ancestor (l - l2) (vadd n p (unit_mult n d s)) = p2.
  Proof using Hd Hs. clear HT HR HG.
    intros l p l2 p2 Hp H2 Hl T. apply touches_sym in T; [|auto]. apply touches_fine in T as [T _]; auto; [| |apply H2|apply Hp]; [|lia]. rewrite Z.opp_involutive in T. exact T.
  Qed.

  Lemma side_cases : forall l p, leaf l p -> no_neighbour l p \/ (exists l2 p2, one_neighbour l p l2 p2) \/ finer_neighbours l p.
  Proof.
    intros l p Hp. assert (Lp : length p = S n) by apply Hp. set (q := vadd n p (unit_mult n d s)). assert (Lq : length q = S n) by apply vadd_length.
    assert (Hs' : - s = 1 \/ - s = -1) by lia. assert (QB : vadd n q (unit_mult n d (- s)) = p) by (apply unit_back; auto).
    pose proof HT as (HO & HI & HCv).
    assert (FINE : forall l2 p2, leaf l2 p2 -> (l <= l2)%nat -> touches n d s l p l2 p2 ->
      ancestor (l2 - l) (vadd n p2 (unit_mult n d (- s))) = p /\ ancestor (l2 - l) p2 = q).
    { intros l2 p2 H2 Hl T. apply touches_fine in T; auto. apply H2. }
    destruct (inside_dec n lo hi l q) as [Iq|Nq].
    - right. destruct (trichotomy n minl maxl cells lo hi HT HR l q Iq) as [(l0 & Hl0 & H0)|SP].
      + left. exists l0, (ancestor (l - l0) q). split; auto. split; auto.
        assert (T0 : touches n d s l p l0 (ancestor (l - l0) q)).
        { apply (proj2 (touches_sym n d s l p l0 _ Hs)). apply (proj2 (touches_fine n d (- s) l0 (ancestor (l - l0) q) l p Hd Hs' Hl0 (eq_trans (ancestor_length _ _) Lq) Lp)).
          rewrite Z.opp_involutive. fold q. split; auto.
          assert (NE : ancestor (l - l0) q <> ancestor (l - l0) p).
          { intros E. assert (l0 = l). { apply (HO l0 l _ _ H0 Hp); auto. } subst l0. rewrite Nat.sub_diag, !ancestor_0 in E.
            assert (E2 : nth d q 0 = nth d p 0) by congruence. unfold q in E2. rewrite nth_vadd, nth_unit, Nat.eqb_refl in E2 by auto. lia. }
          apply (list_ext n); [rewrite ancestor_length; auto|apply vadd_length|]. intros k Hk. rewrite nth_vadd, !nth_ancestor, nth_unit by auto.
          assert (OTH : forall j, (j <= n)%nat -> j <> d -> nth j q 0 = nth j p 0).
          { intros j Hj Hjd. unfold q. rewrite nth_vadd, nth_unit by auto. destruct (Nat.eqb_spec j d); [contradiction|lia]. }
          assert (QD : nth d q 0 = nth d p 0 + s) by (unfold q; rewrite nth_vadd, nth_unit, Nat.eqb_refl by auto; lia).
          destruct (Nat.eqb_spec k d) as [->|Hkd]; [|rewrite OTH by auto; lia].
          assert (P : 0 < 2 ^ Z.of_nat (l - l0)) by (apply Z.pow_pos_nonneg; lia).
          assert (ND : nth d q 0 / 2 ^ Z.of_nat (l - l0) <> nth d p 0 / 2 ^ Z.of_nat (l - l0)).
          { intros E. apply NE. apply (list_ext n); [rewrite ancestor_length; auto|rewrite ancestor_length; auto|]. intros j Hj. rewrite !nth_ancestor.
            destruct (Nat.eq_dec j d) as [->|Hjd]; auto. rewrite OTH; auto. }
          rewrite QD in *. set (a := nth d p 0) in *. set (b := 2 ^ Z.of_nat (l - l0)) in *. clearbody a b. clear -P ND Hs. destruct Hs as [->| ->].
          - assert (a / b <= (a + 1) / b) by (apply Z.div_le_mono; lia). assert ((a + 1) / b <= a / b + 1) by (apply Z.div_le_upper_bound; auto; pose proof (Z.mul_succ_div_gt a b P); nia). lia.
          - assert ((a + -1) / b <= a / b) by (apply Z.div_le_mono; lia). assert (a / b <= (a + -1) / b + 1) by (apply Z.div_le_upper_bound; auto; pose proof (Z.mul_succ_div_gt (a + -1) b P); nia). lia. }
        split; auto. intros l3 p3 H3 T3. destruct (Nat.le_gt_cases l3 l) as [C3|C3].
        * pose proof (touches_coarse l p l3 p3 Hp H3 C3 T3) as Q3. fold q in Q3. destruct (Nat.le_ge_cases l0 l3) as [C|C].
          -- assert (E : l0 = l3). { apply (HO l0 l3 _ p3 H0 H3 C). rewrite <- Q3, ancestor_add. f_equal. lia. } subst l3. congruence.
          -- assert (E : l3 = l0). { apply (HO l3 l0 p3 _ H3 H0 C). rewrite <- Q3, ancestor_add. f_equal. lia. } subst l3. congruence.
        * destruct (FINE l3 p3 H3 ltac:(lia) T3) as [_ Q3]. exfalso. assert (E : l0 = l3); [|lia]. apply (HO l0 l3 _ p3 H0 H3); [lia|]. rewrite <- Q3, ancestor_add. f_equal. lia.
      + right.
        assert (KID : forall z, In z (face_kids n d s p) -> leaf (S l) z /\ touches n d s l p (S l) z).
        { intros z Hz. pose proof (face_kid_length p z Hz) as Lz. apply (face_kids_In n d s l) in Hz; auto. split; auto.
          apply touches_fine in Hz as [Bz Qz]; auto. fold q in Qz. replace (S l - l)%nat with 1%nat in * by lia.
          destruct (child_split n minl maxl cells lo hi HT HR l z) as [H|SZ]; [rewrite Qz; auto|auto|auto|]. exfalso.
          destruct (side_leaf n minl maxl cells lo hi HT HR (S l) z (unit_mult n d (- s)) SZ) as (l1 & y & Hl1 & Hy & Ay & By); [intros; apply unit_range; auto|].
          apply (HG l l1 p y d (- s)); auto; try lia. replace (l1 - l)%nat with (1 + (l1 - S l))%nat by lia. rewrite <- ancestor_add, By. exact Bz. }
        split; auto. intros l3 p3 H3 T3. destruct (Nat.le_gt_cases l3 l) as [C3|C3].
        * pose proof (touches_coarse l p l3 p3 Hp H3 C3 T3) as Q3. fold q in Q3. exfalso. apply (above_not_split n cells lo hi HT l l3 q); auto. rewrite Q3. auto.
        * destruct (FINE l3 p3 H3 ltac:(lia) T3) as [B3 Q3]. assert (l3 = S l).
          { destruct (Nat.eq_dec l3 (S l)) as [->|Ne]; auto. exfalso. apply (HG l l3 p p3 d (- s)); auto; lia. }
          subst l3. split; auto. apply (face_kids_In n d s l); auto. apply H3.
    - left. split; auto. intros l2 p2 H2 T. apply Nq. destruct (Nat.le_gt_cases l2 l) as [C|C].
      + pose proof (touches_coarse l p l2 p2 Hp H2 C T) as Q2. fold q in Q2. apply HI in H2. rewrite <- Q2 in H2.
        replace l with (l2 + (l - l2))%nat by lia. apply inside_ancestor. auto.
      + destruct (FINE l2 p2 H2 ltac:(lia) T) as [_ Q2]. apply HI in H2. replace l2 with (l + (l2 - l))%nat in H2 by lia. apply inside_ancestor in H2.
        replace (l + (l2 - l) - l)%nat with (l2 - l)%nat in * by lia. rewrite Q2 in H2. apply H2.
  Qed.

  Lemma one_level : forall l p l2 p2, leaf l p -> one_neighbour l p l2 p2 -> l2 = l \/ S l2 = l.
  Proof using HG Hd Hs. clear HT HR.
    intros l p l2 p2 Hp (H2 & Hl & T & _). pose proof (touches_coarse l p l2 p2 Hp H2 Hl T) as Q2.
    destruct (Nat.eq_dec l2 l); auto. destruct (Nat.eq_dec (S l2) l); auto. exfalso. apply (HG l2 l p2 p d s); auto; lia.
  Qed.

  (** The sum over the leaves on this side. *)
  Variable cs : list (nat * list Z).
  Hypothesis HN : NoDup cs.
  Hypothesis HE : forall l p, In (l, p) cs <-> leaf l p.

  Lemma side_sum_none : forall l p g, no_neighbour l p -> (sum_over (fun c2 => if touchesb n d s (l, p) c2 then g c2 else 0) cs == 0)%Q.
  Proof using HE. clear HT HR HG HN Hs Hd.
    intros l p g [_ H]. apply sum_zero. intros [l2 p2] H2. destruct (touchesb n d s (l, p) (l2, p2)) eqn:E; [|reflexivity].
    exfalso. apply touchesb_spec in E. apply HE in H2. apply (H l2 p2); auto.
  Qed.
  Lemma side_sum_one : forall l p l2 p2 g, one_neighbour l p l2 p2 -> (sum_over (fun c2 => if touchesb n d s (l, p) c2 then g c2 else 0) cs == g (l2, p2))%Q.
  Proof using HE HN. clear HT HR HG Hs Hd.
    intros l p l2 p2 g (H2 & _ & T & U). rewrite (sum_ext _ _ (fun c2 => if cell_eqb c2 (l2, p2) then g c2 else 0%Q)).
    - apply (sum_pick _ cell_eqb g cs (l2, p2) cell_eqb_spec HN). apply HE. auto.
    - intros [l3 p3] H3. apply HE in H3. unfold cell_eqb. destruct (cell_dec (l3, p3) (l2, p2)) as [E|Ne].
      + injection E as -> ->. apply touchesb_spec in T. rewrite T. reflexivity.
      + destruct (touchesb n d s (l, p) (l3, p3)) eqn:E; [|reflexivity]. exfalso. apply touchesb_spec in E. apply Ne. apply U; auto.
  Qed.
  Lemma side_sum_finer : forall l p g, finer_neighbours l p ->
    (sum_over (fun c2 => if touchesb n d s (l, p) c2 then g c2 else 0) cs == sum_over (fun z => g (S l, z)) (face_kids n d s p))%Q.
  Proof using HE HN. clear HT HR HG Hs Hd.
    intros l p g [H1 H2]. rewrite <- sum_filter.
    assert (P : Permutation (filter (touchesb n d s (l, p)) cs) (map (pair (S l)) (face_kids n d s p))).
    { apply NoDup_Permutation; [apply NoDup_filter; auto|apply NoDup_map_in; [apply face_kids_NoDup|intros; congruence]|].
      intros [l3 p3]. rewrite filter_In, touchesb_spec, HE, in_map_iff. split.
      - intros [H3 T3]. destruct (H2 l3 p3 H3 T3) as [-> Hz]. exists p3. auto.
      - intros (z & E & Hz). injection E as <- <-. apply H1. auto. }
    rewrite (sum_perm _ _ _ _ P), sum_map. reflexivity.
  Qed.
End Sides.

(** The children along a face and the cells beyond it. *)
Lemma side_children_In : forall n d s p z, (d <= n)%nat -> s = 1 \/ s = -1 -> length p = S n ->
  (In z (side_children n d s p) <-> length z = S n /\ ancestor 1 z = p /\ In (vadd n z (unit_mult n d s)) (face_kids n d s p)).
Proof.
  intros n d s p z Hd Hs Lp. unfold side_children. rewrite in_map_iff.
  assert (KID : forall o : list Z, length o = S n -> (forall k, (k <= n)%nat -> nth k o 0 = 0 \/ nth k o 0 = 1) ->
    length (add_vec (map (Z.mul 2) p) o) = S n /\ ancestor 1 (add_vec (map (Z.mul 2) p) o) = p /\ forall k, (k <= n)%nat -> nth k (add_vec (map (Z.mul 2) p) o) 0 = 2 * nth k p 0 + nth k o 0).
  { intros o Lo Ho. assert (N : forall k, (k <= n)%nat -> nth k (add_vec (map (Z.mul 2) p) o) 0 = 2 * nth k p 0 + nth k o 0).
    { intros k Hk. rewrite nth_add_vec by (rewrite map_length; lia). f_equal. change 0 with (2 * 0) at 1. apply (map_nth (Z.mul 2)). }
    assert (L : length (add_vec (map (Z.mul 2) p) o) = S n) by (rewrite add_vec_length; rewrite map_length; lia).
    split; auto. split; auto. apply (list_ext n); [rewrite ancestor_length; auto|auto|]. intros k Hk. rewrite nth_ancestor, N by auto. change (2 ^ Z.of_nat 1) with 2. destruct (Ho k Hk); lia. }
  split.
  - intros (o & <- & Ho). apply filter_In in Ho as [Ho Ed]. apply nested_loop_In in Ho as [Lo Fo]. apply Z.eqb_eq in Ed.
    assert (R : forall k, (k <= n)%nat -> nth k o 0 = 0 \/ nth k o 0 = 1). { intros k Hk. rewrite Forall_forall in Fo. assert (I : In (nth k o 0) o) by (apply nth_In; lia). specialize (Fo _ I). lia. }
    destruct (KID o Lo R) as (L & A & N). split; auto. split; auto. apply (face_kids_In n d s 0); auto; [apply vadd_length|]. apply touches_fine; auto; [apply vadd_length|].
    replace (1 - 0)%nat with 1%nat by lia. rewrite unit_back by auto. split; auto.
    apply (list_ext n); [rewrite ancestor_length; apply vadd_length|apply vadd_length|]. intros k Hk. rewrite nth_ancestor, !nth_vadd, N, !nth_unit by auto. change (2 ^ Z.of_nat 1) with 2.
    destruct (Nat.eqb_spec k d) as [->|Hkd]; [|destruct (R k Hk); lia]. rewrite Ed. destruct Hs as [->| ->]; cbn [Z.eqb Pos.eqb]; lia.
  - intros (Lz & Az & Hz). apply (face_kids_In n d s 0) in Hz; auto; [|apply vadd_length]. apply touches_fine in Hz as [_ Hz]; auto; [|apply vadd_length].
    replace (1 - 0)%nat with 1%nat in Hz by lia. set (o := vadd n z (map (fun x => - (2 * x)) p)).
    assert (N : forall k, (k <= n)%nat -> nth k o 0 = nth k z 0 - 2 * nth k p 0).
    { intros k Hk. unfold o. rewrite nth_vadd by auto. pose proof (map_nth (fun x => - (2 * x)) p 0 k) as M. cbn beta in M. change (- (2 * 0)) with 0 in M. rewrite M. lia. }
    assert (R : forall k, (k <= n)%nat -> nth k o 0 = 0 \/ nth k o 0 = 1).
    { intros k Hk. rewrite N by auto. rewrite <- Az, nth_ancestor. change (2 ^ Z.of_nat 1) with 2. lia. }
    assert (Lo : length o = S n) by apply vadd_length. exists o. split.
    + apply (list_ext n); [apply (KID o Lo R)|auto|]. intros k Hk. destruct (KID o Lo R) as (_ & _ & K). rewrite K, N by auto. lia.
    + apply filter_In. split.
      * apply nested_loop_In. split; auto. apply Forall_forall. intros x Hx. apply (In_nth _ _ 0) in Hx as (k & Hk & <-). destruct (R k ltac:(lia)); lia.
      * apply Z.eqb_eq. rewrite N by auto. assert (E : nth d (ancestor 1 (vadd n z (unit_mult n d s))) 0 = nth d (vadd n p (unit_mult n d s)) 0) by congruence.
        rewrite nth_ancestor, !nth_vadd, nth_unit, Nat.eqb_refl in E by auto. change (2 ^ Z.of_nat 1) with 2 in E.
        pose proof (R d Hd) as RD. rewrite N in RD by auto. destruct Hs as [->| ->]; cbn [Z.eqb Pos.eqb]; lia.
Qed.

Lemma side_children_perm : forall n d s p, (d <= n)%nat -> s = 1 \/ s = -1 -> length p = S n ->
  Permutation (map (fun z => vadd n z (unit_mult n d s)) (side_children n d s p)) (face_kids n d s p).
Proof.
  intros n d s p Hd Hs Lp.
  assert (INJ : forall a b, length a = S n -> length b = S n -> vadd n a (unit_mult n d s) = vadd n b (unit_mult n d s) -> a = b).
  { intros a b La Lb E. rewrite <- (unit_back n d s a La), <- (unit_back n d s b Lb), E. auto. }
  apply NoDup_Permutation.
  - apply NoDup_map_in.
    + unfold side_children. apply NoDup_map_in; [apply NoDup_filter; apply nested_NoDup|]. intros a b Ha Hb E.
      apply filter_In in Ha as [Ha _], Hb as [Hb _]. apply nested_loop_In in Ha as [La _], Hb as [Lb _].
      apply (list_ext n); auto. intros k Hk. assert (E' : nth k (add_vec (map (Z.mul 2) p) a) 0 = nth k (add_vec (map (Z.mul 2) p) b) 0) by congruence.
      rewrite !nth_add_vec in E' by (rewrite map_length; lia). lia.
    + intros a b Ha Hb. apply side_children_In in Ha as (La & _), Hb as (Lb & _); auto.
  - apply face_kids_NoDup.
  - intros z. rewrite in_map_iff. split.
    + intros (a & <- & Ha). apply side_children_In in Ha; auto. apply Ha.
    + intros Hz. pose proof (face_kid_length n d s p z Hz) as Lz. exists (vadd n z (unit_mult n d (- s))).
      assert (B : vadd n (vadd n z (unit_mult n d (- s))) (unit_mult n d s) = z). { rewrite <- (Z.opp_involutive s) at 2. apply unit_back. auto. }
      split; auto. apply side_children_In; auto. split; [apply vadd_length|]. rewrite B. split; auto.
      apply (face_kids_In n d s 0) in Hz; auto. apply touches_fine in Hz as [Hz _]; auto.
Qed.
