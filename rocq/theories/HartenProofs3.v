(** The tags at the end of the graduation: which leaves have refine, which have keep. *)
From Coq Require Import QArith.
From Verif Require Import Base IntervalModel Spec IntervalProofs LoiModel LcaModel LcaSpec LcaProofs RowsProofs CellArrayModel CellArrayProofs PropsLca PropsCellArray
  SubsetModel TreeProofs SubsetSpec SubsetProofs2 PropsSubset StencilModel NumberingProofs StencilProofs PropsStencil MeshModel MeshProofs
  NumModel NumProofs NumSpec PropsNum AdaptModel AdaptProofs TagProofs PropsAdapt TransferProofs PropsTransfer MrModel MrProofs PropsMr
  GhostModel GhostProofs PropsGhost BcProofs HartenModel HartenProofs HartenProofs2.
Open Scope Z_scope.

Notation Re t l p := (Z.testbit (tg t l p) 2 = true).

(** What the graduation assumes about the tags of the leaves: keep, or coarsen above the
    minimum level; a leaf to refine has keep and is below the maximum level. *)
Definition marked (n minl maxl : nat) (cells : ca) (t : tfield) : Prop :=
  forall l q, ca_mem n cells l q -> (K t l q \/ ((minl < l)%nat /\ Co t l q)) /\ (Re t l q -> K t l q /\ (l < maxl)%nat).

Lemma bit_eq : forall a b : bool, (a = true -> b = true) -> (b = true -> a = true) -> a = b.
Proof. intros [] [] H1 H2; auto. symmetry. auto. Qed.

(** maximum with and without the checks *)
Lemma maximum_tags_level : forall n reference cells t t' l, maximum_tags n reference cells t l = Some t' -> maximum_level n cells reference t l = Some t'.
Proof.
  intros n reference cells t t' l. unfold maximum_tags, maximum_level, apply_tags. destruct (subset_calls _ _) as [calls|]; [|discriminate].
  unfold maximum_calls. revert t. induction calls as [|[i yz] calls IH]; intros t; cbn [fold_calls fold_left]; auto.
  destruct (forallb _ _ && forallb _ _); cbn [checked]; [apply IH|discriminate].
Qed.
Lemma final_maximum_pass : forall n maxl cells reference t t', final_maximum n maxl cells reference t = Some t' -> final_pass n maxl cells reference t = Some t'.
Proof.
  intros n maxl cells reference t t'. unfold final_maximum, final_pass. generalize (rev (seq 1 maxl)). intros ls. revert t. induction ls as [|l ls IH]; intros t; cbn [fold_tags maximum_levels]; auto.
  destruct (maximum_tags n reference cells t l) as [t1|] eqn:E; [|discriminate]. apply maximum_tags_level in E. rewrite E. auto.
Qed.

(** The leaves to refine: those asked for; those with a child position that has keep and a
    leaf of the size of a child diagonally next to it; those touching a leaf to refine one level finer. *)
Inductive refines (n : nat) (cells : ca) (t : tfield) : nat -> list Z -> Prop :=
  | refines_asked l q : ca_mem n cells l q -> Re t l q -> refines n cells t l q
  | refines_kept l q p y : ca_mem n cells l q -> length p = S n -> ancestor 1 p = q -> K t (S l) p ->
      ca_mem n cells (S l) y -> (forall k, (k <= n)%nat -> Z.abs (nth k p 0 - nth k y 0) = 1) -> refines n cells t l q
  | refines_touched l q p y : ca_mem n cells l q -> length p = S n -> ancestor 1 p = q -> near n 1 p y -> refines n cells t (S l) y -> refines n cells t l q.

Lemma refines_inv : forall n cells t l q, refines n cells t l q -> ca_mem n cells l q /\ (Re t l q \/
  (exists p y, length p = S n /\ ancestor 1 p = q /\ K t (S l) p /\ ca_mem n cells (S l) y /\ forall k, (k <= n)%nat -> Z.abs (nth k p 0 - nth k y 0) = 1) \/
  (exists p y, length p = S n /\ ancestor 1 p = q /\ near n 1 p y /\ refines n cells t (S l) y)).
Proof. intros n cells t l q H. inversion_clear H; (split; [auto|]); [left; auto|right; left; exists p, y; auto|right; right; exists p, y; auto]. Qed.

(** The leaves to coarsen: all the siblings are leaves without keep, no finer leaf is in a
    neighbour of a sibling, no leaf to refine is next to a sibling. *)
Definition coarsens (n minl : nat) (cells : ca) (t : tfield) (l : nat) (q : list Z) : Prop :=
  (minl < l)%nat /\ ca_mem n cells l q /\ forall q', length q' = S n -> ancestor 1 q' = ancestor 1 q ->
    ca_mem n cells l q' /\ ~ K t l q' /\ (forall y, ca_mem n cells (S l) y -> ~ near n 1 (ancestor 1 y) q') /\
    (forall y, near n 1 y q' -> ~ refines n cells t l y).

Section Graduate.
  Variables (n m minl maxl : nat) (w : Z) (s : nat) (cells : ca) (lo hi : list Z) (r : mr_mesh) (domain : lca).
  Hypothesis HI : ghost_input n m minl maxl w s cells lo hi.
  Hypothesis HR : update_sub_mesh n m minl maxl w (Z.of_nat s) cells = Some r.
  Hypothesis HB : is_box n maxl lo hi domain.
  Variables (t t' : tfield) (A B : nat -> tfield).
  Hypothesis HM : marked n minl maxl cells t.
  Hypothesis HF : final_maximum n maxl cells (r_all r) (B minl) = Some t'.
  Hypothesis HA1 : A maxl = t.
  Hypothesis HA : forall l, (l < maxl)%nat -> coarse_spread n cells r l (A (S l)) (A l).
  Hypothesis HB1 : B maxl = A 0%nat.
  Hypothesis HB2 : forall l, (minl <= l < maxl)%nat -> refine_spread n cells lo hi r l (B (S l)) (B l).

  Notation leaf := (ca_mem n cells).
  Notation ref := (ca_mem n (r_all r)).
  Notation hasl := (has_leaf n cells).

  Lemma split_has_leaf : forall l p q, leaf l q -> split_at n cells l p -> near n 1 p q -> hasl l p.
  Proof.
    intros l p q Hq Hp N. set (v := add_vec q (opposite p)).
    assert (Lp : length p = S n) by (destruct Hp as (l' & c & _ & Hc & ->); rewrite ancestor_length; apply Hc).
    assert (Lq : length q = S n) by apply Hq. pose proof (opposite_length p) as Lo.
    assert (Hv : forall k, (k <= n)%nat -> -1 <= nth k v 0 <= 1) by (intros k Hk; unfold v; rewrite nth_add_vec, nth_opposite by lia; specialize (N k Hk); lia).
    destruct (side_leaf n minl maxl cells lo hi (hm_tiles _ _ _ _ _ _ _ _ _ HI) (hm_range _ _ _ _ _ _ _ _ _ HI) l p v Hp Hv) as (l1 & y & H1 & Hy & E1 & E2).
    destruct (Nat.eq_dec l1 (S l)) as [->|Hne].
    - exists y. split; auto. replace (S l - l)%nat with 1%nat in E1 by lia. auto.
    - exfalso. apply (hm_graded _ _ _ _ _ _ _ _ _ HI l l1 q y v); auto; [lia|]. rewrite E2. apply (list_ext n); [apply vadd_length|auto|].
      intros k Hk. rewrite nth_vadd by auto. unfold v. rewrite nth_add_vec, nth_opposite by lia. lia.
  Qed.

  Lemma family_near : forall p q, ancestor 1 p = ancestor 1 q -> near n 1 p q.
  Proof.
    intros p q E k Hk. apply (f_equal (fun z => nth k z 0)) in E. rewrite !nth_ancestor in E. change (2 ^ Z.of_nat 1) with 2 in E. lia.
  Qed.
  Lemma sibling : forall l q q', leaf (S l) q -> length q' = S n -> ancestor 1 q' = ancestor 1 q -> leaf (S l) q' \/ hasl (S l) q'.
  Proof.
    intros l q q' Hq Lq E.
    destruct (child_split n minl maxl cells lo hi (hm_tiles _ _ _ _ _ _ _ _ _ HI) (hm_range _ _ _ _ _ _ _ _ _ HI) l q') as [H|H]; auto.
    - rewrite E. exists (S l), q. split; [lia|]. split; auto. f_equal. lia.
    - right. apply (split_has_leaf _ _ q); auto. apply family_near. auto.
  Qed.

  (** *** The coarsening graduation *)
  Definition pre_keep (l : nat) (p : list Z) : Prop := K t l p \/ hasl l p \/ beside_leaves n cells r l p.

  Lemma A_low : forall j l p, (j <= maxl)%nat -> (l < j)%nat -> length p = S n -> tg (A j) l p = tg t l p.
  Proof.
    assert (G : forall c j l p, (j + c = maxl)%nat -> (l < j)%nat -> length p = S n -> tg (A j) l p = tg t l p).
    { induction c as [|c IH]; intros j l p Hj Hl Lp; [replace j with maxl by lia; rewrite HA1; auto|].
      destruct (HA j ltac:(lia)) as (t1 & (P1 & _) & G & _). rewrite <- (IH (S j) l p ltac:(lia) ltac:(lia) Lp). rewrite <- (P1 l p Lp) by lia.
      apply Z.bits_inj'. intros b Hb. destruct (G l p b Lp Hb) as [G1 G2].
      apply bit_eq; auto. intros Y. destruct (G2 Y) as [X|(X & _)]; auto; lia. }
    intros j l p Hj. apply (G (maxl - j)%nat). lia.
  Qed.
  Lemma A_high : forall j l p, (S j < l)%nat -> (j <= maxl)%nat -> (l <= maxl)%nat -> length p = S n -> tg (A j) l p = tg (A (Nat.pred l)) l p.
  Proof.
    assert (G : forall c j l p, (j + c = Nat.pred l)%nat -> (l <= maxl)%nat -> (1 <= l)%nat -> length p = S n -> tg (A j) l p = tg (A (Nat.pred l)) l p).
    { induction c as [|c IH]; intros j l p Hj Hl H1 Lp; [replace j with (Nat.pred l) by lia; auto|].
      destruct (HA j ltac:(lia)) as (t1 & (P1 & _) & G & _). rewrite <- (IH (S j) l p ltac:(lia) Hl H1 Lp). rewrite <- (P1 l p Lp) by lia.
      apply Z.bits_inj'. intros b Hb. destruct (G l p b Lp Hb) as [G1 G2].
      apply bit_eq; auto. intros Y. destruct (G2 Y) as [X|(X & _)]; auto; lia. }
    intros j l p Hl Hj Hm Lp. apply (G (Nat.pred l - j)%nat); auto; lia.
  Qed.
  Lemma bits_same : forall b p l t0 t1, tg t0 l p = tg t1 l p -> Z.testbit (tg t0 l p) b = Z.testbit (tg t1 l p) b.
  Proof. intros b p l t0 t1 E. rewrite E. auto. Qed.

  Lemma leaf_none : forall l q, (maxl < l)%nat -> ~ leaf l q.
  Proof. intros l q Hl Hq. apply (hm_range _ _ _ _ _ _ _ _ _ HI) in Hq. lia. Qed.

  (** After the loop on level [l + 1], on level [l]. *)
  Lemma A_here : forall l p, (l <= maxl)%nat -> length p = S n ->
    (K (A l) l p <-> pre_keep l p) /\ (Co (A l) l p <-> Co t l p) /\ (forall b, 2 <= b -> Z.testbit (tg (A l) l p) b = Z.testbit (tg t l p) b).
  Proof.
    assert (G : forall c l p, (l + c = maxl)%nat -> length p = S n ->
      (K (A l) l p <-> pre_keep l p) /\ (Co (A l) l p <-> Co t l p) /\ (forall b, 2 <= b -> Z.testbit (tg (A l) l p) b = Z.testbit (tg t l p) b)).
    2: { intros l p Hl. apply (G (maxl - l)%nat). lia. }
    induction c as [|c IH]; intros l p Hl Lp.
    - replace l with maxl in * by lia. rewrite HA1. split; [|tauto]. unfold pre_keep. split; auto. intros [H|[(q & Hq & _)|(_ & d & _ & q & Hq & _)]]; auto; exfalso; apply (leaf_none (S maxl) q); auto; lia.
    - destruct (HA l ltac:(lia)) as (t1 & P & G & LB). destruct P as (P1 & P2 & P3 & P4 & P5 & P6 & P7 & P8 & P9).
      assert (EL : forall p, length p = S n -> tg (A (S l)) l p = tg t l p) by (intros; apply A_low; auto; lia).
      (* parents of leaves have keep *)
      assert (HK : forall p, hasl l p -> K t1 l p).
      { intros p0 H0. pose proof (has_leaf_length n cells l p0 H0) as L0. pose proof H0 as (q & Hq & Eq). apply P7; auto.
        assert (D : (exists q, length q = S n /\ ancestor 1 q = p0 /\ K (A (S l)) (S l) q) \/ (forall q, length q = S n -> ancestor 1 q = p0 -> ~ K (A (S l)) (S l) q)).
        { assert (X : K t1 (S l) q \/ ~ K t1 (S l) q) by (unfold K; destruct (Z.testbit (tg t1 (S l) q) 0); auto).
          assert (Cq : hasl l (ancestor 1 q)) by (rewrite Eq; auto). pose proof (proj1 (P5 q (proj1 (proj2 Hq)) Cq)) as Y. rewrite Eq in Y.
          destruct X as [X|X]; [left; apply Y; auto|]. right. intros q0 Lq0 Eq0 Hk. apply X, Y. eauto. }
        destruct D as [D|D]; [right; left; auto|]. right. right. intros c0 Lc Ec.
        destruct (sibling l q c0 Hq Lc ltac:(congruence)) as [Hc|Hc].
        - destruct (IH (S l) c0 ltac:(lia) Lc) as (I1 & I2 & _). apply I2. destruct (HM _ _ Hc) as [[X|[_ X]] _]; auto. exfalso. apply (D c0 Lc Ec). apply I1. left. auto.
        - exfalso. apply (D c0 Lc Ec). apply IH; auto; [lia|]. right. left. auto. }
      split; [|split].
      + unfold pre_keep. split.
        * intros X. destruct (G l p 0 Lp ltac:(lia)) as [_ G2]. apply G2 in X as [X|(_ & _ & X)]; auto.
          destruct (P9 p Lp) as [Y|Y]; auto. left. unfold K in *. rewrite (P2 p Lp Y), EL in X by auto. auto.
        * intros [X|[X|(X & d & Hd & Y)]].
          -- apply (G l p 0 Lp ltac:(lia)). apply P8; auto. unfold K. rewrite EL; auto.
          -- apply (G l p 0 Lp ltac:(lia)). apply HK. auto.
          -- apply (LB p d); auto.
      + assert (X : Co (A l) l p <-> Co t1 l p) by (unfold Co; destruct (G l p 1 Lp ltac:(lia)) as [G1 G2]; split; auto; intros Y; apply G2 in Y as [Y|(_ & Y & _)]; [auto|lia]).
        rewrite X, P6 by auto. unfold Co. rewrite EL by auto. tauto.
      + intros b Hb. rewrite <- EL by auto. rewrite <- P4 by (auto; lia). destruct (G l p b Lp ltac:(lia)) as [G1 G2].
        apply bit_eq; auto. intros Y. destruct (G2 Y) as [X|(_ & X & _)]; auto; lia.
  Qed.

  (** At the end of the coarsening graduation. *)
  Lemma A_end : forall l p, (l <= maxl)%nat -> length p = S n ->
    (forall b, 2 <= b -> Z.testbit (tg (A 0%nat) l p) b = Z.testbit (tg t l p) b) /\
    ((1 <= l)%nat -> hasl (Nat.pred l) (ancestor 1 p) ->
       (K (A 0%nat) l p <-> exists q, length q = S n /\ ancestor 1 q = ancestor 1 p /\ pre_keep l q) /\
       (Co (A 0%nat) l p <-> forall q, length q = S n -> ancestor 1 q = ancestor 1 p -> Co t l q)) /\
    ((l = 0%nat \/ ~ hasl (Nat.pred l) (ancestor 1 p)) -> (K (A 0%nat) l p <-> pre_keep l p) /\ (Co (A 0%nat) l p <-> Co t l p)).
  Proof.
    intros l p Hl Lp. destruct l as [|l].
    - destruct (A_here 0 p Hl Lp) as (H1 & H2 & H3). split; auto. split; [lia|auto].
    - cbn [Nat.pred]. destruct (HA l ltac:(lia)) as (t1 & P & G & LB). destruct P as (P1 & P2 & P3 & P4 & P5 & P6 & P7 & P8 & P9).
      assert (E : forall b, 0 <= b -> Z.testbit (tg (A 0%nat) (S l) p) b = Z.testbit (tg t1 (S l) p) b).
      { intros b Hb. replace (tg (A 0%nat) (S l) p) with (tg (A l) (S l) p).
        - destruct (G (S l) p b Lp Hb) as [G1 G2].
          apply bit_eq; auto. intros Y. destruct (G2 Y) as [X|(X & _)]; auto; lia.
        - destruct l; auto. symmetry. apply (A_high 0 (S (S l)) p); auto; lia. }
      assert (IH : forall q, length q = S n -> (K (A (S l)) (S l) q <-> pre_keep (S l) q) /\ (Co (A (S l)) (S l) q <-> Co t (S l) q) /\
        (forall b, 2 <= b -> Z.testbit (tg (A (S l)) (S l) q) b = Z.testbit (tg t (S l) q) b)) by (intros q Lq; apply A_here; auto; lia).
      split; [|split].
      + intros b Hb. rewrite E by lia. rewrite P4 by (auto; lia). apply IH; auto.
      + intros _ HC. destruct (P5 p Lp HC) as [Q1 Q2]. unfold K, Co in *. rewrite !E by lia. rewrite Q1, Q2. split; split.
        * intros (q & Lq & Eq & X). exists q. split; auto. split; auto. apply IH; auto.
        * intros (q & Lq & Eq & X). exists q. split; auto. split; auto. apply IH; auto.
        * intros X q Lq Eq. apply IH; auto.
        * intros X q Lq Eq. apply IH; auto.
      + intros [X|X]; [lia|]. unfold K, Co. rewrite !E by lia. rewrite P3 by auto. destruct (IH p Lp) as (I1 & I2 & _). auto.
  Qed.

  (** *** The refinement graduation *)
  Lemma B_step : forall l p b, (minl <= l < maxl)%nat -> length p = S n -> 0 <= b ->
    (Z.testbit (tg (B l) (S l) p) b = true <-> Z.testbit (tg (B (S l)) (S l) p) b = true \/ (b = 0 /\ beside_refined n cells (S l) (B (S l)) p)) /\
    (Z.testbit (tg (B l) l p) b = true <-> Z.testbit (tg (B (S l)) l p) b = true \/ (b = 2 /\ pulled n cells lo hi r l (B l) p)) /\
    (forall l', l' <> l -> l' <> S l -> Z.testbit (tg (B l) l' p) b = Z.testbit (tg (B (S l)) l' p) b).
  Proof.
    intros l p b Hl Lp Hb. destruct (HB2 l Hl) as (t1 & M1 & M2).
    assert (E : forall q, length q = S n -> (K (B l) (S l) q <-> K t1 (S l) q)).
    { intros q Lq. unfold K. rewrite (M2 (S l) q 0 Lq ltac:(lia)). split; auto. intros [X|(X & _)]; auto. lia. }
    assert (EP : pulled n cells lo hi r l t1 p <-> pulled n cells lo hi r l (B l) p).
    { split; intros (q & d & Lq & H1 & H2 & H3 & H4 & H5 & H6); exists q, d; (split; [auto|split; [auto|split; [auto|split; [auto|split; [auto|split; [apply E; auto|auto]]]]]]). }
    split; [|split].
    - rewrite (M2 (S l) p b Lp Hb), (M1 (S l) p b Lp Hb). intuition lia.
    - rewrite (M2 l p b Lp Hb), (M1 l p b Lp Hb), EP. intuition lia.
    - intros l' N1 N2. pose proof (M2 l' p b Lp Hb) as X2. pose proof (M1 l' p b Lp Hb) as X1.
      apply bit_eq.
      + intros X. apply X2 in X as [X|(X & _)]; [|lia]. apply X1 in X as [X|(X & _)]; [auto|lia].
      + intros X. apply X2. left. apply X1. auto.
  Qed.
  Lemma B_low : forall j l p b, (minl <= j <= maxl)%nat -> (l < j)%nat -> length p = S n -> 0 <= b -> Z.testbit (tg (B j) l p) b = Z.testbit (tg (A 0%nat) l p) b.
  Proof.
    assert (G : forall c j l p b, (j + c = maxl)%nat -> (minl <= j)%nat -> (l < j)%nat -> length p = S n -> 0 <= b -> Z.testbit (tg (B j) l p) b = Z.testbit (tg (A 0%nat) l p) b).
    { induction c as [|c IH]; intros j l p b Hj Hm Hl Lp Hb; [replace j with maxl by lia; rewrite HB1; auto|].
      rewrite <- (IH (S j)) by (auto; lia). apply B_step; auto; lia. }
    intros j l p b Hj. apply (G (maxl - j)%nat); lia.
  Qed.
  Lemma B_high : forall j l p b, (minl <= j)%nat -> (j < l)%nat -> (l <= maxl)%nat -> length p = S n -> 0 <= b ->
    Z.testbit (tg (B minl) l p) b = Z.testbit (tg (B (Nat.pred l)) l p) b.
  Proof.
    assert (G : forall c j l p b, (j + c = Nat.pred l)%nat -> (minl <= j)%nat -> (l <= maxl)%nat -> (1 <= l)%nat -> length p = S n -> 0 <= b ->
      Z.testbit (tg (B j) l p) b = Z.testbit (tg (B (Nat.pred l)) l p) b).
    { induction c as [|c IH]; intros j l p b Hj Hm Hl H1 Lp Hb; [replace j with (Nat.pred l) by lia; auto|].
      rewrite <- (IH (S j)) by (auto; lia). apply B_step; auto; lia. }
    intros j l p b Hj Hl Hm Lp Hb. apply (G (Nat.pred l - minl)%nat); auto; lia.
  Qed.
  (* on level l from loop l on, bit 2 no longer changes; on level l + 1 nothing *)
  Lemma B_refine : forall l p, (minl <= l <= maxl)%nat -> length p = S n -> (Re (B minl) l p <-> Re (B l) l p).
  Proof.
    intros l p Hl Lp. destruct (Nat.eq_dec l minl) as [->|Hne]; [tauto|]. rewrite (B_high minl l p 2) by (auto; lia).
    destruct l as [|l]; [lia|]. cbn [Nat.pred]. rewrite (proj1 (B_step l p 2 ltac:(lia) Lp ltac:(lia))). intuition lia.
  Qed.

  Lemma B_refined : forall l p, (minl <= l <= maxl)%nat -> (beside_refined n cells l (B l) p <-> beside_refined n cells l (B minl) p).
  Proof.
    intros l p Hl. split; intros (q & Hq & N & H); exists q; (split; [auto|]); (split; [auto|]); apply B_refine; auto; apply Hq.
  Qed.

  (** At the end of the refinement graduation: keep. *)
  Lemma B_keep : forall l p, (l <= maxl)%nat -> length p = S n ->
    (K (B minl) l p <-> K (A 0%nat) l p \/ ((minl < l)%nat /\ beside_refined n cells l (B minl) p)) /\ (Co (B minl) l p <-> Co (A 0%nat) l p).
  Proof.
    intros l p Hl Lp. assert (Hmm : (minl <= maxl)%nat) by (destruct (proj1 (proj2 (proj2 (proj2 (proj2 (proj2 (proj2 (proj2 HI)))))))) as (l0 & q & Hq); apply (hm_range _ _ _ _ _ _ _ _ _ HI) in Hq; lia).
    assert (E : forall b, 0 <= b -> b <> 2 -> (Z.testbit (tg (B l) l p) b = true <-> Z.testbit (tg (A 0%nat) l p) b = true) \/ (l < minl)%nat).
    { intros b Hb H2. destruct (Nat.lt_ge_cases l minl) as [H|H]; [right; auto|]. left. destruct (Nat.eq_dec l maxl) as [->|Hne]; [rewrite HB1; tauto|].
      rewrite (proj1 (proj2 (B_step l p b ltac:(lia) Lp Hb))), (B_low (S l)) by (auto; lia). intuition lia. }
    unfold K, Co. destruct (Nat.lt_ge_cases l minl) as [H|H]; [rewrite !(B_low minl) by (auto; lia); intuition lia|].
    destruct (Nat.eq_dec l minl) as [->|Hne].
    - destruct (E 0 ltac:(lia) ltac:(lia)) as [E0|]; [|lia]. destruct (E 1 ltac:(lia) ltac:(lia)) as [E1|]; [|lia]. rewrite E0, E1. intuition lia.
    - destruct l as [|l]; [lia|]. rewrite !(B_high minl (S l) p) by (auto; lia). cbn [Nat.pred].
      rewrite (proj1 (B_step l p 0 ltac:(lia) Lp ltac:(lia))), (proj1 (B_step l p 1 ltac:(lia) Lp ltac:(lia))), B_refined by (auto; lia).
      destruct (E 0 ltac:(lia) ltac:(lia)) as [E0|]; [|lia]. destruct (E 1 ltac:(lia) ltac:(lia)) as [E1|]; [|lia]. rewrite E0, E1. intuition lia.
  Qed.

  (** At the end of the refinement graduation: refine. *)
  Lemma B_pulled : forall l p, (l <= maxl)%nat -> length p = S n ->
    (Re (B minl) l p <-> Re t l p \/ ((minl <= l < maxl)%nat /\ pulled n cells lo hi r l (B minl) p)).
  Proof.
    intros l p Hl Lp. assert (Hmm : (minl <= maxl)%nat) by (destruct (proj1 (proj2 (proj2 (proj2 (proj2 (proj2 (proj2 (proj2 HI)))))))) as (l0 & q & Hq); apply (hm_range _ _ _ _ _ _ _ _ _ HI) in Hq; lia).
    assert (EA : Z.testbit (tg (A 0%nat) l p) 2 = Z.testbit (tg t l p) 2) by (apply (A_end l p Hl Lp); lia).
    destruct (Nat.lt_ge_cases l minl) as [H|H]; [rewrite (B_low minl), EA by (auto; lia); intuition lia|].
    rewrite B_refine by (auto; lia). destruct (Nat.eq_dec l maxl) as [->|Hne]; [rewrite HB1, EA; intuition lia|].
    rewrite (proj1 (proj2 (B_step l p 2 ltac:(lia) Lp ltac:(lia)))), (B_low (S l)), EA by (auto; lia).
    assert (X : pulled n cells lo hi r l (B l) p <-> pulled n cells lo hi r l (B minl) p); [|rewrite X; intuition lia].
    assert (EK : forall q, length q = S n -> (K (B l) (S l) q <-> K (B minl) (S l) q)).
    { intros q Lq. unfold K. rewrite (B_high minl (S l)) by (auto; lia). cbn [Nat.pred]. tauto. }
    split; intros (q & d & Lq & H1 & H2 & H3 & H4 & H5 & H6); exists q, d; (split; [auto|split; [auto|split; [auto|split; [auto|split; [auto|split; [apply EK; auto|auto]]]]]]).
  Qed.

  Lemma refines_leaf : forall l q, refines n cells t l q -> leaf l q.
  Proof using Type. clear HI HR HB HM HF HA1 HA HB1 HB2. intros l q H. apply refines_inv in H. apply H. Qed.
  Lemma refines_top : forall l q, refines n cells t l q -> (minl <= l < maxl)%nat.
  Proof using HI HM. clear HR HB HF HA1 HA HB1 HB2 A B.
    intros l q H. apply refines_inv in H as (Hq & H). pose proof (hm_range _ _ _ _ _ _ _ _ _ HI _ _ Hq). destruct H as [H|[(p & y & _ & _ & _ & Hy & _)|(p & y & _ & _ & _ & Hy)]].
    - destruct (HM _ _ Hq) as [_ X]. apply X in H. lia.
    - apply (hm_range _ _ _ _ _ _ _ _ _ HI) in Hy. lia.
    - apply refines_leaf, (hm_range _ _ _ _ _ _ _ _ _ HI) in Hy. lia.
  Qed.

  (** [p] under a leaf is not the parent of a leaf, nor next to one. *)
  Lemma under_leaf : forall l q p, leaf l q -> length p = S n -> ancestor 1 p = q -> ~ hasl (S l) p /\ ~ beside_leaves n cells r (S l) p /\ ~ hasl l q.
  Proof.
    intros l q p Hq Lp E. pose proof (hm_tiles _ _ _ _ _ _ _ _ _ HI) as (HO & _ & _). split; [|split].
    - intros (c & Hc & Ec). assert (l = S (S l)); [|lia]. apply (HO l (S (S l)) q c Hq Hc ltac:(lia)). replace (S (S l) - l)%nat with (1 + 1)%nat by lia. rewrite <- ancestor_add, Ec. auto.
    - intros (_ & d & [Ld Dd] & c & Hc & Ec). set (v := opposite d).
      assert (Ip : split_at n cells (S l) (add_vec p d)) by (exists (S (S l)), c; split; [lia|split; [auto|replace (S (S l) - S l)%nat with 1%nat by lia; auto]]).
      apply (beside_split n minl maxl cells lo hi (hm_tiles _ _ _ _ _ _ _ _ _ HI) (hm_range _ _ _ _ _ _ _ _ _ HI) (hm_graded _ _ _ _ _ _ _ _ _ HI) (S l) (add_vec p d) v l); auto.
      + intros k Hk. unfold v. rewrite nth_opposite. destruct (Dd k Hk); lia.
      + replace (S l - l)%nat with 1%nat by lia. unfold v. rewrite <- add_vec_vadd by (rewrite ?opposite_length; auto; apply moved_length; auto).
        rewrite (add_opposite n) by auto. rewrite E. auto.
    - intros (c & Hc & Ec). assert (l = S l); [|lia]. apply (HO l (S l) q c Hq Hc ltac:(lia)). replace (S l - l)%nat with 1%nat by lia. auto.
  Qed.

  Lemma diag_iff : forall p y, length p = S n -> length y = S n ->
    ((exists d, diag n d /\ add_vec p d = y) <-> forall k, (k <= n)%nat -> Z.abs (nth k p 0 - nth k y 0) = 1).
  Proof.
    intros p y Lp Ly. pose proof (opposite_length p) as Lo. split.
    - intros (d & [Ld Dd] & <-) k Hk. rewrite nth_add_vec by lia. destruct (Dd k Hk); lia.
    - intros H. exists (add_vec y (opposite p)). assert (Lm : length (add_vec y (opposite p)) = S n) by (apply moved_length; lia). split; [split; auto|].
      + intros k Hk. rewrite nth_add_vec, nth_opposite by lia. specialize (H k Hk). lia.
      + apply (list_ext n); [apply moved_length; lia|auto|]. intros k Hk. rewrite !nth_add_vec, nth_opposite by lia. lia.
  Qed.

  (** The child position of [q] diagonally next to [y], for [y] touching [q]. *)
  Definition toward_child (q y : list Z) : list Z := map (fun k => nth k y 0 + (if nth k y 0 <=? 2 * nth k q 0 then 1 else -1)) (seq 0 (S n)).
  Lemma nth_toward_child : forall q y k, (k <= n)%nat -> nth k (toward_child q y) 0 = nth k y 0 + (if nth k y 0 <=? 2 * nth k q 0 then 1 else -1).
  Proof using Type. clear HI HR HB HM HF HA1 HA HB1 HB2 A B.
    intros q y k Hk. unfold toward_child. rewrite (nth_indep _ 0 (nth 0 y 0 + (if nth 0 y 0 <=? 2 * nth 0 q 0 then 1 else -1))) by (rewrite map_length, seq_length; lia).
    rewrite (map_nth (fun k => nth k y 0 + (if nth k y 0 <=? 2 * nth k q 0 then 1 else -1)) (seq 0 (S n)) 0%nat k). rewrite seq_nth by lia. auto.
  Qed.
  Lemma toward_child_spec : forall q p y, length p = S n -> ancestor 1 p = q -> near n 1 p y ->
    length (toward_child q y) = S n /\ ancestor 1 (toward_child q y) = q /\ forall k, (k <= n)%nat -> Z.abs (nth k (toward_child q y) 0 - nth k y 0) = 1.
  Proof using Type. clear HI HR HB HM HF HA1 HA HB1 HB2 A B.
    intros q p y Lp E N. assert (L : length (toward_child q y) = S n) by (unfold toward_child; rewrite map_length, seq_length; auto). split; auto.
    assert (Lq : length q = S n) by (rewrite <- E, ancestor_length; auto). split.
    - apply (list_ext n); [rewrite ancestor_length; auto|auto|]. intros k Hk. rewrite nth_ancestor, nth_toward_child by auto.
      specialize (N k Hk). apply (f_equal (fun z => nth k z 0)) in E. rewrite nth_ancestor in E. change (2 ^ Z.of_nat 1) with 2 in *.
      destruct (Z.leb_spec (nth k y 0) (2 * nth k q 0)); lia.
    - intros k Hk. rewrite nth_toward_child by auto. destruct (_ <=? _); lia.
  Qed.

  Lemma B_refines : forall l q, leaf l q -> (Re (B minl) l q <-> refines n cells t l q).
  Proof.
    intros l. remember (maxl - l)%nat as c eqn:Ec. revert l Ec. induction c as [c IH] using lt_wf_ind. intros l Ec q Hq.
    pose proof (hm_range _ _ _ _ _ _ _ _ _ HI _ _ Hq) as Hl. assert (Lq : length q = S n) by apply Hq.
    rewrite B_pulled by (auto; lia). split.
    - intros [H|[Hl' (p & d & Lp & Hd & H1 & H2 & H3 & H4 & H5)]]; [apply refines_asked; auto|]. symmetry in H5.
      destruct (under_leaf l q p Hq Lp H5) as (U1 & U2 & U3).
      pose proof (proj1 (diag_iff p (add_vec p d) Lp (moved_length n p d Lp (proj1 Hd))) (ex_intro _ d (conj Hd eq_refl))) as HN.
      apply (proj1 (B_keep (S l) p ltac:(lia) Lp)) in H4 as [H4|[_ (y & Hy & N & Hr)]].
      + apply (proj2 (proj2 (A_end (S l) p ltac:(lia) Lp))) in H4; [|right; cbn [Nat.pred]; rewrite H5; auto].
        destruct H4 as [H4|[H4|H4]]; [|contradiction|contradiction]. apply (refines_kept n cells t l q p (add_vec p d)); auto.
      + apply (refines_touched n cells t l q p y); auto. apply (IH (maxl - S l)%nat ltac:(lia) (S l)); auto.
    - intros H. assert (Pull : forall p y, length p = S n -> ancestor 1 p = q -> K (B minl) (S l) p -> leaf (S l) y -> (forall k, (k <= n)%nat -> Z.abs (nth k p 0 - nth k y 0) = 1) ->
        pulled n cells lo hi r l (B minl) q).
      { intros p y Lp E HK Hy N. apply diag_iff in N as (d & Hd & Ey); [|auto|apply Hy]. exists p, d. split; auto. split; auto. split; [rewrite Ey; auto|].
        split; [rewrite E; eapply leaf_ref; eauto|]. split; [|auto]. replace (S l) with (l + 1)%nat by lia. apply inside_ancestor. split; auto. rewrite E. apply (hm_tiles _ _ _ _ _ _ _ _ _ HI). auto. }
      pose proof (refines_top _ _ H) as HT. apply refines_inv in H as (_ & [H|[(p & y & H1 & H2 & H3 & H4 & H5)|(p & y & H1 & H2 & H3 & H4)]]); [left; auto| |].
      + right. split; auto. apply (Pull p y); auto. apply (B_keep (S l) p ltac:(lia) H1). left.
        apply (proj2 (proj2 (A_end (S l) p ltac:(lia) H1))); [right; cbn [Nat.pred]; rewrite H2; apply (under_leaf l q p Hq H1 H2)|]. left. auto.
      + right. split; auto. destruct (toward_child_spec q p y H1 H2 H3) as (L1 & L2 & L3). pose proof (refines_leaf _ _ H4) as Hy.
        apply (Pull (toward_child q y) y); auto. apply (B_keep (S l) _ ltac:(lia) L1). right. split; [lia|]. exists y. split; auto. split.
        * intros k Hk. specialize (L3 k Hk). lia.
        * apply (IH (maxl - S l)%nat ltac:(lia) (S l)); auto.
  Qed.

  (** *** The final pass *)
  Lemma hm_pass_ok : pass_ok n maxl cells (r_all r).
  Proof using HI HR. clear HB HM HF HA1 HA HB1 HB2 A B.
    pose proof (hm_top _ _ _ _ _ _ _ _ _ HI) as HT. split.
    - intros l Hl. destruct (hm_cells_wf n m minl maxl w s cells lo hi HI l ltac:(lia)). destruct (hm_ref_wf n m minl maxl w s cells lo hi r HI HR l ltac:(lia)). auto.
    - intros l q k Hl [Hq|Hq] Hk; [apply (hm_leaf_at n m minl maxl w s cells lo hi r HI HR) in Hq; [|lia]; apply (leaf_ref n m minl maxl w s cells lo hi r HI HR) in Hq|apply (hm_ref_at n m minl maxl w s cells lo hi r HI HR) in Hq; [|lia]];
        apply (hm_bound n m minl maxl w s cells lo hi r HI HR _ _ _ Hq Hk).
  Qed.

  Lemma beside_refines : forall l q, (beside_refined n cells l (B minl) q <-> exists y, near n 1 q y /\ refines n cells t l y).
  Proof.
    intros l q. split; intros (y & H).
    - destruct H as (Hy & N & H). exists y. split; auto. apply B_refines; auto.
    - destruct H as (N & H). pose proof (refines_leaf _ _ H). exists y. split; auto. split; auto. apply B_refines; auto.
  Qed.
  Lemma near_sym : forall p q, near n 1 p q -> near n 1 q p.
  Proof. intros p q H k Hk. specialize (H k Hk). lia. Qed.

  (** A sibling of [q] diagonally next to a cell around the group. *)
  Definition toward_sibling (q i : list Z) : list Z := map (fun k => nth k i 0 + (if nth k i 0 <=? 2 * (nth k q 0 / 2) then 1 else -1)) (seq 0 (S n)).
  Lemma nth_toward_sibling : forall q y k, (k <= n)%nat -> nth k (toward_sibling q y) 0 = nth k y 0 + (if nth k y 0 <=? 2 * (nth k q 0 / 2) then 1 else -1).
  Proof.
    intros q y k Hk. unfold toward_sibling. rewrite (nth_indep _ 0 (nth 0 y 0 + (if nth 0 y 0 <=? 2 * (nth 0 q 0 / 2) then 1 else -1))) by (rewrite map_length, seq_length; lia).
    rewrite (map_nth (fun k => nth k y 0 + (if nth k y 0 <=? 2 * (nth k q 0 / 2) then 1 else -1)) (seq 0 (S n)) 0%nat k). rewrite seq_nth by lia. auto.
  Qed.
  Lemma toward_sibling_spec : forall q i, length q = S n -> near n 1 i q ->
    length (toward_sibling q i) = S n /\ ancestor 1 (toward_sibling q i) = ancestor 1 q /\ forall k, (k <= n)%nat -> Z.abs (nth k (toward_sibling q i) 0 - nth k i 0) = 1.
  Proof.
    intros q i Lq N. assert (L : length (toward_sibling q i) = S n) by (unfold toward_sibling; rewrite map_length, seq_length; auto). split; auto. split.
    - apply (list_ext n); [rewrite ancestor_length; auto|rewrite ancestor_length; auto|]. intros k Hk. rewrite !nth_ancestor, nth_toward_sibling by auto.
      specialize (N k Hk). change (2 ^ Z.of_nat 1) with 2 in *. destruct (Z.leb_spec (nth k i 0) (2 * (nth k q 0 / 2))); lia.
    - intros k Hk. rewrite nth_toward_sibling by auto. destruct (_ <=? _); lia.
  Qed.

  (** keep at the end on a leaf above the minimum level. *)
  Definition held (l : nat) (q : list Z) : Prop := exists q', length q' = S n /\ ancestor 1 q' = ancestor 1 q /\
    (K t l q' \/ (exists y, leaf (S l) y /\ near n 1 (ancestor 1 y) q') \/ (exists y, near n 1 y q' /\ refines n cells t l y)).

  Lemma end_flags : forall l q, leaf l q ->
    (forall b, 2 <= b -> Z.testbit (tg t' l q) b = Z.testbit (tg (B minl) l q) b) /\
    ((minl < l)%nat -> (K t' l q <-> held l q) /\ (Co t' l q <-> forall q', length q' = S n -> ancestor 1 q' = ancestor 1 q -> Co t l q')).
  Proof.
    intros l q Hq. pose proof (hm_range _ _ _ _ _ _ _ _ _ HI _ _ Hq) as Hl. assert (Lq : length q = S n) by apply Hq.
    destruct (C33_exact n maxl cells (r_all r) (B minl) hm_pass_ok) as (t1 & E & X). rewrite (final_maximum_pass _ _ _ _ _ _ HF) in E. injection E as <-.
    destruct (X l q Lq ltac:(lia)) as (X1 & X2 & _). split; auto. intros Hm. destruct l as [|l]; [lia|]. cbn [Nat.pred] in X2.
    assert (HLq : hasl l (ancestor 1 q)) by (exists q; auto).
    destruct (X2 ltac:(lia)) as [C1 C2]; [apply (handled_leaf n m minl maxl w s cells lo hi r HI HR); auto; lia|]. clear X X1 X2.
    assert (FM : forall q', length q' = S n -> ancestor 1 q' = ancestor 1 q -> 
      (K (A 0%nat) (S l) q' <-> exists q0, length q0 = S n /\ ancestor 1 q0 = ancestor 1 q /\ pre_keep (S l) q0) /\
      (Co (A 0%nat) (S l) q' <-> forall q0, length q0 = S n -> ancestor 1 q0 = ancestor 1 q -> Co t (S l) q0)).
    { intros q' L' E'. destruct (A_end (S l) q' ltac:(lia) L') as (_ & Y & _). cbn [Nat.pred] in Y. rewrite E' in Y. apply Y; auto. lia. }
    assert (HN : forall y, leaf (S (S l)) y -> (exists q', length q' = S n /\ ancestor 1 q' = ancestor 1 q /\ near n 1 (ancestor 1 y) q') ->
      exists q', length q' = S n /\ ancestor 1 q' = ancestor 1 q /\ pre_keep (S l) q').
    { intros y Hy (q' & L' & E' & N). destruct (toward_sibling_spec q' (ancestor 1 y) L' N) as (T1 & T2 & T3). rewrite E' in T2.
      exists (toward_sibling q' (ancestor 1 y)). split; auto. split; auto.
      destruct (sibling l q _ Hq T1 T2) as [H|H]; [|right; left; auto]. right. right. split; [apply (leaf_ref n m minl maxl w s cells lo hi r HI HR); auto|].
      apply diag_iff in T3; [|auto|rewrite ancestor_length; apply Hy]. destruct T3 as (d & Hd & Ed). exists d. split; auto. rewrite Ed. exists y. auto. }
    assert (PK : forall q', length q' = S n -> ancestor 1 q' = ancestor 1 q -> pre_keep (S l) q' -> held (S l) q).
    { intros q' L' E' [H|[(y & Hy & Ey)|(_ & d & [Ld Dd] & y & Hy & Ey)]]; exists q'; (split; [auto|]); (split; [auto|]); [left; auto| |]; right; left; exists y; (split; [auto|]).
      - rewrite Ey. intros k Hk. lia.
      - rewrite Ey. intros k Hk. rewrite nth_add_vec by lia. destruct (Dd k Hk); lia. }
    split.
    - rewrite C2. split.
      + intros (q' & L' & E' & [H|(H1 & (_ & (y & Hy & Ey)) & _)]).
        * apply (B_keep (S l) q') in H; auto; [|lia]. destruct H as [H|[_ H]].
          -- apply FM in H as (q0 & L0 & E0 & H); auto. apply (PK q0); auto.
          -- apply beside_refines in H as (y & N & H). exists q'. split; auto. split; auto. right. right. exists y. split; auto. apply near_sym. auto.
        * exists q'. split; auto. split; auto. right. left. exists y. rewrite <- (hm_leaf_at n m minl maxl w s cells lo hi r HI HR) in Hy by (pose proof (hm_top _ _ _ _ _ _ _ _ _ HI); lia).
          split; auto. rewrite Ey. intros k Hk. lia.
      + intros (q' & L' & E' & [H|[(y & Hy & N)|(y & N & H)]]).
        * exists q'. split; auto. split; auto. left. apply (B_keep (S l) q'); auto; [lia|]. left. apply FM; auto. exists q'. split; auto. split; auto. left. auto.
        * destruct (HN y Hy) as (q0 & L0 & E0 & H); [eauto|]. exists q0. split; auto. split; auto. left. apply (B_keep (S l) q0); auto; [lia|]. left. apply FM; auto. eauto.
        * exists q'. split; auto. split; auto. left. apply (B_keep (S l) q'); auto; [lia|]. right. split; auto. apply beside_refines. exists y. split; auto. apply near_sym. auto.
    - rewrite C1. split.
      + intros H. specialize (H q Lq eq_refl). apply (B_keep (S l) q ltac:(lia) Lq) in H. apply (FM q Lq eq_refl). auto.
      + intros H q' L' E'. apply (B_keep (S l) q'); auto; [lia|]. apply FM; auto.
  Qed.

  Lemma A_keep : forall l q, leaf l q -> K t l q -> K (A 0%nat) l q.
  Proof.
    intros l q Hq HK. pose proof (hm_range _ _ _ _ _ _ _ _ _ HI _ _ Hq) as Hl. assert (Lq : length q = S n) by apply Hq.
    destruct (A_end l q ltac:(lia) Lq) as (_ & X1 & X2). destruct l as [|l]; [apply X2; [auto|left; auto]|]. cbn [Nat.pred] in X1.
    apply X1; [lia|exists q; auto|]. exists q. split; auto. split; auto. left. auto.
  Qed.
  Lemma not_held : forall l q, leaf l q -> (minl < l)%nat -> ~ held l q -> forall q', length q' = S n -> ancestor 1 q' = ancestor 1 q -> leaf l q' /\ ~ K t l q' /\ Co t l q'.
  Proof.
    intros l q Hq Hl NH q' L' E'. destruct l as [|l]; [lia|]. destruct (sibling l q q' Hq L' E') as [H|(y & Hy & Ey)].
    - assert (NK : ~ K t (S l) q') by (intros HK; apply NH; exists q'; auto). split; auto. split; auto. destruct (HM _ _ H) as [[X|[_ X]] _]; auto. contradiction.
    - exfalso. apply NH. exists q'. split; auto. split; auto. right. left. exists y. split; auto. rewrite Ey. intros k Hk. lia.
  Qed.
  Lemma refines_held : forall l q, refines n cells t l q -> held l q.
  Proof.
    intros l q H. pose proof (refines_leaf _ _ H) as Hq. exists q. split; [apply Hq|]. split; auto. right. right. exists q. split; auto. intros k Hk. lia.
  Qed.

  Lemma graduated_start : pass_start n minl maxl cells (r_all r) (B minl).
  Proof.
    pose proof (hm_top _ _ _ _ _ _ _ _ _ HI) as HT. split.
    - intros l q Hq. pose proof (hm_range _ _ _ _ _ _ _ _ _ HI _ _ Hq) as Hl. assert (Lq : length q = S n) by apply Hq. split; [lia|]. split.
      + destruct (B_keep l q ltac:(lia) Lq) as [B1 B2]. destruct (Nat.eq_dec l minl) as [->|Hne].
        * left. apply B1. left. apply A_keep; auto. destruct (HM _ _ Hq) as [[X|[X _]] _]; [auto|lia].
        * destruct l as [|l]; [lia|]. destruct (A_end (S l) q ltac:(lia) Lq) as (_ & X & _). cbn [Nat.pred] in X.
          destruct X as [X1 X2]; [lia|exists q; auto|]. rewrite B1, B2.
          destruct (Z.testbit (tg (A 0%nat) (S l) q) 0) eqn:EK; [left; left; auto|]. right. split; [lia|]. apply X2. intros q' L' E'.
          assert (NP : ~ pre_keep (S l) q') by (intros HP; unfold K in X1; rewrite EK in X1; discriminate (proj2 X1 (ex_intro _ q' (conj L' (conj E' HP))))).
          destruct (sibling l q q' Hq L' E') as [H|H]; [|exfalso; apply NP; right; left; auto].
          destruct (HM _ _ H) as [[Y|[_ Y]] _]; auto. exfalso. apply NP. left. auto.
      + intros H. apply B_refines in H; auto. apply (B_keep l q ltac:(lia) Lq). destruct (Nat.eq_dec l minl) as [->|Hne].
        * left. apply A_keep; auto. destruct (HM _ _ Hq) as [[X|[X _]] _]; [auto|lia].
        * right. split; [lia|]. apply beside_refines. exists q. split; auto. intros k Hk. lia.
    - intros l q Hq Hl. destruct l as [|l]; [lia|]. pose proof (hm_range _ _ _ _ _ _ _ _ _ HI _ _ Hq). cbn [Nat.pred]. split.
      + rewrite <- (hm_ref_at n m minl maxl w s cells lo hi r HI HR) by lia. apply (parent_ref n m minl maxl w s cells lo hi r HI HR). auto.
      + intros q' L' E'. destruct (sibling l q q' Hq L' E') as [X|(y & Hy & Ey)]; eauto.
  Qed.

  (** What the final tags ask for each leaf. *)
  Lemma leaf_flags : forall l q, leaf l q ->
    (Re t' l q <-> refines n cells t l q) /\ (wants_coarsen minl l (tg t' l q) <-> coarsens n minl cells t l q) /\
    Z.testbit (tg t' l q) 0 || Z.testbit (tg t' l q) 1 || Z.testbit (tg t' l q) 2 = true.
  Proof.
    intros l q Hq. pose proof (hm_range _ _ _ _ _ _ _ _ _ HI _ _ Hq) as Hl. assert (Lq : length q = S n) by apply Hq.
    destruct (end_flags l q Hq) as [E1 E2]. assert (ER : Re t' l q <-> refines n cells t l q) by (rewrite E1 by lia; apply B_refines; auto).
    assert (EC : wants_coarsen minl l (tg t' l q) <-> coarsens n minl cells t l q).
    { unfold wants_coarsen, coarsens. split.
      - intros (H1 & H2 & H3 & H4). destruct (E2 H1) as [X1 X2]. assert (NH : ~ held l q) by (intros X; apply X1 in X; unfold K in X; congruence).
        split; auto. split; auto. intros q' L' E'. destruct (not_held l q Hq H1 NH q' L' E') as (Y1 & Y2 & _). split; auto. split; auto. split.
        + intros y Hy N. apply NH. exists q'. split; auto. split; auto. right. left. eauto.
        + intros y N Hy. apply NH. exists q'. split; auto. split; auto. right. right. eauto.
      - intros (H1 & _ & H2). destruct (E2 H1) as [X1 X2]. assert (NH : ~ held l q).
        { intros (q' & L' & E' & H). destruct (H2 q' L' E') as (_ & Y1 & Y2 & Y3). destruct H as [H|[(y & Hy & N)|(y & N & H)]]; [auto|apply (Y2 y); auto|apply (Y3 y); auto]. }
        split; auto. split; [|split].
        + apply not_true_iff_false. intros X. apply ER in X. apply refines_held in X. auto.
        + apply not_true_iff_false. intros X. apply X1 in X. auto.
        + apply X2. intros q' L' E'. apply (not_held l q Hq H1 NH q' L' E'). }
    split; auto. split; auto.
    destruct (C33_consistent n minl maxl cells (r_all r) (B minl) (fun _ => 0) hm_pass_ok) as (t1 & E & _).
    - apply (in_wf _ _ _ _ _ _ _ (gi_in _ _ _ _ _ _ _ _ _ HI)).
    - rewrite (in_max _ _ _ _ _ _ _ (gi_in _ _ _ _ _ _ _ _ _ HI)). apply (hm_top _ _ _ _ _ _ _ _ _ HI).
    - apply graduated_start.
    - rewrite (final_maximum_pass _ _ _ _ _ _ HF) in E. injection E as <-.
      destruct (Z.testbit (tg t' l q) 0) eqn:EK; auto. destruct (Z.testbit (tg t' l q) 1) eqn:EO; auto. cbn [orb].
      exfalso. destruct (C33_exact n maxl cells (r_all r) (B minl) hm_pass_ok) as (t1 & E & X). rewrite (final_maximum_pass _ _ _ _ _ _ HF) in E. injection E as <-.
      destruct (Nat.eq_dec l minl) as [->|Hne].
      + assert (KB : K (B minl) minl q) by (apply (B_keep minl q ltac:(lia) Lq); left; apply A_keep; auto; destruct (HM _ _ Hq) as [[Y|[Y _]] _]; [auto|lia]).
        destruct (X minl q Lq ltac:(lia)) as (_ & X1 & X2).
        destruct minl as [|l]; [destruct (X2 ltac:(auto)) as [_ X3]; unfold K in X3; rewrite EK in X3; discriminate (proj2 X3 (or_introl KB))|].
        cbn [Nat.pred] in X1. destruct X1 as [_ X3]; [lia|apply (handled_leaf n m (S l) maxl w s cells lo hi r HI HR); [lia|exists q; auto]|].
        unfold K in X3. rewrite EK in X3. discriminate (proj2 X3 (ex_intro _ q (conj Lq (conj eq_refl (or_introl KB))))).
      + destruct (E2 ltac:(lia)) as [X1 X2]. unfold K in X1. rewrite EK in X1. assert (NH : ~ held l q) by (intros Y; apply X1 in Y; discriminate).
        unfold Co in X2. rewrite EO in X2. discriminate (proj2 X2 (fun q' L' E' => proj2 (proj2 (not_held l q Hq ltac:(lia) NH q' L' E')))).
  Qed.
End Graduate.
