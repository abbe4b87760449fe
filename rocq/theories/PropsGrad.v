(** Properties C34 and C35: graduation. *)
From Coq Require Import Permutation.
From Verif Require Import Base IntervalModel Spec LoiModel LcaModel LcaSpec LcaProofs LcaProofs3 RowsProofs CellArrayModel CellArrayProofs
  PropsLca PropsCellArray SubsetModel SubsetSpec SubsetProofs2 PropsSubset NumberingProofs MeshModel MeshProofs PropsMesh
  AdaptModel AdaptProofs TagProofs TransferProofs PropsAdapt PropsTransfer GradModel GradProofs.
Open Scope Z_scope.

(** ** C34 *)
Theorem C34_exact : forall n stencil c, range_ok n stencil c ->
  exists b, is_graduated n c stencil = Some b /\
    (b = true <-> forall l l' p q s, ca_mem n c l p -> ca_mem n c l' q -> (l + 2 <= l')%nat -> In s stencil ->
       ancestor (l' - l) (vadd n q s) <> p).
Proof.
  intros n stencil c R. pose proof R as (W & _). pose proof (levels_spec c) as (_ & L1 & L2).
  assert (IL : forall l p, ca_mem n c l p -> (min_level c <= l <= max_level c)%nat).
  { intros l p [Hl Hp]. assert (H : In l (levels c)) by (apply L2; auto; apply (nonempty_mem n); [apply W; auto|eauto]).
    unfold levels in H. apply in_seq in H. lia. }
  destruct (no_call_spec n stencil c (grad_cases (min_level c) (max_level c) stencil) R) as (b & E & Hb).
  { intros level below s H. apply grad_cases_In in H as (H1 & H2 & H3). spl; auto; [|lia]. apply L1. unfold levels. apply in_seq. lia. }
  exists b. split; auto. rewrite Hb. split.
  - intros G l l' p q s Hp Hq Hl Hs. apply (G l' l s); auto. apply grad_cases_In. pose proof (IL _ _ Hp). pose proof (IL _ _ Hq). spl; auto; lia.
  - intros G level below s Hin p q Hp Hq. apply grad_cases_In in Hin as (H1 & H2 & H3). apply (G below level p q s); auto; lia.
Qed.

(** ** C35 *)

(** Room for the coordinates at the finest level and one step of the stencil. *)
Definition in_range (n maxl : nat) (stencil : list (list Z)) (c : ca) : Prop :=
  forall l q k s, ca_mem n c l q -> (k <= n)%nat -> In s ([] :: stencil) ->
    Z.max 0 ((nth k q 0 + 1) * 2 ^ Z.of_nat (maxl - l)) + Z.abs (nth k s 0) + 4 < 2 ^ 31 - 1.

Lemma in_range_ok : forall n maxl stencil c, made n c -> in_range n maxl stencil c -> range_ok n stencil c.
Proof.
  intros n maxl stencil c HM H. destruct (made_ok n c HM) as (W & _ & _ & LV). split; [exact W|]. split; [exact LV|]. intros l q k Hq Hk.
  assert (G : forall s, In s ([] :: stencil) -> nth k q 0 + nth k s 0 + 3 < 2 ^ 31 - 1).
  { intros s Hs. specialize (H l q k s Hq Hk Hs). assert (1 <= 2 ^ Z.of_nat (maxl - l)) by (pose proof (Z.pow_pos_nonneg 2 (Z.of_nat (maxl - l))); lia).
    destruct (Z_lt_le_dec (nth k q 0 + 1) 0); [lia|]. nia. }
  split; [|intros s Hs; apply G; right; auto]. specialize (G [] (or_introl eq_refl)). destruct k; cbn [nth] in G; lia.
Qed.

Definition weight (n maxl : nat) (cs : list (nat * list Z)) : Z :=
  fold_right Z.add 0 (map (fun b => (2 ^ Z.of_nat (S n) + 1) ^ Z.of_nat (maxl - fst b)) cs).

Lemma weight_app : forall n maxl a b, weight n maxl (a ++ b) = weight n maxl a + weight n maxl b.
Proof. intros n maxl a b. unfold weight. induction a as [|x a IH]; cbn [app map fold_right] in *; lia. Qed.
Lemma weight_perm : forall n maxl a b, Permutation a b -> weight n maxl a = weight n maxl b.
Proof. intros n maxl a b. unfold weight. induction 1; cbn [map fold_right] in *; lia. Qed.
Lemma base_pos : forall n, 2 <= 2 ^ Z.of_nat (S n) /\ 0 < 2 ^ Z.of_nat (S n) + 1.
Proof. intros n. rewrite Nat2Z.inj_succ, Z.pow_succ_r by lia. pose proof (Z.pow_pos_nonneg 2 (Z.of_nat n)). lia. Qed.
Lemma weight_nonneg : forall n maxl a, 0 <= weight n maxl a.
Proof.
  intros n maxl a. unfold weight. induction a as [|x a IH]; cbn [map fold_right]; [lia|].
  pose proof (base_pos n). pose proof (Z.pow_pos_nonneg (2 ^ Z.of_nat (S n) + 1) (Z.of_nat (maxl - fst x))). lia.
Qed.
Lemma parities_count : forall d, Z.of_nat (length (NumModel.parities d)) = 2 ^ Z.of_nat d.
Proof.
  induction d as [|d IH]; [reflexivity|]. cbn [NumModel.parities]. rewrite app_length, !map_length, Nat2Z.inj_succ, Z.pow_succ_r, <- IH by lia. lia.
Qed.
Lemma weight_kids : forall n maxl l p, length p = S n -> (l < maxl)%nat -> weight n maxl (kids (l, p)) < weight n maxl [(l, p)].
Proof.
  intros n maxl l p Hp Hl. destruct p as [|x y]; [discriminate|]. cbn [length] in Hp. injection Hp as Hy. unfold kids. cbn [fst snd].
  set (B := 2 ^ Z.of_nat (S n) + 1). pose proof (base_pos n) as [B1 B2].
  assert (E : forall cs : list (Z * list Z), weight n maxl (map (fun c => (S l, fst c :: snd c)) cs) = Z.of_nat (length cs) * B ^ Z.of_nat (maxl - S l)).
  { unfold weight. induction cs as [|c cs IH]; [reflexivity|]. cbn [map fold_right fst length] in *. rewrite IH. fold B. nia. }
  rewrite E. unfold children. rewrite map_length, Hy, parities_count. unfold weight. cbn [map fold_right fst]. fold B.
  replace (maxl - l)%nat with (S (maxl - S l)) by lia. rewrite (Nat2Z.inj_succ (maxl - S l)), (Z.pow_succ_r B) by lia.
  assert (HX : 0 < B ^ Z.of_nat (maxl - S l)) by (apply Z.pow_pos_nonneg; unfold B; lia). generalize dependent (B ^ Z.of_nat (maxl - S l)). unfold B.
  intros X _ HX. rewrite Z.mul_add_distr_r, Z.mul_1_l. lia.
Qed.
Lemma weight_flat : forall n maxl bs, (forall l p, In (l, p) bs -> length p = S n /\ (l < maxl)%nat) ->
  weight n maxl (flat_map kids bs) <= weight n maxl bs - Z.of_nat (length bs).
Proof.
  intros n maxl bs. induction bs as [|[l p] bs IH]; intros H; [reflexivity|]. cbn [flat_map]. rewrite weight_app.
  change ((l, p) :: bs) with ([(l, p)] ++ bs) at 1. rewrite weight_app. destruct (H l p) as [H1 H2]; [left; auto|].
  pose proof (weight_kids n maxl l p H1 H2). specialize (IH ltac:(intros; apply H; right; auto)). cbn [length]. lia.
Qed.

Lemma enum_exists : forall n c, ca_wf n c -> exists cs, ca_enumeration n c cs.
Proof. intros n c W. destruct (ca_enum_exists n c W) as (f & _ & E). eauto. Qed.

(** The leaves of [c'] are leaves of [c] or parts of them. *)
Definition refines (n : nat) (c' c : ca) : Prop :=
  forall l p, ca_mem n c' l p -> exists l0, (l0 <= l)%nat /\ ca_mem n c l0 (ancestor (l - l0) p).

Record inv (n minl maxl : nat) (stencil : list (list Z)) (c : ca) : Prop := {
  inv_made : made n c;
  inv_max : (maxl <= c_max c)%nat;
  inv_levels : forall l q, ca_mem n c l q -> (minl <= l <= maxl)%nat;
  inv_range : in_range n maxl stencil c;
  inv_disjoint : no_overlap n c }.

(** One turn. *)
Lemma turn : forall n minl maxl stencil c, inv n minl maxl stencil c ->
  exists new, grad_step n minl maxl stencil c = Some new /\ inv n minl maxl stencil new /\ c_max new = c_max c /\ refines n new c /\
    (forall z, length z = S n -> (covered n new maxl z <-> covered n c maxl z)) /\
    (forall l q, ca_mem n c l q -> ca_mem n new l q \/
       (too_coarse n c stencil l q /\ forall p, length p = S n -> ancestor 1 p = q -> ca_mem n new (S l) p)) /\
    ((ca_eqb n new c = true /\ forall l p, ~ too_coarse n c stencil l p) \/
     (ca_eqb n new c = false /\ exists os ns, ca_enumeration n c os /\ ca_enumeration n new ns /\ weight n maxl ns < weight n maxl os)).
Proof.
  intros n minl maxl stencil c [HM Hmx HL HR HD].
  destruct (grad_step_spec n stencil minl maxl c HM (in_range_ok _ _ _ _ HM HR) Hmx HL) as (new & A & E & HMn & Emx & HA & M).
  assert (LT : forall l q, ca_mem n c l q -> A l q = Refine -> (l < maxl)%nat).
  { intros l q Hq Ha. destruct (HA l q Hq) as [[_ (_ & l' & q' & s & Hq' & Hl & _)]|[Ha' _]]; [|congruence]. pose proof (HL _ _ Hq'). lia. }
  assert (H1 : forall l q, ca_mem n c l q -> length q = S n /\ (l <= maxl)%nat) by (intros l q Hq; pose proof (HL _ _ Hq); split; [apply Hq|lia]).
  assert (H4 : forall l q, ca_mem n c l q -> A l q = Coarsen -> (0 < l)%nat) by (intros l q Hq Ha; destruct (HA l q Hq) as [[H _]|[H _]]; congruence).
  assert (H5 : forall l q, ca_mem n c l q -> A l q <> Drop) by (intros l q Hq Ha; destruct (HA l q Hq) as [[H _]|[H _]]; congruence).
  assert (H6 : forall l q q', ca_mem n c l q -> A l q = Coarsen -> length q' = S n -> ancestor 1 q' = ancestor 1 q -> ca_mem n c l q' /\ A l q' = Coarsen)
    by (intros l q q' Hq Ha; destruct (HA l q Hq) as [[H _]|[H _]]; congruence).
  exists new. split; auto. split; [|split; auto; split; [|split; [|split]]].
  - split; auto; [lia| | |].
    + intros l p Hp. apply M in Hp as (l0 & q & Hq & _ & Hmv). pose proof (HL _ _ Hq).
      destruct (A l0 q) eqn:Ea; cbn [moves] in Hmv; [pose proof (LT _ _ Hq Ea); lia|lia|pose proof (H4 _ _ Hq Ea); destruct (HA l0 q Hq) as [[? _]|[? _]]; congruence|tauto].
    + intros l p k s Hp Hk Hs. apply M in Hp as (l0 & q & Hq & Hp & Hmv). pose proof (HR l0 q k s Hq Hk Hs) as B.
      destruct (HA l0 q Hq) as [[Ea _]|[Ea _]]; rewrite Ea in Hmv; cbn [moves] in Hmv; destruct Hmv as [-> Eq]; [|subst; auto].
      pose proof (LT _ _ Hq Ea) as Hlt. subst q. rewrite nth_ancestor in B. change (2 ^ Z.of_nat 1) with 2 in B.
      replace (maxl - l0)%nat with (S (maxl - S l0)) in B by lia. rewrite Nat2Z.inj_succ, Z.pow_succ_r in B by lia.
      assert (P : 0 < 2 ^ Z.of_nat (maxl - S l0)) by (apply Z.pow_pos_nonneg; lia).
      pose proof (Z.div_mod (nth k p 0) 2 ltac:(lia)). pose proof (Z.mod_pos_bound (nth k p 0) 2 ltac:(lia)).
      assert ((nth k p 0 + 1) * 2 ^ Z.of_nat (maxl - S l0) <= (nth k p 0 / 2 + 1) * (2 * 2 ^ Z.of_nat (maxl - S l0))) by nia. lia.
    + intros l l' p q. apply (new_disjoint n (ca_mem n c) (ca_mem n new) A maxl); auto.
  - intros l p Hp. apply M in Hp as (l0 & q & Hq & Lp & Hmv). destruct (HA l0 q Hq) as [[Ea _]|[Ea _]]; rewrite Ea in Hmv; cbn [moves] in Hmv; destruct Hmv as [-> Eq]; subst.
    + exists l0. split; [lia|]. replace (S l0 - l0)%nat with 1%nat by lia. auto.
    + exists l0. split; [lia|]. rewrite Nat.sub_diag, ancestor_0. auto.
  - intros z Hz. apply (same_cover n (ca_mem n c) (ca_mem n new) A maxl); auto.
  - intros l q Hq. destruct (HA l q Hq) as [[Ha Ht]|[Ha _]].
    + right. split; auto. intros p Hp Ep. apply M. exists l, q. rewrite Ha. cbn [moves]. auto.
    + left. apply M. exists l, q. rewrite Ha. cbn [moves]. spl; auto. apply Hq.
  - destruct (enum_exists n c) as (os & Eo); [apply (made_ok n c HM)|]. destruct (enum_exists n new) as (ns & En); [apply (made_ok n new HMn)|].
    destruct (leaves_split n (ca_mem n c) (ca_mem n new) A os ns maxl) as (stay & ref & par & PO & PN & _ & Iref & Ipar & _); auto.
    { eapply sorted_leaves_NoDup; eauto. } { eapply sorted_leaves_NoDup; eauto. } { apply Eo. } { apply En. }
    assert (par = []) as ->.
    { destruct par as [|[l p] par]; auto. exfalso. destruct (Ipar l p) as (q & Hq & Ha); [left; auto|]. destruct (HA _ _ Hq) as [[H _]|[H _]]; congruence. }
    destruct ref as [|b ref].
    + left. assert (NT : forall l p, ~ too_coarse n c stencil l p).
      { intros l p Ht. pose proof Ht as [Hp _]. destruct (HA l p Hp) as [[Ha _]|[_ Hn]]; [|auto]. apply (Iref l p). auto. }
      split; auto. apply made_eqb; auto. intros l p. destruct Eo as [_ Io], En as [_ Jn]. rewrite <- Io, <- Jn.
      cbn [app flat_map] in PO, PN. assert (P : Permutation ns os) by (transitivity (stay ++ []); auto; apply Permutation_sym; auto).
      split; intros H; [apply (Permutation_in _ P H)|apply (Permutation_in _ (Permutation_sym P) H)].
    + right. split.
      * destruct (ca_eqb n new c) eqn:Eq; auto. exfalso. pose proof (proj1 (made_eqb n new c HMn HM Emx) Eq) as Eq'. destruct b as [l p].
        destruct (proj1 (Iref l p) (or_introl eq_refl)) as [Hp Ha]. assert (Hn : ca_mem n new l p) by (apply Eq'; auto).
        apply M in Hn as (l0 & q & Hq & Lp & Hmv). destruct (HA l0 q Hq) as [[Ea _]|[Ea _]]; rewrite Ea in Hmv; cbn [moves] in Hmv; destruct Hmv as [-> Eqq]; subst.
        -- assert (l0 = S l0); [|lia]. apply (HD l0 (S l0) (ancestor 1 p) p); auto. replace (S l0 - l0)%nat with 1%nat by lia. auto.
        -- congruence.
      * exists os, ns. spl; auto. rewrite (weight_perm _ _ _ _ PO), (weight_perm _ _ _ _ PN), !weight_app.
        assert (HF : forall l p, In (l, p) (b :: ref) -> length p = S n /\ (l < maxl)%nat).
        { intros l p Hin. apply Iref in Hin as [Hp Ha]. split; [apply Hp|apply (LT _ _ Hp Ha)]. }
        pose proof (weight_flat n maxl (b :: ref) HF) as Hw. cbn [length] in Hw. change (flat_map kids []) with (@nil (nat * list Z)). lia.
Qed.

Lemma refines_refl : forall n c, refines n c c.
Proof. intros n c l p Hp. exists l. rewrite Nat.sub_diag, ancestor_0. auto. Qed.
Lemma refines_trans : forall n a b c, refines n a b -> refines n b c -> refines n a c.
Proof.
  intros n a b c H1 H2 l p Hp. destruct (H1 l p Hp) as (l1 & L1 & P1). destruct (H2 _ _ P1) as (l2 & L2 & P2). exists l2. split; [lia|].
  rewrite ancestor_add in P2. replace (l1 - l2 + (l - l1))%nat with (l - l2)%nat in P2 by lia. exact P2.
Qed.

(** A graded set of leaves finer than [c] over the region of [c]. *)
Definition graded_refinement (n : nat) (stencil : list (list Z)) (c : ca) (K : nat) (D : nat -> list Z -> Prop) : Prop :=
  (forall l p, D l p -> (l <= K)%nat /\ length p = S n) /\
  (forall l p, D l p -> exists l0, (l0 <= l)%nat /\ ca_mem n c l0 (ancestor (l - l0) p)) /\
  (forall l q z, ca_mem n c l q -> length z = S n -> (l <= K)%nat -> ancestor (K - l) z = q -> exists l', (l' <= K)%nat /\ D l' (ancestor (K - l') z)) /\
  (forall l l' p q s, D l p -> D l' q -> (l + 2 <= l')%nat -> In s stencil -> ancestor (l' - l) (vadd n q s) <> p).

Definition unit_steps (n : nat) (stencil : list (list Z)) : Prop :=
  forall s k, In s stencil -> (k <= n)%nat -> -1 <= nth k s 0 <= 1.

Lemma nth_map_seq : forall N (f : nat -> Z) k, (k < N)%nat -> nth k (map f (seq 0 N)) 0 = f k.
Proof.
  intros N f k Hk. rewrite (nth_indep _ 0 (f 0%nat)) by (rewrite map_length, seq_length; auto).
  rewrite (map_nth f), seq_nth by auto. reflexivity.
Qed.

(** A cell of level K in [q], against the side of [q] where [s] points: all cells
    between, moved by [s], are in the neighbour of [q]. *)
Lemma corner_point : forall n K l q s, length q = S n -> (l <= K)%nat -> (forall k, (k <= n)%nat -> -1 <= nth k s 0 <= 1) ->
  exists z, length z = S n /\ ancestor (K - l) z = q /\
    forall l', (l <= l' <= K)%nat -> ancestor (l' - l) (vadd n (ancestor (K - l') z) s) = vadd n q s.
Proof.
  intros n K l q s Lq Hl Hs.
  set (z := map (fun k => if nth k s 0 =? 1 then (nth k q 0 + 1) * 2 ^ Z.of_nat (K - l) - 1 else nth k q 0 * 2 ^ Z.of_nat (K - l)) (seq 0 (S n))).
  assert (Zk : forall k, (k <= n)%nat -> nth k z 0 = if nth k s 0 =? 1 then (nth k q 0 + 1) * 2 ^ Z.of_nat (K - l) - 1 else nth k q 0 * 2 ^ Z.of_nat (K - l)).
  { intros k Hk. unfold z. apply (nth_map_seq (S n)). lia. }
  assert (Lz : length z = S n) by (unfold z; rewrite map_length, seq_length; auto). clearbody z.
  assert (P : forall j, 0 < 2 ^ Z.of_nat j) by (intros j; apply Z.pow_pos_nonneg; lia).
  exists z. split; auto. split.
  { apply (list_ext n); [rewrite ancestor_length; auto|auto|]. intros k Hk. rewrite nth_ancestor, Zk by auto. specialize (P (K - l)%nat).
    destruct (nth k s 0 =? 1); [|apply Z.div_mul; lia].
    symmetry. apply Z.div_unique with (2 ^ Z.of_nat (K - l) - 1); lia. }
  intros l' Hl'. apply (list_ext n); [rewrite ancestor_length; apply vadd_length|apply vadd_length|].
  intros k Hk. rewrite nth_ancestor, !nth_vadd, nth_ancestor, Zk by auto. specialize (Hs k Hk).
  set (j := (l' - l)%nat). set (i := (K - l')%nat). replace (K - l)%nat with (j + i)%nat by (unfold j, i; lia).
  rewrite Nat2Z.inj_add, Z.pow_add_r by lia. pose proof (P j) as Pj. pose proof (P i) as Pi.
  generalize dependent (2 ^ Z.of_nat j). generalize dependent (2 ^ Z.of_nat i). intros I PI J PJ.
  destruct (Z.eqb_spec (nth k s 0) 1) as [->|Hne].
  - replace (((nth k q 0 + 1) * (J * I) - 1) / I) with ((nth k q 0 + 1) * J - 1); [|apply Z.div_unique with (I - 1); lia].
    replace ((nth k q 0 + 1) * J - 1 + 1) with ((nth k q 0 + 1) * J) by lia. apply Z.div_mul. lia.
  - rewrite Z.mul_assoc, (Z.div_mul _ I) by lia. assert (nth k s 0 = 0 \/ nth k s 0 = -1) as [->| ->] by lia.
    + rewrite !Z.add_0_r. apply Z.div_mul. lia.
    + symmetry. apply Z.div_unique with (J - 1); lia.
Qed.

(** A leaf of [D] inside [q], against the side of [q] where [s] points. *)
Lemma corner_leaf : forall n stencil c K D l q s, graded_refinement n stencil c K D -> no_overlap n c -> ca_mem n c l q -> (l <= K)%nat ->
  (forall k, (k <= n)%nat -> -1 <= nth k s 0 <= 1) ->
  exists l' q', (l <= l')%nat /\ D l' q' /\ ancestor (l' - l) (vadd n q' s) = vadd n q s.
Proof.
  intros n stencil c K D l q s (DL & DR & DC & DG) HD Hq Hl Hs.
  destruct (corner_point n K l q s (proj1 (proj2 Hq)) Hl Hs) as (z & Lz & Az & Bz).
  destruct (DC l q z Hq Lz Hl Az) as (l' & Hl' & Hd). destruct (DR _ _ Hd) as (l0 & H0 & Hc). rewrite ancestor_add in Hc.
  replace (l' - l0 + (K - l'))%nat with (K - l0)%nat in Hc by lia.
  assert (l0 = l) as ->.
  { destruct (Nat.le_ge_cases l0 l) as [Hle|Hle].
    - apply (HD l0 l _ _ Hc Hq Hle). rewrite <- Az, ancestor_add. f_equal. lia.
    - symmetry. apply (HD l l0 _ _ Hq Hc Hle). rewrite <- Az, ancestor_add. f_equal. lia. }
  exists l', (ancestor (K - l') z). spl; auto.
Qed.

Lemma coarsest_step : forall n stencil c new K D, unit_steps n stencil -> no_overlap n c ->
  graded_refinement n stencil c K D -> refines n new c ->
  (forall l q, ca_mem n c l q -> (l <= K)%nat) ->
  (forall l q, ca_mem n c l q -> ca_mem n new l q \/
     (too_coarse n c stencil l q /\ forall p, length p = S n -> ancestor 1 p = q -> ca_mem n new (S l) p)) ->
  graded_refinement n stencil new K D.
Proof.
  intros n stencil c new K D US HD HG HR HK Hn. pose proof HG as (DL & DR & DC & DG). split; [exact DL|split; [|split; [|exact DG]]].
  - intros l p Hp. destruct (DR l p Hp) as (l0 & H0 & Hc). destruct (Hn _ _ Hc) as [Hin|[(_ & l' & q & s & Hq & Hl & Hs & Ea) Hkids]]; [eauto|].
    destruct (corner_leaf n stencil c K D l' q s HG HD Hq (HK _ _ Hq) (fun k Hk => US s k Hs Hk)) as (l2 & q2 & Hl2 & Hd2 & E2).
    destruct (Nat.eq_dec l0 l) as [->|Hne].
    + exfalso. rewrite Nat.sub_diag, ancestor_0 in Ea. apply (DG l l2 p q2 s Hp Hd2 ltac:(lia) Hs).
      rewrite <- Ea, <- E2, ancestor_add. f_equal. lia.
    + exists (S l0). split; [lia|]. apply Hkids; [rewrite ancestor_length; apply (DL l p Hp)|]. rewrite ancestor_add. f_equal. lia.
  - intros l q z Hq Hz Hl Ez. destruct (HR l q Hq) as (l0 & H0 & Hc). apply (DC l0 (ancestor (l - l0) q) z); auto; [lia|].
    rewrite <- Ez, ancestor_add. f_equal. lia.
Qed.

Lemma whole_loop : forall n minl maxl stencil w c os, inv n minl maxl stencil c -> ca_enumeration n c os -> weight n maxl os < Z.of_nat w ->
  exists res, (forall fuel, (w <= fuel)%nat -> grad_while fuel n minl maxl stencil c = Some res) /\ inv n minl maxl stencil res /\ refines n res c /\
    (forall z, length z = S n -> (covered n res maxl z <-> covered n c maxl z)) /\ (forall l p, ~ too_coarse n res stencil l p) /\
    forall K D, unit_steps n stencil -> (maxl <= K)%nat -> graded_refinement n stencil c K D -> graded_refinement n stencil res K D.
Proof.
  intros n minl maxl stencil w. induction w as [|w IH]; intros c os HI Eo Hw.
  { pose proof (weight_nonneg n maxl os). lia. }
  destruct (turn n minl maxl stencil c HI) as (new & E & HIn & Emx & Rf & Cv & Hn & [[Eq Nt]|[Eq (os' & ns & Eo' & En & Hlt)]]).
  - exists c. spl; auto; [|apply refines_refl|tauto]. intros [|fuel] Hf; [lia|]. cbn [grad_while]. rewrite E, Eq. auto.
  - rewrite (ca_enumeration_unique n c os os' Eo Eo') in Hw.
    destruct (IH new ns HIn En ltac:(lia)) as (res & HF & HIr & Rr & Cr & Nr & Gr). exists res. spl; auto.
    + intros [|fuel] Hf; [lia|]. cbn [grad_while]. rewrite E, Eq. apply HF. lia.
    + eapply refines_trans; eauto.
    + intros z Hz. rewrite Cr, Cv by auto. tauto.
    + intros K D US HK HG. apply Gr; auto. apply (coarsest_step n stencil c new K D); auto; [apply HI|].
      intros l q Hq. pose proof (inv_levels _ _ _ _ _ HI l q Hq). lia.
Qed.

Theorem C35_graduation : forall n stencil c, made n c -> no_overlap n c -> in_range n (max_level c) stencil c ->
  exists turns res, (forall fuel, (turns <= fuel)%nat -> make_graduation fuel n stencil c = Some res) /\
    is_graduated n res stencil = Some true /\ no_overlap n res /\ refines n res c /\
    (forall z, length z = S n -> (covered n res (max_level c) z <-> covered n c (max_level c) z)) /\
    (forall l p, ca_mem n res l p -> (min_level c <= l <= max_level c)%nat) /\
    (* and it is the coarsest: any graded set of leaves that refines [c] over the same region refines [res] *)
    (forall K D, unit_steps n stencil -> (max_level c <= K)%nat -> graded_refinement n stencil c K D ->
       forall l p, D l p -> exists l0, (l0 <= l)%nat /\ ca_mem n res l0 (ancestor (l - l0) p)).
Proof.
  intros n stencil c HM HD HR. destruct (made_ok n c HM) as (W & N & S1 & LV).
  pose proof (levels_spec c) as (_ & L1 & L2).
  assert (IL : forall l p, ca_mem n c l p -> (min_level c <= l <= max_level c)%nat).
  { intros l p [Hl Hp]. assert (H : In l (levels c)) by (apply L2; auto; apply (nonempty_mem n); [apply W; auto|eauto]).
    unfold levels in H. apply in_seq in H. lia. }
  assert (HI : inv n (min_level c) (max_level c) stencil c).
  { split; auto. unfold max_level. clear. induction (c_max c) as [|k IH]; cbn [max_level_from]; [destruct (negb _); lia|].
    destruct (negb (lca_is_empty (c_at c (S k)))); lia. }
  destruct (enum_exists n c W) as (os & Eo).
  destruct (whole_loop n (min_level c) (max_level c) stencil (S (Z.to_nat (weight n (max_level c) os))) c os HI Eo) as (res & HF & HIr & Rr & Cr & Nr & Gr).
  { pose proof (weight_nonneg n (max_level c) os). lia. }
  exists (S (Z.to_nat (weight n (max_level c) os))), res. destruct HIr as [M1 M2 M3 M4 M5]. spl; auto; [|intros K D US HK HG; apply (Gr K D US HK HG)].
  destruct (C34_exact n stencil res (in_range_ok _ _ _ _ M1 M4)) as (b & Eb & Hb). rewrite Eb. f_equal. apply Hb.
  intros l l' p q s Hp Hq Hl Hs Ea. apply (Nr l p). split; auto. exists l', q, s. auto.
Qed.

(** The mesh below has leaves on levels 1 and 3 side by side. *)
Definition gradTree : nat -> list lcl_call := fun l =>
  match l with
  | 1%nat => [AddI [0] (mk 0 2); AddI [1] (mk 0 1)]
  | 2%nat => [AddI [2] (mk 3 4); AddI [3] (mk 2 4)]
  | 3%nat => [AddI [4] (mk 4 6); AddI [5] (mk 4 6)]
  | _ => []
  end.
Definition gradMesh : ca := client_ca 1 4 gradTree true.
Definition star2 : list (list Z) := [[0; 0]; [1; 0]; [0; 1]; [-1; 0]; [0; -1]].

Lemma gradMesh_made : made 1 gradMesh.
Proof.
  exists 4%nat, gradTree. spl; [reflexivity| |].
  - intros l Hl. do 5 (destruct l as [|l]; [split; [repeat constructor|apply adds_filled; repeat constructor]|]). lia.
  - intros l. do 4 (destruct l as [|l]; [repeat constructor|]). constructor.
Qed.
Lemma gradMesh_ok : no_overlap 1 gradMesh /\ in_range 1 (max_level gradMesh) star2 gradMesh.
Proof.
  pose proof (proj1 (made_ok 1 gradMesh gradMesh_made)) as W. split.
  - eapply no_overlap_check; [exact W|vm_compute; reflexivity|vm_compute; reflexivity].
  - intros l q k s Hq Hk Hs. destruct (ca_for_each_cell_spec 1 gradMesh W) as (cs & C & [_ EN] & _).
    apply EN in Hq. vm_compute in C. injection C as <-. cbn [map leaf_cells fst snd In] in Hq. assert (k = 0 \/ k = 1)%nat as Hk' by lia.
    assert (Hs' : Z.abs (nth k s 0) <= 1) by (cbn [In star2] in Hs; destruct Hk' as [-> | ->]; repeat (destruct Hs as [<-|Hs]; [cbn; lia|]); destruct Hs).
    replace (max_level gradMesh) with 3%nat by (vm_compute; reflexivity).
    assert (G : Z.max 0 ((nth k q 0 + 1) * 2 ^ Z.of_nat (3 - l)) <= 8); [|lia].
    repeat (destruct Hq as [Hq|Hq]; [apply pair_equal_spec in Hq as [<- <-]; destruct Hk' as [-> | ->]; vm_compute; discriminate|]). destruct Hq.
Qed.

Definition leaves_of (o : option ca) : option (list (nat * list Z)) :=
  let* c := o in let* cs := ca_for_each_cell 1 c in Some (leaf_cells cs).

(** Not graded before: the first turn refines the leaves (0, 1) and (1, 0) of level 1, the second changes nothing. *)
Example C35_example : made 1 gradMesh /\ no_overlap 1 gradMesh /\ in_range 1 (max_level gradMesh) star2 gradMesh /\ unit_steps 1 star2 /\
  is_graduated 1 gradMesh star2 = Some false /\
  leaves_of (make_graduation 2 1 star2 gradMesh) = Some
    [(1%nat, [0; 0]); (2%nat, [2; 0]); (2%nat, [3; 0]); (2%nat, [2; 1]); (2%nat, [3; 1]); (2%nat, [0; 2]); (2%nat, [1; 2]); (2%nat, [3; 2]);
     (2%nat, [0; 3]); (2%nat, [1; 3]); (2%nat, [2; 3]); (2%nat, [3; 3]); (3%nat, [4; 4]); (3%nat, [5; 4]); (3%nat, [4; 5]); (3%nat, [5; 5])].
Proof.
  destruct gradMesh_ok as [H1 H2]. split; [exact gradMesh_made|]. split; [exact H1|]. split; [exact H2|]. split; [|split; vm_compute; reflexivity].
  intros s k Hs Hk. cbn [In star2] in Hs. assert (k = 0 \/ k = 1)%nat as [-> | ->] by lia; repeat (destruct Hs as [<-|Hs]; [cbn; lia|]); destruct Hs.
Qed.

(** The same mesh against a small and a large stencil. *)
Example C34_example : is_graduated 1 exMesh star2 = Some true /\ is_graduated 1 exMesh [[0; 3]; [0; -3]] = Some false.
Proof. vm_compute. auto. Qed.

Print Assumptions C34_exact.
Print Assumptions C35_graduation.
