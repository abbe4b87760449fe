(** C58: the graduation of the tags and the mesh it leads to. *)
From Coq Require Import QArith.
From Verif Require Import Base IntervalModel Spec IntervalProofs LoiModel LcaModel LcaSpec LcaProofs RowsProofs CellArrayModel CellArrayProofs PropsLca PropsCellArray
  SubsetModel TreeProofs SubsetSpec SubsetProofs2 PropsSubset StencilModel NumberingProofs StencilProofs PropsStencil MeshModel MeshProofs
  NumModel NumProofs NumSpec PropsNum AdaptModel AdaptProofs TagProofs PropsAdapt TransferProofs PropsTransfer MrModel MrProofs PropsMr
  GhostModel GhostProofs PropsGhost BcProofs PropsOuter HartenModel HartenProofs HartenProofs2 HartenProofs3.
Open Scope Z_scope.

(** The closed boxes of two cells meet. *)
Definition touch (n l : nat) (p : list Z) (l' : nat) (q : list Z) : Prop := forall k, (k <= n)%nat ->
  nth k p 0 * 2 ^ Z.of_nat l' <= (nth k q 0 + 1) * 2 ^ Z.of_nat l /\ nth k q 0 * 2 ^ Z.of_nat l <= (nth k p 0 + 1) * 2 ^ Z.of_nat l'.

Lemma touch_sym : forall n l p l' q, touch n l p l' q -> touch n l' q l p.
Proof. intros n l p l' q H k Hk. specialize (H k Hk). lia. Qed.
Lemma pow_S : forall l, 2 ^ Z.of_nat (S l) = 2 * 2 ^ Z.of_nat l.
Proof. intros. rewrite Nat2Z.inj_succ, Z.pow_succ_r by lia. auto. Qed.
Lemma pow_pos : forall l, 0 < 2 ^ Z.of_nat l.
Proof. intros. apply Z.pow_pos_nonneg; lia. Qed.
Lemma touch_same : forall n l p q, touch n l p l q -> near n 1 p q.
Proof. intros n l p q H k Hk. specialize (H k Hk). pose proof (pow_pos l). nia. Qed.
Lemma touch_parent : forall n l p l' q, touch n (S l) p l' q -> touch n l (ancestor 1 p) l' q.
Proof.
  intros n l p l' q H k Hk. specialize (H k Hk). rewrite nth_ancestor, pow_S in *. change (2 ^ Z.of_nat 1) with 2.
  pose proof (pow_pos l). pose proof (pow_pos l'). set (a := 2 ^ Z.of_nat l) in *. set (b := 2 ^ Z.of_nat l') in *. clearbody a b.
  assert (D : 2 * (nth k p 0 / 2) <= nth k p 0 <= 2 * (nth k p 0 / 2) + 1) by lia. set (d := nth k p 0 / 2) in *. clearbody d. nia.
Qed.
Lemma touch_child : forall n l p l' q, length p = S n -> touch n l p l' q -> exists c, length c = S n /\ ancestor 1 c = p /\ touch n (S l) c l' q.
Proof.
  intros n l p l' q Lp H.
  set (f := fun k => 2 * nth k p 0 + (if nth k q 0 * (2 * 2 ^ Z.of_nat l) <=? (2 * nth k p 0 + 1) * 2 ^ Z.of_nat l' then 0 else 1)).
  assert (N : forall k, (k <= n)%nat -> nth k (map f (seq 0 (S n))) 0 = f k).
  { intros k Hk. rewrite (nth_indep _ 0 (f 0%nat)) by (rewrite map_length, seq_length; lia). rewrite map_nth, seq_nth by lia. auto. }
  assert (L : length (map f (seq 0 (S n))) = S n) by (rewrite map_length, seq_length; auto).
  exists (map f (seq 0 (S n))). split; auto. split.
  - apply (list_ext n); [rewrite ancestor_length; auto|auto|]. intros k Hk. rewrite nth_ancestor, N by auto. change (2 ^ Z.of_nat 1) with 2. unfold f. destruct (_ <=? _); lia.
  - intros k Hk. specialize (H k Hk). rewrite N, pow_S by auto. pose proof (pow_pos l). pose proof (pow_pos l'). unfold f.
    set (a := 2 ^ Z.of_nat l) in *. set (b := 2 ^ Z.of_nat l') in *. clearbody a b.
    destruct (Z.leb_spec (nth k q 0 * (2 * a)) ((2 * nth k p 0 + 1) * b)); nia.
Qed.
Lemma touch_next : forall n l p l' q v, (l <= l')%nat -> (forall k, (k <= n)%nat -> -1 <= nth k v 0 <= 1) -> ancestor (l' - l) (vadd n q v) = p -> touch n l p l' q.
Proof.
  intros n l p l' q v Hl Hv <- k Hk. rewrite nth_ancestor, nth_vadd by auto. specialize (Hv k Hk).
  assert (E : 2 ^ Z.of_nat l' = 2 ^ Z.of_nat (l' - l) * 2 ^ Z.of_nat l) by (rewrite <- Z.pow_add_r by lia; f_equal; lia). rewrite E.
  pose proof (pow_pos l). pose proof (pow_pos (l' - l)) as P. set (a := 2 ^ Z.of_nat l) in *. set (b := 2 ^ Z.of_nat (l' - l)) in *. clearbody a b. clear E.
  set (z := nth k q 0 + nth k v 0) in *. pose proof (proj1 (div_iff z _ _ P) eq_refl) as D. set (d := z / b) in *. clearbody d. subst z.
  assert (d * b <= nth k q 0 + 1) by lia. assert (nth k q 0 <= (d + 1) * b) by lia. nia.
Qed.
Lemma next_touch : forall n l p l' q, (l <= l')%nat -> length p = S n -> touch n l p l' q ->
  exists v, (forall k, (k <= n)%nat -> -1 <= nth k v 0 <= 1) /\ ancestor (l' - l) (vadd n q v) = p.
Proof.
  intros n l p l' q Hl Lp H.
  assert (E : 2 ^ Z.of_nat l' = 2 ^ Z.of_nat (l' - l) * 2 ^ Z.of_nat l) by (rewrite <- Z.pow_add_r by lia; f_equal; lia).
  set (b := 2 ^ Z.of_nat (l' - l)) in *. assert (P : 0 < b) by apply pow_pos.
  set (f := fun k => if nth k q 0 <? nth k p 0 * b then 1 else if (nth k p 0 + 1) * b <=? nth k q 0 then -1 else 0).
  assert (N : forall k, (k <= n)%nat -> nth k (map f (seq 0 (S n))) 0 = f k).
  { intros k Hk. rewrite (nth_indep _ 0 (f 0%nat)) by (rewrite map_length, seq_length; lia). rewrite map_nth, seq_nth by lia. auto. }
  exists (map f (seq 0 (S n))). split.
  - intros k Hk. rewrite N by auto. unfold f. repeat match goal with |- context [if ?c then _ else _] => destruct c end; lia.
  - apply (list_ext n); [rewrite ancestor_length; apply vadd_length|auto|]. intros k Hk. rewrite nth_ancestor, nth_vadd, N by auto. fold b.
    apply div_iff; auto. specialize (H k Hk). rewrite E in H. pose proof (pow_pos l). set (a := 2 ^ Z.of_nat l) in *. clearbody a b.
    assert (H1 : nth k p 0 * b <= nth k q 0 + 1) by nia. assert (H2 : nth k q 0 <= (nth k p 0 + 1) * b) by nia. unfold f.
    destruct (Z.ltb_spec (nth k q 0) (nth k p 0 * b)); [nia|]. destruct (Z.leb_spec ((nth k p 0 + 1) * b) (nth k q 0)); nia.
Qed.

Section Result.
  Variables (n m minl maxl : nat) (w : Z) (s : nat) (cells : ca) (lo hi : list Z) (r : mr_mesh) (domain : lca) (t : tfield).
  Hypothesis HI : ghost_input n m minl maxl w s cells lo hi.
  Hypothesis HR : update_sub_mesh n m minl maxl w (Z.of_nat s) cells = Some r.
  Hypothesis HB : is_box n maxl lo hi domain.
  Hypothesis HM : marked n minl maxl cells t.
  Notation leaf := (ca_mem n cells).
  Notation up := (refines n cells t).
  Notation down := (coarsens n minl cells t).

  Lemma graduate_flags : exists t', graduate_tags n minl maxl 1 domain cells (r_all r) t = Some t' /\
    (forall l q, leaf l q -> (Re t' l q <-> up l q) /\ (wants_coarsen minl l (tg t' l q) <-> down l q) /\
      Z.testbit (tg t' l q) 0 || Z.testbit (tg t' l q) 1 || Z.testbit (tg t' l q) 2 = true) /\
    (forall tag, (forall l q k, leaf l q -> ca_get_index n cells l q = Some k -> tag k = tg t' l q) -> consistent n minl cells tag).
  Proof.
    destruct (graduate_states n m minl maxl w s cells lo hi r domain HI HR HB t) as (A & B & t' & E & F & A1 & A2 & B1 & B2). exists t'. split; auto. split.
    - apply (leaf_flags n m minl maxl w s cells lo hi r HI HR t t' A B HM F A1 A2 B1 B2).
    - intros tag HT. destruct (C33_consistent n minl maxl cells (r_all r) (B minl) tag) as (t1 & E1 & C).
      + apply (hm_pass_ok n m minl maxl w s cells lo hi r HI HR).
      + apply (in_wf _ _ _ _ _ _ _ (gi_in _ _ _ _ _ _ _ _ _ HI)).
      + rewrite (in_max _ _ _ _ _ _ _ (gi_in _ _ _ _ _ _ _ _ _ HI)). apply (hm_top _ _ _ _ _ _ _ _ _ HI).
      + apply (graduated_start n m minl maxl w s cells lo hi r HI HR t A B HM A1 A2 B1 B2).
      + rewrite (final_maximum_pass _ _ _ _ _ _ F) in E1. injection E1 as <-. auto.
  Qed.

  (** Which leaves the new mesh has. *)
  Definition next_leaf (l : nat) (p : list Z) : Prop :=
    (exists l0, l = S l0 /\ up l0 (ancestor 1 p)) \/ (leaf l p /\ ~ up l p /\ ~ down l p) \/ (exists q, down (S l) q /\ ancestor 1 q = p).

  Lemma up_top : forall l q, up l q -> leaf l q /\ (minl <= l < maxl)%nat.
  Proof. intros l q H. split; [apply refines_inv in H; apply H|]. eapply (refines_top n m minl maxl w s cells lo hi HI t HM); eauto. Qed.

  Section Tag.
    Variables (t' : tfield) (tag : Z -> Z).
    Hypothesis HF : forall l q, leaf l q -> (Re t' l q <-> up l q) /\ (wants_coarsen minl l (tg t' l q) <-> down l q) /\
      Z.testbit (tg t' l q) 0 || Z.testbit (tg t' l q) 1 || Z.testbit (tg t' l q) 2 = true.
    Hypothesis HC : consistent n minl cells tag.
    Hypothesis HT : forall l q k, leaf l q -> ca_get_index n cells l q = Some k -> tag k = tg t' l q.

    Lemma new_leaves : exists new, update_cells n minl maxl cells tag = Some new /\ ca_wf n new /\ no_overlap n new /\
      (forall z, length z = S n -> (covered n new maxl z <-> covered n cells maxl z)) /\ (forall l p, ca_mem n new l p -> (minl <= l <= maxl)%nat) /\
      forall l p, ca_mem n new l p <-> length p = S n /\ next_leaf l p.
    Proof.
      pose proof (in_wf _ _ _ _ _ _ _ (gi_in _ _ _ _ _ _ _ _ _ HI)) as W. pose proof (hm_range _ _ _ _ _ _ _ _ _ HI) as RG.
      assert (HX : (maxl <= c_max cells)%nat) by (rewrite (in_max _ _ _ _ _ _ _ (gi_in _ _ _ _ _ _ _ _ _ HI)); apply (hm_top _ _ _ _ _ _ _ _ _ HI)).
      destruct (C31_same_region_no_overlap n minl maxl cells tag maxl W HX ltac:(lia)) as (new & E & Wn & NO & CV); auto.
      { intros l q Hq. apply RG in Hq. lia. }
      { apply (hm_tiles _ _ _ _ _ _ _ _ _ HI). }
      exists new. split; auto. split; auto. split; auto. split; auto. split; [apply (C32_levels_within_bounds n minl maxl cells tag new W HX RG E)|].
      destruct (C31_exact_leaves n minl maxl cells tag W HX) as (new' & E' & _ & X). rewrite E in E'. injection E' as <-.
      intros l p. rewrite X. unfold next_leaf. clear X. split.
      - intros (Lp & l0 & q & k & Hq & Hk & H). split; auto. rewrite (HT l0 q k Hq Hk) in H. destruct (HF l0 q Hq) as (F1 & F2 & F3). unfold wants_coarsen in F2.
        destruct (Z.testbit (tg t' l0 q) 2) eqn:E2.
        + assert (U : up l0 q) by (apply F1; auto). destruct (up_top _ _ U) as [_ Hl0]. assert ((l0 <? maxl)%nat = true) as EL by (apply Nat.ltb_lt; lia). rewrite EL in H. cbn [andb] in H.
          destruct H as [-> <-]. left. exists l0. auto.
        + assert (U : ~ up l0 q) by (intros Y; apply F1 in Y; discriminate). cbn [andb negb] in H.
          destruct (Z.testbit (tg t' l0 q) 0) eqn:E0, (Z.testbit (tg t' l0 q) 1) eqn:E1, (Nat.ltb_spec minl l0); cbn [andb negb orb] in *;
            try (destruct H as (-> & -> & H); right; left; split; [auto|split; [auto|]]; intros Y; apply F2 in Y; decompose [and] Y; (lia || discriminate)).
          destruct H as [-> ->]. right. right. exists q. split; auto. apply F2. auto.
      - intros (Lp & [(l0 & -> & U)|[(Hq & U & V)|(q & V & <-)]]); (split; [auto|]).
        + destruct (up_top _ _ U) as [Hq Hl0]. destruct (leaf_index n cells l0 (ancestor 1 p) W Hq) as (k & Hk). exists l0, (ancestor 1 p), k. split; auto. split; auto.
          rewrite (HT _ _ _ Hq Hk). destruct (HF _ _ Hq) as (F1 & _). rewrite (proj2 F1 U). assert ((l0 <? maxl)%nat = true) as -> by (apply Nat.ltb_lt; lia). cbn [andb]. auto.
        + destruct (leaf_index n cells l p W Hq) as (k & Hk). exists l, p, k. split; auto. split; auto. rewrite (HT _ _ _ Hq Hk). destruct (HF _ _ Hq) as (F1 & F2 & F3). unfold wants_coarsen in F2.
          destruct (Z.testbit (tg t' l p) 2) eqn:E2; [exfalso; apply U, F1; auto|]. cbn [andb negb].
          destruct (Z.testbit (tg t' l p) 0) eqn:E0, (Z.testbit (tg t' l p) 1) eqn:E1, (Nat.ltb_spec minl l); cbn [andb negb orb] in *; auto.
          exfalso. apply V, F2. auto.
        + pose proof V as (V1 & Hq & _). destruct (leaf_index n cells (S l) q W Hq) as (k & Hk). exists (S l), q, k. split; auto. split; auto. rewrite (HT _ _ _ Hq Hk).
          destruct (HF _ _ Hq) as (_ & F2 & _). apply F2 in V as (Y1 & Y2 & Y3 & Y4). rewrite Y2, Y3, Y4. cbn [andb negb]. assert ((minl <? S l)%nat = true) as -> by (apply Nat.ltb_lt; lia). auto.
    Qed.
  End Tag.

  (** *** The new leaves are graded *)
  Lemma finer_not_down : forall l x y, down l x -> leaf (S l) y -> touch n l x (S l) y -> False.
  Proof.
    intros l x y (_ & Hx & H) Hy T. destruct (H x ltac:(apply Hx) eq_refl) as (_ & _ & X & _). apply (X y Hy).
    apply touch_sym, touch_parent, touch_same in T. auto.
  Qed.
  Lemma beside_up_not_down : forall l x y, down l x -> up l y -> touch n l x l y -> False.
  Proof.
    intros l x y (_ & Hx & H) Hy T. destruct (H x ltac:(apply Hx) eq_refl) as (_ & _ & _ & X). apply (X y); auto. apply touch_sym, touch_same in T. auto.
  Qed.
  Lemma up_pulls : forall l x y, leaf l x -> up (S l) y -> touch n l x (S l) y -> up l x.
  Proof.
    intros l x y Hx Hy T. destruct (touch_child n l x (S l) y ltac:(apply Hx) T) as (c & Lc & Ec & Tc). apply (refines_touched n cells t l x c y); auto. apply (touch_same n (S l)). auto.
  Qed.

  (** An old leaf behind a new one, touching [q]. *)
  Lemma behind : forall l p l' q, length p = S n -> next_leaf l p -> touch n l p l' q ->
    exists l0 x, leaf l0 x /\ touch n l0 x l' q /\
      ((l = S l0 /\ up l0 x) \/ (l = l0 /\ ~ up l0 x /\ ~ down l0 x) \/ (l0 = S l /\ down l0 x)).
  Proof.
    intros l p l' q Lp H T. destruct H as [(l0 & -> & U)|[(Hp & U & V)|(c & V & E)]].
    - exists l0, (ancestor 1 p). split; [apply up_top; auto|]. split; [apply touch_parent; auto|]. left. auto.
    - exists l, p. split; [auto|]. split; [auto|]. right. left. auto.
    - destruct (touch_child n l p l' q Lp T) as (x & Lx & Ex & Tx).
      assert (D : down (S l) x).
      { destruct V as (V1 & V2 & V3). split; auto. split; [apply (V3 x); auto; congruence|]. intros q' L' E'. apply V3; auto. congruence. }
      exists (S l), x. split; [apply (proj1 (proj2 D))|]. split; [auto|]. right. right. auto.
  Qed.

  Lemma next_graded : forall l l' p q, length p = S n -> length q = S n -> next_leaf l p -> next_leaf l' q -> (l + 2 <= l')%nat -> touch n l p l' q -> False.
  Proof.
    intros l l' p q Lp Lq Hp Hq Hl T.
    destruct (behind l' q l p Lq Hq (touch_sym _ _ _ _ _ T)) as (b & y & Hy & Ty & Cy). apply touch_sym in Ty.
    destruct (behind l p b y Lp Hp Ty) as (a & x & Hx & Tx & Cx).
    assert (G : (b <= S a)%nat).
    { destruct (Nat.le_gt_cases b (S a)) as [|Hgt]; auto. exfalso. destruct (next_touch n a x b y ltac:(lia) ltac:(apply Hx) Tx) as (v & Hv & Ev).
      apply (hm_graded _ _ _ _ _ _ _ _ _ HI a b x y v); auto. lia. }
    destruct Cx as [[-> Ux]|[[-> [Nx Dx]]|[-> Dx]]], Cy as [[-> Uy]|[[-> [Ny Dy]]|[-> Dy]]]; try lia.
    - assert (b = S a) as -> by lia. apply Nx. apply (up_pulls a x y); auto.
    - assert (b = S l \/ b = S (S l)) as [->| ->] by lia; [apply (beside_up_not_down (S l) x y)|apply (finer_not_down (S l) x y)]; auto.
    - assert (b = S (S l)) as -> by lia. apply (finer_not_down (S l) x y); auto.
  Qed.
End Result.

(** The tags after the graduation, leaf by leaf: refine exactly on the leaves of [refines],
    the flags that lead to a coarsening exactly on the leaves of [coarsens]. *)
Theorem C58_flags : forall n m minl maxl w s cells lo hi r domain t, ghost_input n m minl maxl w s cells lo hi ->
  update_sub_mesh n m minl maxl w (Z.of_nat s) cells = Some r -> is_box n maxl lo hi domain -> marked n minl maxl cells t ->
  exists t', graduate_tags n minl maxl 1 domain cells (r_all r) t = Some t' /\
    forall l q, ca_mem n cells l q -> (Re t' l q <-> refines n cells t l q) /\ (wants_coarsen minl l (tg t' l q) <-> coarsens n minl cells t l q).
Proof.
  intros n m minl maxl w s cells lo hi r domain t HI HR HB HM. destruct (graduate_flags n m minl maxl w s cells lo hi r domain t HI HR HB HM) as (t' & E & F & _).
  exists t'. split; auto. intros l q Hq. destruct (F l q Hq) as (F1 & F2 & _). auto.
Qed.

(** The mesh built from tags that mark exactly the leaves to refine and to coarsen. *)
Lemma mesh_of_flags : forall n m minl maxl w s cells lo hi t t' tag, ghost_input n m minl maxl w s cells lo hi -> marked n minl maxl cells t ->
  (forall l q, ca_mem n cells l q -> (Re t' l q <-> refines n cells t l q) /\ (wants_coarsen minl l (tg t' l q) <-> coarsens n minl cells t l q) /\
      Z.testbit (tg t' l q) 0 || Z.testbit (tg t' l q) 1 || Z.testbit (tg t' l q) 2 = true) ->
  (forall l q k, ca_mem n cells l q -> ca_get_index n cells l q = Some k -> tag k = tg t' l q) ->
  consistent n minl cells tag /\
  exists new, update_cells n minl maxl cells tag = Some new /\ ca_wf n new /\ tiles n new lo hi /\ graded_box n new /\
    (forall l p, ca_mem n new l p -> (minl <= l <= maxl)%nat) /\
    forall l p, ca_mem n new l p <-> length p = S n /\
      ((exists l0, l = S l0 /\ refines n cells t l0 (ancestor 1 p)) \/
       (ca_mem n cells l p /\ ~ refines n cells t l p /\ ~ coarsens n minl cells t l p) \/
       (exists q, coarsens n minl cells t (S l) q /\ ancestor 1 q = p)).
Proof.
  intros n m minl maxl w s cells lo hi t t' tag HI HM F HT.
  pose proof (in_wf _ _ _ _ _ _ _ (gi_in _ _ _ _ _ _ _ _ _ HI)) as W.
  assert (C : consistent n minl cells tag).
  { intros l q k Hq Hk. rewrite (HT _ _ _ Hq Hk). destruct (F _ _ Hq) as (_ & F2 & F3). split; auto.
    intros Hc q' Lq' Eq'. apply F2 in Hc. destruct Hc as (Hl & _ & Hs). destruct (Hs q' Lq' Eq') as (Hq' & _).
    split; auto. destruct (leaf_index n cells l q' W Hq') as (k' & Hk'). exists k'. split; auto. rewrite (HT _ _ _ Hq' Hk').
    apply (F _ _ Hq'). split; auto. split; auto. intros q2 L2 E2. apply Hs; auto. congruence. }
  split; auto.
  destruct (new_leaves n m minl maxl w s cells lo hi t HI HM t' tag F C HT) as (new & EN & Wn & NO & CV & LV & X).
  pose proof (hm_tiles _ _ _ _ _ _ _ _ _ HI) as (_ & IN & CO). pose proof (hm_range _ _ _ _ _ _ _ _ _ HI) as RG.
  exists new. split; auto. split; auto. split; [|split; [|split; auto]].
  - split; auto. split.
    + intros l p Hp. apply X in Hp as (Lp & [(l0 & -> & U)|[(Hp & _)|(q & (_ & Hq & _) & <-)]]); auto.
      * apply (up_top n m minl maxl w s cells lo hi t HI HM) in U as [U _]. apply IN in U. replace (S l0) with (l0 + 1)%nat by lia. apply inside_ancestor. auto.
      * apply IN in Hq. replace (S l) with (l + 1)%nat in Hq by lia. apply inside_ancestor in Hq. apply Hq.
    + intros Kf z HK Hz. set (M := Nat.max Kf maxl). destruct (descend (M - Kf) z) as (y & Ly & Ey). assert (Lz : length z = S n) by apply Hz.
      assert (Hx : inside n lo hi maxl (ancestor (M - maxl) y)).
      { assert (Hy : inside n lo hi M y) by (replace M with (Kf + (M - Kf))%nat by lia; apply inside_ancestor; rewrite Ey; split; [lia|auto]).
        replace M with (maxl + (M - maxl))%nat in Hy at 1 by lia. apply inside_ancestor in Hy. apply Hy. }
      assert (CX : covered n new maxl (ancestor (M - maxl) y)).
      { apply CV; [apply Hx|]. apply CO; auto. intros l q Hq. apply RG in Hq. lia. }
      destruct CX as (l & Hl & Hm). exists l. specialize (HK _ _ Hm). split; auto. rewrite <- Ey, ancestor_add. rewrite ancestor_add in Hm.
      replace (Kf - l + (M - Kf))%nat with (maxl - l + (M - maxl))%nat by lia. auto.
  - intros l l' p q v Hp Hq Hl Hv Ev. apply X in Hp as [Lp Hp], Hq as [Lq Hq].
    apply (next_graded n m minl maxl w s cells lo hi t HI HM l l' p q Lp Lq Hp Hq Hl). apply (touch_next n l p l' q v); auto. lia.
Qed.

(** The mesh built from the graduated tags: its leaves, and it is again a graded tiling of the
    box with the levels within the bounds. *)
Theorem C58_new_mesh : forall n m minl maxl w s cells lo hi r domain t t' tag, ghost_input n m minl maxl w s cells lo hi ->
  update_sub_mesh n m minl maxl w (Z.of_nat s) cells = Some r -> is_box n maxl lo hi domain -> marked n minl maxl cells t ->
  graduate_tags n minl maxl 1 domain cells (r_all r) t = Some t' ->
  (forall l q k, ca_mem n cells l q -> ca_get_index n cells l q = Some k -> tag k = tg t' l q) ->
  exists new, update_cells n minl maxl cells tag = Some new /\ ca_wf n new /\ tiles n new lo hi /\ graded_box n new /\
    (forall l p, ca_mem n new l p -> (minl <= l <= maxl)%nat) /\
    forall l p, ca_mem n new l p <-> length p = S n /\
      ((exists l0, l = S l0 /\ refines n cells t l0 (ancestor 1 p)) \/
       (ca_mem n cells l p /\ ~ refines n cells t l p /\ ~ coarsens n minl cells t l p) \/
       (exists q, coarsens n minl cells t (S l) q /\ ancestor 1 q = p)).
Proof.
  intros n m minl maxl w s cells lo hi r domain t t' tag HI HR HB HM E HT.
  destruct (graduate_flags n m minl maxl w s cells lo hi r domain t HI HR HB HM) as (t1 & E1 & F & _). rewrite E in E1. injection E1 as <-.
  exact (proj2 (mesh_of_flags n m minl maxl w s cells lo hi t t' tag HI HM F HT)).
Qed.

(** ** Examples *)
Lemma marked_check : forall n minl maxl c cs t, ca_wf n c -> ca_for_each_cell n c = Some cs ->
  forallb (fun '(l, p) => (Z.testbit (tg t l p) 0 || (Nat.ltb minl l && Z.testbit (tg t l p) 1)) &&
             implb (Z.testbit (tg t l p) 2) (Z.testbit (tg t l p) 0 && Nat.ltb l maxl)) (leaf_cells cs) = true -> marked n minl maxl c t.
Proof.
  intros n minl maxl c cs t W E H l q Hq. destruct (ca_for_each_cell_spec n c W) as (cs' & E' & [_ EN] & _). rewrite E in E'. injection E' as <-.
  apply EN in Hq. rewrite forallb_forall in H. specialize (H _ Hq). cbn beta iota in H. apply andb_true_iff in H as [H1 H2]. split.
  - apply orb_true_iff in H1 as [H1|H1]; [left; exact H1|right]. apply andb_true_iff in H1 as [H1 H3]. apply Nat.ltb_lt in H1. split; auto.
  - intros R. rewrite R in H2. cbn [implb] in H2. apply andb_true_iff in H2 as [H2 H3]. apply Nat.ltb_lt in H3. auto.
Qed.

(** The graduation and the new leaves, as in [harten], with the leaves numbered alone. *)
Definition graduate_mesh (n m minl maxl : nat) (w : Z) (s : nat) (gw : Z) (domain : lca) (cells : ca) (t : tfield) : option ca :=
  let* r := update_sub_mesh n m minl maxl w (Z.of_nat s) cells in
  let* t' := graduate_tags n minl maxl gw domain cells (r_all r) t in
  let* cs := ca_for_each_cell n cells in
  update_cells n minl maxl cells (storage_of cs t').
Definition leaf_list (n : nat) (c : ca) : option (list (nat * list Z)) := option_map leaf_cells (ca_for_each_cell n c).

(** The mesh of C55: the leaf (2, 2) of level 2 wants to be refined, the four leaves of level
    3 to be coarsened; so does the leaf (3, 2) of level 2, whose sibling is refined. The three
    leaves of level 1 next to (2, 2) are refined with it, one of them by its corner; the leaf
    (3, 2) stays. *)
Definition exTags : tfield := fun l x yz =>
  if negb (stored 1 exMesh l (x :: yz)) then 0 else if Nat.eqb l 3 then 2 else if Nat.eqb l 2 && zlist_eqb yz [2] then (if x =? 2 then 5 else 2) else 1.
Example C58_example : ghost_input 1 4 1 3 1 1 exMesh [0; 0] [1; 1] /\ is_box 1 3 [0; 0] [1; 1] (box_domain 1 3 [0; 0] [1; 1]) /\ marked 1 1 3 exMesh exTags /\
  leaf_list 1 exMesh = Some [(1%nat, [0; 0]); (1%nat, [1; 0]); (1%nat, [0; 1]);
    (2%nat, [2; 2]); (2%nat, [3; 2]); (2%nat, [2; 3]); (3%nat, [6; 6]); (3%nat, [7; 6]); (3%nat, [6; 7]); (3%nat, [7; 7])] /\
  option_map (leaf_list 1) (graduate_mesh 1 4 1 3 1 1 1 (box_domain 1 3 [0; 0] [1; 1]) exMesh exTags) =
  Some (Some [(2%nat, [0; 0]); (2%nat, [1; 0]); (2%nat, [2; 0]); (2%nat, [3; 0]); (2%nat, [0; 1]); (2%nat, [1; 1]); (2%nat, [2; 1]); (2%nat, [3; 1]);
    (2%nat, [0; 2]); (2%nat, [1; 2]); (2%nat, [3; 2]); (2%nat, [0; 3]); (2%nat, [1; 3]); (2%nat, [2; 3]); (2%nat, [3; 3]);
    (3%nat, [4; 4]); (3%nat, [5; 4]); (3%nat, [4; 5]); (3%nat, [5; 5])]).
Proof.
  split; [exact exMesh_ghosts|]. split.
  { apply box_domain_ok; auto. intros [|[|k]] Hk; [reflexivity|reflexivity|lia]. }
  split; [eapply marked_check; [exact exMesh_wf|vm_compute; reflexivity|vm_compute; reflexivity]|]. split; vm_compute; reflexivity.
Qed.

(** ** What fails *)

(** The graduation with graduation_width = 2 looks two cells away and misses the cells in
    between: [0, 1) with the leaf 0 of level 1, the leaf 2 of level 2 and the leaves 6 and 7
    of level 3. When the leaf of level 2 is refined the leaf of level 1 stays, and the leaf 4
    of level 3 is next to it. With the width 1 the leaf of level 1 is refined (C58). *)
Definition lineTree : nat -> list lcl_call := fun l =>
  match l with
  | 1%nat => [AddI [] (mk 0 1)]
  | 2%nat => [AddI [] (mk 2 3)]
  | 3%nat => [AddI [] (mk 6 8)]
  | _ => []
  end.
Definition lineMesh : ca := client_ca 0 4 lineTree true.
Lemma lineMesh_wf : ca_wf 0 lineMesh.
Proof.
  assert (G : good_hist 0 4 lineTree).
  { intros l Hl. split; [|apply adds_filled]; destruct l as [|[|[|[|l]]]]; repeat constructor; simpl; lia. }
  destruct (ca_update_index_spec 0 (client_ca 0 4 lineTree false) (raw_wf _ _ _ G)) as (cs & _ & W & _). exact W.
Qed.
Definition lineTags : tfield := fun l x yz => if stored 0 lineMesh l (x :: yz) then (if Nat.eqb l 2 then 5 else 1) else 0.
Definition lineDomain : lca := box_domain 0 3 [0] [1].
Lemma lineMesh_input : forall w, w = 1 \/ w = 2 -> ghost_input 0 4 1 3 w 1 lineMesh [0] [1].
Proof.
  intros w Hw. eapply ghost_check; [exact lineMesh_wf|reflexivity|vm_compute; reflexivity|vm_compute; reflexivity|vm_compute; reflexivity|vm_compute; reflexivity|
    vm_compute; reflexivity|vm_compute; discriminate|reflexivity|reflexivity|lia|lia|left; destruct Hw as [->| ->]; vm_compute; discriminate|lia|].
  intros [|k] Hk; [|lia]. destruct Hw as [->| ->]; reflexivity.
Qed.
Theorem C58_width_refuted :
  ghost_input 0 4 1 3 2 1 lineMesh [0] [1] /\ is_box 0 3 [0] [1] lineDomain /\ marked 0 1 3 lineMesh lineTags /\
  (exists new, graduate_mesh 0 4 1 3 2 1 2 lineDomain lineMesh lineTags = Some new /\ ~ graded_box 0 new) /\
  option_map (leaf_list 0) (graduate_mesh 0 4 1 3 2 1 1 lineDomain lineMesh lineTags) =
    Some (Some [(2%nat, [0]); (2%nat, [1]); (3%nat, [4]); (3%nat, [5]); (3%nat, [6]); (3%nat, [7])]).
Proof.
  split; [apply lineMesh_input; auto|]. split.
  { apply box_domain_ok; auto. intros [|k] Hk; [reflexivity|lia]. }
  split; [eapply marked_check; [exact lineMesh_wf|vm_compute; reflexivity|vm_compute; reflexivity]|]. split; [|vm_compute; reflexivity].
  destruct (graduate_mesh 0 4 1 3 2 1 2 lineDomain lineMesh lineTags) as [new|] eqn:E; [|exfalso; revert E; vm_compute; discriminate].
  exists new. split; auto.
  assert (W : ca_wf 0 new).
  { revert E. unfold graduate_mesh. destruct (update_sub_mesh _ _ _ _ _ _ _) as [r|]; [|discriminate]. destruct (graduate_tags _ _ _ _ _ _ _ _) as [t'|]; [|discriminate].
    destruct (ca_for_each_cell _ _) as [cs|]; [|discriminate]. intros E.
    destruct (C31_exact_leaves 0 1 3 lineMesh (storage_of cs t') lineMesh_wf) as (new' & E' & W & _); [cbn; lia|]. rewrite E in E'. injection E' as <-. exact W. }
  assert (X : option_map (leaf_list 0) (Some new) = Some (Some [(1%nat, [0]); (3%nat, [4]); (3%nat, [5]); (3%nat, [6]); (3%nat, [7])])) by (rewrite <- E; vm_compute; reflexivity).
  cbn [option_map] in X. unfold leaf_list in X. destruct (ca_for_each_cell_spec 0 new W) as (cs & EC & [_ EN] & _). rewrite EC in X. cbn [option_map] in X.
  injection X as X. rewrite X in EN. intros G.
  apply (G 1%nat 3%nat [0] [4] [-1]); [apply EN; cbn; auto|apply EN; cbn; auto|lia| |reflexivity].
  intros [|k] Hk; [cbn; lia|lia].
Qed.

(** When graduation_width is larger than the margin of the mesh (max_stencil_width), the
    graduation touches cells that are not stored. *)
Theorem C58_storage_refuted :
  ghost_input 0 4 1 3 1 1 lineMesh [0] [1] /\ is_box 0 3 [0] [1] lineDomain /\ marked 0 1 3 lineMesh lineTags /\
  exists r, update_sub_mesh 0 4 1 3 1 1 lineMesh = Some r /\ graduate_tags 0 1 3 4 lineDomain lineMesh (r_all r) lineTags = None.
Proof.
  split; [apply lineMesh_input; auto|]. split.
  { apply box_domain_ok; auto. intros [|k] Hk; [reflexivity|lia]. }
  split; [eapply marked_check; [exact lineMesh_wf|vm_compute; reflexivity|vm_compute; reflexivity]|].
  destruct (update_sub_mesh 0 4 1 3 1 1 lineMesh) as [r|] eqn:E; [|exfalso; revert E; vm_compute; discriminate]. exists r. split; auto.
  assert (X : forall o, o = Some r -> match o with Some r => graduate_tags 0 1 3 4 lineDomain lineMesh (r_all r) lineTags | None => Some lineTags end = None)
    by (intros o Eo; rewrite <- E in Eo; subst o; vm_compute; reflexivity).
  exact (X _ eq_refl).
Qed.

Print Assumptions C58_flags.
Print Assumptions C58_new_mesh.
Print Assumptions C58_width_refuted.
Print Assumptions C58_storage_refuted.
