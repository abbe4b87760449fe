(** C59: the details, the criteria and the tags of one iteration of the adaptation. *)
From Coq Require Import QArith Qabs Lqa.
From Verif Require Import Base IntervalModel Spec IntervalProofs LoiModel LcaModel LcaSpec LcaProofs RowsProofs CellArrayModel CellArrayProofs PropsLca PropsCellArray
  SubsetModel TreeProofs SubsetSpec SubsetProofs2 PropsSubset StencilModel NumberingProofs StencilProofs PropsStencil MeshModel MeshProofs
  NumModel NumProofs NumSpec PropsNum AdaptModel AdaptProofs TagProofs PropsAdapt TransferProofs PropsTransfer MrModel MrProofs PropsMr
  GhostModel GhostProofs PropsGhost BcProofs PropsOuter HartenModel HartenProofs HartenProofs2 HartenProofs3 PropsHarten DetailProofs CriteriaProofs AroundProofs.
Open Scope Z_scope.

(** ** What the criteria ask for *)

(** The detail [d] of a cell. *)
Definition size (d : lfield) (l : nat) (p : list Z) : Q := Qabs (d l (hd 0 p) (tl p)).
(** The threshold of the level [l]: eps divided by the number of cells of the finest level in a cell of level [l]. *)
Definition threshold (n maxl : nat) (eps : Q) (l : nat) : Q := (eps / inject_Z (2 ^ (Z.of_nat (S n) * Z.of_nat (maxl - l))))%Q.

Section Wishes.
  Variables (n minl maxl top : nat) (eps factor : Q) (enlarged : bool) (cells : ca) (d : lfield).
  Notation leaf l p := (ca_mem n cells l p).

  (** The children whose detail the coarsening criterion looks at: all of them, in
      dimension 1 the first one. *)
  Definition looked_at (p c : list Z) : Prop := length c = S n /\ ancestor 1 c = p /\ (n = 0%nat -> c = map (Z.mul 2) p).
  (** A leaf asked to be refined because of its detail. *)
  Definition asked (l : nat) (q : list Z) : Prop :=
    leaf l q /\ (l <= top)%nat /\ (l < maxl)%nat /\ (factor * threshold n maxl eps l < size d l q)%Q.
  (** A cell that may disappear: the details of its siblings and of its parent are small. *)
  Definition quiet (l : nat) (q : list Z) : Prop := (minl < l <= top)%nat /\
    (forall c, looked_at (ancestor 1 q) c -> (size d l c < threshold n maxl eps l)%Q) /\
    (size d (Nat.pred l) (ancestor 1 q) <= factor * threshold n maxl eps l / inject_Z (2 ^ Z.of_nat (S n)))%Q.
  Definition next_to_asked (l : nat) (c : list Z) : Prop := exists y, near n 1 c y /\ asked l y.
  Definition stays (l : nat) (q : list Z) : Prop := ~ quiet l q \/ next_to_asked l q.

  (** The leaves to refine: those asked for, those touching a finer leaf that stays when a
      margin is wanted, those touching a finer leaf to refine. *)
  Inductive to_refine : nat -> list Z -> Prop :=
    | refine_asked l q : asked l q -> to_refine l q
    | refine_margin l q y : enlarged = true -> leaf l q -> leaf (S l) y -> (S l <= top)%nat -> touch n l q (S l) y -> stays (S l) y -> to_refine l q
    | refine_pulled l q y : leaf l q -> to_refine (S l) y -> touch n l q (S l) y -> to_refine l q.

  (** The leaves to coarsen: quiet, all their siblings are leaves, no sibling is next to a
      refined cell or to a leaf to refine, nor to a leaf that stays when a margin is wanted. *)
  Definition to_coarsen (l : nat) (q : list Z) : Prop := leaf l q /\ quiet l q /\
    forall q', length q' = S n -> ancestor 1 q' = ancestor 1 q -> leaf l q' /\
      (forall y, leaf (S l) y -> ~ near n 1 (ancestor 1 y) q') /\
      (forall y, near n 1 y q' -> ~ to_refine l y) /\
      (enlarged = true -> forall y, leaf l y -> near n 1 y q' -> ~ stays l y).
End Wishes.

Lemma to_refine_inv : forall n minl maxl top eps factor enlarged cells d l q, to_refine n minl maxl top eps factor enlarged cells d l q ->
  ca_mem n cells l q /\ (asked n maxl top eps factor cells d l q \/
   (exists y, enlarged = true /\ ca_mem n cells (S l) y /\ (S l <= top)%nat /\ touch n l q (S l) y /\ stays n minl maxl top eps factor cells d (S l) y) \/
   (exists y, to_refine n minl maxl top eps factor enlarged cells d (S l) y /\ touch n l q (S l) y)).
Proof. intros n minl maxl top eps factor enlarged cells d l q H. inversion_clear H as [? ? A|? ? y A B C D E F|? ? y A B C]; [split; [apply A|auto]|split; [auto|right; left; exists y; auto]|split; [auto|right; right; exists y; auto]]. Qed.

(** *** Reflection *)
Lemma below_spec : forall a b, below a b = true <-> (a < b)%Q.
Proof.
  intros a b. unfold below. rewrite negb_true_iff. split.
  - intros H. apply Qnot_le_lt. intros X. apply Qle_bool_iff in X. congruence.
  - intros H. apply not_true_is_false. intros X. apply Qle_bool_iff in X. apply Qle_not_lt in X. auto.
Qed.
Lemma over_spec : forall d l e p, over d l e p = true <-> (e < size d l p)%Q.
Proof. intros. apply below_spec. Qed.

Lemma doubled_child : forall x, children x [] = [(2 * x, []); (2 * x + 1, [])].
Proof. intros x. unfold children. cbn. f_equal. f_equal. lia. Qed.
Lemma calm_spec : forall n d l e q, length q = S n -> (calm d l e (ancestor 1 q) = true <-> forall c, looked_at n (ancestor 1 q) c -> (size d (S l) c < e)%Q).
Proof.
  intros n d l e q Lq. assert (La : length (ancestor 1 q) = S n) by (rewrite ancestor_length; auto). unfold looked_at. set (p := ancestor 1 q) in *. clearbody p. clear q Lq.
  destruct p as [|x yz]; [discriminate|]. unfold calm. cbn [hd tl]. rewrite forallb_forall. unfold size. cbn [length] in La.
  assert (X : forall c, length c = S n -> (In (cut c) (children x yz) <-> ancestor 1 c = x :: yz)).
  { intros [|cx cy] Lc; [discriminate|]. unfold cut. cbn [hd tl]. rewrite children_In, ancestor_cons. change (2 ^ Z.of_nat 1) with 2. cbn [length] in Lc. split.
    - intros (-> & _ & ->). auto.
    - intros E. injection E as E1 E2. split; auto. split; [lia|auto]. }
  destruct yz as [|y yz].
  - assert (n = 0%nat) by (cbn in La; lia). subst n. rewrite doubled_child. cbn [firstn]. split.
    + intros H c (Lc & E & E0). specialize (E0 eq_refl). cbn [map] in E0. subst c. cbn [hd tl]. apply below_spec. apply (H (2 * x, [])). left. auto.
    + intros H c [<-|[]]. apply below_spec. apply (H [2 * x]). split; auto. split; [|auto]. unfold ancestor. cbn [map]. change (2 ^ Z.of_nat 1) with 2. f_equal. lia.
  - assert (n <> 0%nat) by (cbn in La; lia). split.
    + intros H' c (Lc & E & _). apply below_spec. apply X in E; auto. exact (H' _ E).
    + intros H' [cx cy] Hc. apply below_spec. assert (Lc : length (cx :: cy) = S n).
      { apply children_In in Hc as (_ & L & _). cbn [length] in *. lia. }
      apply (H' (cx :: cy)). split; auto. split; [|lia]. apply X; auto.
Qed.

Lemma near_touch : forall n l p y, near n 1 p y -> touch n l p l y.
Proof. intros n l p y H k Hk. specialize (H k Hk). pose proof (pow_pos l). nia. Qed.
Lemma touch_children : forall n l q y, length q = S n -> (touch n l q (S l) y <-> exists p, length p = S n /\ ancestor 1 p = q /\ near n 1 p y).
Proof.
  intros n l q y Lq. split.
  - intros H. destruct (touch_child n l q (S l) y Lq H) as (c & Lc & E & T). exists c. split; auto. split; auto. apply (touch_same n (S l)). auto.
  - intros (p & Lp & <- & N). apply touch_parent. apply near_touch. auto.
Qed.

Section Tags.
  Variables (n m minl maxl : nat) (w : Z) (s : nat) (cells : ca) (lo hi : list Z) (r : mr_mesh).
  Hypothesis HI : ghost_input n m minl maxl w s cells lo hi.
  Hypothesis HR : update_sub_mesh n m minl maxl w (Z.of_nat s) cells = Some r.
  Variables (top : nat) (eps factor : Q) (enlarged : bool) (d : lfield).
  Hypothesis Hmin : (1 <= minl)%nat.
  Hypothesis Htop : (top <= maxl)%nat.
  Hypothesis H31 : Z.of_nat (S n) * Z.of_nat (maxl - minl) < 31.
  Notation leaf l p := (ca_mem n cells l p).
  Notation parent l p := (has_leaf n cells l p).
  Notation asked := (asked n maxl top eps factor cells d).
  Notation quiet := (quiet n minl maxl top eps factor d).
  Notation stays := (stays n minl maxl top eps factor cells d).
  Notation next_to_asked := (next_to_asked n maxl top eps factor cells d).
  Notation to_refine := (to_refine n minl maxl top eps factor enlarged cells d).
  Notation to_coarsen := (to_coarsen n minl maxl top eps factor enlarged cells d).

  Lemma quiet_dec : forall l q, length q = S n -> {quiet l q} + {~ quiet l q}.
  Proof using Type. clear HI HR Hmin Htop H31.
    intros l q Lq. unfold PropsDetail.quiet. destruct (le_dec (S minl) l) as [H1|H1]; [|right; lia]. destruct (le_dec l top) as [H2|H2]; [|right; lia].
    destruct l as [|l]; [right; lia|]. destruct (calm d l (threshold n maxl eps (S l)) (ancestor 1 q)) eqn:C.
    - destruct (over d l (factor * threshold n maxl eps (S l) / inject_Z (2 ^ Z.of_nat (S n)))%Q (ancestor 1 q)) eqn:O.
      + right. intros (_ & _ & X). apply over_spec in O. cbn [Nat.pred] in X. apply Qle_not_lt in X. auto.
      + left. split; [lia|]. split; [apply calm_spec; auto|]. cbn [Nat.pred]. apply Qnot_lt_le. intros X. apply over_spec in X. congruence.
    - right. intros (_ & X & _). rewrite (proj2 (calm_spec n d l (threshold n maxl eps (S l)) q Lq) X) in C. discriminate.
  Qed.

  Lemma leaf_parent : forall l q, leaf (S l) q -> parent l (ancestor 1 q).
  Proof. intros l q H. exists q. auto. Qed.

  (** The tags after the criteria and the margins. *)
  Lemma tags_before : exists t, (let* t := first_tags n cells in let* t := criteria n minl maxl top eps factor cells (r_all r) d t in
      around n enlarged minl top cells (r_ghosts r) (r_all r) t) = Some t /\
    (forall l q, leaf l q -> (Re t l q <-> asked l q)) /\
    (forall l q, leaf l q -> (K t l q <-> (top < l)%nat \/ stays l q \/ (enlarged = true /\ exists y, leaf l y /\ near n 1 q y /\ stays l y))) /\
    (forall l q, leaf l q -> K t l q \/ ((minl < l)%nat /\ Co t l q)) /\
    (forall l q p, leaf l q -> length p = S n -> ancestor 1 p = q ->
       (K t (S l) p <-> (S l <= top)%nat /\ (next_to_asked (S l) p \/ (enlarged = true /\ exists y, leaf (S l) y /\ near n 1 p y /\ stays (S l) y)))).
  Proof.
    pose proof (gi_in _ _ _ _ _ _ _ _ _ HI) as X. destruct (first_tags_spec n cells (in_wf _ _ _ _ _ _ _ X)) as (t0 & E0 & F0). clear X. rewrite E0.
    destruct (criteria_spec n m minl maxl w s cells lo hi r HI HR eps factor d top t0 Hmin Htop H31) as (t1 & E1 & U0 & F1). rewrite E1.
    pose proof (hm_range _ _ _ _ _ _ _ _ _ HI) as RG. pose proof (hm_tiles _ _ _ _ _ _ _ _ _ HI) as (HO & _ & _).
    (* the tags after the criteria *)
    assert (T1 : forall l c, length c = S n -> ((minl <= S l <= top)%nat /\ parent l (ancestor 1 c) /\
        tg t1 (S l) c = criteria_tag n minl maxl eps factor d l c (tg t0 (S l) c)) \/ tg t1 (S l) c = tg t0 (S l) c).
    { intros l c Lc. destruct (F1 l c Lc) as [H|[_ H]]; auto. }
    assert (L0 : forall l q, leaf l q -> tg t0 l q = 1).
    { intros l q Hq. destruct (F0 l q (proj1 (proj2 Hq))) as [[_ H]|[H _]]; auto. contradiction. }
    assert (Z0 : exists t', around n enlarged minl top cells (r_ghosts r) (r_all r) t1 = Some t' /\
      (forall l, same_bits n l t1 t' 1 /\ same_bits n l t1 t' 2) /\
      (forall l c, length c = S n -> (K t' l c <-> if Nat.leb minl l && Nat.leb l top then kept_around n cells enlarged t1 l c else K t1 l c))).
    { unfold around.
      assert (G : exists t', fold_tags (around_step n enlarged cells (r_ghosts r) (r_all r)) (seq minl (S top - minl)) t1 = Some t' /\
        (forall l, same_bits n l t1 t' 1 /\ same_bits n l t1 t' 2) /\
        (forall l c, length c = S n -> (K t' l c <-> if Nat.leb minl l && Nat.leb l top then kept_around n cells enlarged t1 l c else K t1 l c)));
        [apply (around_spec n m minl maxl w s cells lo hi r HI HR)|exact G]; auto.
      intros l c Lc. assert (V0 : Z.testbit (tg t0 l c) 3 = false) by (destruct (F0 l c Lc) as [[_ ->]|[_ ->]]; reflexivity).
      destruct l as [|l].
      - rewrite U0; auto.
      - destruct (T1 l c Lc) as [(_ & _ & ->)| ->]; auto. unfold criteria_tag, refine_tag, coarsen_tag.
        destruct (_ && _); [reflexivity|]. destruct (over _ _ _ _); [rewrite Z.lor_spec|]; destruct (_ && _); auto; rewrite V0; auto. }
    destruct Z0 as (t & E & SB & KK). rewrite E. exists t. split; auto.
    (* what the criteria decide for a leaf *)
    assert (HIGH : forall l q, leaf l q -> (top < l)%nat -> tg t1 l q = 1).
    { intros [|l] q Hq Hl; [lia|]. destruct (F1 l q (proj1 (proj2 Hq))) as [(X & _)|(_ & ->)]; [lia|auto]. }
    assert (LEAF : forall l q, leaf l q -> (l <= top)%nat -> (Re t1 l q <-> asked l q) /\ (K t1 l q \/ asked l q <-> ~ quiet l q \/ asked l q) /\ (K t1 l q \/ asked l q \/ ((minl < l)%nat /\ Co t1 l q))).
    { intros l q Hq Hl. pose proof (RG _ _ Hq) as R0. destruct l as [|l]; [lia|]. assert (Lq : length q = S n) by apply Hq.
      destruct (F1 l q Lq) as [(_ & _ & V)|(X & _)]; [|exfalso; apply X; split; [lia|apply leaf_parent; auto]].
      rewrite (L0 _ _ Hq) in V. unfold criteria_tag, refine_tag, coarsen_tag, eps_of in V. fold (threshold n maxl eps (S l)) in V.
      assert (A : asked (S l) q <-> Nat.ltb (S l) maxl && over d (S l) (factor * threshold n maxl eps (S l)) q = true).
      { unfold PropsDetail.asked. rewrite andb_true_iff, Nat.ltb_lt, over_spec. tauto. }
      assert (B : quiet (S l) q <-> (Nat.ltb minl (S l) && calm d l (threshold n maxl eps (S l)) (ancestor 1 q) = true /\
          over d l (factor * threshold n maxl eps (S l) / inject_Z (2 ^ Z.of_nat (S n))) (ancestor 1 q) = false)).
      { unfold PropsDetail.quiet. rewrite andb_true_iff, Nat.ltb_lt, (calm_spec n) by auto. rewrite <- not_true_iff_false, over_spec. cbn [Nat.pred].
        split; [intros (X1 & X2 & X)|intros ((X1 & X2) & X)].
        - split; [split; [lia|auto]|]. apply Qle_not_lt. auto.
        - split; [lia|]. split; auto. apply Qnot_lt_le. auto. }
      rewrite A, B, <- Nat.ltb_lt. unfold K, Co. rewrite V.
      destruct (Nat.ltb (S l) maxl && over d (S l) (factor * threshold n maxl eps (S l)) q); [cbn; intuition discriminate|].
      destruct (over d l _ (ancestor 1 q)); destruct (Nat.ltb minl (S l)); cbn [andb]; try (destruct (calm d l _ (ancestor 1 q))); cbn; intuition discriminate. }
    assert (RE1 : forall l q, leaf l q -> (Re t1 l q <-> asked l q)).
    { intros l q Hq. destruct (le_lt_dec l top) as [Hl|Hl]; [apply LEAF; auto|]. rewrite (HIGH l q Hq Hl). split; [cbn; discriminate|]. intros (_ & X & _). lia. }
    assert (NR : forall l c, near_refine n cells t1 l c <-> next_to_asked l c).
    { intros l c. split.
      - intros (y & Hy & N & X). exists y. split; auto. apply RE1; auto.
      - intros (y & N & X). exists y. split; [apply X|]. split; auto. apply RE1; auto. apply X. }
    assert (NS : forall q, near n 1 q q) by (intros q k Hk; lia).
    assert (STAY : forall l q, leaf l q -> (l <= top)%nat -> (K t1 l q \/ near_refine n cells t1 l q <-> stays l q)).
    { intros l q Hq Hl. rewrite NR. unfold PropsDetail.stays. destruct (LEAF l q Hq Hl) as (_ & X & _). assert (Y : asked l q -> next_to_asked l q) by (intros Z; exists q; auto). tauto. }
    split; [|split; [|split]].
    - intros l q Hq. rewrite <- RE1 by auto. rewrite (proj2 (SB l)) by apply Hq. tauto.
    - intros l q Hq. pose proof (RG _ _ Hq) as R0. rewrite KK by apply Hq. destruct (Nat.leb_spec minl l); [|lia]. destruct (Nat.leb_spec l top) as [Hl|Hl]; cbn [andb].
      + unfold kept_around. rewrite <- STAY by auto. split.
        * intros [X|[X|(X & y & Hy & N & Z)]]; auto. right. right. split; auto. exists y. split; auto. split; auto. apply STAY; auto.
        * intros [X|[[X|X]|(X & y & Hy & N & Z)]]; auto; [lia|]. right. right. split; auto. exists y. split; auto. split; auto. apply STAY; auto.
      + unfold K. rewrite HIGH by auto. split; auto.
    - intros l q Hq. pose proof (RG _ _ Hq) as R0. rewrite KK by apply Hq. destruct (Nat.leb_spec minl l); [|lia]. destruct (Nat.leb_spec l top) as [Hl|Hl]; cbn [andb].
      + destruct (LEAF l q Hq Hl) as (_ & _ & X). unfold Co. rewrite (proj1 (SB l)) by apply Hq. destruct X as [X|[X|X]]; auto; left; [left; auto|]. right. left. apply NR. exists q. auto.
      + left. unfold K. rewrite HIGH by auto. auto.
    - intros l q p Hq Lp Ep. pose proof (RG _ _ Hq) as R0. rewrite KK by auto. destruct (Nat.leb_spec minl (S l)); [|lia].
      assert (Z0 : tg t1 (S l) p = 0).
      { destruct (F1 l p Lp) as [(_ & (y & Hy & Ey) & _)|(_ & ->)].
        - exfalso. rewrite Ep in Ey. assert (l = S l); [|lia]. apply (HO l (S l) q y Hq Hy ltac:(lia)). replace (S l - l)%nat with 1%nat by lia. auto.
        - destruct (F0 (S l) p Lp) as [[Hp _]|[_ ->]]; auto. exfalso. assert (l = S l); [|lia]. apply (HO l (S l) q p Hq Hp ltac:(lia)). replace (S l - l)%nat with 1%nat by lia. auto. }
      destruct (Nat.leb_spec (S l) top) as [Hl|Hl]; cbn [andb].
      + unfold kept_around. unfold K at 1. rewrite Z0, NR. split.
        * intros [X|[X|(X & y & Hy & N & Z)]]; [discriminate|auto|]. split; auto. right. split; auto. exists y. split; auto. split; auto. apply STAY; auto.
        * intros (_ & [X|(X & y & Hy & N & Z)]); auto. right. right. split; auto. exists y. split; auto. split; auto. apply STAY; auto.
      + unfold K. rewrite Z0. split; [discriminate|]. intros [X _]. lia.
  Qed.

  Lemma near_swap : forall p q, near n 1 p q -> near n 1 q p.
  Proof using Type. clear HI HR Hmin Htop H31. intros p q H k Hk. specialize (H k Hk). lia. Qed.

  Lemma refines_wish : forall t, (forall l q, leaf l q -> (Re t l q <-> asked l q)) ->
    (forall l q p, leaf l q -> length p = S n -> ancestor 1 p = q ->
       (K t (S l) p <-> (S l <= top)%nat /\ (next_to_asked (S l) p \/ (enlarged = true /\ exists y, leaf (S l) y /\ near n 1 p y /\ stays (S l) y)))) ->
    forall l q, refines n cells t l q <-> to_refine l q.
  Proof using Type. clear HI HR Hmin Htop H31.
    intros t HRe HK l q. split.
    - intros H. induction H as [l q Hq HA|l q p y Hq Lp E HKp Hy N|l q p y Hq Lp E N _ IH].
      + apply refine_asked. apply HRe; auto.
      + apply (HK l q p Hq Lp E) in HKp as (Ht & [(z & Nz & Az)|(He & z & Hz & Nz & Sz)]).
        * apply (refine_pulled _ _ _ _ _ _ _ _ _ l q z); auto; [apply refine_asked; auto|]. apply touch_children; [apply Hq|]. exists p. auto.
        * apply (refine_margin _ _ _ _ _ _ _ _ _ l q z); auto. apply touch_children; [apply Hq|]. exists p. auto.
      + apply (refine_pulled _ _ _ _ _ _ _ _ _ l q y); auto. apply touch_children; [apply Hq|]. exists p. auto.
    - intros H. induction H as [l q A|l q y He Hq Hy Hl T St|l q y Hq _ IH T].
      + apply refines_asked; [apply A|]. apply HRe; auto. apply A.
      + apply touch_children in T as (p & Lp & E & N); [|apply Hq]. destruct (toward_child_spec n q p y Lp E N) as (L1 & L2 & L3).
        apply (refines_kept n cells t l q (toward_child n q y) y); auto. apply (HK l q _ Hq L1 L2). split; auto. right. split; auto. exists y. split; auto. split; auto.
        intros k Hk. specialize (L3 k Hk). lia.
      + apply touch_children in T as (p & Lp & E & N); [|apply Hq]. apply (refines_touched n cells t l q p y); auto.
  Qed.

  Lemma coarsens_wish : forall t, (forall l q, leaf l q -> (Re t l q <-> asked l q)) ->
    (forall l q, leaf l q -> (K t l q <-> (top < l)%nat \/ stays l q \/ (enlarged = true /\ exists y, leaf l y /\ near n 1 q y /\ stays l y))) ->
    (forall l q, refines n cells t l q <-> to_refine l q) ->
    forall l q, coarsens n minl cells t l q <-> to_coarsen l q.
  Proof using Type. clear HI HR Hmin Htop H31.
    intros t HRe HK HF l q. unfold coarsens, PropsDetail.to_coarsen. split.
    - intros (Hl & Hq & H). assert (Lq : length q = S n) by apply Hq. split; auto. destruct (H q Lq eq_refl) as (_ & Kq & _ & Rq). rewrite HK in Kq by auto. split.
      + destruct (quiet_dec l q Lq) as [X|X]; auto. exfalso. apply Kq. right. left. left. auto.
      + intros q' L' E'. destruct (H q' L' E') as (H1 & H2 & H3 & H4). rewrite HK in H2 by auto. split; auto. split; auto. split.
        * intros y N X. apply (H4 y N). apply HF. auto.
        * intros He y Hy N X. apply H2. right. right. split; auto. exists y. split; auto. split; auto. apply near_swap. auto.
    - intros (Hq & Q & H). assert (Hl : (minl < l <= top)%nat) by apply Q. split; [lia|]. split; auto. intros q' L' E'. destruct (H q' L' E') as (H1 & H2 & H3 & H4). split; auto. split; [|split; auto].
      + rewrite HK by auto. intros [X|[[X|(y & N & A)]|(He & y & Hy & N & X)]]; [lia| | |].
        * apply X. destruct Q as (Q1 & Q2 & Q3). unfold PropsDetail.quiet. rewrite E'. auto.
        * apply (H3 y); [apply near_swap; auto|]. apply refine_asked. auto.
        * apply (H4 He y); auto. apply near_swap. auto.
      + intros y N X. apply HF in X. apply (H3 y N X).
  Qed.

  Lemma tags_marked : forall t, (forall l q, leaf l q -> (Re t l q <-> asked l q)) ->
    (forall l q, leaf l q -> (K t l q <-> (top < l)%nat \/ stays l q \/ (enlarged = true /\ exists y, leaf l y /\ near n 1 q y /\ stays l y))) ->
    (forall l q, leaf l q -> K t l q \/ ((minl < l)%nat /\ Co t l q)) -> marked n minl maxl cells t.
  Proof using Type. clear HI HR Hmin Htop H31.
    intros t HRe HK HC l q Hq. split; auto. intros X. apply HRe in X; auto. split; [|apply X]. apply HK; auto. right. left. right. exists q. split; auto. intros k Hk. lia.
  Qed.
End Tags.

(** ** C59: the theorems *)

(** The details are computed without an access outside the storage: every cell next to a leaf
    with the same parent, and every parent of a leaf, gets the difference between its value and
    the value predicted from the coarser level; the others get 0. *)
Theorem C59_details : forall n m minl maxl w s cells lo hi r ite u, ghost_input n m minl maxl w s cells lo hi ->
  update_sub_mesh n m minl maxl w (Z.of_nat s) cells = Some r ->
  exists d, compute_details n s minl (maxl - ite) cells (r_all r) u = Some d /\
    (forall l q x y, (1 <= l <= maxl - ite)%nat -> ca_mem n cells l q -> ancestor 1 (x :: y) = ancestor 1 q -> is_detail s u l x y (d l x y)) /\
    (forall l q x y, (1 <= l)%nat -> (S l <= maxl - ite)%nat -> ca_mem n cells (S l) q -> ancestor 1 q = x :: y -> is_detail s u l x y (d l x y)) /\
    (forall l x y, length y = n -> (forall q, ca_mem n cells l q -> ancestor 1 (x :: y) <> ancestor 1 q) ->
       (forall q, ca_mem n cells (S l) q -> ancestor 1 q <> x :: y) -> d l x y = 0%Q).
Proof.
  intros n m minl maxl w s cells lo hi r ite u HI HR. destruct (compute_details_spec n m minl maxl w s cells lo hi r HI HR u (maxl - ite) ltac:(lia)) as (d & E & ST).
  pose proof (hm_range _ _ _ _ _ _ _ _ _ HI) as RG. exists d. split; auto. split; [|split].
  - intros l q x y Hl Hq Ea. assert (Ly : length y = n). { apply (f_equal (@length Z)) in Ea. rewrite !ancestor_length in Ea. destruct Hq as (_ & Lq & _). cbn [length] in Ea. lia. }
    destruct (ST l x y Ly) as [[_ H]|[H _]]; auto. exfalso. apply H. split; [lia|]. left. pose proof (RG _ _ Hq). split; [lia|]. exists q. replace (S (Nat.pred l)) with l by lia. auto.
  - intros l q x y H1 H2 Hq Ea. assert (Ly : length y = n). { apply (f_equal (@length Z)) in Ea. rewrite ancestor_length in Ea. destruct Hq as (_ & Lq & _). cbn [length] in Ea. lia. }
    destruct (ST l x y Ly) as [[_ H]|[H _]]; auto. exfalso. apply H. split; [lia|]. right. pose proof (RG _ _ Hq). split; [lia|]. exists q. auto.
  - intros l x y Ly N1 N2. destruct (ST l x y Ly) as [[(Hl & [(_ & q & Hq & Eq)|(_ & q & Hq & Eq)]) _]|[_ H]]; auto; exfalso.
    + apply (N1 q); auto. replace (S (Nat.pred l)) with l in Hq by lia. auto.
    + apply (N2 q); auto.
Qed.

Lemma pred_cells_mean : forall order u x yz, (length yz <= 2)%nat ->
  (qsum (map (fun par => pred_cell signs_true order u par x yz) (parities (S (length yz)))) == u x yz * inject_Z (2 ^ Z.of_nat (S (length yz))))%Q.
Proof.
  intros order u x yz Hl. destruct yz as [|b [|c [|d yz]]].
  - change (inject_Z _) with 2%Q. cbn [length parities map app qsum fold_right]. unfold pred_cell.
    destruct order as [|order]; cbn [terms length signs_true map combine csum].
    + ring.
    + generalize (Qc_of (S order) [0%nat] u 1%nat x []). intros. ring.
  - change (inject_Z _) with 4%Q. cbn [length parities map app qsum fold_right]. unfold pred_cell.
    destruct order as [|order]; cbn [terms length signs_true map combine csum]; [ring|].
    generalize (Qc_of (S order) [0%nat] u 1%nat x [b]) (Qc_of (S order) [1%nat] u 1%nat x [b]) (Qc_of (S order) [0; 1]%nat u 1%nat x [b]). intros. ring.
  - change (inject_Z _) with 8%Q. cbn [length parities map app qsum fold_right]. unfold pred_cell.
    destruct order as [|order]; cbn [terms length signs_true map combine csum]; [ring|].
    generalize (Qc_of (S order) [0%nat] u 1%nat x [b; c]) (Qc_of (S order) [1%nat] u 1%nat x [b; c]) (Qc_of (S order) [2%nat] u 1%nat x [b; c])
      (Qc_of (S order) [0; 1]%nat u 1%nat x [b; c]) (Qc_of (S order) [0; 2]%nat u 1%nat x [b; c]) (Qc_of (S order) [1; 2]%nat u 1%nat x [b; c])
      (Qc_of (S order) [0; 1; 2]%nat u 1%nat x [b; c]). intros. ring.
  - simpl in Hl. lia.
Qed.

Lemma NoDup_map_eq : forall A B (f : A -> B) l a b, NoDup (map f l) -> In a l -> In b l -> f a = f b -> a = b.
Proof.
  intros A B f. induction l as [|x l IH]; intros a b ND Ha Hb E; [contradiction|]. cbn [map] in ND. inversion_clear ND as [|? ? N1 N2].
  destruct Ha as [->|Ha], Hb as [->|Hb]; auto; exfalso; apply N1; [rewrite E|rewrite <- E]; apply in_map; auto.
Qed.
Lemma predicted_value : forall order w par x yz q, In par (parities (S (length yz))) -> is_predicted order w (finer par x) (fine_row yz (tl par)) q ->
  q = pred_cell signs_true order w par x yz.
Proof.
  intros order w par x yz q Hpar (ws & E & Hin). destruct (predicted_cell order w par x yz Hpar) as [_ Hc]. apply children_In in Hc as (Hx & _ & Hy). rewrite Hx, Hy in E.
  rewrite prediction_true_spec in E by reflexivity. apply Some_inv in E as <-. apply in_flat_map in Hin as (par' & Hpar' & Hin). rewrite strided_one in Hin.
  destruct Hin as [Hin|[]]. apply triple_inv in Hin as (E1 & E2 & <-). f_equal.
  apply (NoDup_map_eq _ _ (fun par => (finer par x, fine_row yz (tl par))) (parities (S (length yz)))); auto; [exact (children_NoDup x yz)|]. rewrite E1, E2. auto.
Qed.

(** The details of the children of a cell that holds their mean cancel. *)
Theorem C59_details_cancel : forall s u d l x yz, (length yz <= 2)%nat -> is_mean (u (S l)) x yz (u l x yz) ->
  (forall cx cy, In (cx, cy) (children x yz) -> is_detail s u (S l) cx cy (d (S l) cx cy)) ->
  (qsum (map (fun c => d (S l) (fst c) (snd c)) (children x yz)) == 0)%Q.
Proof.
  intros s u d l x yz Hl HM HD. unfold is_mean in HM. rewrite <- (pred_cells_mean s (u l) x yz Hl) in HM.
  unfold children in *. rewrite map_map in *. cbn [fst snd] in *.
  assert (G : forall ps, (forall p, In p ps -> In p (parities (S (length yz)))) ->
    (qsum (map (fun par => d (S l) (2 * x + bz (hd false par))%Z (fine_row yz (tl par))) ps) ==
     qsum (map (fun par => u (S l) (2 * x + bz (hd false par))%Z (fine_row yz (tl par))) ps) - qsum (map (fun par => pred_cell signs_true s (u l) par x yz) ps))%Q).
  { induction ps as [|p ps IH]; intros Hps; cbn [map qsum fold_right]; [unfold Qminus; ring|]. change (fold_right Qplus 0%Q) with qsum.
    rewrite IH by (intros; apply Hps; right; auto). assert (Hp : In p (parities (S (length yz)))) by (apply Hps; left; auto).
    destruct (HD (2 * x + bz (hd false p)) (fine_row yz (tl p))) as (v & Hv & ->).
    - apply in_map_iff. exists p. auto.
    - cbn [Nat.pred] in Hv. rewrite (predicted_value s (u l) p x yz v Hp Hv). ring. }
  rewrite (G (parities (S (length yz)))) by auto. rewrite <- HM. ring.
Qed.

(** In dimension 1 the two details are opposite, so looking at the first one is enough. *)
Theorem C59_first_child_suffices : forall s u d l x, is_mean (u (S l)) x [] (u l x []) ->
  (forall cx cy, In (cx, cy) (children x []) -> is_detail s u (S l) cx cy (d (S l) cx cy)) ->
  (size d (S l) [2 * x]%Z == size d (S l) [2 * x + 1]%Z)%Q.
Proof.
  intros s u d l x HM HD. pose proof (C59_details_cancel s u d l x [] ltac:(cbn; lia) HM HD) as H. rewrite doubled_child in H. cbn [map qsum fold_right fst snd] in H.
  unfold size. cbn [hd tl]. assert (E : (d (S l) (2 * x)%Z [] == - d (S l) (2 * x + 1)%Z [])%Q) by (rewrite <- (Qplus_0_r (d (S l) (2 * x + 1)%Z [])); lra).
  rewrite E. apply Qabs_opp.
Qed.

(** The tags of one iteration are computed without an access outside the storage; exactly the
    leaves of [to_refine] have refine and exactly those of [to_coarsen] are to coarsen. *)
Theorem C59_tags : forall n m minl maxl w s cells lo hi r domain ite eps factor enlarged d, ghost_input n m minl maxl w s cells lo hi ->
  update_sub_mesh n m minl maxl w (Z.of_nat s) cells = Some r -> is_box n maxl lo hi domain ->
  (1 <= minl)%nat -> Z.of_nat (S n) * Z.of_nat (maxl - minl) < 31 ->
  exists t, harten_tags n minl maxl ite 1 eps factor enlarged domain cells (r_ghosts r) (r_all r) d = Some t /\
    forall l q, ca_mem n cells l q ->
      (Re t l q <-> to_refine n minl maxl (maxl - ite) eps factor enlarged cells d l q) /\
      (wants_coarsen minl l (tg t l q) <-> to_coarsen n minl maxl (maxl - ite) eps factor enlarged cells d l q).
Proof.
  intros n m minl maxl w s cells lo hi r domain ite eps factor enlarged d HI HR HB Hmin H31.
  destruct (tags_before n m minl maxl w s cells lo hi r HI HR (maxl - ite) eps factor enlarged d Hmin ltac:(lia) H31) as (t0 & E0 & F1 & F2 & F3 & F4).
  pose proof (tags_marked n minl maxl cells (maxl - ite) eps factor enlarged d t0 F1 F2 F3) as HM.
  pose proof (refines_wish n minl maxl cells (maxl - ite) eps factor enlarged d t0 F1 F4) as FR.
  pose proof (coarsens_wish n minl maxl cells (maxl - ite) eps factor enlarged d t0 F1 F2 FR) as FC.
  destruct (C58_flags n m minl maxl w s cells lo hi r domain t0 HI HR HB HM) as (t & E & F). exists t. split.
  - unfold harten_tags. revert E0. destruct (first_tags n cells) as [t1|]; [|discriminate]. destruct (criteria _ _ _ _ _ _ _ _ _ t1) as [t2|]; [|discriminate]. intros ->. exact E.
  - intros l q Hq. destruct (F l q Hq) as [A B]. rewrite A, B, FR, FC. tauto.
Qed.

(** The mesh built from these tags. *)
Theorem C59_new_mesh : forall n m minl maxl w s cells lo hi r domain ite eps factor enlarged d t tag, ghost_input n m minl maxl w s cells lo hi ->
  update_sub_mesh n m minl maxl w (Z.of_nat s) cells = Some r -> is_box n maxl lo hi domain ->
  (1 <= minl)%nat -> Z.of_nat (S n) * Z.of_nat (maxl - minl) < 31 ->
  harten_tags n minl maxl ite 1 eps factor enlarged domain cells (r_ghosts r) (r_all r) d = Some t ->
  (forall l q k, ca_mem n cells l q -> ca_get_index n cells l q = Some k -> tag k = tg t l q) ->
  exists new, update_cells n minl maxl cells tag = Some new /\ ca_wf n new /\ tiles n new lo hi /\ graded_box n new /\
    (forall l p, ca_mem n new l p -> (minl <= l <= maxl)%nat) /\
    forall l p, ca_mem n new l p <-> length p = S n /\
      ((exists l0, l = S l0 /\ to_refine n minl maxl (maxl - ite) eps factor enlarged cells d l0 (ancestor 1 p)) \/
       (ca_mem n cells l p /\ ~ to_refine n minl maxl (maxl - ite) eps factor enlarged cells d l p /\ ~ to_coarsen n minl maxl (maxl - ite) eps factor enlarged cells d l p) \/
       (exists q, to_coarsen n minl maxl (maxl - ite) eps factor enlarged cells d (S l) q /\ ancestor 1 q = p)).
Proof.
  intros n m minl maxl w s cells lo hi r domain ite eps factor enlarged d t tag HI HR HB Hmin H31 Et HT.
  destruct (tags_before n m minl maxl w s cells lo hi r HI HR (maxl - ite) eps factor enlarged d Hmin ltac:(lia) H31) as (t0 & E0 & F1 & F2 & F3 & F4).
  pose proof (tags_marked n minl maxl cells (maxl - ite) eps factor enlarged d t0 F1 F2 F3) as HM.
  pose proof (refines_wish n minl maxl cells (maxl - ite) eps factor enlarged d t0 F1 F4) as FR.
  pose proof (coarsens_wish n minl maxl cells (maxl - ite) eps factor enlarged d t0 F1 F2 FR) as FC.
  assert (E : graduate_tags n minl maxl 1 domain cells (r_all r) t0 = Some t).
  { revert Et. unfold harten_tags. revert E0. destruct (first_tags n cells) as [t1|]; [|discriminate]. destruct (criteria _ _ _ _ _ _ _ _ _ t1) as [t2|]; [|discriminate]. intros ->. auto. }
  destruct (C58_new_mesh n m minl maxl w s cells lo hi r domain t0 t tag HI HR HB HM E HT) as (new & EN & W & TI & GR & RG & X).
  exists new. split; auto. split; auto. split; auto. split; auto. split; auto. intros l p. rewrite X. split; (intros (Lp & H); split; [auto|]).
  - destruct H as [(l0 & El & H)|[(H1 & H2 & H3)|(q & H1 & H2)]]; [left; exists l0; split; auto; apply FR; auto|right; left|right; right; exists q; split; auto; apply FC; auto].
    split; auto. split; [intros Y; apply H2; apply FR; auto|intros Y; apply H3; apply FC; auto].
  - destruct H as [(l0 & El & H)|[(H1 & H2 & H3)|(q & H1 & H2)]]; [left; exists l0; split; auto; apply FR; auto|right; left|right; right; exists q; split; auto; apply FC; auto].
    split; auto. split; [intros Y; apply H2; apply FR; auto|intros Y; apply H3; apply FC; auto].
Qed.

(** ** What fails *)

(** With min_level = 0 the first iteration indexes the reference with level - 1. *)
Theorem C59_level_zero_refuted : forall n maxl top eps factor cells reference d t, criteria n 0 maxl top eps factor cells reference d t = None.
Proof. intros. unfold criteria. rewrite Nat.sub_0_r. reflexivity. Qed.
(** The shift 1 << (dim * (max_level - level)) has no value when dim * (max_level - min_level)
    is 31 or more: 11 levels in dimension 3, 16 in dimension 2. *)
Theorem C59_shift_refuted : forall n minl maxl top eps factor cells reference d t, (minl <= top)%nat -> 31 <= Z.of_nat (S n) * Z.of_nat (maxl - minl) ->
  criteria n minl maxl top eps factor cells reference d t = None.
Proof.
  intros n minl maxl top eps factor cells reference d t Ht H. unfold criteria. replace (S top - minl)%nat with (S (top - minl)) by lia. cbn [seq fold_tags].
  destruct minl as [|minl]; [reflexivity|]. unfold criteria_step at 1, eps_level.
  assert (X : (Z.of_nat (S n) * Z.of_nat (maxl - S minl) <? 31) = false) by (apply Z.ltb_ge; lia). rewrite X. reflexivity.
Qed.

Definition tagged_mesh (n m minl maxl : nat) (w : Z) (s ite : nat) (eps factor : Q) (enlarged : bool) (domain : lca) (cells : ca) (d : lfield) : option ca :=
  let* r := update_sub_mesh n m minl maxl w (Z.of_nat s) cells in
  let* t := harten_tags n minl maxl ite 1 eps factor enlarged domain cells (r_ghosts r) (r_all r) d in
  let* cs := ca_for_each_cell n cells in
  update_cells n minl maxl cells (storage_of cs t).

(** ** Examples *)

(** The mesh of C55 with one detail different from 0, in the leaf (2, 2) of level 2. With the
    factor 4 that leaf is refined and pulls the three leaves of level 1; the four leaves of level
    3 are coarsened. With the factor 100 its detail is only too large to be coarsened: without
    margin nothing is refined, with a margin the leaves of level 1 next to it are. *)
Definition exDetails : lfield := fun l x yz => if Nat.eqb l 2 && zlist_eqb (x :: yz) [2; 2] then 1%Q else 0%Q.
Example C59_example : ghost_input 1 4 1 3 1 1 exMesh [0; 0] [1; 1] /\ is_box 1 3 [0; 0] [1; 1] (box_domain 1 3 [0; 0] [1; 1]) /\
  option_map (leaf_list 1) (tagged_mesh 1 4 1 3 1 1 0 (1 # 10) 4 false (box_domain 1 3 [0; 0] [1; 1]) exMesh exDetails) =
  Some (Some [(2%nat, [0; 0]); (2%nat, [1; 0]); (2%nat, [2; 0]); (2%nat, [3; 0]); (2%nat, [0; 1]); (2%nat, [1; 1]); (2%nat, [2; 1]); (2%nat, [3; 1]);
    (2%nat, [0; 2]); (2%nat, [1; 2]); (2%nat, [3; 2]); (2%nat, [0; 3]); (2%nat, [1; 3]); (2%nat, [2; 3]); (2%nat, [3; 3]);
    (3%nat, [4; 4]); (3%nat, [5; 4]); (3%nat, [4; 5]); (3%nat, [5; 5])]) /\
  option_map (leaf_list 1) (tagged_mesh 1 4 1 3 1 1 0 (1 # 10) 100 false (box_domain 1 3 [0; 0] [1; 1]) exMesh exDetails) =
  Some (Some [(1%nat, [0; 0]); (1%nat, [1; 0]); (1%nat, [0; 1]); (2%nat, [2; 2]); (2%nat, [3; 2]); (2%nat, [2; 3]); (2%nat, [3; 3])]) /\
  option_map (leaf_list 1) (tagged_mesh 1 4 1 3 1 1 0 (1 # 10) 100 true (box_domain 1 3 [0; 0] [1; 1]) exMesh exDetails) =
  Some (Some [(2%nat, [0; 0]); (2%nat, [1; 0]); (2%nat, [2; 0]); (2%nat, [3; 0]); (2%nat, [0; 1]); (2%nat, [1; 1]); (2%nat, [2; 1]); (2%nat, [3; 1]);
    (2%nat, [0; 2]); (2%nat, [1; 2]); (2%nat, [2; 2]); (2%nat, [3; 2]); (2%nat, [0; 3]); (2%nat, [1; 3]); (2%nat, [2; 3]); (2%nat, [3; 3])]).
Proof.
  split; [exact exMesh_ghosts|]. split.
  { apply box_domain_ok; auto. intros [|[|k]] Hk; [reflexivity|reflexivity|lia]. }
  split; [|split]; vm_compute; reflexivity.
Qed.
(** The details of the field x^3 (at the lower corner) on the line mesh of C58. *)
Example C59_details_example :
  (let* r := update_sub_mesh 0 4 1 3 1 1 lineMesh in
   let* d := compute_details 0 1 1 3 lineMesh (r_all r) (fun l x _ => inject_Z x * inject_Z x * inject_Z x / inject_Z (2 ^ (3 * Z.of_nat l)))%Q in
   Some (map (fun '(l, x) => Qred (d l x [])) [(1%nat, 0); (1%nat, 1); (2%nat, 2); (2%nat, 3); (3%nat, 6); (3%nat, 7); (3%nat, 5)])) =
  Some [1 # 4; -1 # 8; 1 # 8; 11 # 64; 7 # 64; 71 # 512; 0]%Q.
Proof. vm_compute. reflexivity. Qed.

Print Assumptions C59_details.
Print Assumptions C59_details_cancel.
Print Assumptions C59_first_child_suffices.
Print Assumptions C59_tags.
Print Assumptions C59_new_mesh.
Print Assumptions C59_level_zero_refuted.
Print Assumptions C59_shift_refuted.
