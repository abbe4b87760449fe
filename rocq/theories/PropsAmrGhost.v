(** C65: the values that update_ghost puts in the ghosts of an AMR mesh. *)
From Coq Require Import QArith Permutation.
From Verif Require Import Base IntervalModel Spec IntervalProofs LoiModel LcaModel LcaSpec LcaProofs RowsProofs CellArrayModel CellArrayProofs PropsLca PropsCellArray
  SubsetModel TreeProofs SubsetSpec SubsetProofs2 PropsSubset StencilModel NumberingProofs StencilProofs PropsStencil MeshModel MeshProofs PropsMesh
  NumModel NumProofs NumSpec PropsNum AdaptModel AdaptProofs TagProofs PropsAdapt TransferProofs PropsTransfer GradProofs PropsGrad MrModel MrProofs PropsMr
  GhostModel GhostProofs PropsGhost BcProofs HartenModel HartenProofs HartenProofs2 PropsHarten AmrModel AmrProofs AmrProofs2 AmrProofs3 AmrProofs4 PropsAmr.
From Verif Require PropsOuter AmrProofs5.
Open Scope Z_scope.

(** A mesh graded in all directions (by the diagonal stencil of the demos:
    [diagonals_graded]) with ghosts of width [w] and a prediction of order [s]. *)
Definition amr_update_input (n m minl maxl : nat) (w : Z) (s d : nat) (domain : lca) (cells : ca) (lo hi : list Z) : Prop :=
  amr_sub_input n m minl maxl w (Z.of_nat s) d domain cells lo hi /\ (n <= 2)%nat /\ graded_box n cells /\ 1 <= w /\ 2 * Z.of_nat s <= w + 2.

Section Values.
  Variables (n m minl maxl : nat) (w : Z) (s d : nat) (domain : lca) (cells : ca) (lo hi : list Z) (r : amr_mesh) (bc : nat -> lfield -> option lfield).
  Hypothesis HI : amr_update_input n m minl maxl w s d domain cells lo hi.
  Hypothesis HR : amr_sub_mesh n m minl maxl w (Z.of_nat s) domain cells = Some r.
  Hypothesis HO : only_outside n maxl (a_all r) lo hi bc.

  Lemma ui_sub : amr_sub_input n m minl maxl w (Z.of_nat s) d domain cells lo hi.
  Proof. apply HI. Qed.
  Lemma ui_tiles : tiles n cells lo hi.
  Proof. apply ui_sub. Qed.
  Lemma ui_wf : ca_wf n cells.
  Proof. apply (in_wf _ _ _ _ _ _ _ (si_in _ _ _ _ _ _ _ _ _ _ _ ui_sub)). Qed.
  Lemma ui_range : forall l q, ca_mem n cells l q -> (minl <= l <= maxl)%nat.
  Proof. apply (in_range _ _ _ _ _ _ _ (si_in _ _ _ _ _ _ _ _ _ _ _ ui_sub)). Qed.
  Lemma ui_width : 1 <= w /\ 2 * Z.of_nat s <= w + 2.
  Proof. apply HI. Qed.
  Lemma ui_all : forall l p, ca_mem n (a_all r) l p <-> margin n w cells l p \/ to_project n w cells l p.
  Proof. apply (all_iff n m minl maxl w s d domain cells lo hi r ui_sub HR); [apply HI|apply HI|apply ui_width]. Qed.
  Lemma ui_levels : forall l p, ca_mem n (a_all r) l p -> (min_level (a_all r) <= l <= maxl)%nat.
  Proof. apply (all_level n m minl maxl w s d domain cells lo hi r ui_sub HR); [apply HI|apply HI|apply ui_width]. Qed.
  Lemma leaf_not_split : forall l p, ca_mem n cells l p -> ~ split_at n cells l p.
  Proof. intros l p H Hs. apply (above_not_split n cells lo hi ui_tiles l l p); auto. rewrite Nat.sub_diag, ancestor_0. auto. Qed.

  (** What is stored in the box: leaves, cells with finer leaves, cells strictly in a leaf. *)
  Lemma stored_inside : forall l p, ca_mem n (a_all r) l p -> inside n lo hi l p ->
    ca_mem n cells l p \/ split_at n cells l p \/ to_predict n w cells lo hi l p.
  Proof.
    intros l p H Hi. destruct (trichotomy n minl maxl cells lo hi ui_tiles ui_range l p Hi) as [(l0 & Hl & H0)|H0]; [|auto].
    destruct (Nat.eq_dec l0 l) as [->|Hne]; [rewrite Nat.sub_diag, ancestor_0 in H0; auto|]. right. right.
    assert (N1 : ~ split_at n cells l p) by (intros H1; eapply above_not_split; eauto; apply ui_tiles).
    assert (N2 : ~ ca_mem n cells l p). { intros H1. assert (l0 = l); [|lia]. apply (proj1 ui_tiles l0 l _ _ H0 H1); auto. }
    split; [|split; [auto|split; [auto|split; [auto|exists l0, (ancestor (l - l0) p); split; [lia|auto]]]]].
    apply ui_all in H as [H|H]; auto. apply (project_inside n m minl maxl w (Z.of_nat s) d domain cells lo hi ui_sub) in H. tauto.
  Qed.

  Lemma amr_values : forall u, exists v, update_ghost n s maxl bc r u = Some v /\
    (forall l x y, ca_mem n cells l (x :: y) -> v l x y = u l x y) /\
    (forall l x y, ca_mem n (a_all r) l (x :: y) -> split_at n cells l (x :: y) -> is_mean (v (S l)) x y (v l x y)) /\
    (forall l x y, ca_mem n (a_all r) l (x :: y) -> inside n lo hi l (x :: y) -> ~ ca_mem n cells l (x :: y) -> ~ split_at n cells l (x :: y) ->
       (minl < l)%nat /\ is_predicted s (v (l - 1)%nat) x y (v l x y)) /\
    (forall l x y, ~ ca_mem n (a_all r) l (x :: y) -> v l x y = u l x y) /\
    (forall l, (min_level (a_all r) <= l <= maxl)%nat -> exists before after, bc l before = Some after /\ after l = v l /\
       forall x y, inside n lo hi l (x :: y) -> before l x y = v l x y).
  Proof.
    intros u. pose proof HI as (H1 & H2 & H3 & H4 & H5).
    destruct (amr_update_values n m minl maxl w s d domain cells lo hi r H1 HR H2 H3 (conj H4 H5) bc HO u) as (v & E & A & B & C & F).
    exists v. split; [exact E|]. split; [|split; [|split; [|split; [|exact F]]]].
    - intros l x y Hl. apply C; [left; apply ui_tiles; auto|intros [_ X]; apply (leaf_not_split _ _ Hl X)|intros (_ & _ & X & _); auto].
    - intros l x y Ha Hs. apply A. split; auto.
    - intros l x y Ha Hi Hc Hs. destruct (stored_inside _ _ Ha Hi) as [X|[X|X]]; try contradiction. pose proof X as (_ & _ & _ & _ & l' & q & Hl & Hq). apply ui_range in Hq. split; [lia|].
      replace (l - 1)%nat with (Nat.pred l) by lia. apply B. auto.
    - intros l x y Ha. apply C; auto; [intros [X _]; auto|]. intros X. apply Ha. apply ui_all. left. apply X.
  Qed.

  (** Values given by the leaves: a property of the leaves that passes to the means holds
      for all the averaged cells. *)
  Lemma up_from_leaves : forall P : nat -> Z -> list Z -> Prop, (forall l x y, ca_mem n cells l (x :: y) -> P l x y) ->
    (forall l x y, ca_mem n (a_all r) l (x :: y) -> split_at n cells l (x :: y) -> length (x :: y) = S n -> (forall cx cy, In (cx, cy) (children x y) -> P (S l) cx cy) -> P l x y) ->
    forall l x y, ca_mem n (a_all r) l (x :: y) -> split_at n cells l (x :: y) -> P l x y.
  Proof.
    intros P HL HS. assert (G : forall c l x y, (maxl <= l + c)%nat -> ca_mem n cells l (x :: y) \/ (ca_mem n (a_all r) l (x :: y) /\ split_at n cells l (x :: y)) -> P l x y).
    { pose proof HI as (H1 & H2 & H3 & H4 & H5). induction c as [|c IH]; intros l x y Hc [Hl|Ha]; auto.
      - destruct Ha as (_ & l' & q & Hl & Hq & _). apply ui_range in Hq. lia.
      - apply HS; try apply Ha. intros cx cy Hcc. apply children_In in Hcc as (Ec & Lc & Ac). apply IH; [lia|]. assert (L : length (x :: y) = S n) by apply (proj1 Ha).
        destruct (avg_child n m minl maxl w s d domain cells lo hi r H1 HR H2 H3 (conj H4 H5) l (x :: y) (cx :: cy) Ha) as (_ & _ & _ & X); [cbn in *; lia| |auto].
        rewrite ancestor_cons. change (2 ^ Z.of_nat 1) with 2. rewrite Ec, Ac. auto. }
    intros l x y Ha Hs. apply (G maxl); [lia|auto].
  Qed.
End Values.

(** ** The values after the update *)

(** [update_ghost] succeeds: no value is read or written outside the storage. Leaves keep
    their values; a stored cell that contains finer leaves gets the mean of its children; a
    stored cell strictly inside a leaf gets the predicted value; values that are not in the
    storage do not change; and on each level of the reference the boundary conditions were
    applied on the final values of the box. *)
Theorem C65_update : forall n m minl maxl w s d domain cells lo hi r bc, amr_update_input n m minl maxl w s d domain cells lo hi ->
  amr_sub_mesh n m minl maxl w (Z.of_nat s) domain cells = Some r -> only_outside n maxl (a_all r) lo hi bc ->
  forall u, exists v, update_ghost n s maxl bc r u = Some v /\
    (forall l x y, ca_mem n cells l (x :: y) -> v l x y = u l x y) /\
    (forall l x y, ca_mem n (a_all r) l (x :: y) -> split_at n cells l (x :: y) -> is_mean (v (S l)) x y (v l x y)) /\
    (forall l x y, ca_mem n (a_all r) l (x :: y) -> inside n lo hi l (x :: y) -> ~ ca_mem n cells l (x :: y) -> ~ split_at n cells l (x :: y) ->
       (minl < l)%nat /\ is_predicted s (v (l - 1)%nat) x y (v l x y)) /\
    (forall l x y, ~ ca_mem n (a_all r) l (x :: y) -> v l x y = u l x y) /\
    (forall l, (min_level (a_all r) <= l <= maxl)%nat -> exists before after, bc l before = Some after /\ after l = v l /\
       forall x y, inside n lo hi l (x :: y) -> before l x y = v l x y).
Proof. intros. eapply amr_values; eauto. Qed.

(** A stored cell that contains leaves gets their exact average: its value times its
    volume is the integral of the leaves it contains. *)
Theorem C65_average : forall n m minl maxl w s d domain cells lo hi r bc, amr_update_input n m minl maxl w s d domain cells lo hi ->
  amr_sub_mesh n m minl maxl w (Z.of_nat s) domain cells = Some r -> only_outside n maxl (a_all r) lo hi bc ->
  forall u v, update_ghost n s maxl bc r u = Some v ->
  forall l x y leaves, ca_mem n (a_all r) l (x :: y) -> split_at n cells l (x :: y) ->
    NoDup leaves -> (forall l' q, In (l', q) leaves <-> ca_mem n cells l' q /\ (l <= l')%nat /\ ancestor (l' - l) q = x :: y) ->
    (v l x y * vol n l == integral n u leaves)%Q.
Proof.
  intros n m minl maxl w s d domain cells lo hi r bc HI HR HO u v E l x y leaves Ha Hs ND HL.
  destruct (amr_values n m minl maxl w s d domain cells lo hi r bc HI HR HO u) as (v' & E' & A & B & _). rewrite E in E'. injection E' as <-.
  pose proof (ui_tiles _ _ _ _ _ _ _ _ _ _ _ HI) as HT.
  destruct (ca_for_each_cell_spec n cells (ui_wf _ _ _ _ _ _ _ _ _ _ _ HI)) as (ccs & _ & EN & _). pose proof (sorted_leaves_NoDup _ _ _ EN) as ND'. destruct EN as [_ EN]. set (cs := leaf_cells ccs) in *.
  assert (LC : forall l' q, In (l', q) cs -> length q = S n) by (intros l' q Hq; apply EN in Hq; apply Hq).
  assert (G : (v l x y * vol n l == integral n u (filter (PropsGhost.below l (x :: y)) cs))%Q).
  { revert l x y Ha Hs ND HL. intros l x y Ha Hs _ _. revert l x y Ha Hs.
    apply (up_from_leaves n m minl maxl w s d domain cells lo hi r HI HR (fun l x y => (v l x y * vol n l == integral n u (filter (PropsGhost.below l (x :: y)) cs))%Q)).
    - intros l x y Hleaf. rewrite A by auto. assert (P : Permutation [(l, x :: y)] (filter (PropsGhost.below l (x :: y)) cs)).
      { apply NoDup_Permutation; [repeat constructor; auto|apply NoDup_filter; auto|]. intros [l' q]. rewrite filter_In, PropsGhost.below_iff. split.
        - intros [H|[]]. injection H as <- <-. split; [apply EN; auto|]. rewrite Nat.sub_diag, ancestor_0. auto.
        - intros (Hq & Hl & Eq). apply EN in Hq. left. assert (l = l') as <- by (apply (proj1 HT l l' (x :: y) q); auto). rewrite Nat.sub_diag, ancestor_0 in Eq. congruence. }
      rewrite <- (integral_perm n u _ _ P). unfold integral. cbn. ring.
    - intros l x y Ha Hs Lp IH.
      rewrite (integral_perm n u _ _ (PropsGhost.below_kids n cs l (x :: y) ND' LC Lp ltac:(intros q Hq ->; apply EN in Hq; apply (above_not_split n cells lo hi HT l l (x :: y)); auto; rewrite Nat.sub_diag, ancestor_0; auto))).
      assert (X : forall ks, (forall b, In b ks -> In b (kids (l, x :: y))) ->
        (integral n u (flat_map (fun b => filter (PropsGhost.below (fst b) (snd b)) cs) ks) == integral n v ks)%Q).
      { induction ks as [|[l1 p1] ks IHk]; intros Hk; [reflexivity|]. cbn [flat_map fst snd]. rewrite integral_app, IHk by (intros; apply Hk; right; auto).
        assert (Hk1 : In (l1, p1) (kids (l, x :: y))) by (apply Hk; left; auto). apply kids_In in Hk1 as (-> & L1 & E1); [|discriminate].
        destruct p1 as [|x1 y1]; [discriminate|]. rewrite ancestor_cons in E1. injection E1 as E1 E2. change (2 ^ Z.of_nat 1) with 2 in E1.
        rewrite <- (IH x1 y1) by (apply children_In; cbn in *; repeat split; auto; lia). unfold integral at 2. cbn [map qsum fold_right]. reflexivity. }
      rewrite X by auto. rewrite integral_kids. pose proof (B l x y Ha Hs) as M. unfold is_mean in M. rewrite <- M.
      cbn [length] in Lp. injection Lp as Ly. rewrite Ly. rewrite (vol_S n l). ring. }
  rewrite G. apply integral_perm. apply NoDup_Permutation; [apply NoDup_filter; auto|auto|]. intros [l' q]. rewrite filter_In, PropsGhost.below_iff, HL, <- (EN l' q). tauto.
Qed.

(** With boundary conditions that fill the cells around the box, all the stored values of
    the box, and those of the stored cells around it, are functions of the values of the
    leaves. *)
Theorem C65_determined : forall n m minl maxl w s d domain cells lo hi r bc, amr_update_input n m minl maxl w s d domain cells lo hi ->
  amr_sub_mesh n m minl maxl w (Z.of_nat s) domain cells = Some r -> only_outside n maxl (a_all r) lo hi bc -> fills n (Z.of_nat s) (a_all r) lo hi bc ->
  forall u u' v v', update_ghost n s maxl bc r u = Some v -> update_ghost n s maxl bc r u' = Some v' ->
  (forall l x y, ca_mem n cells l (x :: y) -> (u l x y == u' l x y)%Q) ->
  forall l,
    (forall x y, ca_mem n (a_all r) l (x :: y) -> inside n lo hi l (x :: y) -> (v l x y == v' l x y)%Q) /\
    (forall p, ca_mem n (a_all r) l p -> inside n lo hi l p -> (forall q, length q = S n -> near n (Z.of_nat s) q p -> ca_mem n (a_all r) l q) ->
      forall x y, length y = n -> near n (Z.of_nat s) (x :: y) p -> (v l x y == v' l x y)%Q).
Proof.
  intros n m minl maxl w s d domain cells lo hi r bc HI HR HO HF u u' v v' E E' HU.
  destruct (amr_values n m minl maxl w s d domain cells lo hi r bc HI HR HO u) as (v1 & E1 & A & B & C & D & F). rewrite E in E1. injection E1 as <-.
  destruct (amr_values n m minl maxl w s d domain cells lo hi r bc HI HR HO u') as (v1 & E1 & A' & B' & C' & D' & F'). rewrite E' in E1. injection E1 as <-.
  pose proof (ui_tiles _ _ _ _ _ _ _ _ _ _ _ HI) as HT. pose proof (ui_range _ _ _ _ _ _ _ _ _ _ _ HI) as HRg. pose proof HI as (I1 & I2 & I3 & I4 & I5).
  assert (G : forall l x y, ca_mem n (a_all r) l (x :: y) -> split_at n cells l (x :: y) -> (v l x y == v' l x y)%Q).
  { apply (up_from_leaves n m minl maxl w s d domain cells lo hi r HI HR (fun l x y => (v l x y == v' l x y)%Q)).
    - intros l x y Hl. rewrite A, A' by auto. auto.
    - intros l x y Ha Hs Lp IH. apply (mean_local (v (S l)) (v' (S l)) x y); auto. }
  assert (K : forall l, (forall x y, ca_mem n (a_all r) l (x :: y) -> inside n lo hi l (x :: y) -> (v l x y == v' l x y)%Q) ->
    forall p, ca_mem n (a_all r) l p -> inside n lo hi l p -> (forall q, length q = S n -> near n (Z.of_nat s) q p -> ca_mem n (a_all r) l q) ->
      forall x y, length y = n -> near n (Z.of_nat s) (x :: y) p -> (v l x y == v' l x y)%Q).
  { intros l Hag p Hp Hpi Hbox x y Ly Ny. pose proof (ui_levels n m minl maxl w s d domain cells lo hi r HI HR l p Hp) as Hlv.
    destruct (F l Hlv) as (b & a & Eb & Ea & Hb). destruct (F' l Hlv) as (b' & a' & Eb' & Ea' & Hb'). rewrite <- Ea, <- Ea'.
    apply (HF l b b' a a' Eb Eb') with (p := p); auto. intros x0 y0 H1 H2. rewrite Hb, Hb' by auto. apply Hag; auto. }
  assert (I : forall l x y, ca_mem n (a_all r) l (x :: y) -> inside n lo hi l (x :: y) -> (v l x y == v' l x y)%Q).
  { induction l as [l IH] using (well_founded_induction lt_wf). intros x y Ha Hi.
    destruct (stored_inside n m minl maxl w s d domain cells lo hi r HI HR l (x :: y) Ha Hi) as [X|[X|X]]; [rewrite A, A' by auto; auto|auto|].
    pose proof X as (_ & N2 & N1 & _). destruct (C l x y Ha Hi N1 N2) as [Hl2 P1]. destruct (C' l x y Ha Hi N1 N2) as [_ P2].
    destruct (prd_all n m minl maxl w s d domain cells lo hi r I1 HR I2 I3 (conj I4 I5) l (x :: y) X) as (_ & _ & Q).
    assert (Ly : length y = n) by (destruct Hi as [Li _]; cbn in Li; lia).
    assert (Lanc : length (ancestor 1 (x :: y)) = S n) by (rewrite ancestor_length; cbn; lia). replace (Nat.pred l) with (l - 1)%nat in Q by lia.
    apply (predicted_local n s (v (l - 1)%nat) (v' (l - 1)%nat) x y); auto. intros p Lp Np. destruct p as [|px py]; [discriminate|]. cbn [value_at].
    apply (K (l - 1)%nat (IH (l - 1)%nat ltac:(lia)) (ancestor 1 (x :: y))); auto.
    - apply Q; auto. intros k _. lia.
    - replace l with (l - 1 + 1)%nat in Hi by lia. apply inside_ancestor in Hi. apply Hi. }
  intros l. split; [apply I; auto|apply K; auto].
Qed.

(** ** The boundary conditions *)

(** Ghosts and prediction of width 1, domain of level [maxl], conditions of order 1. *)
Definition amr_outer_input (n m minl maxl : nat) (domain : lca) (cells : ca) (lo hi : list Z) (bs : list bc) : Prop :=
  (amr_sub_input n m minl maxl 1 1 maxl domain cells lo hi /\ (n <= 2)%nat) /\ minl <> maxl /\ (maxl < 30)%nat /\
  (forall k, (k <= n)%nat -> 2 * (Z.max 0 (nth k hi 0) * 2 ^ Z.of_nat maxl + 8) < 2 ^ 31 - 1) /\
  (forall b, In b bs -> PropsOuter.order_one b /\ PropsOuter.on_boundary n maxl lo hi b).

Section Outer.
  Variables (n m minl maxl : nat) (domain : lca) (cells : ca) (lo hi : list Z) (bs : list bc) (r : amr_mesh).
  Hypothesis HI : amr_outer_input n m minl maxl domain cells lo hi bs.
  Hypothesis HR : amr_sub_mesh n m minl maxl 1 1 domain cells = Some r.

  Lemma ao_in : amr_sub_input n m minl maxl 1 (Z.of_nat 1) maxl domain cells lo hi.
  Proof. apply HI. Qed.
  Lemma ao_top : (maxl <= m)%nat.
  Proof. apply (in_top _ _ _ _ _ _ _ (si_in _ _ _ _ _ _ _ _ _ _ _ ao_in)). Qed.
  Notation all := (ca_mem n (a_all r)).

  (** A cell reached across the boundary has its neighbours towards the box. *)
  Lemma ao_inward : forall l p dir t, length dir = S n -> length t = S n -> (forall k, (k <= n)%nat -> -1 <= nth k dir 0 <= 1) ->
    crossing n lo hi l dir p -> (forall k, (k <= n)%nat -> nth k t 0 = 0 \/ nth k t 0 = nth k dir 0) ->
    all l (add_vec p dir) -> all l (add_vec p t).
  Proof.
    intros l p dir t Ld Lt Hd [[Lp Hp] Ho] Ht HW. pose proof ao_in as HU.
    pose proof (fun l p => proj2 (proj2 (proj2 (proj2 (AmrProofs5.lo_contents n m minl maxl 1 1 maxl domain cells lo hi r HU HR) l p)))) as AC. rewrite AC in HW |- *.
    assert (La : length (add_vec p t) = S n) by (rewrite add_vec_length; lia).
    pose proof (si_tiles _ _ _ _ _ _ _ _ _ _ _ HU) as HT.
    assert (NN : forall z, inside n lo hi l z -> near n 1 (add_vec p dir) z -> near n 1 (add_vec p t) z).
    { intros z [_ Hz] N k Hk. specialize (N k Hk). specialize (Hz k Hk). rewrite nth_add_vec in N |- * by lia.
      specialize (Hd k Hk). specialize (Hp k Hk). specialize (Ho k Hk). specialize (Ht k Hk).
      set (a := nth k lo 0 * 2 ^ Z.of_nat l) in *. set (b := nth k hi 0 * 2 ^ Z.of_nat l) in *. clearbody a b. lia. }
    destruct HW as [[(_ & z & Hz & N)|(_ & h & Hh & N)]|HW].
    - left. left. split; auto. exists z. split; auto. apply NN; auto. apply HT. auto.
    - left. right. split; auto. exists h. split; auto. apply NN; auto. destruct Hh as (_ & _ & _ & Hh & _). replace (S l) with (l + 1)%nat in Hh by lia. apply inside_ancestor in Hh. apply Hh.
    - assert (Hq : inside n lo hi l (add_vec p dir)).
      { apply (project_inside n m minl maxl 1 1 maxl domain cells lo hi HU) in HW as [HW|HW]; [apply HT; auto|apply (split_inside n cells lo hi HT); auto]. }
      right. replace (add_vec p t) with (add_vec p dir); auto. apply (list_ext n); [rewrite add_vec_length; lia|auto|]. intros k Hk. rewrite !nth_add_vec by lia. f_equal.
      destruct Hq as [_ Hq]. specialize (Hq k Hk). rewrite nth_add_vec in Hq by lia. destruct (Ht k Hk) as [E|E]; [|congruence].
      rewrite E. destruct (Z.eq_dec (nth k dir 0) 0); auto. exfalso. apply (Ho k Hk); auto.
  Qed.

  Lemma ao_at : forall l p, (l <= maxl)%nat -> (lca_mem n (c_at (a_all r) l) p <-> all l p).
  Proof. intros l p Hl. pose proof ao_top. apply (AmrProofs5.lo_at n m minl maxl 1 1 maxl domain cells lo hi r ao_in HR); [auto|lia]. Qed.

  Lemma ao_entries : forall e, In e (entries bs) -> entry_ok n maxl lo hi e.
  Proof.
    intros [b [dir a]] He. unfold entries in He. apply in_flat_map in He as (b' & Hb & He). apply in_map_iff in He as ([dir' a'] & E & He).
    apply pair_equal_spec in E as [-> E]. apply pair_equal_spec in E as [-> ->]. destruct HI as (_ & _ & _ & _ & HB). destruct (HB b Hb) as [[H2 _] HO].
    split; auto. cbn [fst snd]. intros EC. destruct (HO dir a He EC) as (Ld & W & L & H). split; auto. split; auto. split; auto.
    intros z Hz. apply PropsOuter.axis_crossing; auto.
  Qed.

  Lemma ao_spec : forall dx l v, (l <= maxl)%nat ->
    exists v', update_bc n cells (a_all r) domain minl maxl 1 1 dx bs l v = Some v' /\
      (forall k, k <> l -> v' k = v k) /\
      (forall q, inside n lo hi l q \/ ~ all l q -> value_at (v' l) q = value_at (v l) q) /\
      ((n <= 1)%nat ->
        (forall dir p, good_dir n dir -> handled n (match bs with [] => false | _ => true end) dir -> crossing n lo hi l dir p ->
           all l (add_vec p dir) -> value_at (v' l) (add_vec p dir) = value_at (v l) p) /\
        (forall pre b dir a post p, entries bs = pre ++ (b, (dir, a)) :: post -> hit n l (a_all r) (b, (dir, a)) p ->
           (forall b' a', In (b', (dir, a')) post -> ~ hit n l (a_all r) (b', (dir, a')) p) ->
           value_at (v' l) (add_vec p dir) = ghost_value b (dx l) (bc_value b l dir p) (value_at (v l) p)) /\
        (forall e p, In e (entries bs) -> hit n l (a_all r) e p \/ ~ hit n l (a_all r) e p)).
  Proof.
    intros dx l v Hl. pose proof HI as ((_ & HU) & Hne & Hm & HB & HBs). pose proof ao_top. pose proof ao_in as HS.
    pose proof (si_in _ _ _ _ _ _ _ _ _ _ _ HS) as Hin. pose proof (AmrProofs5.lo_contents n m minl maxl 1 1 maxl domain cells lo hi r HS HR) as [HC _].
    destruct (HC (a_all r)) as (WA & EA & LA); [auto|].
    destruct (update_bc_spec n l maxl lo hi cells (a_all r) domain) with (minl := minl) (dx := dx) (bs := bs) (v := v) as (v' & E & A & B & D); auto.
    - apply HS.
    - split; [apply (in_wf _ _ _ _ _ _ _ Hin); rewrite (in_max _ _ _ _ _ _ _ Hin); lia|]. destruct Hin as (_ & _ & _ & H4 & _). apply H4. lia.
    - split; [apply WA; lia|apply LA; lia].
    - intros q k Hq Hk. apply ao_at in Hq; auto. pose proof (AmrProofs5.lo_bound n m minl maxl 1 1 maxl domain cells lo hi r HS HR l q k Hq Hk). lia.
    - intros p Hp. assert (Hp' : ca_mem n cells l p) by (split; auto; rewrite (in_max _ _ _ _ _ _ _ Hin); lia). split; [apply (si_tiles _ _ _ _ _ _ _ _ _ _ _ HS); auto|].
      intros q Lq N. apply ao_at; auto. apply (AmrProofs5.lo_contents n m minl maxl 1 1 maxl domain cells lo hi r HS HR). left. left. split; eauto.
    - intros p dir t Ld Lt Hd Hc Ht. rewrite !ao_at by auto. apply ao_inward; auto.
    - intros b Hb. apply (HBs b Hb).
    - apply ao_entries.
    - exists v'. split; auto. split; auto. split.
      + intros q Hq. apply B; auto. destruct Hq as [Hq|Hq]; auto. right. intros X. apply Hq. apply ao_at; auto.
      + intros Hn1. destruct (D Hn1) as (D1 & D2 & D3). split; auto. intros dir p Hg Hh Hc Hr. apply D1; auto. apply ao_at in Hr; auto.
  Qed.
End Outer.

(** The hypotheses of [C65_update] hold in dimensions 1 to 3: no error, and only stored
    cells outside the box change. *)
Theorem C65_only_outside : forall n m minl maxl domain cells lo hi bs r dx, amr_outer_input n m minl maxl domain cells lo hi bs ->
  amr_sub_mesh n m minl maxl 1 1 domain cells = Some r ->
  only_outside n maxl (a_all r) lo hi (update_bc n cells (a_all r) domain minl maxl 1 1 dx bs).
Proof.
  intros n m minl maxl domain cells lo hi bs r dx HI HR l u Hl.
  destruct (ao_spec n m minl maxl domain cells lo hi bs r HI HR dx l u Hl) as (v & E & A & B & _). exists v. split; auto. split; auto.
  intros x y H. apply (B (x :: y)). auto.
Qed.

(** Those of [C65_determined] in dimensions 1 and 2, with conditions on the whole boundary or
    none at all. *)
Theorem C65_fills : forall n m minl maxl domain cells lo hi bs r dx, amr_outer_input n m minl maxl domain cells lo hi bs -> (n <= 1)%nat ->
  bs = [] \/ PropsOuter.covering n maxl lo hi bs ->
  amr_sub_mesh n m minl maxl 1 1 domain cells = Some r ->
  fills n 1 (a_all r) lo hi (update_bc n cells (a_all r) domain minl maxl 1 1 dx bs).
Proof.
  intros n m minl maxl domain cells lo hi bs r dx HI Hn1 HC HR l u u' v v' E E' HU p Hp Hpi Hbox x y Ly Ny.
  pose proof HI as ((HG & _) & _). pose proof (AmrProofs5.lo_level n m minl maxl 1 1 maxl domain cells lo hi r HG HR l p Hp) as Hlv.
  assert (Hl : (l <= maxl)%nat) by lia.
  destruct (ao_spec n m minl maxl domain cells lo hi bs r HI HR dx l u Hl) as (v1 & E1 & _ & B & D). rewrite E in E1. injection E1 as <-.
  destruct (ao_spec n m minl maxl domain cells lo hi bs r HI HR dx l u' Hl) as (v1 & E1 & _ & B' & D'). rewrite E' in E1. injection E1 as <-.
  destruct (D Hn1) as (D1 & D2 & D3). destruct (D' Hn1) as (D1' & D2' & _). set (q := x :: y) in *.
  change (value_at (v l) q == value_at (v' l) q)%Q. assert (Lq : length q = S n) by (cbn; lia). assert (Rq : ca_mem n (a_all r) l q) by (apply Hbox; auto).
  destruct (insideb n lo hi l q) eqn:EI.
  - apply insideb_iff in EI. rewrite B, B' by auto. apply HU; auto.
  - assert (Hout : ~ inside n lo hi l q) by (intros X; apply insideb_iff in X; congruence). clear EI.
    destruct (PropsOuter.closest_spec n lo hi l p q Lq Hpi Ny) as (Hg & Hc & Nc & Eq & Hnz). specialize (Hnz Hout).
    set (c := PropsOuter.closest n lo hi l q) in *. set (dir := PropsOuter.outward n lo hi l q) in *. rewrite <- Eq.
    assert (Lc : length c = S n) by apply Hc. assert (Hci : inside n lo hi l c) by apply Hc.
    assert (Rc : ca_mem n (a_all r) l c) by (apply Hbox; auto).
    assert (Uc : (value_at (u l) c == value_at (u' l) c)%Q) by (destruct c as [|cx cy]; [discriminate|]; apply HU; auto).
    assert (Rq' : ca_mem n (a_all r) l (add_vec c dir)) by (rewrite Eq; auto).
    destruct (Bool.bool_dec (is_cartesian dir) true) as [EC|EC].
    + destruct HC as [->|HC].
      { assert (Hh : handled n false dir) by (split; auto; discriminate). rewrite (D1 dir c Hg Hh Hc Rq'), (D1' dir c Hg Hh Hc Rq'). auto. }
      destruct Hg as [Ld Hd]. destruct (PropsOuter.extreme n maxl lo hi l dir c Hl Ld EC Hc) as (z & Lz & Az & Iz & Oz). destruct (HC dir z Ld EC Iz Oz) as (b & a & Hb & Ha & Hz).
      destruct HI as (_ & _ & _ & _ & HB). assert (La : a_level a = maxl) by (apply (proj2 (HB b Hb) dir a Ha EC)).
      assert (Hhit : hit n l (a_all r) (b, (dir, a)) c).
      { split; auto. split; auto. split; [|rewrite Eq; apply Rq]. apply denotes_mesh_coarse; [lia|auto|]. exists z. rewrite La. auto. }
      destruct (PropsOuter.last_split _ (fun e => hit n l (a_all r) e c /\ fst (snd e) = dir) (entries bs)) as (pre & [b1 [dir1 a1]] & post & EQ & [H1 H2] & H3).
      { intros e He. destruct (D3 e c He) as [X|X]; [|tauto]. destruct (list_eq_dec Z.eq_dec (fst (snd e)) dir); tauto. }
      { exists (b, (dir, a)). split; [apply PropsOuter.entry_In; auto|auto]. }
      cbn [fst snd] in H2. subst dir1.
      assert (H4 : forall b' a', In (b', (dir, a')) post -> ~ hit n l (a_all r) (b', (dir, a')) c) by (intros b' a' Hin X; apply (H3 _ Hin); auto).
      rewrite (D2 pre b1 dir a1 post c EQ H1 H4), (D2' pre b1 dir a1 post c EQ H1 H4).
      assert (Hb1 : In b1 bs).
      { assert (X : In (b1, (dir, a1)) (entries bs)) by (rewrite EQ; apply in_or_app; right; left; auto).
        unfold entries in X. apply in_flat_map in X as (b2 & X1 & X2). apply in_map_iff in X2 as (e & X2 & _). apply pair_equal_spec in X2 as [<- _]. auto. }
      apply (proj2 (proj1 (HB b1 Hb1))). auto.
    + apply not_true_is_false in EC. assert (Hh : handled n (match bs with [] => false | _ => true end) dir) by (split; auto).
      rewrite (D1 dir c Hg Hh Hc Rq'), (D1' dir c Hg Hh Hc Rq'). auto.
Qed.

(** The values of the outer ghosts around the box: as in C57. *)
Theorem C65_outer : forall n m minl maxl domain cells lo hi bs r dx, amr_outer_input n m minl maxl domain cells lo hi bs -> (n <= 1)%nat -> graded_box n cells ->
  amr_sub_mesh n m minl maxl 1 1 domain cells = Some r ->
  forall u, exists v, update_ghost n 1 maxl (update_bc n cells (a_all r) domain minl maxl 1 1 dx bs) r u = Some v /\
    (forall l x y, ca_mem n cells l (x :: y) -> v l x y = u l x y) /\
    (forall l dir p, good_dir n dir -> (exists k, (k <= n)%nat /\ nth k dir 0 <> 0) -> is_cartesian dir = false \/ bs = [] ->
       crossing n lo hi l dir p -> ca_mem n (a_all r) l (add_vec p dir) -> value_at (v l) (add_vec p dir) = value_at (v l) p) /\
    (forall pre b dir a post l p, entries bs = pre ++ (b, (dir, a)) :: post -> hit n l (a_all r) (b, (dir, a)) p ->
       (forall b' a', In (b', (dir, a')) post -> ~ hit n l (a_all r) (b', (dir, a')) p) -> ca_mem n (a_all r) l (add_vec p dir) ->
       value_at (v l) (add_vec p dir) = ghost_value b (dx l) (bc_value b l dir p) (value_at (v l) p)).
Proof.
  intros n m minl maxl domain cells lo hi bs r dx HI Hn1 HB HR u. pose proof HI as ((HG0 & Hn2) & _).
  assert (HG : amr_update_input n m minl maxl 1 1 maxl domain cells lo hi) by (split; [exact HG0|split; [exact Hn2|split; [exact HB|lia]]]).
  destruct (C65_update n m minl maxl 1 1 maxl domain cells lo hi r _ HG HR (C65_only_outside n m minl maxl domain cells lo hi bs r dx HI HR) u) as (v & E & A & _ & _ & _ & F).
  exists v. split; auto. split; auto.
  assert (G : forall l q, ca_mem n (a_all r) l q -> (l <= maxl)%nat /\ exists before after,
    update_bc n cells (a_all r) domain minl maxl 1 1 dx bs l before = Some after /\ after l = v l /\
    forall p, inside n lo hi l p -> value_at (before l) p = value_at (v l) p).
  { intros l q Hq. pose proof (ui_levels n m minl maxl 1 1 maxl domain cells lo hi r HG HR l q Hq) as Hlv. split; [lia|].
    destruct (F l Hlv) as (before & after & E1 & E2 & E3). exists before, after. split; auto. split; auto.
    intros p Hp. assert (Lp := proj1 Hp). destruct p as [|x y]; [discriminate|]. apply E3. auto. }
  split.
  - intros l dir p Hg Hnz Hh Hc Hq. destruct (G l _ Hq) as (Hl & before & after & E1 & E2 & E3).
    destruct (ao_spec n m minl maxl domain cells lo hi bs r HI HR dx l before Hl) as (v1 & E4 & _ & B & D). rewrite E1 in E4. injection E4 as <-.
    destruct (D Hn1) as (D1 & _). rewrite <- (E3 p) by apply Hc. rewrite <- E2. apply D1; auto. split; auto. intros X. destruct Hh as [Hh|Hh]; auto. subst bs. discriminate.
  - intros pre b dir a post l p EQ Hh Hlast Hq. destruct (G l _ Hq) as (Hl & before & after & E1 & E2 & E3).
    destruct (ao_spec n m minl maxl domain cells lo hi bs r HI HR dx l before Hl) as (v1 & E4 & _ & B & D). rewrite E1 in E4. injection E4 as <-.
    destruct (D Hn1) as (_ & D2 & _). rewrite <- (E3 p); [rewrite <- E2; apply (D2 pre b dir a post p EQ Hh Hlast)|].
    assert (He : In (b, (dir, a)) (entries bs)) by (rewrite EQ; apply in_or_app; right; left; auto).
    pose proof (ao_entries n m minl maxl domain cells lo hi bs HI _ He) as [_ HO]. cbn [fst snd] in HO. destruct Hh as (EC & Lp & Hd & _).
    destruct (HO EC) as (Ld & W & La & HO'). rewrite denotes_mesh_coarse in Hd by (auto; lia). destruct Hd as (z & Hz & Az).
    apply HO' in Hz as [Hz _]. rewrite La in Az. rewrite Az. replace maxl with (l + (maxl - l))%nat in Hz at 1 by lia. apply inside_ancestor in Hz. apply Hz.
Qed.

(** ** Example: the mesh of C54, with the boundary condition 5 *)
Definition amrUpdate (w s : Z) (order : nat) (cells : ca) (u : lfield) : option (amr_mesh * lfield) :=
  let* r := amr_sub_mesh 1 4 1 4 w s starDomain cells in
  let* region := everywhere 1 starDomain in
  let* v := update_ghost 1 order 4 (update_bc 1 cells (a_all r) starDomain 1 4 (Z.to_nat w) order (fun _ => 1%Q) [exBc region]) r u in
  Some (r, v).
Definition amrShow (w s : Z) (order : nat) (cells : ca) (u : lfield) (ps : list (nat * list Z)) : option (list (bool * Q)) :=
  option_map (fun rv => map (fun '(l, p) => (stored 1 (a_all (fst rv)) l p, Qred (value_at (snd rv l) p))) ps) (amrUpdate w s order cells u).

Lemma starDomain_box : is_box 1 4 [0; 0] [1; 1] starDomain.
Proof. apply PropsOuter.box_domain_ok; auto. intros [|[|k]] Hk; [reflexivity|reflexivity|lia]. Qed.

(** The hypotheses hold, and: a leaf, a cell with finer leaves, two predicted ghosts of the
    box, a ghost across a face of the box, the one at its corner, and a cell that is not
    stored (level 0, unlike in the multiresolution mesh). *)
Example C65_example : (exists region, everywhere 1 starDomain = Some region /\
    amr_outer_input 1 4 1 4 starDomain exMesh [0; 0] [1; 1] [exBc region] /\ graded_box 1 exMesh /\ PropsOuter.covering 1 4 [0; 0] [1; 1] [exBc region]) /\
  amrShow 1 1 1 exMesh exStart [(2%nat, [2; 2]); (1%nat, [1; 1]); (2%nat, [1; 2]); (3%nat, [5; 6]); (3%nat, [8; 6]); (3%nat, [8; 8]); (0%nat, [0; 0])] =
    Some [(true, 15); (true, 18); (true, 281 # 16); (true, 361 # 16); (true, - 21 # 2); (true, 45 # 2); (false, 100)]%Q.
Proof.
  split; [|vm_compute; reflexivity].
  assert (Hh : forall k, (k <= 1)%nat -> 2 * (Z.max 0 (nth k [1; 1] 0) * 2 ^ Z.of_nat 4 + 8) < 2 ^ 31 - 1) by (intros [|[|k]] Hk; [reflexivity|reflexivity|lia]).
  pose proof starDomain_box as HB.
  destruct (PropsOuter.C57_everywhere 1 4 [0; 0] [1; 1] starDomain) as (region & E & _ & _ & _); auto; try lia.
  exists region. split; auto.
  destruct (PropsOuter.everywhere_conditions 1 4 [0; 0] [1; 1] starDomain region (fun _ _ _ => 5%Q) (dirichlet 1)) as (HO & HC & _); auto; try lia.
  split; [|split; [apply C54_hypotheses|exact HC]]. split; [|split; [lia|split; [lia|split; [exact Hh|]]]].
  - split; [exact exMesh_input|lia].
  - intros b [<-|[]]. split; [apply PropsOuter.dirichlet_order_one|exact HO].
Qed.

(** ** What it does not do *)

(** Leaves at x + 2 y, [q] elsewhere. *)
Definition amrStart (cells : ca) (q : Q) : lfield := fun l x y => if stored 1 cells l (x :: y) then inject_Z (x + 2 * nth 0 y 0) else q.

(** A mesh graded by the star stencil (as in demos/FiniteVolume/level_set.cpp L303-308), with
    the default widths: the ghost (3, 3) of level 3, at the corner of a leaf, is predicted with
    the cell (0, 0) of level 2, that was added to the ghosts after the cells to predict were
    chosen and gets no value: two fields with the same leaves get different values in it. *)
Theorem C65_star_refuted : amr_sub_input 1 4 1 4 1 1 4 starDomain starMesh [0; 0] [1; 1] /\ graded_by 1 star starMesh /\ step_stencil 1 star /\
  inside 1 [0; 0] [1; 1] 3 [3; 3] /\ inside 1 [0; 0] [1; 1] 2 [0; 0] /\
  amrShow 1 1 1 starMesh (amrStart starMesh 0) [(3%nat, [4; 4]); (3%nat, [3; 3]); (2%nat, [0; 0])] = Some [(true, 12); (true, - 687 # 2048); (true, 0)]%Q /\
  amrShow 1 1 1 starMesh (amrStart starMesh 100) [(3%nat, [4; 4]); (3%nat, [3; 3]); (2%nat, [0; 0])] = Some [(true, 12); (true, - 3887 # 2048); (true, 100)]%Q.
Proof.
  split; [exact starMesh_input|]. split; [apply starMesh_graded|]. split; [apply star_steps|]. split; [apply insideb_iff; reflexivity|]. split; [apply insideb_iff; reflexivity|].
  split; vm_compute; reflexivity.
Qed.

(** With a prediction of order 2 and ghosts of width 2 the stencils are stored and only the
    outer ghosts lack: those at the distances 1 and 2 of a corner of the box are not filled,
    and values of the box depend on them. *)
Theorem C65_corners_refuted : amr_sub_input 1 4 1 4 2 2 4 starDomain exMesh [0; 0] [1; 1] /\ graded_box 1 exMesh /\
  inside 1 [0; 0] [1; 1] 2 [0; 0] /\
  amrShow 2 2 2 exMesh (amrStart exMesh 0) [(2%nat, [0; 0]); (1%nat, [-1; -2])] = Some [(true, 110533 # 65536); (true, 0)]%Q /\
  amrShow 2 2 2 exMesh (amrStart exMesh 100) [(2%nat, [0; 0]); (1%nat, [-1; -2])] = Some [(true, 144133 # 65536); (true, 100)]%Q.
Proof.
  split; [|split; [apply C54_hypotheses|split; [apply insideb_iff; reflexivity|split; vm_compute; reflexivity]]].
  eapply amr_sub_check with (M := 3%nat); [exact exMesh_wf|vm_compute; reflexivity|reflexivity|vm_compute; reflexivity|vm_compute; reflexivity|vm_compute; reflexivity|
    reflexivity|reflexivity|lia|lia|lia|vm_compute; reflexivity].
Qed.

Print Assumptions C65_update.
Print Assumptions C65_average.
Print Assumptions C65_determined.
Print Assumptions C65_only_outside.
Print Assumptions C65_fills.
Print Assumptions C65_outer.
Print Assumptions C65_star_refuted.
Print Assumptions C65_corners_refuted.
