(** Properties C31, C32, C33, C40: adaptation of meshes and fields from tags. *)
From Coq Require Import QArith.
From Verif Require Import Base IntervalModel Spec LoiModel LcaModel LcaSpec RowsProofs CellArrayModel CellArrayProofs PropsLca PropsCellArray
  SubsetModel SubsetSpec SubsetProofs2 PropsSubset MeshModel MeshProofs PropsMesh NumModel NumProofs PropsNum AdaptModel AdaptProofs TagProofs.
Open Scope Z_scope.

(** ** Vocabulary *)

(** The cell [z] of level [K] lies in a leaf. *)
Definition covered (n : nat) (c : ca) (K : nat) (z : list Z) : Prop :=
  exists l, (l <= K)%nat /\ ca_mem n c l (ancestor (K - l) z).

(** No leaf contains another one. *)
Definition no_overlap (n : nat) (c : ca) : Prop :=
  forall l l' p q, ca_mem n c l p -> ca_mem n c l' q -> (l <= l')%nat -> ancestor (l' - l) q = p -> l = l'.

(** The flags as bits: keep = bit 0, coarsen = bit 1, refine = bit 2. *)
Definition wants_coarsen (minl l : nat) (t : Z) : Prop :=
  (minl < l)%nat /\ Z.testbit t 2 = false /\ Z.testbit t 0 = false /\ Z.testbit t 1 = true.

(** Every leaf carries a flag; a leaf to be coarsened is in a complete group of
    sibling leaves, all to be coarsened. *)
Definition consistent (n minl : nat) (cells : ca) (tag : Z -> Z) : Prop :=
  forall l q k, ca_mem n cells l q -> ca_get_index n cells l q = Some k ->
    (Z.testbit (tag k) 0 || Z.testbit (tag k) 1 || Z.testbit (tag k) 2 = true) /\
    (wants_coarsen minl l (tag k) -> forall q', length q' = S n -> ancestor 1 q' = ancestor 1 q ->
       ca_mem n cells l q' /\ exists k', ca_get_index n cells l q' = Some k' /\ wants_coarsen minl l (tag k')).

Lemma leaf_index : forall n cells l q, ca_wf n cells -> ca_mem n cells l q -> exists k, ca_get_index n cells l q = Some k.
Proof.
  intros n cells l q W Hq. destruct (ca_calls_spec n cells W) as (calls & E & V & M).
  destruct q as [|x yz]; [destruct Hq as [_ [Hq _]]; discriminate|]. destruct (proj1 (M l x yz) Hq) as (i & Hin & Hx).
  exists (iindex i + x). apply (ca_call_index n cells calls l i yz x); auto.
Qed.

Definition action_of (n minl maxl : nat) (cells : ca) (tag : Z -> Z) (l : nat) (q : list Z) : action :=
  match ca_get_index n cells l q with Some k => act minl maxl l (tag k) | None => Drop end.

Lemma act_coarsen : forall minl maxl l t, act minl maxl l t = Coarsen <-> wants_coarsen minl l t.
Proof.
  intros. unfold act, wants_coarsen.
  destruct (Z.testbit t 2), (Z.testbit t 0), (Z.testbit t 1), (Nat.ltb_spec l maxl), (Nat.ltb_spec minl l);
    split; intros; try discriminate; auto; try (decompose [and] H1; discriminate || lia); try tauto.
Qed.
Lemma act_refine : forall minl maxl l t, act minl maxl l t = Refine -> (l < maxl)%nat.
Proof. intros minl maxl l t. unfold act. destruct (Z.testbit t 2), (Z.testbit t 0), (Z.testbit t 1), (Nat.ltb_spec l maxl), (Nat.ltb_spec minl l); intros; auto; discriminate. Qed.
Lemma act_drop : forall minl maxl l t, act minl maxl l t = Drop -> Z.testbit t 0 || Z.testbit t 1 || Z.testbit t 2 = false.
Proof. intros minl maxl l t. unfold act. destruct (Z.testbit t 2), (Z.testbit t 0), (Z.testbit t 1), (Nat.ltb_spec l maxl), (Nat.ltb_spec minl l); intros; auto; discriminate. Qed.

(** The hypotheses of section [Cover] for the code. *)
Lemma cover_hyps : forall n minl maxl cells tag K, ca_wf n cells -> (maxl <= c_max cells)%nat -> (maxl <= K)%nat ->
  (forall l q, ca_mem n cells l q -> (l <= K)%nat) -> consistent n minl cells tag ->
  forall new, update_cells n minl maxl cells tag = Some new ->
  (forall l q, ca_mem n cells l q -> length q = S n /\ (l <= K)%nat) /\
  (forall l q, ca_mem n cells l q -> action_of n minl maxl cells tag l q = Refine -> (l < K)%nat) /\
  (forall l p, ca_mem n new l p <-> exists l0 q, ca_mem n cells l0 q /\ length p = S n /\ moves (action_of n minl maxl cells tag l0 q) l0 q l p) /\
  (forall l q, ca_mem n cells l q -> action_of n minl maxl cells tag l q = Coarsen -> (0 < l)%nat) /\
  (forall l q, ca_mem n cells l q -> action_of n minl maxl cells tag l q <> Drop) /\
  (forall l q q', ca_mem n cells l q -> action_of n minl maxl cells tag l q = Coarsen -> length q' = S n -> ancestor 1 q' = ancestor 1 q ->
    ca_mem n cells l q' /\ action_of n minl maxl cells tag l q' = Coarsen).
Proof.
  intros n minl maxl cells tag K W Hm HK HL HC new E.
  destruct (update_cells_spec n minl maxl cells tag W Hm) as (new' & E' & _ & _ & _ & M). rewrite E in E'. injection E' as <-.
  assert (IX : forall l q, ca_mem n cells l q -> exists k, ca_get_index n cells l q = Some k /\ action_of n minl maxl cells tag l q = act minl maxl l (tag k)).
  { intros l q Hq. destruct (leaf_index n cells l q W Hq) as (k & Hk). exists k. split; auto. unfold action_of. rewrite Hk. auto. }
  spl.
  - intros l q Hq. split; [apply Hq|eauto].
  - intros l q Hq Ha. destruct (IX l q Hq) as (k & Hk & Ek). rewrite Ek in Ha. apply act_refine in Ha. lia.
  - intros l p. rewrite M. split.
    + intros (l0 & q & k & Hq & Hk & Hp & Hmv). exists l0, q. spl; auto. unfold action_of. rewrite Hk. auto.
    + intros (l0 & q & Hq & Hp & Hmv). destruct (IX l0 q Hq) as (k & Hk & Ek). rewrite Ek in Hmv. exists l0, q, k. auto.
  - intros l q Hq Ha. destruct (IX l q Hq) as (k & Hk & Ek). rewrite Ek in Ha. apply act_coarsen in Ha. destruct Ha. lia.
  - intros l q Hq Ha. destruct (IX l q Hq) as (k & Hk & Ek). rewrite Ek in Ha. apply act_drop in Ha.
    destruct (HC l q k Hq Hk) as [H _]. congruence.
  - intros l q q' Hq Ha Hl Ha1. destruct (IX l q Hq) as (k & Hk & Ek). rewrite Ek in Ha. apply act_coarsen in Ha.
    destruct (HC l q k Hq Hk) as [_ H]. destruct (H Ha q' Hl Ha1) as (H1 & k' & Hk' & H2). split; auto.
    unfold action_of. rewrite Hk'. apply act_coarsen. auto.
Qed.

(** ** C31 *)
Theorem C31_same_region_no_overlap : forall n minl maxl cells tag K, ca_wf n cells -> (maxl <= c_max cells)%nat -> (maxl <= K)%nat ->
  (forall l q, ca_mem n cells l q -> (l <= K)%nat) -> no_overlap n cells -> consistent n minl cells tag ->
  exists new, update_cells n minl maxl cells tag = Some new /\ ca_wf n new /\ no_overlap n new /\
    forall z, length z = S n -> (covered n new K z <-> covered n cells K z).
Proof.
  intros n minl maxl cells tag K W Hm HK HL HD HC.
  destruct (update_cells_spec n minl maxl cells tag W Hm) as (new & E & _ & Wn & _ & _). exists new.
  destruct (cover_hyps n minl maxl cells tag K W Hm HK HL HC new E) as (H1 & H2 & H3 & H4 & H5 & H6). spl; auto.
  - intros l l' p q. apply (new_disjoint n (ca_mem n cells) (ca_mem n new) (action_of n minl maxl cells tag) K); auto.
  - intros z Hz. apply (same_cover n (ca_mem n cells) (ca_mem n new) (action_of n minl maxl cells tag) K); auto.
Qed.

(** Which leaves there are, for any tags: a refined leaf (below the maximum level) is
    replaced by its children, a leaf to coarsen (above the minimum level) by its
    parent, the others stay, and a leaf without flag disappears. *)
Theorem C31_exact_leaves : forall n minl maxl cells tag, ca_wf n cells -> (maxl <= c_max cells)%nat ->
  exists new, update_cells n minl maxl cells tag = Some new /\ ca_wf n new /\
    forall l p, ca_mem n new l p <-> length p = S n /\ exists l0 q k, ca_mem n cells l0 q /\ ca_get_index n cells l0 q = Some k /\
      (if Z.testbit (tag k) 2 && Nat.ltb l0 maxl then l = S l0 /\ ancestor 1 p = q
       else if negb (Z.testbit (tag k) 2) && negb (Z.testbit (tag k) 0) && Z.testbit (tag k) 1 && Nat.ltb minl l0
       then l0 = S l /\ p = ancestor 1 q
       else l = l0 /\ p = q /\ Z.testbit (tag k) 0 || Z.testbit (tag k) 1 || Z.testbit (tag k) 2 = true).
Proof.
  intros n minl maxl cells tag W Hm. destruct (update_cells_spec n minl maxl cells tag W Hm) as (new & E & _ & Wn & _ & M).
  exists new. spl; auto. intros l p. rewrite M. split.
  - intros (l0 & q & k & Hq & Hk & Hp & Hmv). split; auto. exists l0, q, k. spl; auto. unfold act in Hmv.
    destruct (Z.testbit (tag k) 2), (Z.testbit (tag k) 0), (Z.testbit (tag k) 1), (Nat.ltb l0 maxl), (Nat.ltb minl l0); cbn [moves andb negb orb] in *; intuition.
  - intros (Hp & l0 & q & k & Hq & Hk & Hmv). exists l0, q, k. spl; auto. unfold act.
    destruct (Z.testbit (tag k) 2), (Z.testbit (tag k) 0), (Z.testbit (tag k) 1), (Nat.ltb l0 maxl), (Nat.ltb minl l0); cbn [moves andb negb orb] in *; intuition; discriminate.
Qed.

(** A mesh of the square [0, 1)^2: level 1 except the quarter [1/2, 1)^2, which is on
    level 2 with one cell on level 3. *)
Definition exTree : nat -> list lcl_call := fun l =>
  match l with
  | 1%nat => [AddI [0] (mk 0 2); AddI [1] (mk 0 1)]
  | 2%nat => [AddI [2] (mk 2 4); AddI [3] (mk 2 3)]
  | 3%nat => [AddI [6] (mk 6 8); AddI [7] (mk 6 8)]
  | _ => []
  end.
Definition exMesh : ca := client_ca 1 4 exTree true.
(** The level 3 cells coarsen, the leaf (0, 0) of level 1 is refined, the others stay. *)
Definition exTag : Z -> Z := fun k => if k =? 0 then 4 else if k <? 6 then 1 else 2.

(** Checks of the hypotheses on concrete meshes. *)
Definition no_overlapb (cs : list (nat * list Z)) : bool :=
  forallb (fun '(l, p) => forallb (fun '(l', q) => implb (Nat.leb l l' && zlist_eqb (ancestor (l' - l) q) p) (Nat.eqb l l')) cs) cs.
Definition wants_coarsenb (minl l : nat) (t : Z) : bool :=
  Nat.ltb minl l && negb (Z.testbit t 2) && negb (Z.testbit t 0) && Z.testbit t 1.
Definition siblings_of (q : list Z) : list (list Z) :=
  map (fun st => add_yz (map (Z.mul 2) (ancestor 1 q)) st) (nested_loop (length q) 0 2).
Definition consistentb (minl : nat) (tag : Z -> Z) (cs : list (nat * (list Z * Z))) : bool :=
  forallb (fun '(l, (q, k)) =>
    (Z.testbit (tag k) 0 || Z.testbit (tag k) 1 || Z.testbit (tag k) 2) &&
    implb (wants_coarsenb minl l (tag k))
      (forallb (fun q' => existsb (fun '(l1, (q1, k1)) => Nat.eqb l1 l && zlist_eqb q1 q' && wants_coarsenb minl l (tag k1)) cs) (siblings_of q))) cs.

Lemma no_overlap_check : forall n c cs, ca_wf n c -> ca_for_each_cell n c = Some cs -> no_overlapb (leaf_cells cs) = true -> no_overlap n c.
Proof.
  intros n c cs W E H l l' p q Hp Hq Hle Ha. destruct (ca_for_each_cell_spec n c W) as (cs' & E' & [_ EN] & _). rewrite E in E'. injection E' as <-.
  apply EN in Hp, Hq. unfold no_overlapb in H. rewrite forallb_forall in H. specialize (H _ Hp). cbn beta iota in H.
  rewrite forallb_forall in H. specialize (H _ Hq). cbn beta iota in H.
  apply Nat.leb_le in Hle. apply zlist_eqb_eq in Ha. rewrite Hle, Ha in H. cbn [implb andb] in H. apply Nat.eqb_eq. auto.
Qed.

Lemma wants_coarsenb_iff : forall minl l t, wants_coarsenb minl l t = true <-> wants_coarsen minl l t.
Proof. intros. unfold wants_coarsenb, wants_coarsen. rewrite !andb_true_iff, !negb_true_iff, Nat.ltb_lt. tauto. Qed.

Lemma consistent_check : forall n minl c tag cs, ca_wf n c -> ca_for_each_cell n c = Some cs -> consistentb minl tag cs = true ->
  consistent n minl c tag.
Proof.
  intros n minl c tag cs W E H l q k Hq Hk. destruct (ca_for_each_cell_spec n c W) as (cs' & E' & [_ EN] & IX). rewrite E in E'. injection E' as <-.
  assert (IN : forall l q k, ca_mem n c l q -> ca_get_index n c l q = Some k -> In (l, (q, k)) cs).
  { intros l0 q0 k0 Hm Hi. apply EN, leaf_cells_In in Hm as (k1 & Hm). pose proof (IX _ _ _ Hm). replace k0 with k1 by congruence. auto. }
  pose proof (IN _ _ _ Hq Hk) as Hin. unfold consistentb in H. rewrite forallb_forall in H. specialize (H _ Hin). cbn beta iota in H.
  apply andb_true_iff in H as [H1 H2]. split; auto. intros Hw q' Hl Ha. apply wants_coarsenb_iff in Hw. rewrite Hw in H2. cbn [implb] in H2.
  rewrite forallb_forall in H2.
  assert (Hs : In q' (siblings_of q)).
  { assert (length q = S n) by apply Hq. destruct (proj1 (double_ancestor (ancestor 1 q) q' ltac:(rewrite ancestor_length; lia)) Ha) as (st & L & F & Eq).
    unfold siblings_of. rewrite ancestor_length in L. apply in_map_iff. exists st. split; auto. apply nested_loop_In. split; auto. }
  specialize (H2 _ Hs). apply existsb_exists in H2 as ([l1 [q1 k1]] & Hin1 & H2). apply andb_true_iff in H2 as [H2 H3].
  apply andb_true_iff in H2 as [H2 H4]. apply Nat.eqb_eq in H2. apply zlist_eqb_eq in H4. subst l1 q1.
  split; [apply EN, leaf_cells_In; eauto|]. exists k1. split; [apply IX; auto|]. apply wants_coarsenb_iff. auto.
Qed.

Lemma exMesh_wf : ca_wf 1 exMesh.
Proof.
  assert (G : good_hist 1 4 exTree).
  { intros l Hl. split; [|apply adds_filled]; destruct l as [|[|[|[|l]]]]; repeat constructor; simpl; lia. }
  destruct (ca_update_index_spec 1 (client_ca 1 4 exTree false) (raw_wf _ _ _ G)) as (cs & _ & W & _). exact W.
Qed.

Example C31_example :
  ca_wf 1 exMesh /\ no_overlap 1 exMesh /\ consistent 1 1 exMesh exTag /\
  option_map leaf_cells (ca_for_each_cell 1 exMesh) = Some [(1%nat, [0; 0]); (1%nat, [1; 0]); (1%nat, [0; 1]);
    (2%nat, [2; 2]); (2%nat, [3; 2]); (2%nat, [2; 3]); (3%nat, [6; 6]); (3%nat, [7; 6]); (3%nat, [6; 7]); (3%nat, [7; 7])] /\
  option_map (ca_for_each_interval 1) (update_cells 1 1 3 exMesh exTag) =
  Some (Some [(1%nat, (mk 1 2, [0])); (1%nat, (mk 0 1, [1])); (2%nat, (mk 0 2, [0])); (2%nat, (mk 0 2, [1])); (2%nat, (mk 2 4, [2])); (2%nat, (mk 2 4, [3]))]).
Proof.
  spl; [exact exMesh_wf| | |vm_compute; reflexivity|vm_compute; reflexivity].
  - eapply no_overlap_check; [exact exMesh_wf|vm_compute; reflexivity|vm_compute; reflexivity].
  - eapply consistent_check; [exact exMesh_wf|vm_compute; reflexivity|vm_compute; reflexivity].
Qed.

(** Without the hypothesis: when only three of four siblings are to be coarsened their
    parent appears beside the fourth one, and a leaf without flag leaves a hole. *)
Theorem C31_inconsistent_refuted :
  let tag1 := fun k => if k =? 9 then 1 else exTag k in
  let tag2 := fun k => if k =? 1 then 0 else exTag k in
  (exists new, update_cells 1 1 3 exMesh tag1 = Some new /\ ~ no_overlap 1 new) /\
  (exists new, update_cells 1 1 3 exMesh tag2 = Some new /\ covered 1 exMesh 3 [4; 0] /\ ~ covered 1 new 3 [4; 0]).
Proof.
  assert (HM : (3 <= c_max exMesh)%nat) by (simpl; lia). cbv zeta. split.
  - destruct (update_cells_spec 1 1 3 exMesh (fun k => if k =? 9 then 1 else exTag k) exMesh_wf HM) as (new & E & _ & _ & _ & M).
    exists new. split; auto. intros H.
    assert (IX : forall l q k, ca_get_index 1 exMesh l q = Some k -> forall cs, ca_for_each_cell 1 exMesh = Some cs -> In (l, (q, k)) cs -> ca_mem 1 exMesh l q).
    { intros l q k _ cs Hcs Hin. destruct (ca_for_each_cell_spec 1 exMesh exMesh_wf) as (cs' & E' & [_ EN] & _).
      rewrite Hcs in E'. injection E' as <-. apply EN, leaf_cells_In. eauto. }
    assert (N1 : ca_mem 1 new 2 [3; 3]).
    { apply M. exists 3%nat, [6; 6], 6. spl; [|vm_compute; reflexivity|reflexivity|vm_compute; auto].
      eapply IX; [vm_compute; reflexivity|vm_compute; reflexivity|simpl; tauto]. }
    assert (N2 : ca_mem 1 new 3 [7; 7]).
    { apply M. exists 3%nat, [7; 7], 9. spl; [|vm_compute; reflexivity|reflexivity|vm_compute; auto].
      eapply IX; [vm_compute; reflexivity|vm_compute; reflexivity|simpl; tauto]. }
    specialize (H 2%nat 3%nat [3; 3] [7; 7] N1 N2 ltac:(lia) eq_refl). discriminate.
  - destruct (update_cells_spec 1 1 3 exMesh (fun k => if k =? 1 then 0 else exTag k) exMesh_wf HM) as (new & E & _ & Wn & _ & M).
    exists new. split; auto. destruct (ca_for_each_cell_spec 1 exMesh exMesh_wf) as (cs & C & [_ EN] & _).
    destruct (ca_for_each_cell_spec 1 new Wn) as (cs' & C' & [_ EN'] & _). split.
    + exists 1%nat. split; [lia|]. change (ancestor (3 - 1) [4; 0]) with [1; 0]. apply EN. vm_compute in C. injection C as <-. simpl. tauto.
    + intros (l & Hl & Hm). apply EN' in Hm.
      assert (F : (let* c := update_cells 1 1 3 exMesh (fun k => if k =? 1 then 0 else exTag k) in let* cs := ca_for_each_cell 1 c in
        Some (existsb (fun '(l', q) => existsb (fun l => Nat.eqb l l' && zlist_eqb (ancestor (3 - l) [4; 0]) q) (seq 0 4)) (leaf_cells cs))) = Some false)
        by (vm_compute; reflexivity).
      rewrite E, C' in F. assert (T : existsb (fun '(l', q) => existsb (fun l => Nat.eqb l l' && zlist_eqb (ancestor (3 - l) [4; 0]) q) (seq 0 4)) (leaf_cells cs') = true).
      { apply existsb_exists. exists (l, ancestor (3 - l) [4; 0]). split; auto. apply existsb_exists. exists l. split; [apply in_seq; lia|].
        rewrite Nat.eqb_refl. apply zlist_eqb_eq. reflexivity. }
      rewrite T in F. discriminate.
Qed.

(** ** C32 *)
Theorem C32_levels_within_bounds : forall n minl maxl cells tag new, ca_wf n cells -> (maxl <= c_max cells)%nat ->
  (forall l q, ca_mem n cells l q -> (minl <= l <= maxl)%nat) ->
  update_cells n minl maxl cells tag = Some new ->
  forall l p, ca_mem n new l p -> (minl <= l <= maxl)%nat.
Proof.
  intros n minl maxl cells tag new W Hm HL E l p Hp.
  destruct (update_cells_spec n minl maxl cells tag W Hm) as (new' & E' & _ & _ & _ & M). rewrite E in E'. injection E' as <-.
  apply M in Hp as (l0 & q & k & Hq & _ & _ & Hmv). pose proof (HL l0 q Hq) as H. unfold act in Hmv.
  destruct (Z.testbit (tag k) 2), (Z.testbit (tag k) 0), (Z.testbit (tag k) 1), (Nat.ltb_spec l0 maxl), (Nat.ltb_spec minl l0); cbn [moves] in Hmv; lia.
Qed.

(** All leaves refined: the level 3 leaves stay. *)
Example C32_example : (forall l q, ca_mem 1 exMesh l q -> (1 <= l <= 3)%nat) /\
  option_map (fun c => (min_level c, max_level c, ca_nb_cells c)) (update_cells 1 1 3 exMesh (fun _ => 4)) = Some (2%nat, 3%nat, 28) /\
  option_map (fun c => (min_level c, max_level c, ca_nb_cells c)) (update_cells 1 1 3 exMesh (fun _ => 2)) = Some (1%nat, 2%nat, 5).
Proof.
  split; [|vm_compute; auto]. intros l q H. destruct (ca_for_each_cell_spec 1 exMesh exMesh_wf) as (cs & C & [_ EN] & _).
  apply EN in H. vm_compute in C. injection C as <-. simpl in H.
  repeat (destruct H as [H|H]; [apply pair_equal_spec in H as [<- _]; lia|]). destruct H.
Qed.

(** ** C33 *)

(** [tg t l p] is the tag of the cell [p] of level [l]; [K] and [Co]: it has the flag
    keep, coarsen. [handled m p]: the pass looks at the group of the children of [p]
    (level [m]), that is [p] is in all_cells and has a leaf among its children. *)

(** What the pass does, exactly. In a group it handles, a flag coarsen stays iff all
    had it, and a cell gets keep iff one of the group had it or has children with keep
    or coarsen. Elsewhere a cell only gets keep from its children. No other bit
    changes. *)
Theorem C33_exact : forall n maxl cells all_cells t, pass_ok n maxl cells all_cells ->
  exists t', final_pass n maxl cells all_cells t = Some t' /\
  let up l p := (l < maxl)%nat /\ handled n cells all_cells l p /\
    exists c, length c = S n /\ ancestor 1 c = p /\ (K t' (S l) c \/ Co t' (S l) c) in
  forall l p, length p = S n -> (l <= maxl)%nat ->
    (forall b, 2 <= b -> Z.testbit (tg t' l p) b = Z.testbit (tg t l p) b) /\
    ((1 <= l)%nat -> handled n cells all_cells (Nat.pred l) (ancestor 1 p) ->
       (Co t' l p <-> forall q, length q = S n -> ancestor 1 q = ancestor 1 p -> Co t l q) /\
       (K t' l p <-> exists q, length q = S n /\ ancestor 1 q = ancestor 1 p /\ (K t l q \/ up l q))) /\
    ((l = 0%nat \/ ~ handled n cells all_cells (Nat.pred l) (ancestor 1 p)) ->
       (Co t' l p <-> Co t l p) /\ (K t' l p <-> K t l p \/ up l p)).
Proof.
  intros n maxl cells all_cells t HO. destruct (final_pass_states n maxl cells all_cells t HO) as (T & T1 & T2 & T3).
  exists (T O). split; auto. cbv zeta. subst t. intros l p Hp Hl. apply (final_tags n maxl _ T T3 l p Hp Hl).
Qed.

(** In a group with a leaf (whose parent is in all_cells) all cells or none have the
    flag coarsen, all or none keep, and if they have one the parent has keep. *)
Theorem C33_groups_agree : forall n maxl cells all_cells t t', pass_ok n maxl cells all_cells ->
  final_pass n maxl cells all_cells t = Some t' ->
  forall l q q', (1 <= l <= maxl)%nat -> lca_mem n (c_at cells l) q -> lca_mem n (c_at all_cells (Nat.pred l)) (ancestor 1 q) ->
    length q' = S n -> ancestor 1 q' = ancestor 1 q ->
    (Co t' l q' <-> Co t' l q) /\ (K t' l q' <-> K t' l q) /\
    (K t' l q \/ Co t' l q -> K t' (Nat.pred l) (ancestor 1 q)).
Proof.
  intros n maxl cells all_cells t t' HO E l q q' Hl Hq Ha Lq' Eq'.
  destruct (C33_exact n maxl cells all_cells t HO) as (t1 & E1 & X). rewrite E in E1. injection E1 as <-.
  assert (Lq : length q = S n) by apply Hq. destruct l as [|m]; [lia|]. cbn [Nat.pred] in *.
  assert (HH : handled n cells all_cells m (ancestor 1 q)) by (split; eauto).
  destruct (X (S m) q Lq ltac:(lia)) as (_ & G & _). destruct (G ltac:(lia) HH) as [G1 G2].
  destruct (X (S m) q' Lq' ltac:(lia)) as (_ & G' & _). rewrite Eq' in G'. destruct (G' ltac:(lia) HH) as [G3 G4]. clear G G'.
  spl; [rewrite G1, G3; clear; tauto|rewrite G2, G4; clear; tauto|]. intros KC.
  assert (La : length (ancestor 1 q) = S n) by (rewrite ancestor_length; auto).
  destruct (X m (ancestor 1 q) La ltac:(lia)) as (_ & U1 & U2).
  assert (UP : (m < maxl)%nat /\ handled n cells all_cells m (ancestor 1 q) /\
    exists c, length c = S n /\ ancestor 1 c = ancestor 1 q /\ (K t' (S m) c \/ Co t' (S m) c)).
  { spl; [lia|exact HH|exists q; auto]. }
  destruct m as [|m']; [apply U2; auto|]. cbn [Nat.pred] in *.
  destruct (handled_dec n maxl cells all_cells m' (ancestor 1 (ancestor 1 q)) HO) as [D|D]; [lia|rewrite ancestor_length; auto| |].
  - apply (U1 ltac:(lia) D). exists (ancestor 1 q). spl; auto.
  - apply U2; auto.
Qed.

(** A second pass changes nothing. *)
Theorem C33_idempotent : forall n maxl cells all_cells t, pass_ok n maxl cells all_cells ->
  exists t' t'', final_pass n maxl cells all_cells t = Some t' /\ final_pass n maxl cells all_cells t' = Some t'' /\
    forall l p, length p = S n -> (l <= maxl)%nat -> tg t'' l p = tg t' l p.
Proof.
  intros n maxl cells all_cells t HO.
  destruct (C33_exact n maxl cells all_cells t HO) as (t1 & E1 & X1). destruct (C33_exact n maxl cells all_cells t1 HO) as (t2 & E2 & X2).
  exists t1, t2. spl; auto. cbv zeta in X1, X2. intros l. remember (maxl - l)%nat as d eqn:Ed. revert l Ed.
  induction d as [d IH] using lt_wf_ind. intros l Ed p Hp Hl.
  assert (UU : forall q, ((l < maxl)%nat /\ handled n cells all_cells l q /\ exists c, length c = S n /\ ancestor 1 c = q /\ (K t2 (S l) c \/ Co t2 (S l) c)) <->
                         ((l < maxl)%nat /\ handled n cells all_cells l q /\ exists c, length c = S n /\ ancestor 1 c = q /\ (K t1 (S l) c \/ Co t1 (S l) c))).
  { intros q. split; intros (U1 & U2 & c & U3 & U4 & U5); spl; auto; exists c; spl; auto; unfold K, Co in *;
      (rewrite (IH (maxl - S l)%nat) in * by (auto; lia)); auto. }
  destruct (X1 l p Hp Hl) as (A1 & A2 & A3). destruct (X2 l p Hp Hl) as (B1 & B2 & B3).
  assert (BE : (Co t2 l p <-> Co t1 l p) /\ (K t2 l p <-> K t1 l p)).
  { assert (D : l = 0%nat \/ ~ handled n cells all_cells (Nat.pred l) (ancestor 1 p) \/ (1 <= l)%nat /\ handled n cells all_cells (Nat.pred l) (ancestor 1 p)).
    { destruct l as [|m]; auto. right. cbn [Nat.pred].
      destruct (handled_dec n maxl cells all_cells m (ancestor 1 p) HO) as [D|D]; [lia|rewrite ancestor_length; auto| |]; auto. right. split; [lia|auto]. }
    assert (D2 : (l = 0%nat \/ ~ handled n cells all_cells (Nat.pred l) (ancestor 1 p)) \/ ((1 <= l)%nat /\ handled n cells all_cells (Nat.pred l) (ancestor 1 p))) by tauto.
    destruct D2 as [D2|[D1 D2]].
    - destruct (A3 D2) as [C1 C2]. destruct (B3 D2) as [C3 C4]. split; auto. rewrite C4, UU, C2. clear; tauto.
    - assert (S1 : forall q, length q = S n -> ancestor 1 q = ancestor 1 p -> (Co t1 l q <-> Co t1 l p) /\ (K t1 l q <-> K t1 l p) /\
        (((l < maxl)%nat /\ handled n cells all_cells l q /\ exists c, length c = S n /\ ancestor 1 c = q /\ (K t1 (S l) c \/ Co t1 (S l) c)) -> K t1 l p)).
      { intros q Lq Eq. destruct (X1 l q Lq Hl) as (_ & G & _). rewrite Eq in G. destruct (G D1 D2) as [G1 G2]. destruct (A2 D1 D2) as [G3 G4].
        spl; [rewrite G1, G3; clear; tauto|rewrite G2, G4; clear; tauto|]. intros U. apply G4. exists q. auto. }
      destruct (B2 D1 D2) as [C3 C4]. split.
      + rewrite C3. split; [intros Q; apply (Q p); auto|]. intros Q q Lq Eq. apply (S1 q Lq Eq). auto.
      + rewrite C4. split.
        * intros (q & Lq & Eq & [Q|Q]); destruct (S1 q Lq Eq) as (_ & Q1 & Q2); [apply Q1; auto|]. apply UU in Q. auto.
        * intros Q. exists p. auto. }
  apply Z.bits_inj'. intros b Hb. destruct (Z.eq_dec b 0) as [->|]; [|destruct (Z.eq_dec b 1) as [->|]; [|apply B1; lia]].
  - apply eq_true_iff_eq. apply BE.
  - apply eq_true_iff_eq. apply BE.
Qed.

(** Tags produced by the pass are consistent in the sense of C31 when at its start
    every leaf has keep, or coarsen above the minimum level; leaves to refine have
    keep; every sibling of a leaf above the minimum level is a leaf or has a leaf among
    its children (the domain is a union of whole groups and the mesh is graduated);
    all_cells contains the parents of the leaves above the minimum level. *)
Definition pass_start (n minl maxl : nat) (cells all_cells : ca) (t : tfield) : Prop :=
  (forall l q, ca_mem n cells l q -> (l <= maxl)%nat /\
     (K t l q \/ ((minl < l)%nat /\ Co t l q)) /\ (Z.testbit (tg t l q) 2 = true -> K t l q)) /\
  (forall l q, ca_mem n cells l q -> (minl < l)%nat -> lca_mem n (c_at all_cells (Nat.pred l)) (ancestor 1 q) /\
     forall q', length q' = S n -> ancestor 1 q' = ancestor 1 q ->
       ca_mem n cells l q' \/ exists c, ca_mem n cells (S l) c /\ ancestor 1 c = q').

Theorem C33_consistent : forall n minl maxl cells all_cells t tag, pass_ok n maxl cells all_cells -> ca_wf n cells -> (maxl <= c_max cells)%nat ->
  pass_start n minl maxl cells all_cells t ->
  exists t', final_pass n maxl cells all_cells t = Some t' /\
    ((forall l q k, ca_mem n cells l q -> ca_get_index n cells l q = Some k -> tag k = tg t' l q) -> consistent n minl cells tag).
Proof.
  intros n minl maxl cells all_cells t tag HO W Hm [S1 S2].
  destruct (final_pass_states n maxl cells all_cells t HO) as (T & T1 & T2 & T3). exists (T O). split; auto. intros HT.
  assert (MM : forall l q, (l <= maxl)%nat -> lca_mem n (c_at cells l) q -> ca_mem n cells l q) by (intros; split; auto; lia).
  (* a cell with a leaf among its children gets keep *)
  assert (KP : forall d l q c, d = (maxl - l)%nat -> (minl < l)%nat -> ca_mem n cells (S l) c -> ancestor 1 c = q -> K (T l) l q).
  { induction d as [d IH] using lt_wf_ind. intros l q c Ed Hml Hc Eq.
    destruct (S1 _ _ Hc) as (Lc & _). destruct (S2 _ _ Hc ltac:(lia)) as [Pc Sc]. cbn [Nat.pred] in Pc.
    assert (Lq : length q = S n) by (rewrite <- Eq, ancestor_length; apply Hc).
    destruct (T3 l ltac:(lia)) as (P1 & P2 & P3 & P4 & P5 & P8 & P6 & P7 & P9).
    assert (HH : handled n cells all_cells l q) by (split; [rewrite <- Eq; auto|exists c; split; auto; apply Hc]).
    apply (P6 q Lq HH). right. destruct (co_dec n (T (S l)) l q Lq) as [C|(d0 & Ld & Ead & NC)]; [right; auto|left].
    exists d0. spl; auto. destruct (Sc d0 Ld) as [Hd|(c' & Hc' & Ec')]; [congruence| |].
    - destruct (S1 _ _ Hd) as (_ & [Kd|[_ Cd]] & _).
      + apply (states_mono n maxl _ T T3 (S l) maxl (S l) d0 Ld ltac:(lia)). subst t. auto.
      + exfalso. apply NC. apply (state_Co n maxl _ T T3); auto. subst t. auto.
    - destruct (S1 _ _ Hc') as (Lc' & _). apply (IH (maxl - S l)%nat ltac:(lia) (S l) d0 c'); auto. }
  intros l q k Hq Hk. rewrite (HT l q k Hq Hk). destruct (S1 _ _ Hq) as (Ll & Fl & Rl). assert (Lq : length q = S n) by apply Hq.
  destruct (Nat.le_gt_cases l minl) as [Hle|Hgt].
  { assert (K0 : K (T O) l q).
    { apply (states_mono n maxl _ T T3 O maxl l q Lq ltac:(lia)). subst t. destruct Fl as [Fl|[Fl _]]; auto. lia. }
    unfold K in K0. rewrite K0. split; auto. intros [Wx _]. lia. }
  destruct (S2 _ _ Hq Hgt) as [Pq Sq]. destruct l as [|m]; [lia|]. cbn [Nat.pred] in *.
  destruct (T3 m ltac:(lia)) as (P1 & P2 & P3 & P4 & P5 & P8 & P6 & P7 & P9).
  assert (HH : handled n cells all_cells m (ancestor 1 q)) by (split; auto; exists q; split; auto; apply Hq).
  assert (FF : forall q', length q' = S n -> tg (T O) (S m) q' = tg (T m) (S m) q') by (intros; apply (final_K n maxl _ T T3 (S m)); auto; lia).
  assert (GG : forall q', length q' = S n -> ancestor 1 q' = ancestor 1 q ->
    (K (T O) (S m) q' <-> exists r, length r = S n /\ ancestor 1 r = ancestor 1 q /\ K (T (S m)) (S m) r) /\
    (Co (T O) (S m) q' <-> forall r, length r = S n -> ancestor 1 r = ancestor 1 q -> Co (T (S m)) (S m) r)).
  { intros q' Lq' Eq'. unfold K at 1, Co at 1. rewrite FF by auto. destruct (P5 q' Lq') as [Q1 Q2]; [rewrite Eq'; auto|]. rewrite Eq' in Q1, Q2. split; auto. }
  destruct (GG q Lq eq_refl) as [GK GC]. split.
  - assert (KC : K (T O) (S m) q \/ Co (T O) (S m) q).
    { destruct (co_dec n (T (S m)) m (ancestor 1 q) ltac:(rewrite ancestor_length; auto)) as [C|(d & Ld & Ed & NC)]; [right; apply GC; auto|left].
      apply GK. exists d. spl; auto. destruct (Sq d Ld Ed) as [Hd|(c & Hc & Ec)].
      - destruct (S1 _ _ Hd) as (_ & [Kd|[_ Cd]] & _).
        + apply (states_mono n maxl _ T T3 (S m) maxl (S m) d Ld ltac:(lia)). subst t. auto.
        + exfalso. apply NC, (state_Co n maxl _ T T3); auto. subst t. auto.
      - apply (KP _ (S m) d c eq_refl); auto. }
    unfold K, Co in KC. destruct KC as [-> | ->]; rewrite ?orb_true_r; auto.
  - intros (_ & W2 & W0 & W1) q' Lq' Eq'. destruct (GG q' Lq' Eq') as [GK' GC'].
    assert (NK : ~ K (T O) (S m) q) by (unfold K; congruence).
    destruct (Sq q' Lq' Eq') as [Hl|(c & Hc & Ec)].
    + split; auto. destruct (leaf_index n cells (S m) q') as (k' & Hk'); auto.
      exists k'. split; auto. rewrite (HT _ _ _ Hl Hk'). unfold wants_coarsen. spl; [lia| | |].
      * destruct (Z.testbit (tg (T O) (S m) q') 2) eqn:R; auto. exfalso. apply NK, GK. exists q'. spl; auto.
        apply (states_mono n maxl _ T T3 (S m) maxl (S m) q' Lq' ltac:(lia)). subst t. apply (S1 _ _ Hl).
        rewrite <- R. symmetry. apply (states_mono n maxl _ T T3 O maxl (S m) q' Lq' ltac:(lia)). lia.
      * destruct (Z.testbit (tg (T O) (S m) q') 0) eqn:R; auto. exfalso. apply NK, GK, GK'. exact R.
      * apply GC', GC. exact W1.
    + exfalso. apply NK, GK. exists q'. spl; auto. apply (KP _ (S m) q' c eq_refl); auto.
Qed.

(** The pass followed by the adaptation keeps the region and makes no overlap. *)
Theorem C33_pass_then_adapt : forall n minl maxl cells all_cells t t' tag Kf, pass_ok n maxl cells all_cells -> ca_wf n cells ->
  (maxl <= c_max cells)%nat -> (maxl <= Kf)%nat -> no_overlap n cells -> pass_start n minl maxl cells all_cells t ->
  final_pass n maxl cells all_cells t = Some t' ->
  (forall l q k, ca_mem n cells l q -> ca_get_index n cells l q = Some k -> tag k = tg t' l q) ->
  exists new, update_cells n minl maxl cells tag = Some new /\ ca_wf n new /\ no_overlap n new /\
    forall z, length z = S n -> (covered n new Kf z <-> covered n cells Kf z).
Proof.
  intros n minl maxl cells all_cells t t' tag Kf HO W Hm HK HD HS E HT.
  destruct (C33_consistent n minl maxl cells all_cells t tag HO W Hm HS) as (t1 & E1 & C). rewrite E in E1. injection E1 as <-.
  apply C31_same_region_no_overlap; auto. intros l q Hq. destruct HS as [S1 _]. destruct (S1 _ _ Hq). lia.
Qed.

(** Checks of the hypotheses on concrete meshes. *)
Definition pass_startb (minl maxl : nat) (cs all : list (nat * list Z)) (t : tfield) : bool :=
  forallb (fun '(l, q) => Nat.leb l maxl && (Z.testbit (tg t l q) 0 || (Nat.ltb minl l && Z.testbit (tg t l q) 1)) &&
    implb (Z.testbit (tg t l q) 2) (Z.testbit (tg t l q) 0) &&
    implb (Nat.ltb minl l) (existsb (fun '(l', p) => Nat.eqb l' (Nat.pred l) && zlist_eqb p (ancestor 1 q)) all &&
      forallb (fun q' => existsb (fun '(l', c) => (Nat.eqb l' l && zlist_eqb c q') || (Nat.eqb l' (S l) && zlist_eqb (ancestor 1 c) q')) cs) (siblings_of q))) cs.

Lemma siblings_In : forall q q', length q' = length q -> ancestor 1 q' = ancestor 1 q -> In q' (siblings_of q).
Proof.
  intros q q' Hl Ha. destruct (proj1 (double_ancestor (ancestor 1 q) q' ltac:(rewrite ancestor_length; lia)) Ha) as (st & L & F & Eq).
  unfold siblings_of. rewrite ancestor_length in L. apply in_map_iff. exists st. split; auto. apply nested_loop_In. split; auto.
Qed.

Lemma pass_start_check : forall n minl maxl c a cs al t, ca_wf n c -> ca_wf n a -> ca_for_each_cell n c = Some cs -> ca_for_each_cell n a = Some al ->
  pass_startb minl maxl (leaf_cells cs) (leaf_cells al) t = true -> pass_start n minl maxl c a t.
Proof.
  intros n minl maxl c a cs al t Wc Wa Ec Ea H.
  destruct (ca_for_each_cell_spec n c Wc) as (cs' & E' & [_ EN] & _). rewrite Ec in E'. injection E' as <-.
  destruct (ca_for_each_cell_spec n a Wa) as (al' & E' & [_ EA] & _). rewrite Ea in E'. injection E' as <-.
  unfold pass_startb in H. rewrite forallb_forall in H.
  assert (HX : forall l q, ca_mem n c l q -> _) by (intros l q Hq; apply EN in Hq; exact (H (l, q) Hq)). cbv beta iota in HX. clear H.
  split.
  - intros l q Hq. apply HX in Hq. rewrite !andb_true_iff in Hq. destruct Hq as (((H1 & H2) & H3) & _). apply Nat.leb_le in H1. spl; auto.
    + unfold K, Co. apply orb_true_iff in H2 as [H2|H2]; auto. apply andb_true_iff in H2 as [H2 H4]. apply Nat.ltb_lt in H2. auto.
    + intros R. rewrite R in H3. exact H3.
  - intros l q Hq Hl. pose proof (HX l q Hq) as G. rewrite !andb_true_iff in G. destruct G as (_ & G). apply Nat.ltb_lt in Hl. rewrite Hl in G.
    cbn [implb] in G. apply andb_true_iff in G as [G1 G2]. split.
    + apply existsb_exists in G1 as ([l' p] & Hin & G1). apply andb_true_iff in G1 as [G1 G3]. apply Nat.eqb_eq in G1. apply zlist_eqb_eq in G3. subst l' p.
      apply EA in Hin. apply Hin.
    + intros q' Lq' Ha. rewrite forallb_forall in G2. specialize (G2 q'). destruct (existsb_exists (fun '(l', c) => (Nat.eqb l' l && zlist_eqb c q') || (Nat.eqb l' (S l) && zlist_eqb (ancestor 1 c) q')) (leaf_cells cs)) as [X _].
      destruct X as ([l' c0] & Hin & X); [apply G2, siblings_In; auto; transitivity (S n); auto; symmetry; apply Hq|].
      apply EN in Hin. apply orb_true_iff in X as [X|X]; apply andb_true_iff in X as [X1 X2]; apply Nat.eqb_eq in X1; apply zlist_eqb_eq in X2; subst; eauto.
Qed.

(** The mesh of the example of C31 with minimum level 0, and the parents of its leaves. *)
Definition exAll : ca := client_ca 1 4 (fun l => match l with
  | 0%nat => [AddI [0] (mk 0 1)] | 1%nat => [AddI [0] (mk 0 2); AddI [1] (mk 0 2)] | 2%nat => [AddI [2] (mk 2 4); AddI [3] (mk 2 4)] | _ => [] end) true.
(** The leaves of levels 2 and 3 are to be coarsened, and the leaf (0, 0) of level 1; (1, 0) stays, (0, 1) is refined. *)
Definition exT0 : tfield := fun l x yz => match l, x, yz with
  | 1%nat, 0, [0] => 2 | 1%nat, 1, [0] => 1 | 1%nat, 0, [1] => 5
  | 2%nat, 3, [3] => 0 | 2%nat, _, _ => 2 | 3%nat, _, _ => 2 | _, _, _ => 0 end.

Lemma exAll_wf : ca_wf 1 exAll.
Proof.
  match goal with |- ca_wf _ exAll => assert (G : good_hist 1 4 (fun l => match l with
  | 0%nat => [AddI [0] (mk 0 1)] | 1%nat => [AddI [0] (mk 0 2); AddI [1] (mk 0 2)] | 2%nat => [AddI [2] (mk 2 4); AddI [3] (mk 2 4)] | _ => [] end)) end.
  { intros l Hl. split; [|apply adds_filled]; destruct l as [|[|[|[|l]]]]; repeat constructor; simpl; lia. }
  destruct (ca_update_index_spec 1 _ (raw_wf _ _ _ G)) as (cs & _ & W & _). exact W.
Qed.

Lemma ex_pass_ok : pass_ok 1 3 exMesh exAll.
Proof.
  assert (B : forall c cs, ca_wf 1 c -> ca_for_each_cell 1 c = Some cs -> forallb (fun '(l, q) => forallb (fun x => x <? 100) q) (leaf_cells cs) = true ->
    forall l q k, ca_mem 1 c l q -> (k <= 1)%nat -> nth k q 0 + 3 < 2 ^ 31 - 1).
  { intros c cs W E H l q k Hq Hk. destruct (ca_for_each_cell_spec 1 c W) as (cs' & E' & [_ EN] & _). rewrite E in E'. injection E' as <-.
    assert (Lq : length q = 2%nat) by apply Hq. apply EN in Hq. rewrite forallb_forall in H. apply H in Hq. rewrite forallb_forall in Hq.
    specialize (Hq (nth k q 0) ltac:(apply nth_In; lia)). lia. }
  split.
  - intros l Hl. spl; [apply exMesh_wf; simpl; lia| |apply exAll_wf; simpl; lia|];
      (destruct l as [|[|[|[|l]]]]; [vm_compute; reflexivity|vm_compute; reflexivity|vm_compute; reflexivity|vm_compute; reflexivity|lia]).
  - intros l q k Hl [Hq|Hq] Hk.
    + refine (B exMesh _ exMesh_wf _ _ l q k _ Hk); [vm_compute; reflexivity|vm_compute; reflexivity|]. split; auto. simpl. lia.
    + refine (B exAll _ exAll_wf _ _ l q k _ Hk); [vm_compute; reflexivity|vm_compute; reflexivity|]. split; auto. simpl. lia.
Qed.

Example C33_example : pass_ok 1 3 exMesh exAll /\ pass_start 1 0 3 exMesh exAll exT0 /\
  option_map (fun t => map (fun '(l, p) => tg t l p) [(3%nat, [6; 6]); (3%nat, [7; 7]); (2%nat, [2; 2]); (2%nat, [3; 3]); (1%nat, [0; 0]); (1%nat, [1; 0]); (1%nat, [0; 1]); (1%nat, [1; 1])])
    (final_pass 1 3 exMesh exAll exT0) = Some [2; 2; 1; 1; 1; 1; 5; 1].
Proof.
  spl; [exact ex_pass_ok| |vm_compute; reflexivity].
  eapply pass_start_check; [exact exMesh_wf|exact exAll_wf|vm_compute; reflexivity|vm_compute; reflexivity|vm_compute; reflexivity].
Qed.

(** The sibling condition is needed: three cells of level 2 on a line, the fourth cell
    of the second group is outside the domain. to_coarsen_mr (criteria.hpp) flags both
    cells of a group, the one outside included; the flags stay and the adapted mesh
    covers the outside cell. *)
Definition exLine : ca := client_ca 0 4 (fun l => match l with 2%nat => [AddI [] (mk 0 3)] | _ => [] end) true.
Definition exLineAll : ca := client_ca 0 4 (fun l => match l with 2%nat => [AddI [] (mk 0 3)] | 1%nat => [AddI [] (mk 0 2)] | _ => [] end) true.
Theorem C33_unaligned_domain_refuted : let t := fun l (_ : Z) (_ : list Z) => if Nat.eqb l 2 then 2 else 0 in
  exists t' new, final_pass 0 2 exLine exLineAll t = Some t' /\ update_cells 0 1 2 exLine (fun k => t' 2%nat k []) = Some new /\
    ca_for_each_interval 0 exLine = Some [(2%nat, (mk 0 3, []))] /\
    ca_for_each_interval 0 new = Some [(1%nat, (mk 0 2, []))].
Proof.
  cbv zeta. eexists. eexists. split; [vm_compute; reflexivity|]. split; [vm_compute; reflexivity|]. vm_compute. auto.
Qed.

Print Assumptions C31_same_region_no_overlap.
Print Assumptions C31_exact_leaves.
Print Assumptions C31_inconsistent_refuted.
Print Assumptions C32_levels_within_bounds.
Print Assumptions C33_exact.
Print Assumptions C33_groups_agree.
Print Assumptions C33_idempotent.
Print Assumptions C33_consistent.
Print Assumptions C33_pass_then_adapt.
Print Assumptions C33_unaligned_domain_refuted.
