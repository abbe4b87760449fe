(** C77: the assembly of the matrix of a scheme (petsc/): the elimination of the ghosts. *)
From Coq Require Import QArith.
From Verif Require Import Base IntervalModel Spec LoiModel LcaModel LcaSpec LcaProofs LcaProofs3 RowsProofs CellArrayModel CellArrayProofs
  PropsLca PropsCellArray SubsetModel TreeProofs SubsetSpec SubsetProofs2 PropsSubset StencilModel NumberingProofs StencilProofs PropsStencil
  MeshModel MeshProofs PropsMesh AdaptModel AdaptProofs TagProofs PropsAdapt InterfaceModel InterfaceProofs PropsInterface GeomModel FluxModel FluxProofs NumModel NumProofs GhostModel
  GhostProofs ReconModel ReconProofs PropsFlux LinFluxModel AssemblyModel AssemblyProofs AssemblyProofs2.
Open Scope Z_scope.

(** ** The equations of the ghosts *)

(** A vector is consistent on the ghosts when a ghost with leaves below it is the mean of its
    children, and a ghost below a leaf the value interpolated from the neighbours of its
    parent (the interpolation of C72). *)
Definition ghost_equations (n order : nat) (ref cg cells : ca) (x : Z -> Q) : Prop :=
  (forall l p cs, proj_ghost n cg cells l p -> NoDup cs -> (forall c, In c cs <-> length c = S n /\ ancestor 1 c = p) ->
     (inject_Z (2 ^ Z.of_nat (S n)) * x (index_of n ref (l, p)) == sum_over (fun c => x (index_of n ref (S l, c))) cs)%Q) /\
  (forall l p, pred_ghost n cg cells l p -> (x (index_of n ref (l, p)) == interpolated order (fun q => x (index_of n ref (Nat.pred l, q))) p)%Q).

Lemma two_pow : forall n, ~ (inject_Z (2 ^ Z.of_nat (S n)) == 0)%Q.
Proof. intros n H. assert (0 < 2 ^ Z.of_nat (S n)) by (apply Z.pow_pos_nonneg; lia). unfold Qeq, inject_Z in H. cbn [Qnum Qden] in H. lia. Qed.
Lemma children_value : forall n ref l p ch cs x, is_children n ref l p ch -> NoDup cs -> (forall c, In c cs <-> length c = S n /\ ancestor 1 c = p) ->
  (inject_Z (2 ^ Z.of_nat (S n)) * comb_value x (map (fun c => (c, child_weight n)) ch) == sum_over (fun c => x (index_of n ref (S l, c))) cs)%Q.
Proof.
  intros n ref l p ch cs x (cs' & F & ND' & M') ND M.
  rewrite (sum_perm _ _ cs cs') by (apply NoDup_Permutation; auto; intros c; rewrite M, M'; reflexivity).
  assert (E : (sum_over (fun c => x (index_of n ref (S l, c))) cs' == sum_over x ch)%Q).
  { clear -F. induction F as [|c i cs ch E F IH]; [reflexivity|]. rewrite !sum_cons, IH. unfold index_of at 1. cbn [fst snd]. rewrite E. reflexivity. }
  rewrite E. unfold comb_value. rewrite sum_map. unfold child_weight. rewrite sum_scale. field. apply two_pow.
Qed.

Section Recursion.
  Context (n order : nat) (ref cg cells : ca) (GM : ghost_mesh n order ref cg cells) (NR : numbered n ref).
  Lemma initial_satisfies : forall r x, initial_recursion n order ref cg cells = Some r -> (satisfies x r <-> ghost_equations n order ref cg cells x).
  Proof.
    intros r x Er. destruct (initial_spec n order ref cg cells GM NR) as (r' & Er' & A & B). rewrite Er in Er'. injection Er' as <-.
    assert (SAME : forall l p, any_ghost n cg cells l p -> exists lc, rec_find (index_of n ref (l, p)) r = Some lc /\ entry_ok n order ref cg cells l p lc).
    { intros l p G. destruct (B l p G) as (k & Ek & Hk). unfold index_of. cbn [fst snd]. rewrite Ek. unfold is_key in Hk. destruct (rec_find k r) as [lc|] eqn:E; [|contradiction]. exists lc. split; [reflexivity|].
      destruct (A k lc E) as (l' & p' & Ek' & OK). destruct (numbered_inj n ref l p l' p' k NR) as [-> ->]; auto; eapply ghost_stored; eauto. eapply entry_ghost; eauto. }
    split.
    - intros S0. split.
      + intros l p cs G ND M. destruct (SAME l p (or_introl G)) as (lc & E & [[_ (ch & C & ->)]|[PG _]]); [|exfalso; eapply (not_both n order ref cg cells GM); eauto].
        rewrite (S0 _ _ E). apply (children_value n ref l p); auto.
      + intros l p G. destruct (SAME l p (or_intror G)) as (lc & E & [[PG _]|[_ [_ V]]]); [exfalso; eapply (not_both n order ref cg cells GM); eauto|].
        rewrite (S0 _ _ E). apply V.
    - intros [G1 G2] k lc E. destruct (A k lc E) as (l & p & Ek & [[PG (ch & C & ->)]|[PG [_ V]]]).
      + pose proof C as (cs & _ & ND & M). specialize (G1 l p cs PG ND M). rewrite <- (children_value n ref l p ch cs x C ND M) in G1. unfold index_of in G1. cbn [fst snd] in G1. rewrite Ek in G1.
        apply Qmult_inj_l in G1; [exact G1|apply two_pow].
      + rewrite V. specialize (G2 l p PG). unfold index_of in G2 at 1. cbn [fst snd] in G2. rewrite Ek in G2. exact G2.
  Qed.
End Recursion.

(** ** The theorems *)

(** The elimination stops: after at most [N + 1] passes if the levels of the mesh are below
    2^(N-1). The ghosts of the two kinds are exactly what is eliminated, never a leaf; no
    combination contains a ghost; and they say the same as the equations of the ghosts. *)
Theorem C77_recursion : forall n order ref cg cells N fuel, ghost_mesh n order ref cg cells -> numbered n ref -> (2 * max_level cells < 2 ^ N)%nat -> (N < fuel)%nat ->
  exists r, ghost_recursion fuel n order ref cg cells = Some r /\
    (forall l p k, ca_mem n ref l p -> ca_get_index n ref l p = Some k -> (rec_find k r <> None <-> proj_ghost n cg cells l p \/ pred_ghost n cg cells l p)) /\
    (forall l p k, ca_mem n cells l p -> ca_mem n ref l p -> ca_get_index n ref l p = Some k -> rec_find k r = None) /\
    (forall k lc j q, rec_find k r = Some lc -> In (j, q) lc -> rec_find j r = None) /\
    (forall x, (forall k lc, rec_find k r = Some lc -> (x k == sum_over (fun '(j, q) => q * x j) lc)%Q) <-> ghost_equations n order ref cg cells x).
Proof.
  intros n order ref cg cells N fuel GM NR HN HF. destruct (initial_spec n order ref cg cells GM NR) as (r0 & E0 & A & B). destruct (ranked n order ref cg cells GM NR r0 E0) as (rank & G1 & GB).
  destruct (loop_stops rank N fuel r0) as (r & Er); auto. { intros k Hk. specialize (GB k Hk). lia. }
  destruct (loop_closed fuel r0 r Er) as [CL KEY]. exists r. unfold ghost_recursion. rewrite E0. split; [exact Er|].
  assert (K : forall l p k, ca_mem n ref l p -> ca_get_index n ref l p = Some k -> (rec_find k r <> None <-> proj_ghost n cg cells l p \/ pred_ghost n cg cells l p)).
  { intros l p k Hp Ek. change (is_key r k <-> any_ghost n cg cells l p). rewrite KEY. split.
    - intros Hk. unfold is_key in Hk. destruct (rec_find k r0) as [lc|] eqn:E; [|contradiction]. destruct (A k lc E) as (l' & p' & Ek' & OK). assert (G := entry_ghost _ _ _ _ _ _ _ _ OK).
      destruct (numbered_inj n ref l p l' p' k NR) as [-> ->]; auto. eapply ghost_stored; eauto.
    - intros G. destruct (B l p G) as (k' & Ek' & Hk). congruence. }
  split; [exact K|]. split; [|split].
  - intros l p k Hc Hp Ek. destruct (rec_find k r) as [lc|] eqn:E; [|reflexivity]. exfalso. destruct (proj1 (K l p k Hp Ek)) as [H|H]; [congruence| |].
    + eapply (leaf_not_proj n order ref cg cells GM); eauto.
    + eapply (leaf_not_pred n order ref cg cells GM); eauto.
  - intros k lc j q E Hj. destruct (rec_find j r) as [lj|] eqn:Ej; [|reflexivity]. exfalso. apply (CL k lc j q E Hj). unfold is_key. congruence.
  - intros x. rewrite <- (initial_satisfies n order ref cg cells GM NR r0 x E0). exact (loop_satisfies rank x fuel r0 r G1 Er).
Qed.

(** The values of the ghosts are determined by the other cells: there is exactly one way to
    complete a vector. *)
Theorem C77_ghosts_determined : forall n order ref cg cells, ghost_mesh n order ref cg cells -> numbered n ref ->
  let ghost := fun k => exists l p, (proj_ghost n cg cells l p \/ pred_ghost n cg cells l p) /\ ca_get_index n ref l p = Some k in
  (forall x, exists y, ghost_equations n order ref cg cells y /\ forall k, ~ ghost k -> y k = x k) /\
  (forall x y, ghost_equations n order ref cg cells x -> ghost_equations n order ref cg cells y -> (forall k, ~ ghost k -> (x k == y k)%Q) -> forall k, (x k == y k)%Q).
Proof.
  intros n order ref cg cells GM NR ghost. destruct (C77_recursion n order ref cg cells (2 * max_level cells)%nat (S (2 * max_level cells)) GM NR) as (r & Er & K & _ & C & EQ); [apply Nat.pow_gt_lin_r; lia|lia|].
  assert (KG : forall k, rec_find k r <> None -> ghost k).
  { intros k Hk. unfold ghost_recursion in Er. destruct (initial_spec n order ref cg cells GM NR) as (r0 & E0 & A & B). rewrite E0 in Er. destruct (loop_closed _ r0 r Er) as [_ KEY]. apply KEY in Hk. unfold is_key in Hk.
    destruct (rec_find k r0) as [lc|] eqn:E; [|contradiction]. destruct (A k lc E) as (l & p & Ek & OK). exists l, p. split; [exact (entry_ghost _ _ _ _ _ _ _ _ OK)|exact Ek]. }
  split.
  - intros x. exists (fun k => match rec_find k r with None => x k | Some lc => sum_over (fun '(j, q) => q * x j)%Q lc end). split.
    + apply EQ. intros k lc E. rewrite E. apply sum_ext. intros [j q] Hj. rewrite (C k lc j q E Hj). reflexivity.
    + intros k Hk. destruct (rec_find k r) as [lc|] eqn:E; [|reflexivity]. exfalso. apply Hk, KG. congruence.
  - intros x y Hx Hy H k. pose proof (proj2 (EQ x) Hx) as Sx. pose proof (proj2 (EQ y) Hy) as Sy.
    assert (N0 : forall j, rec_find j r = None -> (x j == y j)%Q).
    { intros j Hj. apply H. intros (l & p & G & Ej). apply (proj2 (K l p j (ghost_stored n order ref cg cells GM l p G) Ej)); auto. }
    destruct (rec_find k r) as [lc|] eqn:E; [|auto]. rewrite (Sx k lc E), (Sy k lc E). apply sum_ext. intros [j q] Hj. rewrite (N0 j (C k lc j q E Hj)). reflexivity.
Qed.

(** ** An example: the mesh of C47 with leaves on three levels *)
Definition exGhosts : ca := client_ca 1 4 roomHist true.
Lemma exGhosts_hist : good_hist 1 4 roomHist.
Proof. intros l Hl. split; [|apply adds_filled]; destruct l as [|[|[|[|[|l]]]]]; try lia; vm_compute; repeat constructor. Qed.
Lemma exGhosts_mem : forall l p, ca_mem 1 exGhosts l p <-> ca_mem 1 roomRef l p.
Proof.
  intros l p. unfold exGhosts, roomRef. rewrite (client_mem 1 4 roomHist true exGhosts_hist), (client_mem 1 3 roomHist true roomHist_ok). split; intros (Hl & Lp & c & Hc & Hp).
  - split; [|eauto]. destruct l as [|[|[|[|l]]]]; try lia. destruct Hc.
  - split; [lia|eauto].
Qed.
Lemma roomRef_box : forall l p, ca_mem 1 roomRef l p -> exists x y, p = [x; y] /\ -3 <= x < 11 /\ -3 <= y < 11.
Proof.
  intros l p H. apply (proj1 (client_mem 1 3 roomHist true roomHist_ok l p)) in H. destruct H as (Hl & Lp & c & Hc & Hp).
  assert (exists y, c = AddI [y] (mk (-3) 11) /\ -3 <= y < 11) as (y & -> & Hy).
  { destruct l as [|[|[|[|l]]]]; try (exfalso; exact Hc); apply in_map_iff in Hc as (y & <- & Hy); exists y; (split; [reflexivity|apply zrange_In in Hy; lia]). }
  destruct p as [|x [|y' [|? ?]]]; try discriminate. exists x, y'. split; [reflexivity|]. cbn in Hp. destruct Hp as [E Hp]. injection E as ->. unfold in_i in Hp. cbn in Hp. lia.
Qed.
Lemma exMesh_ghosts : ghost_mesh 1 1 roomRef exGhosts exMesh.
Proof.
  constructor.
  - lia.
  - lia.
  - split; [exact exMesh_wf|apply (numbered_client 1 4 roomHist exGhosts_hist)].
  - reflexivity.
  - intros l Hl. change (c_max exMesh) with 4%nat in Hl. destruct l as [|[|[|[|[|l]]]]]; try lia; vm_compute; auto.
  - intros l q k [H|H] Hk.
    + apply exMesh_box in H as (_ & x & y & -> & Hx & Hy). destruct k as [|[|k]]; [..|lia]; cbn [nth]; lia.
    + apply exGhosts_mem, roomRef_box in H as (x & y & -> & Hx & Hy). destruct k as [|[|k]]; [..|lia]; cbn [nth]; lia.
  - eapply no_overlap_check; [exact exMesh_wf|vm_compute; reflexivity|vm_compute; reflexivity].
  - intros l p H. apply exGhosts_mem. exact H.
  - intros l p c (_ & (q & Hq & ->) & _) Lc E. apply exMesh_box in Hq as (Hl & x & y & -> & Hx & Hy). destruct c as [|a [|b [|? ?]]]; try discriminate. cbn [ancestor map] in E. change (2 ^ Z.of_nat 1) with 2 in E. injection E as E1 E2. apply roomRef_mem; lia.
  - intros l p q (_ & H0 & Hp & _) Lq Hk. apply exMesh_box in Hp as (Hl & x & y & E & Hx & Hy). destruct p as [|a [|b [|? ?]]]; try discriminate. cbn [ancestor map] in E. change (2 ^ Z.of_nat 1) with 2 in E. injection E as E1 E2.
    destruct q as [|c [|d [|? ?]]]; try discriminate. pose proof (Hk 0%nat ltac:(lia)) as K0. pose proof (Hk 1%nat ltac:(lia)) as K1. cbn [nth] in K0, K1. apply roomRef_mem; lia.
Qed.
Example C77_recursion_example : ghost_mesh 1 1 roomRef exGhosts exMesh /\ numbered 1 roomRef /\
  proj_ghost 1 exGhosts exMesh 1 [1; 1] /\ proj_ghost 1 exGhosts exMesh 2 [3; 3] /\ pred_ghost 1 exGhosts exMesh 2 [1; 2] /\ pred_ghost 1 exGhosts exMesh 3 [5; 7] /\
  option_map (fun r => (length r, option_map (@length _) (rec_find (index_of 1 roomRef (1%nat, [1; 1])) r), option_map (map (fun '(j, q) => (j, Qred q))) (rec_find (index_of 1 roomRef (1%nat, [1; 1])) r)))
    (ghost_recursion 4 1 1 roomRef exGhosts exMesh) =
    Some (26%nat, Some 7%nat, Some (map (fun '(c, q) => (index_of 1 roomRef c, q)) [((2%nat, [2; 2]), 1 # 4); ((2%nat, [3; 2]), 1 # 4); ((2%nat, [2; 3]), 1 # 4);
      ((3%nat, [6; 6]), 1 # 16); ((3%nat, [7; 6]), 1 # 16); ((3%nat, [6; 7]), 1 # 16); ((3%nat, [7; 7]), 1 # 16)]%Z)).
Proof.
  split; [exact exMesh_ghosts|]. split; [apply numbered_client; exact roomHist_ok|].
  assert (L : forall l q, In (l, q) exLeaves -> ca_mem 1 exMesh l q) by (intros; apply exMesh_leaf; auto).
  assert (R : forall l x y, (1 <= l <= 3)%nat -> -3 <= x < 11 -> -3 <= y < 11 -> ca_mem 1 exGhosts l [x; y]) by (intros; apply exGhosts_mem; apply roomRef_mem; auto).
  split; [|split; [|split; [|split]]].
  - split; [apply R; lia|]. split; [exists [2; 2]; split; [apply L; cbn; auto 10|reflexivity]|]. exists 1%nat, [0; 0]. split; [lia|apply L; cbn; auto].
  - split; [apply R; lia|]. split; [exists [6; 6]; split; [apply L; cbn; auto 10|reflexivity]|]. exists 1%nat, [0; 0]. split; [lia|apply L; cbn; auto].
  - split; [apply R; lia|]. split; [lia|]. split; [apply L; cbn; auto|]. exists 2%nat, [2; 2]. split; [lia|apply L; cbn; auto 10].
  - split; [apply R; lia|]. split; [lia|]. split; [apply L; cbn; auto 10|]. exists 3%nat, [6; 6]. split; [lia|apply L; cbn; auto 10].
  - vm_compute. reflexivity.
Qed.

Print Assumptions C77_recursion.
Print Assumptions C77_ghosts_determined.
Print Assumptions C77_recursion_example.
