(** C79: the preallocation of the matrix (petsc/matrix_assembly.hpp L164-206) is sufficient. *)
From Coq Require Import QArith Permutation.
From Verif Require PropsGrad PropsExact.
From Verif Require Import Base IntervalModel Spec LoiModel LcaModel LcaSpec LcaProofs LcaProofs3 RowsProofs CellArrayModel CellArrayProofs
  PropsLca PropsCellArray SubsetModel TreeProofs SubsetSpec SubsetProofs2 PropsSubset StencilModel NumberingProofs StencilProofs PropsStencil
  MeshModel MeshProofs PropsMesh AdaptModel AdaptProofs TagProofs PropsAdapt InterfaceModel InterfaceProofs PropsInterface GeomModel FluxModel BoundaryProofs PropsBoundary FluxProofs NumModel NumProofs GhostModel
  ReconModel ReconProofs ReconProofs2 PropsFlux LinFluxModel LinFluxProofs LinFluxProofs2 PropsLinFlux AssemblyModel AssemblyProofs AssemblyProofs2 PropsAssembly AssemblyProofs3 AssemblyProofs4 AssemblyProofs5 AssemblyProofs6 AssemblyProofs7 PropsAssembly2 PropsAssembly3
  NnzModel NnzProofs NnzProofs2.
Open Scope Z_scope.

Lemma writes_empty : forall y ws s s', fold_opt (do_write y) ws s = Some s' -> forall i, as_empty s' i = true -> as_empty s i = true.
Proof.
  intros y. induction ws as [|[[r c] q] ws IH]; intros s s' H i Hi; [injection H as <-; exact Hi|]. cbn [fold_opt] in H. destruct (do_write y s (r, c, q)) as [s1|] eqn:E1; [|discriminate H]. cbv beta iota zeta in H. specialize (IH s1 s' H i Hi).
  unfold do_write in E1. destruct (Qeq_bool q 0); [injection E1 as <-; exact IH|]. unfold mat_insert, set_row_not_empty, checked in E1. destruct (in_matrix y r c); [|discriminate E1].
  match type of E1 with (if ?b then _ else _) = _ => destruct b; [|discriminate E1] end. injection E1 as <-. cbn [as_empty] in IH. destruct (i =? r - ly_row_shift y); [discriminate IH|exact IH].
Qed.
Lemma pairs_In : forall calls b eq, In (b, eq) (pairs_of calls) <-> In b calls /\ In eq (bc_eqs b).
Proof. intros calls b eq. unfold pairs_of. rewrite in_flat_map. split; [intros (b' & Hb & H); apply in_map_iff in H as (e' & Ee & He); injection Ee as <- <-; auto|]. intros [Hb He]. exists b. split; [exact Hb|]. apply in_map. exact He. Qed.
Lemma pair_unique : forall (A : Type) (g : A -> Z) l a b, NoDup (map g l) -> In a l -> In b l -> g a = g b -> a = b.
Proof.
  intros A g. induction l as [|x l IH]; intros a b ND Ha Hb E; [destruct Ha|]. cbn [map] in ND. apply NoDup_cons_iff in ND as [N ND]. destruct Ha as [->|Ha], Hb as [->|Hb]; auto.
  - exfalso. apply N. rewrite E. apply in_map. exact Hb.
  - exfalso. apply N. rewrite <- E. apply in_map. exact Ha.
Qed.

(** The boundary conditions set no row of a ghost that is eliminated. *)
Definition apart (n : nat) (ref cg cells : ca) (calls : list bc_call) : Prop := forall b eq, In b calls -> In eq (bc_eqs b) -> ~ ghost_number n ref cg cells (ghost_cell b eq).

Section Row.
  Context (n m : nat) (hist : nat -> list lcl_call) (maxl : nat) (st : stencil) (cells : ca) (domain : lca) (scaling : Q) (ib : bool) (lfs : nat -> lin_flux) (order : nat) (cg : ca) (y : layout) (N fuel : nat).
  Context (SY : system n m hist maxl st cells domain scaling ib lfs order cg y N fuel).
  Notation ref := (client_ca n m hist true).
  Let LM := sy_mesh _ _ _ _ _ _ _ _ _ _ _ _ _ _ _ SY.
  Let NR : numbered n ref := numbered_client n m hist (lm_hist _ _ _ _ _ _ _ _ _ _ LM).
  Let GM := sy_ghosts _ _ _ _ _ _ _ _ _ _ _ _ _ _ _ SY.
  Let HN := sy_cells _ _ _ _ _ _ _ _ _ _ _ _ _ _ _ SY.
  Context (SQ : ly_os y = ly_fs y) (SH : ly_row_shift y = ly_col_shift y) (rows : Z) (HR : 0 <= ly_row_shift y /\ ly_row_shift y + matrix_rows y <= rows).
  Context (calls : list bc_call) (GC : good_calls (ly_cells y) (leaf_number n ref cells) calls) (AP : apart n ref cg cells calls).

  Lemma ghost_cellok : forall k, ghost_number n ref cg cells k -> cellok y k.
  Proof. intros k (l & p & G & Ek). destruct (numbered_index n ref l p NR (ghost_stored n order ref cg cells GM l p G)) as (i & Ei & R). unfold cellok. rewrite HN. congruence. Qed.
  Lemma leaf_no_ghost : forall k, leaf_number n ref cells k -> ~ ghost_number n ref cg cells k.
  Proof.
    intros k (l & p & Hp & Ek) (l' & p' & G & Ek'). destruct (numbered_inj n ref l p l' p' k NR) as [-> ->]; auto.
    - apply (stored_leaf _ _ _ _ _ _ _ _ _ _ _ _ _ _ _ SY). exact Hp.
    - eapply ghost_stored; eauto.
    - destruct G as [G|G]; [exact (leaf_not_proj n order ref cg cells GM _ _ Hp G)|exact (leaf_not_pred n order ref cg cells GM _ _ Hp G)].
  Qed.
  Lemma call_cellok : forall b eq, In (b, eq) (pairs_of calls) -> cellok y (ghost_cell b eq).
  Proof. intros b eq H. apply pairs_In in H as [Hb He]. apply (gc_cells _ _ _ GC b); [exact Hb|]. apply nth_In. apply (gc_eqs _ _ _ GC b eq Hb He). Qed.

  (** What the matrix and the numbers are. *)
  Lemma nnz_facts : forall dv, exists rec s nnz Ls Bs, ghost_recursion fuel n order ref cg cells = Some rec /\ assemble_matrix y rec n maxl scaling ref cells domain ib lfs calls dv = Some s /\
    preallocation rows y rec n maxl ref cg cells domain ib lfs calls = Some nnz /\ listed n m hist maxl cells domain scaling ib lfs y rec (seq 0 (S n)) Ls Bs /\
    (forall r c, ~ In (r, c) (positions y rec (map fst (concat Ls)) (map fst (concat Bs)) calls (as_empty s)) -> as_mat s r c = 0%Q) /\
    (forall r c, In (r, c) (scheme_positions y rec (concat Ls) (concat Bs)) -> as_empty s (r - ly_row_shift y) = false) /\
    (forall k fi, cellok y k -> (fi < ly_os y)%nat -> leaf_number n ref cells k -> let w := Z.of_nat (ly_fs y) * rowcount (row_index y k fi) (scheme_positions y rec (concat Ls) (concat Bs)) in nnz (row_index y k fi) = if w =? 0 then 1 else w) /\
    (forall b eq fi, In (b, eq) (pairs_of calls) -> (fi < ly_os y)%nat -> nnz (row_index y (ghost_cell b eq) fi) = Z.of_nat (length (bc_cells b))) /\
    (forall r, ly_row_shift y <= r < ly_row_shift y + matrix_rows y -> 1 <= nnz r).
  Proof.
    intros dv. destruct (matrix_facts _ _ _ _ _ _ _ _ _ _ _ _ _ _ _ SY SQ SH calls dv GC) as (rec & s & E & EM & _).
    destruct (recursion_facts _ _ _ _ _ _ _ _ _ _ _ _ _ _ _ SY) as (rec' & E' & RR & NG & HD & _). rewrite E in E'. injection E' as <-.
    destruct (scheme_cells n m hist maxl st cells domain scaling ib lfs LM y HN rec HD) as (Ls & Bs & LI & _).
    destruct (scheme_acts n m hist maxl st cells domain scaling ib lfs LM y rec HD RR Ls Bs LI asm_empty) as (s1 & Es & _ & _ & A3).
    destruct (scheme_counts n m hist maxl st cells domain scaling ib lfs LM rows y rec HR Ls Bs LI no_counts) as (c1 & C1 & D1).
    destruct (bc_sets rows y HR _ calls GC c1) as (c2 & C2 & D2).
    destruct (all_projection n order ref cg cells GM NR) as (ps & Ep & P1 & _). destruct (all_prediction n order ref cg cells GM NR) as (gs & Eg & P2 & _).
    assert (GP : forall k, In k (map fst ps) -> ghost_number n ref cg cells k). { intros k Hk. apply in_map_iff in Hk as (e & <- & He). destruct (P1 e He) as (l & p & PG & Ei & _). exists l, p. auto. }
    assert (GG : forall k, In k (map sc_index gs) -> ghost_number n ref cg cells k). { intros k Hk. apply in_map_iff in Hk as (e & <- & He). destruct (P2 e He) as (l & p & PG & (_ & _ & Ei)). exists l, p. auto. }
    assert (OK : forall k, ghost_number n ref cg cells k -> cellok y k /\ rec_find k rec <> None). { intros k Hk. split; [apply ghost_cellok; exact Hk|]. intros Er. exact (NG k Er Hk). }
    destruct (ghost_sets rows y rec HR (map fst ps) (fun k h => OK k (GP k h)) c2) as (c3 & C3 & D3). destruct (ghost_sets rows y rec HR (map sc_index gs) (fun k h => OK k (GG k h)) c3) as (c4 & C4 & D4).
    destruct (useless_counts rows y HR c4) as (c5 & C5 & D5).
    exists rec, s, c5, Ls, Bs. split; [exact E|]. split; [exact EM|]. split. { unfold preallocation. rewrite C1, C2, Ep, C3, Eg, C4. exact C5. } split; [exact LI|].
    assert (GR : forall gl k fi, (forall j, In j gl -> ghost_number n ref cg cells j) -> cellok y k -> (fi < ly_os y)%nat -> ~ ghost_number n ref cg cells k -> ~ In (row_index y k fi) (map fst (ghost_counts y rec gl))).
    { intros gl k fi Hg Hk Hf Nk H. apply in_map_iff in H as ([r v] & Er & H). cbn [fst] in Er. subst r. unfold ghost_counts in H. apply in_flat_map in H as (j & Hj & H). apply in_flat_map in H as (fj & Hfj & H). apply in_seq in Hfj.
      destruct (rec_find j rec) as [lc|]; [|destruct H]. destruct H as [H|[]]. injection H as Er _. apply data_inj in Er as [-> _]; [|apply ghost_cellok; auto|exact Hk|lia|exact Hf]. apply Nk, Hg, Hj. }
    assert (GV : forall gl r v, In (r, v) (ghost_counts y rec gl) -> 0 <= v).
    { intros gl r v H. unfold ghost_counts in H. apply in_flat_map in H as (j & Hj & H). apply in_flat_map in H as (fj & Hfj & H). destruct (rec_find j rec) as [lc|]; [|destruct H]. destruct H as [H|[]]. injection H as _ <-. lia. }
    assert (BC : forall r v, In (r, v) (flat_map (bc_counts y) (pairs_of calls)) -> exists b eq fi, In (b, eq) (pairs_of calls) /\ (fi < ly_os y)%nat /\ r = row_index y (ghost_cell b eq) fi /\ v = Z.of_nat (length (bc_cells b))).
    { intros r v H. apply in_flat_map in H as ([b eq] & Hbe & H). unfold bc_counts in H. apply in_flat_map in H as (fi & Hf & H). apply in_seq in Hf. destruct H as [H|[]]. injection H as <- <-. exists b, eq, fi. split; [exact Hbe|]. split; [lia|]. auto. }
    assert (NB : forall k fi, cellok y k -> (fi < ly_os y)%nat -> (forall b eq, In (b, eq) (pairs_of calls) -> k <> ghost_cell b eq) -> ~ In (row_index y k fi) (map fst (flat_map (bc_counts y) (pairs_of calls)))).
    { intros k fi Hk Hf H K. apply in_map_iff in K as ([r v] & Er & K). cbn [fst] in Er. subst r. destruct (BC _ _ K) as (b & eq & fj & Hbe & Hfj & Er & _). apply data_inj in Er as [Er _]; [|exact Hk|apply call_cellok; exact Hbe|exact Hf|exact Hfj]. exact (H b eq Hbe Er). }
    assert (D0 : forall r, c1 r = Z.of_nat (ly_fs y) * rowcount r (scheme_positions y rec (concat Ls) (concat Bs))) by (intros r; rewrite D1; reflexivity).
    assert (N4 : forall r, 0 <= c4 r).
    { intros r. pose proof (rowcount_nonneg r (scheme_positions y rec (concat Ls) (concat Bs))) as R0. assert (N1 : 0 <= c1 r) by (rewrite D0; lia).
      assert (N2 : 0 <= c2 r). { destruct (D2 r) as [U V]. destruct (in_dec Z.eq_dec r (map fst (flat_map (bc_counts y) (pairs_of calls)))) as [H|H]; [|rewrite U by exact H; exact N1]. destruct (BC _ _ (V H)) as (b & _ & _ & _ & _ & _ & ->). lia. }
      assert (N3 : 0 <= c3 r). { destruct (D3 r) as [U V]. destruct (in_dec Z.eq_dec r (map fst (ghost_counts y rec (map fst ps)))) as [H|H]; [exact (GV _ _ _ (V H))|rewrite U by exact H; exact N2]. }
      destruct (D4 r) as [U V]. destruct (in_dec Z.eq_dec r (map fst (ghost_counts y rec (map sc_index gs)))) as [H|H]; [exact (GV _ _ _ (V H))|rewrite U by exact H; exact N3]. }
    assert (C42 : forall k fi, cellok y k -> (fi < ly_os y)%nat -> ~ ghost_number n ref cg cells k -> c4 (row_index y k fi) = c2 (row_index y k fi)).
    { intros k fi Hk Hf Nk. destruct (D4 (row_index y k fi)) as [U _]. rewrite U by (apply GR; auto). destruct (D3 (row_index y k fi)) as [V _]. apply V. apply GR; auto. }
    unfold assemble_matrix in EM. rewrite Es in EM. destruct (fold_opt (assemble_bc y) calls s1) as [s2|] eqn:E2; [|discriminate EM]. destruct (frame_useless y dv s2 s EM) as [FE FM].
    split; [|split; [|split; [|split]]].
    - intros r c NI. unfold positions in NI. rewrite FM by (intros H; apply NI; rewrite FE; apply in_or_app; right; apply in_or_app; right; apply in_or_app; right; exact H).
      rewrite (frame_fold _ (assemble_bc y) (bc_positions y) calls (fun b _ => frame_bc y b) s1 s2 E2 r c) by (intros H; apply NI; apply in_or_app; right; apply in_or_app; right; apply in_or_app; left; exact H).
      assert (F1 : forall (l : list (iface * (coeffs * coeffs))) s s', fold_opt (assemble_interface y rec) l s = Some s' -> ~ In (r, c) (flat_map (interface_positions y rec) (map fst l)) -> as_mat s' r c = as_mat s r c).
      { intros l0 t t' Et Nt. apply (frame_fold _ (assemble_interface y rec) (fun e => interface_positions y rec (fst e)) l0 (fun e _ => frame_interface y rec e) t t' Et). intros H. apply Nt. apply in_flat_map in H as (e & He & H). apply in_flat_map. exists (fst e). split; [apply in_map; exact He|exact H]. }
      assert (F2 : forall (l : list (iface * coeffs)) s s', fold_opt (assemble_boundary_interface y) l s = Some s' -> ~ In (r, c) (flat_map (boundary_positions y) (map fst l)) -> as_mat s' r c = as_mat s r c).
      { intros l0 t t' Et Nt. apply (frame_fold _ (assemble_boundary_interface y) (fun e => boundary_positions y (fst e)) l0 (fun e _ => frame_boundary y e) t t' Et). intros H. apply Nt. apply in_flat_map in H as (e & He & H). apply in_flat_map. exists (fst e). split; [apply in_map; exact He|exact H]. }
      destruct LI as (L1 & L2 & _). unfold assemble_scheme, all_interior, all_boundary in Es. rewrite L1 in Es. cbn [option_map] in Es. destruct (fold_opt (assemble_interface y rec) (concat Ls) asm_empty) as [t|] eqn:Et; [|discriminate Es].
      assert (T0 : as_mat t r c = 0%Q). { rewrite (F1 _ _ _ Et); [reflexivity|]. intros H. apply NI. apply in_or_app. left. exact H. }
      destruct ib; [|injection Es as <-; exact T0]. rewrite L2 in Es. cbn [option_map] in Es. rewrite (F2 _ _ _ Es); [exact T0|]. intros H. apply NI. apply in_or_app. right. apply in_or_app. left. exact H.
    - intros r c H. destruct (as_empty s (r - ly_row_shift y)) eqn:Ee; [|reflexivity]. exfalso. rewrite FE in Ee. rewrite (bc_writes y _ calls s1 GC) in E2. apply (writes_empty y _ _ _ E2) in Ee. apply A3 in Ee as [_ Ee]. apply Ee. replace (ly_row_shift y + (r - ly_row_shift y)) with r by lia.
      clear - H LI. destruct LI as (_ & _ & F1 & F2). rewrite Forall_forall in F1, F2. unfold touched. apply in_app_or in H as [H|H]; apply in_flat_map in H as (i & Hi & H); apply in_map_iff in Hi as (e & <- & He).
      + left. exists e. split; [exact He|]. destruct (F1 e He) as (a & b & Ea & _). unfold interface_positions in H. rewrite Ea in H |- *. apply in_flat_map in H as (fi & Hf & H). apply in_seq in Hf. apply in_flat_map in H as (fj & _ & H). apply in_flat_map in H as (x & _ & H).
        assert (K : r = row_index y (sc_index a) fi \/ r = row_index y (sc_index b) fi).
        { unfold column_positions in H. destruct (rec_find (sc_index x) rec) as [lc|]; [apply in_flat_map in H as ([c' q] & _ & H)|]; cbv zeta in H; destruct H as [H|[H|[]]]; injection H as <- _; auto. }
        destruct K as [-> | ->]; [exists fi, a|exists fi, b]; (split; [lia|]; split; [|reflexivity]); [left; reflexivity|right; left; reflexivity].
      + right. exists e. split; [exact He|]. destruct (F2 e He) as (a & Ea & _). unfold boundary_positions in H. rewrite Ea in H |- *. apply in_flat_map in H as (fi & Hf & H). apply in_seq in Hf. apply in_flat_map in H as (fj & _ & H). apply in_map_iff in H as (x & Ex & _). injection Ex as <- _.
        exists fi, a. split; [lia|]. split; [left; reflexivity|reflexivity].
    - intros k fi Hk Hf HL w. pose proof (row_range y k fi Hk Hf) as RG. rewrite D5. rewrite (proj2 (Z.leb_le _ _) (proj1 RG)), (proj2 (Z.ltb_lt _ _) (proj2 RG)). cbn [andb]. rewrite C42 by (auto; apply leaf_no_ghost; exact HL). destruct (D2 (row_index y k fi)) as [U _].
      rewrite U, D0 by (apply NB; auto; intros b eq Hbe ->; apply pairs_In in Hbe as [Hb He]; apply (gc_eqs _ _ _ GC b eq Hb He); exact HL). reflexivity.
    - intros b eq fi Hbe Hf. pose proof (call_cellok b eq Hbe) as Hk. pose proof Hbe as HI. apply pairs_In in HI as [Hb He]. destruct (gc_eqs _ _ _ GC b eq Hb He) as (_ & Lg & _).
      assert (V : c4 (row_index y (ghost_cell b eq) fi) = Z.of_nat (length (bc_cells b))).
      { rewrite C42 by (auto; apply AP; auto). destruct (D2 (row_index y (ghost_cell b eq) fi)) as [_ V].
        assert (HI : In (row_index y (ghost_cell b eq) fi) (map fst (flat_map (bc_counts y) (pairs_of calls)))).
        { apply in_map_iff. exists (row_index y (ghost_cell b eq) fi, Z.of_nat (length (bc_cells b))). split; [reflexivity|]. apply in_flat_map. exists (b, eq). split; [exact Hbe|]. unfold bc_counts. apply in_flat_map. exists fi. split; [apply in_seq; lia|left; reflexivity]. }
        destruct (BC _ _ (V HI)) as (b' & eq' & fj & Hbe' & Hfj & Er & ->). apply data_inj in Er as [Er _]; [|exact Hk|apply call_cellok; exact Hbe'|exact Hf|exact Hfj].
        pose proof (pair_unique _ (fun '(b, eq) => ghost_cell b eq) (pairs_of calls) (b, eq) (b', eq') (gc_ghosts _ _ _ GC) Hbe Hbe' Er) as EP. injection EP as <- _. reflexivity. }
      rewrite D5, V. destruct (Z.eqb_spec (Z.of_nat (length (bc_cells b))) 0) as [Z0|Z0]; [lia|]. rewrite andb_false_r. reflexivity.
    - intros r Hr. rewrite D5. specialize (N4 r). rewrite (proj2 (Z.leb_le _ _) (proj1 Hr)), (proj2 (Z.ltb_lt _ _) (proj2 Hr)). cbn [andb]. destruct (Z.eqb_spec (c4 r) 0); lia.
  Qed.
End Row.

(** ** The theorems *)

(** The preallocation succeeds, and in each row of the block the positions MatSetValue is
    called with are in at most nnz[row] columns; the matrix is 0 at the other positions. *)
Theorem C79_preallocation : forall n m hist maxl st cells domain scaling ib lfs order cg y N fuel calls dv rows, system n m hist maxl st cells domain scaling ib lfs order cg y N fuel -> let ref := client_ca n m hist true in
  ly_os y = ly_fs y -> ly_row_shift y = ly_col_shift y -> 0 <= ly_row_shift y -> ly_row_shift y + matrix_rows y <= rows -> good_calls (ly_cells y) (leaf_number n ref cells) calls -> apart n ref cg cells calls ->
  exists rec s nnz is bs, ghost_recursion fuel n order ref cg cells = Some rec /\ assemble_matrix y rec n maxl scaling ref cells domain ib lfs calls dv = Some s /\
    preallocation rows y rec n maxl ref cg cells domain ib lfs calls = Some nnz /\
    all_interior n maxl scaling ref cells lfs = Some is /\ (if ib then all_boundary n scaling ref cells domain lfs = Some bs else bs = []) /\
    (forall r cols, ly_row_shift y <= r < ly_row_shift y + matrix_rows y -> NoDup cols -> (forall c, In c cols -> In (r, c) (positions y rec (map fst is) (map fst bs) calls (as_empty s))) -> Z.of_nat (length cols) <= nnz r) /\
    (forall r c, ~ In (r, c) (positions y rec (map fst is) (map fst bs) calls (as_empty s)) -> as_mat s r c = 0%Q).
Proof.
  intros n m hist maxl st cells domain scaling ib lfs order cg y N fuel calls dv rows SY. cbv zeta. intros SQ SH R1 R2 GC AP.
  destruct (nnz_facts _ _ _ _ _ _ _ _ _ _ _ _ _ _ _ SY SQ SH rows (conj R1 R2) calls GC AP dv) as (rec & s & nnz & Ls & Bs & E & EM & EP & LI & F1 & F2 & F3 & F4 & F5). exists rec, s, nnz, (concat Ls), (concat Bs).
  split; [exact E|]. split; [exact EM|]. split; [exact EP|]. pose proof LI as (L1 & L2 & _). split. { unfold all_interior. rewrite L1. reflexivity. } split. { destruct ib; [unfold all_boundary; rewrite L2; reflexivity|rewrite L2; reflexivity]. }
  split; [|exact F1]. intros r cols Hr ND HC.
  pose proof (sy_ghosts _ _ _ _ _ _ _ _ _ _ _ _ _ _ _ SY) as GM.
  destruct (data_onto (ly_os y) (ly_soa y) (ly_cells y) (ly_row_shift y) r Hr) as (k & fi & Hk & Hf & Er). change (data_index (ly_os y) (ly_soa y) (ly_cells y) (ly_row_shift y) k fi) with (row_index y k fi) in Er.
  set (SP := scheme_positions y rec (concat Ls) (concat Bs)) in *.
  assert (CK : forall b eq, In (b, eq) (pairs_of calls) -> cellok y (ghost_cell b eq)) by (intros b eq H; eapply call_cellok; eauto).
  assert (SPL : forall c, In (r, c) SP -> leaf_number n (client_ca n m hist true) cells k).
  { intros c H. destruct (positions_leaf n m hist maxl cells domain scaling ib lfs y rec Ls Bs r c LI H) as (l & p & k' & fi' & Hp & Ek & Hf' & Er'). rewrite Er in Er'. assert (HL : leaf_number n (client_ca n m hist true) cells k') by (exists l, p; auto).
    apply data_inj in Er' as [-> _]; [exact HL|exact Hk|apply (leaf_cellok _ _ _ _ _ _ _ _ _ _ _ _ _ _ _ SY); exact HL|exact Hf|exact Hf']. }
  assert (BP : forall c, In (r, c) (flat_map (bc_positions y) calls) -> exists b eq e, In (b, eq) (pairs_of calls) /\ k = ghost_cell b eq /\ In e (bc_cells b) /\ c = col_index y (sc_index e) fi).
  { intros c H. apply in_flat_map in H as (b & Hb & H). unfold bc_positions in H. apply in_flat_map in H as (eq & He & H). destruct (gc_eqs _ _ _ GC b eq Hb He) as (_ & Lg & _). rewrite (nth_error_nth' _ bc_e0 Lg) in H.
    apply in_flat_map in H as ([e mt] & Hc & H). apply in_combine_l in Hc. apply in_flat_map in H as (fj & Hfj & H). apply in_seq in Hfj. destruct (Qeq_bool (mt fj fj) 0); [destruct H|]. destruct H as [H|[]]. injection H as Ea Eb.
    assert (Hbe : In (b, eq) (pairs_of calls)) by (apply pairs_In; auto). rewrite Er in Ea. rewrite <- (row_col y SQ SH) in Ea. apply data_inj in Ea as [Ea Ef]; [|apply (CK b eq Hbe)|exact Hk|lia|exact Hf]. exists b, eq, e. subst fj. auto. }
  assert (UP : forall c, In (r, c) (useless_positions y (as_empty s)) -> as_empty s (r - ly_row_shift y) = true /\ c = col_index y k fi).
  { intros c H. unfold useless_positions in H. apply in_flat_map in H as (i & Hi & H). cbv zeta in H. destruct (as_empty s (Z.of_nat i)) eqn:Ee; [|destruct H]. destruct H as [H|[]]. injection H as Ea Eb. replace (r - ly_row_shift y) with (Z.of_nat i) by lia. split; [exact Ee|]. rewrite <- (row_col y SQ SH), <- Er. lia. }
  assert (CS : forall c, In c cols -> In (r, c) SP \/ In (r, c) (flat_map (bc_positions y) calls) \/ In (r, c) (useless_positions y (as_empty s))).
  { intros c Hc. specialize (HC c Hc). unfold positions in HC. unfold SP, scheme_positions. rewrite !in_app_iff in *. tauto. }
  assert (ONE : (forall c, In c cols -> c = col_index y k fi) -> Z.of_nat (length cols) <= 1).
  { intros H. assert (L : (length cols <= length [col_index y k fi])%nat) by (apply NoDup_incl_length; [exact ND|]; intros c Hc; left; symmetry; auto). cbn [length] in L. lia. }
  destruct (leaf_number_dec n (client_ca n m hist true) cells k (proj1 (gm_wf _ _ _ _ _ GM))) as [HL|NL].
  - assert (NBC : forall c, ~ In (r, c) (flat_map (bc_positions y) calls)).
    { intros c H. destruct (BP c H) as (b & eq & e & Hbe & Ek & _). apply pairs_In in Hbe as [Hb He]. apply (gc_eqs _ _ _ GC b eq Hb He). rewrite <- Ek. exact HL. }
    pose proof (F3 k fi Hk Hf HL) as F. cbv zeta in F. rewrite <- Er in F. pose proof (rowcount_nonneg r SP) as R0. fold SP in F. rewrite F. destruct (Z.eqb_spec (Z.of_nat (ly_fs y) * rowcount r SP) 0) as [Z0|Z0].
    + apply ONE. intros c Hc. destruct (CS c Hc) as [H|[H|H]]; [|exfalso; exact (NBC c H)|apply UP; exact H]. exfalso. pose proof (rowcount_pos r c SP H). assert (1 <= Z.of_nat (ly_fs y)) by lia. nia.
    + assert (P : 0 < rowcount r SP) by nia. assert (1 <= Z.of_nat (ly_fs y)) by nia. assert (D : Z.of_nat (length cols) <= rowcount r SP); [|nia]. apply rowcount_distinct; [exact ND|]. intros c Hc. destruct (CS c Hc) as [H0|[H0|H0]]; [exact H0|exfalso; exact (NBC c H0)|].
      exfalso. destruct (UP c H0) as [Ee _]. unfold rowcount in P. destruct (filter (fun p => fst p =? r) SP) as [|[r' c'] fl] eqn:EF; [cbn in P; lia|]. assert (HI : In (r', c') (filter (fun p => fst p =? r) SP)) by (rewrite EF; left; reflexivity).
      apply filter_In in HI as [HI Hr']. cbn [fst] in Hr'. apply Z.eqb_eq in Hr'. subst r'. rewrite (F2 r c' HI) in Ee. discriminate Ee.
  - assert (NSP : forall c, ~ In (r, c) SP) by (intros c H; exact (NL (SPL c H))).
    destruct (in_dec Z.eq_dec k (map (fun '(c, eq) => ghost_cell c eq) (pairs_of calls))) as [HI|HI].
    + apply in_map_iff in HI as ([b eq] & Ek & Hbe). subst k. rewrite Er, (F4 b eq fi Hbe Hf). apply inj_le. rewrite <- (map_length (fun e => col_index y (sc_index e) fi)). apply NoDup_incl_length; [exact ND|]. intros c Hc. destruct (CS c Hc) as [H|[H|H]]; [exfalso; exact (NSP c H)| |].
      * destruct (BP c H) as (b' & eq' & e & Hbe' & Ek & He & ->). pose proof (pair_unique _ (fun '(b, eq) => ghost_cell b eq) (pairs_of calls) (b, eq) (b', eq') (gc_ghosts _ _ _ GC) Hbe Hbe' Ek) as EQ. injection EQ as <- _. apply (in_map (fun e => col_index y (sc_index e) fi)). exact He.
      * destruct (UP c H) as [_ ->]. unfold ghost_cell. apply (in_map (fun e => col_index y (sc_index e) fi)). apply nth_In. apply pairs_In in Hbe as [Hb He]. apply (gc_eqs _ _ _ GC b eq Hb He).
    + specialize (F5 r Hr). enough (Z.of_nat (length cols) <= 1) by lia. apply ONE. intros c Hc. destruct (CS c Hc) as [H|[H|H]]; [exfalso; exact (NSP c H)| |apply UP; exact H]. exfalso. destruct (BP c H) as (b & eq & e & Hbe & -> & _). apply HI. apply in_map_iff. exists (b, eq). auto.
Qed.

(** So no row of the assembled matrix has more coefficients than announced. *)
Theorem C79_nonzeros : forall n m hist maxl st cells domain scaling ib lfs order cg y N fuel calls dv rows, system n m hist maxl st cells domain scaling ib lfs order cg y N fuel -> let ref := client_ca n m hist true in
  ly_os y = ly_fs y -> ly_row_shift y = ly_col_shift y -> 0 <= ly_row_shift y -> ly_row_shift y + matrix_rows y <= rows -> good_calls (ly_cells y) (leaf_number n ref cells) calls -> apart n ref cg cells calls ->
  exists rec s nnz, ghost_recursion fuel n order ref cg cells = Some rec /\ assemble_matrix y rec n maxl scaling ref cells domain ib lfs calls dv = Some s /\
    preallocation rows y rec n maxl ref cg cells domain ib lfs calls = Some nnz /\
    forall r cols, ly_row_shift y <= r < ly_row_shift y + matrix_rows y -> NoDup cols -> (forall c, In c cols -> ~ (as_mat s r c == 0)%Q) -> Z.of_nat (length cols) <= nnz r.
Proof.
  intros n m hist maxl st cells domain scaling ib lfs order cg y N fuel calls dv rows SY. cbv zeta. intros SQ SH R1 R2 GC AP.
  destruct (C79_preallocation _ _ _ _ _ _ _ _ _ _ _ _ _ _ _ calls dv rows SY SQ SH R1 R2 GC AP) as (rec & s & nnz & is & bs & E & EM & EP & _ & _ & F & Z0). exists rec, s, nnz. split; [exact E|]. split; [exact EM|]. split; [exact EP|].
  intros r cols Hr ND H. apply (F r cols Hr ND). intros c Hc. assert (DEC : forall a b : Z * Z, {a = b} + {a <> b}) by (decide equality; apply Z.eq_dec).
  destruct (in_dec DEC (r, c) (positions y rec (map fst is) (map fst bs) calls (as_empty s))) as [D|D]; [exact D|]. exfalso. apply (H c Hc). rewrite (Z0 r c D). reflexivity.
Qed.

(** With the stencils of the boundary conditions of the code. *)
Theorem C79_problem : forall n m hist maxl st cells domain scaling ib lfs order cg y N fuel bcs dv rows, system n m hist maxl st cells domain scaling ib lfs order cg y N fuel -> let ref := client_ca n m hist true in
  ly_os y = ly_fs y -> ly_row_shift y = ly_col_shift y -> 0 <= ly_row_shift y -> ly_row_shift y + matrix_rows y <= rows ->
  boundary_regions n ref cells bcs -> regions_apart n cells bcs -> covers n cells domain -> (forall l p, ca_mem n cells l p -> (l <= a_level domain)%nat) ->
  (forall c dir reg l p, In c bcs -> used_region c dir reg -> on_region n cells reg l p -> outside n domain l (vadd n p dir)) ->
  exists calls rec s nnz, bc_calls n scaling ref cells bcs = Some calls /\ ghost_recursion fuel n order ref cg cells = Some rec /\ assemble_matrix y rec n maxl scaling ref cells domain ib lfs calls dv = Some s /\
    preallocation rows y rec n maxl ref cg cells domain ib lfs calls = Some nnz /\
    forall r cols, ly_row_shift y <= r < ly_row_shift y + matrix_rows y -> NoDup cols -> (forall c, In c cols -> ~ (as_mat s r c == 0)%Q) -> Z.of_nat (length cols) <= nnz r.
Proof.
  intros n m hist maxl st cells domain scaling ib lfs order cg y N fuel bcs dv rows SY. cbv zeta. intros SQ SH R1 R2 BR AP CV FI OUT.
  pose proof (sy_ghosts _ _ _ _ _ _ _ _ _ _ _ _ _ _ _ SY) as GM. pose proof (sy_cells _ _ _ _ _ _ _ _ _ _ _ _ _ _ _ SY) as HN. pose proof (br_numbered _ _ _ _ BR) as NR. set (ref := client_ca n m hist true) in *.
  destruct (calls_facts n scaling ref cells bcs BR) as (calls & Ec & C1 & _).
  assert (APART : forall c dir reg l p k, In c bcs -> used_region c dir reg -> on_region n cells reg l p -> ca_get_index n ref l (vadd n p dir) = Some k -> ~ leaf_number n ref cells k /\ ~ ghost_number n ref cg cells k).
  { intros c dir reg l p k Hc Hr OR Ek. destruct (outside_apart n order ref cg cells domain l (vadd n p dir) GM CV FI (vadd_length _ _ _) (FI l p (proj1 OR)) (OUT c dir reg l p Hc Hr OR)) as [A1 A2].
    assert (M : ca_mem n ref l (vadd n p dir)) by (apply (br_room _ _ _ _ BR c dir reg l p Hc Hr OR)). split.
    - intros (l' & p' & Hp' & Ek'). destruct (numbered_inj n ref l _ l' p' k NR M (stored_leaf _ _ _ _ _ _ _ _ _ _ _ _ _ _ _ SY l' p' Hp') Ek Ek') as [E1 E2]. subst l' p'. contradiction.
    - intros (l' & p' & G & Ek'). destruct (numbered_inj n ref l _ l' p' k NR M (ghost_stored n order ref cg cells GM l' p' G) Ek Ek') as [E1 E2]. subst l' p'. contradiction. }
  assert (GC : good_calls (ly_cells y) (leaf_number n ref cells) calls).
  { rewrite HN. apply (calls_good n scaling ref cells bcs BR calls _ Ec AP). intros c dir reg l p k Hc Hr OR Ek. apply (APART c dir reg l p k Hc Hr OR Ek). }
  destruct (C79_nonzeros n m hist maxl st cells domain scaling ib lfs order cg y N fuel calls dv rows SY SQ SH R1 R2 GC) as (rec & s & nnz & E1 & E2 & E3 & F).
  { intros c eq Hc He. destruct (C1 c Hc) as (b0 & dir & reg & l & p & Hb & Hr & OR & R). apply (APART b0 dir reg l p _ Hb Hr OR). pose proof (call_ghost n scaling ref b0 dir l p c R) as G. destruct R as (_ & Ee & _). rewrite Ee in He. destruct He as [<-|[]]. unfold ghost_cell. destruct (bc_type b0); exact G. }
  exists calls, rec, s, nnz. auto.
Qed.

(** ** Examples: the mesh with three levels of C78 *)
Example C79_example : forall op, (forall d h, length (op d h) = 2%nat) -> exists rec s nnz, ghost_recursion 4 1 1 roomRef exGhosts exMesh = Some rec /\
  assemble_matrix (exLayout false 2 1000) rec 1 3 1 roomRef exMesh exDomain true (exOp op) exCalls 1%Q = Some s /\ preallocation 3000 (exLayout false 2 1000) rec 1 3 roomRef exGhosts exMesh exDomain true (exOp op) exCalls = Some nnz /\
  forall r cols, 1000 <= r < 2176 -> NoDup cols -> (forall c, In c cols -> ~ (as_mat s r c == 0)%Q) -> Z.of_nat (length cols) <= nnz r.
Proof.
  intros op H. destruct C78_conditions as (GC & _ & BC & _).
  apply (C79_nonzeros 1 3 roomHist 3 PropsGrad.star2 exMesh exDomain 1 true (exOp op) 1 exGhosts (exLayout false 2 1000) 3 4 exCalls 1%Q 3000 (C78_system op false 2 2 1000 1000 H) eq_refl eq_refl); [cbn; lia|vm_compute; discriminate|exact GC|].
  intros b eq Hb He. apply (BC b eq Hb He).
Qed.

Example C79_problem_example : forall op, (forall d h, length (op d h) = 2%nat) -> exists calls rec s nnz, bc_calls 1 1 roomRef exMesh exBc = Some calls /\ ghost_recursion 4 1 1 roomRef exGhosts exMesh = Some rec /\
  assemble_matrix (exLayout true 2 0) rec 1 3 1 roomRef exMesh exDomain true (exOp op) calls 1%Q = Some s /\ preallocation 1176 (exLayout true 2 0) rec 1 3 roomRef exGhosts exMesh exDomain true (exOp op) calls = Some nnz /\
  forall r cols, 0 <= r < 1176 -> NoDup cols -> (forall c, In c cols -> ~ (as_mat s r c == 0)%Q) -> Z.of_nat (length cols) <= nnz r.
Proof.
  intros op H. destruct C78_regions as (BR & AP & FI & OUT & _). destruct (C76_hypotheses op H) as (_ & CV & _).
  apply (C79_problem 1 3 roomHist 3 PropsGrad.star2 exMesh exDomain 1 true (exOp op) 1 exGhosts (exLayout true 2 0) 3 4 exBc 1%Q 1176 (C78_system op true 2 2 0 0 H) eq_refl eq_refl); [cbn; lia|vm_compute; discriminate|exact BR|exact AP|exact CV|exact FI|exact OUT].
Qed.

(** One component: the numbers announced and the numbers of coefficients that are not 0, for
    leaves of three levels, two ghosts of the boundary, two eliminated ghosts and a row which
    is not used. *)
Definition exDiffusion : nat -> Q -> coeffs := fun _ h => [fun _ _ => (1 / h)%Q; fun _ _ => (- (1) / h)%Q].
Example C79_numbers :
  (let y := exLayout false 1 0 in
   match ghost_recursion 4 1 1 roomRef exGhosts exMesh with
   | None => None
   | Some rec =>
     match preallocation 588 y rec 1 3 roomRef exGhosts exMesh exDomain true (exOp exDiffusion) exCalls, assemble_matrix y rec 1 3 1 roomRef exMesh exDomain true (exOp exDiffusion) exCalls 1%Q with
     | Some nnz, Some s => Some (map (fun k => (k, nnz k, length (filter (fun c => negb (Qeq_bool (as_mat s k c) 0)) (zrange 0 588))))
         (firstn 4 exLeafNumbers ++ map (fun '(b, e) => ghost_cell b e) (firstn 2 (pairs_of exCalls)) ++ firstn 2 exGhostNumbers ++ [0]))
     | _, _ => None
     end
   end) = Some [(45, 8, 5%nat); (46, 38, 11%nat); (59, 38, 11%nat); (271, 36, 20%nat); (47, 3, 2%nat); (273, 3, 2%nat); (60, 7, 1%nat); (286, 4, 1%nat); (0, 1, 1%nat)].
Proof. vm_compute. reflexivity. Qed.

Print Assumptions C79_preallocation.
Print Assumptions C79_nonzeros.
Print Assumptions C79_problem.
