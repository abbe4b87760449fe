(** C81: the preallocation of the matrix of a sum of schemes
    (petsc/fv/operator_sum_assembly.hpp L156-178). *)
From Coq Require Import QArith Permutation.
From Verif Require PropsGrad PropsExact.
From Verif Require Import Base IntervalModel Spec LoiModel LcaModel LcaSpec LcaProofs LcaProofs3 RowsProofs CellArrayModel CellArrayProofs
  PropsLca PropsCellArray SubsetModel TreeProofs SubsetSpec SubsetProofs2 PropsSubset StencilModel NumberingProofs StencilProofs PropsStencil
  MeshModel MeshProofs PropsMesh AdaptModel AdaptProofs TagProofs PropsAdapt InterfaceModel InterfaceProofs PropsInterface GeomModel FluxModel BoundaryProofs PropsBoundary FluxProofs NumModel NumProofs GhostModel
  ReconModel ReconProofs ReconProofs2 PropsFlux LinFluxModel LinFluxProofs LinFluxProofs2 PropsLinFlux AssemblyModel AssemblyProofs AssemblyProofs2 PropsAssembly AssemblyProofs3 AssemblyProofs4 AssemblyProofs5 AssemblyProofs6 AssemblyProofs7 PropsAssembly2 PropsAssembly3
  NnzModel NnzProofs NnzProofs2 PropsNnz SumModel SumProofs SumProofs2 PropsSum SumNnzModel SumNnzProofs.
Open Scope Z_scope.

(** The scheme changes the matrix at its positions only. *)
Lemma scheme_frame : forall n m hist maxl cells domain scaling ib lfs y rec Ls Bs s0 s, listed n m hist maxl cells domain scaling ib lfs y rec (seq 0 (S n)) Ls Bs ->
  assemble_scheme y rec n maxl scaling (client_ca n m hist true) cells domain ib lfs s0 = Some s -> forall r c, ~ In (r, c) (scheme_positions y rec (concat Ls) (concat Bs)) -> as_mat s r c = as_mat s0 r c.
Proof.
  intros n m hist maxl cells domain scaling ib lfs y rec Ls Bs s0 s LI Es r c NI. unfold scheme_positions in NI.
  assert (F1 : forall (l : list (iface * (coeffs * coeffs))) s s', fold_opt (assemble_interface y rec) l s = Some s' -> ~ In (r, c) (flat_map (interface_positions y rec) (map fst l)) -> as_mat s' r c = as_mat s r c).
  { intros l0 t t' Et Nt. apply (frame_fold _ (assemble_interface y rec) (fun e => interface_positions y rec (fst e)) l0 (fun e _ => frame_interface y rec e) t t' Et). intros H. apply Nt. apply in_flat_map in H as (e & He & H). apply in_flat_map. exists (fst e). split; [apply in_map; exact He|exact H]. }
  assert (F2 : forall (l : list (iface * coeffs)) s s', fold_opt (assemble_boundary_interface y) l s = Some s' -> ~ In (r, c) (flat_map (boundary_positions y) (map fst l)) -> as_mat s' r c = as_mat s r c).
  { intros l0 t t' Et Nt. apply (frame_fold _ (assemble_boundary_interface y) (fun e => boundary_positions y (fst e)) l0 (fun e _ => frame_boundary y e) t t' Et). intros H. apply Nt. apply in_flat_map in H as (e & He & H). apply in_flat_map. exists (fst e). split; [apply in_map; exact He|exact H]. }
  destruct LI as (L1 & L2 & _). unfold assemble_scheme, all_interior, all_boundary in Es. rewrite L1 in Es. cbn [option_map] in Es. destruct (fold_opt (assemble_interface y rec) (concat Ls) s0) as [t|] eqn:Et; [|discriminate Es].
  assert (T0 : as_mat t r c = as_mat s0 r c). { apply (F1 _ _ _ Et). intros H. apply NI. apply in_or_app. left. exact H. }
  destruct ib; [|injection Es as <-; exact T0]. rewrite L2 in Es. cbn [option_map] in Es. rewrite (F2 _ _ _ Es); [exact T0|]. intros H. apply NI. apply in_or_app. right. exact H.
Qed.

Lemma sum_frame : forall n m hist maxl st cells domain scaling ib order cg y N fuel rec larger Ls Bs ops, let ref := client_ca n m hist true in
  ghost_recursion fuel n order ref cg cells = Some rec -> system n m hist maxl st cells domain scaling ib larger order cg y N fuel -> listed n m hist maxl cells domain scaling ib larger y rec (seq 0 (S n)) Ls Bs ->
  Forall (fun lfs => system n m hist maxl st cells domain scaling ib lfs order cg y N fuel) ops -> (forall lfs d, In lfs ops -> (d <= n)%nat -> incl (lf_stencil (lfs d)) (lf_stencil (larger d))) ->
  forall a es a' es', sum_assemble_scheme y rec n maxl scaling ref cells domain ib ops (a, es) = Some (a', es') -> forall r c, ~ In (r, c) (scheme_positions y rec (concat Ls) (concat Bs)) -> a' r c = a r c.
Proof.
  intros n m hist maxl st cells domain scaling ib order cg y N fuel rec larger Ls Bs ops ref E SL LL F SM. induction F as [|lfs ops SY F IH]; intros a es a' es' EA r c NI.
  - cbn in EA. injection EA as <- _. reflexivity.
  - unfold sum_assemble_scheme in EA. cbn [fold_opt] in EA. destruct (assemble_scheme y rec n maxl scaling ref cells domain ib lfs (mkAsm a (as_empty asm_empty))) as [s|] eqn:Es; [|discriminate EA]. cbv beta iota zeta in EA.
    rewrite (IH (fun lfs d h => SM lfs d (or_intror h)) _ _ _ _ EA r c NI).
    destruct (recursion_facts _ _ _ _ _ _ _ _ _ _ _ _ _ _ _ SY) as (rec' & E' & _ & _ & HD & _). fold ref in E'. rewrite E in E'. injection E' as <-.
    destruct (scheme_cells n m hist maxl st cells domain scaling ib lfs (sy_mesh _ _ _ _ _ _ _ _ _ _ _ _ _ _ _ SY) y (sy_cells _ _ _ _ _ _ _ _ _ _ _ _ _ _ _ SY) rec HD) as (Ls1 & Bs1 & LI & _).
    apply (scheme_frame n m hist maxl cells domain scaling ib lfs y rec Ls1 Bs1 _ s LI Es r c). intros H. apply NI.
    exact (positions_smaller n m hist maxl st cells domain scaling ib lfs larger (sy_mesh _ _ _ _ _ _ _ _ _ _ _ _ _ _ _ SY) (sy_mesh _ _ _ _ _ _ _ _ _ _ _ _ _ _ _ SL) (fun d h => SM lfs d (or_introl eq_refl) h) y rec _ _ _ _ LI LL _ H).
Qed.

(** ** The theorem *)

(** If in each direction the stencils of all schemes are parts of the stencil of the scheme with the
    largest one, the numbers announced by this scheme are sufficient for the sum. *)
Theorem C81_preallocation : forall n m hist maxl st cells domain scaling ib order cg y N fuel ops largest calls dv rows, let ref := client_ca n m hist true in
  Forall (fun lfs => system n m hist maxl st cells domain scaling ib lfs order cg y N fuel) ops -> nth_error ops (largest_stencil_index ops) = Some largest ->
  (forall lfs d, In lfs ops -> (d <= n)%nat -> incl (lf_stencil (lfs d)) (lf_stencil (largest d))) ->
  ly_os y = ly_fs y -> ly_row_shift y = ly_col_shift y -> 0 <= ly_row_shift y -> ly_row_shift y + matrix_rows y <= rows -> good_calls (ly_cells y) (leaf_number n ref cells) calls -> apart n ref cg cells calls ->
  (forall l p, ca_mem n cells l p -> has_face n cells domain ib l p) ->
  exists rec s nnz, ghost_recursion fuel n order ref cg cells = Some rec /\ sum_assemble_matrix y rec n maxl scaling ref cells domain ib ops calls dv = Some s /\
    sum_preallocation rows y rec n maxl ref cg cells domain ib ops calls = Some nnz /\
    forall r cols, ly_row_shift y <= r < ly_row_shift y + matrix_rows y -> NoDup cols -> (forall c, In c cols -> ~ (as_mat s r c == 0)%Q) -> Z.of_nat (length cols) <= nnz r.
Proof.
  intros n m hist maxl st cells domain scaling ib order cg y N fuel ops largest calls dv rows ref F EL SM SQ SH R1 R2 GC AP FACE.
  assert (NE : ops <> []) by (intros ->; rewrite nth_error_nil in EL || (destruct (largest_stencil_index []); discriminate EL); discriminate EL).
  assert (SY : system n m hist maxl st cells domain scaling ib largest order cg y N fuel) by (rewrite Forall_forall in F; apply F; exact (nth_error_In _ _ EL)).
  destruct (sum_matrix_facts n m hist maxl st cells domain scaling ib order cg y N fuel ops calls dv NE F SQ SH GC FACE) as (rec & s & E & EM & _ & FL & _). fold ref in E, EM, FL.
  destruct (nnz_facts _ _ _ _ _ _ _ _ _ _ _ _ _ _ _ SY SQ SH rows (conj R1 R2) calls GC AP dv) as (rec' & s' & nnz & Ls & Bs & E' & _ & EP & LI & _ & _ & F3 & F4 & F5). fold ref in E', EP, F3. rewrite E in E'. injection E' as <-.
  exists rec, s, nnz. split; [exact E|]. split; [exact EM|]. split; [unfold sum_preallocation; rewrite EL; exact EP|].
  set (SP := scheme_positions y rec (concat Ls) (concat Bs)) in *.
  assert (FR : forall r c, ~ In (r, c) SP -> ~ In (r, c) (flat_map (bc_positions y) calls) -> ~ In (r, c) (useless_positions y (as_empty s)) -> as_mat s r c = 0%Q).
  { intros r c N1 N2 N3. unfold sum_assemble_matrix in EM. destruct (sum_assemble_scheme y rec n maxl scaling ref cells domain ib ops (as_mat asm_empty, [])) as [[a es]|] eqn:E1; [|discriminate EM]. cbn [fst snd] in EM.
    destruct (nth_error es (largest_stencil_index ops)) as [e|]; [|discriminate EM]. destruct (fold_opt (assemble_bc y) calls (mkAsm a e)) as [s2|] eqn:E2; [|discriminate EM].
    destruct (frame_useless y dv s2 s EM) as [FE FM]. rewrite FM by (rewrite <- FE; exact N3). rewrite (frame_fold _ (assemble_bc y) (bc_positions y) calls (fun b _ => frame_bc y b) _ s2 E2 r c N2). cbn [as_mat].
    exact (sum_frame n m hist maxl st cells domain scaling ib order cg y N fuel rec largest Ls Bs ops E SY LI F SM _ _ _ _ E1 r c N1). }
  intros r cols Hr ND HN.
  pose proof (sy_ghosts _ _ _ _ _ _ _ _ _ _ _ _ _ _ _ SY) as GM.
  destruct (data_onto (ly_os y) (ly_soa y) (ly_cells y) (ly_row_shift y) r Hr) as (k & fi & Hk & Hf & Er). change (data_index (ly_os y) (ly_soa y) (ly_cells y) (ly_row_shift y) k fi) with (row_index y k fi) in Er.
  assert (CK : forall b eq, In (b, eq) (pairs_of calls) -> cellok y (ghost_cell b eq)) by (intros b eq H; eapply call_cellok; eauto).
  assert (SPL : forall c, In (r, c) SP -> leaf_number n ref cells k).
  { intros c H. destruct (positions_leaf n m hist maxl cells domain scaling ib largest y rec Ls Bs r c LI H) as (l & p & k' & fi' & Hp & Ek & Hf' & Er'). rewrite Er in Er'. assert (HL : leaf_number n ref cells k') by (exists l, p; auto).
    apply data_inj in Er' as [-> _]; [exact HL|exact Hk|apply (leaf_cellok _ _ _ _ _ _ _ _ _ _ _ _ _ _ _ SY); exact HL|exact Hf|exact Hf']. }
  assert (BP : forall c, In (r, c) (flat_map (bc_positions y) calls) -> exists b eq e, In (b, eq) (pairs_of calls) /\ k = ghost_cell b eq /\ In e (bc_cells b) /\ c = col_index y (sc_index e) fi).
  { intros c H. apply in_flat_map in H as (b & Hb & H). unfold bc_positions in H. apply in_flat_map in H as (eq & He & H). destruct (gc_eqs _ _ _ GC b eq Hb He) as (_ & Lg & _). rewrite (nth_error_nth' _ bc_e0 Lg) in H.
    apply in_flat_map in H as ([e mt] & Hc & H). apply in_combine_l in Hc. apply in_flat_map in H as (fj & Hfj & H). apply in_seq in Hfj. destruct (Qeq_bool (mt fj fj) 0); [destruct H|]. destruct H as [H|[]]. injection H as Ea Eb.
    assert (Hbe : In (b, eq) (pairs_of calls)) by (apply pairs_In; auto). rewrite Er in Ea. rewrite <- (row_col y SQ SH) in Ea. apply data_inj in Ea as [Ea Ef]; [|apply (CK b eq Hbe)|exact Hk|lia|exact Hf]. exists b, eq, e. subst fj. auto. }
  assert (UP : forall c, In (r, c) (useless_positions y (as_empty s)) -> as_empty s (r - ly_row_shift y) = true /\ c = col_index y k fi).
  { intros c H. unfold useless_positions in H. apply in_flat_map in H as (i & Hi & H). cbv zeta in H. destruct (as_empty s (Z.of_nat i)) eqn:Ee; [|destruct H]. destruct H as [H|[]]. injection H as Ea Eb. replace (r - ly_row_shift y) with (Z.of_nat i) by lia. split; [exact Ee|]. rewrite <- (row_col y SQ SH), <- Er. lia. }
  assert (DEC : forall a b : Z * Z, {a = b} + {a <> b}) by (decide equality; apply Z.eq_dec).
  assert (CS : forall c, In c cols -> In (r, c) SP \/ In (r, c) (flat_map (bc_positions y) calls) \/ In (r, c) (useless_positions y (as_empty s))).
  { intros c Hc. destruct (in_dec DEC (r, c) SP) as [D1|D1]; [left; exact D1|]. destruct (in_dec DEC (r, c) (flat_map (bc_positions y) calls)) as [D2|D2]; [right; left; exact D2|].
    destruct (in_dec DEC (r, c) (useless_positions y (as_empty s))) as [D3|D3]; [right; right; exact D3|]. exfalso. apply (HN c Hc). rewrite (FR r c D1 D2 D3). reflexivity. }
  assert (ONE : (forall c, In c cols -> c = col_index y k fi) -> Z.of_nat (length cols) <= 1).
  { intros H. assert (L : (length cols <= length [col_index y k fi])%nat) by (apply NoDup_incl_length; [exact ND|]; intros c Hc; left; symmetry; auto). cbn [length] in L. lia. }
  destruct (leaf_number_dec n ref cells k (proj1 (gm_wf _ _ _ _ _ GM))) as [HL|NL].
  - assert (NBC : forall c, ~ In (r, c) (flat_map (bc_positions y) calls)).
    { intros c H. destruct (BP c H) as (b & eq & e & Hbe & Ek & _). apply pairs_In in Hbe as [Hb He]. apply (gc_eqs _ _ _ GC b eq Hb He). rewrite <- Ek. exact HL. }
    assert (NU : forall c, ~ In (r, c) (useless_positions y (as_empty s))).
    { intros c H. destruct (UP c H) as [Ee _]. destruct HL as (l & p & Hp & Ek). rewrite Er, (FL l p k fi Hp Ek Hf (FACE l p Hp)) in Ee. discriminate Ee. }
    assert (D : Z.of_nat (length cols) <= rowcount r SP). { apply rowcount_distinct; [exact ND|]. intros c Hc. destruct (CS c Hc) as [H0|[H0|H0]]; [exact H0|exfalso; exact (NBC c H0)|exfalso; exact (NU c H0)]. }
    pose proof (F3 k fi Hk Hf HL) as F0. cbv zeta in F0. rewrite <- Er in F0. rewrite F0. assert (1 <= Z.of_nat (ly_fs y)) by lia. destruct (Z.eqb_spec (Z.of_nat (ly_fs y) * rowcount r SP) 0) as [Z0|Z0]; nia.
  - assert (NSP : forall c, ~ In (r, c) SP) by (intros c H; exact (NL (SPL c H))).
    destruct (in_dec Z.eq_dec k (map (fun '(c, eq) => ghost_cell c eq) (pairs_of calls))) as [HI|HI].
    + apply in_map_iff in HI as ([b eq] & Ek & Hbe). subst k. rewrite Er, (F4 b eq fi Hbe Hf). apply inj_le. rewrite <- (map_length (fun e => col_index y (sc_index e) fi)). apply NoDup_incl_length; [exact ND|]. intros c Hc. destruct (CS c Hc) as [H|[H|H]]; [exfalso; exact (NSP c H)| |].
      * destruct (BP c H) as (b' & eq' & e & Hbe' & Ek & He & ->). pose proof (pair_unique _ (fun '(b, eq) => ghost_cell b eq) (pairs_of calls) (b, eq) (b', eq') (gc_ghosts _ _ _ GC) Hbe Hbe' Ek) as EQ. injection EQ as <- _. apply (in_map (fun e => col_index y (sc_index e) fi)). exact He.
      * destruct (UP c H) as [_ ->]. unfold ghost_cell. apply (in_map (fun e => col_index y (sc_index e) fi)). apply nth_In. apply pairs_In in Hbe as [Hb He]. apply (gc_eqs _ _ _ GC b eq Hb He).
    + specialize (F5 r Hr). enough (Z.of_nat (length cols) <= 1) by lia. apply ONE. intros c Hc. destruct (CS c Hc) as [H|[H|H]]; [exfalso; exact (NSP c H)| |apply UP; exact H]. exfalso. destruct (BP c H) as (b & eq & e & Hbe & -> & _). apply HI. apply in_map_iff. exists (b, eq). auto.
Qed.

(** ** The default stencils *)

(** The cells of the line from 1 - size/2 to the next integer above size/2: for all sizes,
    even or odd, these stencils are nested. *)
Theorem C81_line : forall n d size v, (d <= n)%nat -> In v (line_stencil n d size) <-> exists k, v = unit_mult n d k /\ 1 - Z.of_nat size / 2 <= k <= (Z.of_nat size + 1) / 2.
Proof.
  intros n d size v Hd. unfold line_stencil, line_stencil_from. rewrite Z.quot_opp_l by lia. rewrite Z.quot_div_nonneg by lia. rewrite in_map_iff. split.
  - intros (i & <- & Hi). apply in_seq in Hi. eexists. split; [reflexivity|]. lia.
  - intros (k & -> & Hk). exists (Z.to_nat (k + Z.of_nat size / 2 - 1)). split; [f_equal; lia|]. apply in_seq. lia.
Qed.
Theorem C81_nested : forall n d s1 s2, (d <= n)%nat -> (s1 <= s2)%nat -> incl (line_stencil n d s1) (line_stencil n d s2).
Proof. intros n d s1 s2 Hd H v Hv. apply C81_line in Hv as (k & -> & Hk); [|exact Hd]. apply C81_line; [exact Hd|]. exists k. split; [reflexivity|]. lia. Qed.

(** With these stencils the preallocation is sufficient for all sizes. *)
Theorem C81_line_stencils : forall n m hist maxl st cells domain scaling ib order cg y N fuel ops calls dv rows, let ref := client_ca n m hist true in
  Forall (fun lfs => system n m hist maxl st cells domain scaling ib lfs order cg y N fuel) ops -> ops <> [] ->
  (forall lfs d, In lfs ops -> (d <= n)%nat -> lf_stencil (lfs d) = line_stencil n d (stencil_size lfs)) ->
  ly_os y = ly_fs y -> ly_row_shift y = ly_col_shift y -> 0 <= ly_row_shift y -> ly_row_shift y + matrix_rows y <= rows -> good_calls (ly_cells y) (leaf_number n ref cells) calls -> apart n ref cg cells calls ->
  (forall l p, ca_mem n cells l p -> has_face n cells domain ib l p) ->
  exists rec s nnz, ghost_recursion fuel n order ref cg cells = Some rec /\ sum_assemble_matrix y rec n maxl scaling ref cells domain ib ops calls dv = Some s /\
    sum_preallocation rows y rec n maxl ref cg cells domain ib ops calls = Some nnz /\
    forall r cols, ly_row_shift y <= r < ly_row_shift y + matrix_rows y -> NoDup cols -> (forall c, In c cols -> ~ (as_mat s r c == 0)%Q) -> Z.of_nat (length cols) <= nnz r.
Proof.
  intros n m hist maxl st cells domain scaling ib order cg y N fuel ops calls dv rows ref F NE ST SQ SH R1 R2 GC AP FACE. destruct (largest_spec ops NE) as (largest & EL & HL & _).
  apply (C81_preallocation n m hist maxl st cells domain scaling ib order cg y N fuel ops largest calls dv rows F EL); auto.
  intros lfs d Hi Hd. rewrite (ST lfs d Hi Hd), (ST largest d (nth_error_In _ _ EL) Hd). apply C81_nested; [exact Hd|apply HL; exact Hi].
Qed.

(** ** Examples *)

(** The mesh with three levels of C78, without the boundary: the diffusion scheme and a scheme
    with the line stencil of four cells. *)
Definition line (d : nat) : stencil := [repeat 0 2; unit_mult 1 d 1; unit_mult 1 d (-1); unit_mult 1 d 2].
Definition exLine (d : nat) : lin_flux := mkLF (line d) (fun h => [fun _ _ => (9 # 16)%Q; fun _ _ => (9 # 16)%Q; fun _ _ => (- 1 # 16)%Q; fun _ _ => (- 1 # 16)%Q]).
Definition exSum : operators := [PropsSum.exDiffusion; exLine].
Definition line4y : stencil := [[0; 0]; [0; 1]; [0; -1]; [0; 2]].
Lemma roomRef_liney : stencil_room 1 1 roomRef PropsAdapt.exMesh line4y.
Proof.
  assert (FIT : forall l q v st, ca_mem 1 PropsAdapt.exMesh l q -> length v = 2%nat -> -1 <= nth 1 v 0 <= 1 -> nth 0 v 0 = 0 ->
    (forall w, In w st -> In w [[0; 0]; [0; 1]; [0; -1]; [0; 2]; [0; -2]]) -> fits_at 1 roomRef st l (vadd 1 q v)).
  { intros l q v st Hq Lv H0 H1 Hst. apply exMesh_box in Hq as (Hl & x & y & -> & Hx & Hy). destruct v as [|a [|b [|? ?]]]; try discriminate Lv.
    cbn in H0, H1. subst a. change (vadd 1 [x; y] [0; b]) with [x + 0; y + b]. split.
    - intros w Hw. apply Hst in Hw. cbn [In] in Hw. repeat (destruct Hw as [<-|Hw]; [unfold vadd; cbn [map seq nth]; apply roomRef_mem; lia|]). destruct Hw.
    - intros w u Hw _ Hu. apply Hst in Hw. cbn [hd tl]. cbn [In] in Hw. apply roomRef_mem; [lia| |lia]. repeat (destruct Hw as [<-|Hw]; [cbn in Hu; lia|]). destruct Hw. }
  assert (SUB : forall w, In w line4y -> In w [[0; 0]; [0; 1]; [0; -1]; [0; 2]; [0; -2]]) by (cbn; tauto).
  split.
  - apply roomRef_ghosts.
  - intros l z H _. replace z with (vadd 1 z [0; 0]); [apply FIT; auto; cbn; lia|]. apply vadd_zero; [apply H|]. intros [|[|k]] Hk; cbn; auto; lia.
  - intros l z Lz _ H. apply (FIT _ _ [0; -1] line4y) in H; auto; [|cbn; lia]. destruct z as [|x [|y [|? ?]]]; try discriminate Lz.
    unfold vadd in H. cbn [map seq nth unit_mult Nat.eqb] in H. replace (y + 1 + -1) with y in H by lia. replace (x + 0 + 0) with x in H by lia. exact H.
  - intros l z Lz _ H. apply (FIT _ _ [0; 1] (stencil_minus line4y [0; 1])) in H; auto; [|cbn; lia|cbn; tauto]. destruct z as [|x [|y [|? ?]]]; try discriminate Lz.
    unfold vadd in H. cbn [map seq nth unit_mult Nat.eqb] in H. replace (y + -1 + 1) with y in H by lia. replace (x + 0 + 0) with x in H by lia. exact H.
Qed.
Example C81_hypotheses : Forall (fun lfs => system 1 3 roomHist 3 PropsGrad.star2 PropsAdapt.exMesh PropsBoundary.exDomain 1 false lfs 1 exGhosts (exLayout false 2 1000) 3 4) exSum /\ nth_error exSum (largest_stencil_index exSum) = Some exLine /\
  (forall lfs d, In lfs exSum -> (d <= 1)%nat -> incl (lf_stencil (lfs d)) (lf_stencil (exLine d))) /\ (forall l p, ca_mem 1 PropsAdapt.exMesh l p -> has_face 1 PropsAdapt.exMesh PropsBoundary.exDomain false l p).
Proof.
  destruct (C78_system (diffusion_coeffs (fun d => inject_Z (Z.of_nat d + 1))) false 2 2 1000 1000 ltac:(reflexivity)) as [LM GM HN _ LV].
  split; [|split; [reflexivity|split]].
  - destruct LM as [A1 A2 A3 A4 _ A6 A7]. constructor; [|constructor; [|constructor]].
    + constructor; [constructor; auto; discriminate|exact GM|exact HN|discriminate|exact LV].
    + constructor; [|exact GM|exact HN|discriminate|exact LV]. constructor; [exact A1|exact A2|exact A3| |discriminate| |reflexivity].
      * intros d Hd. destruct d as [|[|d]]; [exact roomRef_line|exact roomRef_liney|lia].
      * intros d Hd. split; [|split; [left; reflexivity|right; left; reflexivity]]. intros v Hv. cbn [exLine lf_stencil line In] in Hv. repeat (destruct Hv as [<-|Hv]; [reflexivity|]). destruct Hv.
  - intros lfs d [<- | [<- | []]] Hd v Hv; [|exact Hv]. cbn [PropsSum.exDiffusion exOp lf_stencil in_out_stencil exLine line In] in *. tauto.
  - intros l p Hp. left. apply exMesh_leaf in Hp.
    assert (SF : forall d l0 p1 p2, (d <= 1)%nat -> (nth d p1 0 + 1) = nth d p2 0 -> nth (1 - d) p1 0 = nth (1 - d) p2 0 -> share_face 1 d l0 p1 l0 p2).
    { intros d l0 p1 p2 Hd E1 E2. pose proof (Z.pow_pos_nonneg 2 (Z.of_nat l0) ltac:(lia) ltac:(lia)) as P. split; [rewrite E1; reflexivity|]. intros k Hk Hkd. replace k with (1 - d)%nat by lia. rewrite E2. nia. }
    assert (NB : exists d q, (d <= 1)%nat /\ In (l, q) PropsInterface.exLeaves /\ (((nth d p 0 + 1) = nth d q 0 /\ nth (1 - d) p 0 = nth (1 - d) q 0) \/ ((nth d q 0 + 1) = nth d p 0 /\ nth (1 - d) q 0 = nth (1 - d) p 0))).
    { cbn [In PropsInterface.exLeaves] in Hp. each Hp.
      - exists 0%nat, [1; 0]. cbn. split; [lia|]. split; [auto 12|]. left; lia.
      - exists 0%nat, [0; 0]. cbn. split; [lia|]. split; [auto 12|]. right; lia.
      - exists 1%nat, [0; 0]. cbn. split; [lia|]. split; [auto 12|]. right; lia.
      - exists 0%nat, [3; 2]. cbn. split; [lia|]. split; [auto 12|]. left; lia.
      - exists 0%nat, [2; 2]. cbn. split; [lia|]. split; [auto 12|]. right; lia.
      - exists 1%nat, [2; 2]. cbn. split; [lia|]. split; [auto 12|]. right; lia.
      - exists 0%nat, [7; 6]. cbn. split; [lia|]. split; [auto 12|]. left; lia.
      - exists 0%nat, [6; 6]. cbn. split; [lia|]. split; [auto 12|]. right; lia.
      - exists 1%nat, [6; 6]. cbn. split; [lia|]. split; [auto 12|]. right; lia.
      - exists 1%nat, [7; 6]. cbn. split; [lia|]. split; [auto 12|]. right; lia. }
    destruct NB as (d & q & Hd & Hq & [[E1 E2]|[E1 E2]]); exists d, l, q; (split; [exact Hd|]); (split; [apply exMesh_leaf; exact Hq|]); [left|right]; apply SF; auto.
Qed.
Example C81_example : exists rec s nnz, ghost_recursion 4 1 1 roomRef exGhosts PropsAdapt.exMesh = Some rec /\
  sum_assemble_matrix (exLayout false 2 1000) rec 1 3 1 roomRef PropsAdapt.exMesh PropsBoundary.exDomain false exSum exCalls 1%Q = Some s /\ sum_preallocation 3000 (exLayout false 2 1000) rec 1 3 roomRef exGhosts PropsAdapt.exMesh PropsBoundary.exDomain false exSum exCalls = Some nnz /\
  forall r cols, 1000 <= r < 2176 -> NoDup cols -> (forall c, In c cols -> ~ (as_mat s r c == 0)%Q) -> Z.of_nat (length cols) <= nnz r.
Proof.
  destruct C81_hypotheses as (SY & EL & SM & HF). destruct C78_conditions as (GC & _ & BC & _).
  apply (C81_preallocation 1 3 roomHist 3 PropsGrad.star2 PropsAdapt.exMesh PropsBoundary.exDomain 1 false 1 exGhosts (exLayout false 2 1000) 3 4 exSum exLine exCalls 1%Q 3000 SY EL SM eq_refl eq_refl); [cbn; lia|vm_compute; discriminate|exact GC| |exact HF].
  intros b eq Hb He. apply (BC b eq Hb He).
Qed.

(** The same with the default stencils of two and four cells. *)
Definition exDefault (size d : nat) : lin_flux := mkLF (line_stencil 1 d size) (fun h => map (fun i _ _ => inject_Z (Z.of_nat i + 1)) (seq 0 size)).
Example C81_line_hypotheses : Forall (fun lfs => system 1 3 roomHist 3 PropsGrad.star2 PropsAdapt.exMesh PropsBoundary.exDomain 1 false lfs 1 exGhosts (exLayout false 2 1000) 3 4) [exDefault 2; exDefault 4] /\
  (forall lfs d, In lfs [exDefault 2; exDefault 4] -> (d <= 1)%nat -> lf_stencil (lfs d) = line_stencil 1 d (stencil_size lfs)).
Proof.
  destruct C81_hypotheses as (SY & _). rewrite Forall_forall in SY. pose proof (SY PropsSum.exDiffusion (or_introl eq_refl)) as [LA GM HN DB LV]. pose proof (sy_mesh _ _ _ _ _ _ _ _ _ _ _ _ _ _ _ (SY exLine (or_intror (or_introl eq_refl)))) as LB. split.
  - constructor; [|constructor; [|constructor]]; (constructor; [|exact GM|exact HN|discriminate|exact LV]).
    + apply (reordered 1 3 roomHist 3 PropsGrad.star2 PropsAdapt.exMesh PropsBoundary.exDomain 1 false PropsSum.exDiffusion _ LA); [|reflexivity]. intros d v Hd. destruct d as [|[|d]]; [reflexivity|reflexivity|lia].
    + apply (reordered 1 3 roomHist 3 PropsGrad.star2 PropsAdapt.exMesh PropsBoundary.exDomain 1 false exLine _ LB); [|reflexivity].
      intros d v Hd. destruct d as [|[|d]]; [| |lia]; cbn; tauto.
  - intros lfs d [<- | [<- | []]] _; reflexivity.
Qed.

(** ** A statement which does not hold *)

(** The size of a stencil does not say which cells are in it. Eight leaves in one dimension and
    two schemes whose stencils have three cells each: the first announces six coefficients for
    the rows of the leaves that are not on the boundary, the sum has seven in these rows. *)
Definition rowHist (l : nat) : list lcl_call := match l with 3%nat => [AddI [] (mk (-4) 12)] | _ => [] end.
Definition rowLeaves (l : nat) : list lcl_call := match l with 3%nat => [AddI [] (mk 0 8)] | _ => [] end.
Definition rowRef : ca := client_ca 0 3 rowHist true.
Definition rowCells : ca := client_ca 0 3 rowLeaves true.
Definition rowDomain : lca := client_lca 0 3 [AddI [] (mk 0 8)].
Definition threeCells (far : Z) (d : nat) : lin_flux := mkLF [[0]; [1]; [far]] (fun h => [fun _ _ => 1%Q; fun _ _ => 2%Q; fun _ _ => 4%Q]).
Definition rowOps : operators := [threeCells 3; threeCells (-2)].
Definition rowLayout : layout := mkLy 16 false 1 1 0 0.
Definition rowMatrix (rec : recursion) : option asm := sum_assemble_matrix rowLayout rec 0 3 1 rowRef rowCells rowDomain false rowOps [] 1%Q.
Definition rowCounts (rec : recursion) : option counts := sum_preallocation 16 rowLayout rec 0 3 rowRef rowRef rowCells rowDomain false rowOps [].
Definition row_check (R : option recursion) (M : recursion -> option asm) (P : recursion -> option counts) : option (Z * list bool) :=
  match R with
  | None => None
  | Some rec => match P rec, M rec with Some nnz, Some s => Some (nnz 7, map (fun c => Qeq_bool (as_mat s 7 c) 0) [4; 5; 6; 7; 8; 9; 10]) | _, _ => None end
  end.
Lemma row_numbers : row_check (ghost_recursion 4 0 1 rowRef rowRef rowCells) rowMatrix rowCounts = Some (6, repeat false 7).
Proof. vm_compute. reflexivity. Qed.
Lemma row_checked : forall R M P, row_check R M P = Some (6, repeat false 7) -> exists rec s nnz, R = Some rec /\ M rec = Some s /\ P rec = Some nnz /\ (forall c, In c [4; 5; 6; 7; 8; 9; 10] -> ~ (as_mat s 7%Z c == 0)%Q) /\ nnz 7 = 6.
Proof.
  intros [rec|] M P H; [|discriminate H]. unfold row_check in H. destruct (P rec) as [nnz|] eqn:E1; [|discriminate H]. destruct (M rec) as [s|] eqn:E2; [|discriminate H]. exists rec, s, nnz. split; [reflexivity|]. split; [exact E2|]. split; [exact E1|].
  assert (H1 : nnz 7 = 6) by congruence. assert (H2 : map (fun c => Qeq_bool (as_mat s 7 c) 0) [4; 5; 6; 7; 8; 9; 10] = repeat false 7) by congruence. split; [|exact H1].
  intros c Hc Z0. apply Qeq_bool_iff in Z0. apply (in_map (fun c => Qeq_bool (as_mat s 7 c) 0)) in Hc. rewrite H2, Z0 in Hc. cbn [In repeat] in Hc. repeat (destruct Hc as [Hc|Hc]; [discriminate Hc|]). destruct Hc.
Qed.
Theorem C81_sizes_refuted : stencil_size (threeCells 3) = 3%nat /\ stencil_size (threeCells (-2)) = 3%nat /\
  exists rec s nnz cols, ghost_recursion 4 0 1 rowRef rowRef rowCells = Some rec /\
    rowMatrix rec = Some s /\ rowCounts rec = Some nnz /\
    ca_get_index 0 rowRef 3 [3] = Some 7 /\ NoDup cols /\ (forall c, In c cols -> ~ (as_mat s 7%Z c == 0)%Q) /\ length cols = 7%nat /\ nnz 7 = 6.
Proof.
  split; [reflexivity|]. split; [reflexivity|]. destruct (row_checked _ _ _ row_numbers) as (rec & s & nnz & E1 & E2 & E3 & H1 & H2). exists rec, s, nnz, [4; 5; 6; 7; 8; 9; 10].
  split; [exact E1|]. split; [exact E2|]. split; [exact E3|]. split; [vm_compute; reflexivity|]. split; [repeat constructor; cbn; lia|]. split; [exact H1|]. split; [reflexivity|exact H2].
Qed.

Print Assumptions C81_preallocation.
Print Assumptions C81_line.
Print Assumptions C81_nested.
Print Assumptions C81_line_stencils.
Print Assumptions C81_hypotheses.
Print Assumptions C81_sizes_refuted.
