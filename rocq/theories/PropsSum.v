(** C80: the algebra of linear schemes: multiples, sums of schemes of the same configuration,
    OperatorSum, in explicit form and in the matrix. *)
From Coq Require Import QArith Permutation.
From Verif Require PropsGrad PropsExact.
From Verif Require Import Base IntervalModel Spec LoiModel LcaModel LcaSpec LcaProofs LcaProofs3 RowsProofs CellArrayModel CellArrayProofs
  PropsLca PropsCellArray SubsetModel TreeProofs SubsetSpec SubsetProofs2 PropsSubset StencilModel NumberingProofs StencilProofs PropsStencil
  MeshModel MeshProofs PropsMesh AdaptModel AdaptProofs TagProofs PropsAdapt InterfaceModel InterfaceProofs PropsInterface GeomModel FluxModel BoundaryProofs PropsBoundary FluxProofs NumModel NumProofs GhostModel
  ReconModel ReconProofs ReconProofs2 PropsFlux LinFluxModel LinFluxProofs LinFluxProofs2 PropsLinFlux AssemblyModel AssemblyProofs AssemblyProofs2 PropsAssembly AssemblyProofs3 AssemblyProofs4 AssemblyProofs5 AssemblyProofs6 AssemblyProofs7 PropsAssembly2 SumModel SumProofs SumProofs2.
Open Scope Z_scope.

(** ** Multiples and sums of schemes *)

(** The scheme [scalar * s] computes [scalar] times the field of [s]. *)
Theorem C80_scale : forall n m hist maxl st cells domain scaling ib lfs debug os fs scalar u, lin_mesh n m hist maxl st cells domain scaling ib lfs -> let ref := client_ca n m hist true in
  exists o o', lin_apply_to debug n maxl os fs scaling ref cells domain ib u lfs = Some o /\ lin_apply_to debug n maxl os fs scaling ref cells domain ib u (scheme_scale scalar lfs) = Some o' /\
    forall i k, (o' i k == scalar * o i k)%Q.
Proof.
  intros n m hist maxl st cells domain scaling ib lfs debug os fs scalar u LM ref. assert (H : forall d, (d <= n)%nat -> lcomb scalar 0 (lfs d) (lfs d) (scheme_scale scalar lfs d)) by (intros d _; apply scale_comb).
  destruct (comb_apply scalar 0 n m hist maxl st cells domain scaling ib lfs lfs (scheme_scale scalar lfs) debug os fs u LM LM (comb_mesh _ _ _ _ _ _ _ _ _ _ _ _ _ _ LM H) H) as (o1 & o2 & o3 & E1 & _ & E3 & S3).
  exists o1, o3. split; [exact E1|]. split; [exact E3|]. intros i k. rewrite S3. ring.
Qed.
Theorem C80_minus : forall n m hist maxl st cells domain scaling ib lfs debug os fs u, lin_mesh n m hist maxl st cells domain scaling ib lfs -> let ref := client_ca n m hist true in
  exists o o', lin_apply_to debug n maxl os fs scaling ref cells domain ib u lfs = Some o /\ lin_apply_to debug n maxl os fs scaling ref cells domain ib u (scheme_neg lfs) = Some o' /\
    forall i k, (o' i k == - o i k)%Q.
Proof.
  intros n m hist maxl st cells domain scaling ib lfs debug os fs u LM. destruct (C80_scale n m hist maxl st cells domain scaling ib lfs debug os fs (-1) u LM) as (o & o' & E & E' & S').
  exists o, o'. split; [exact E|]. split; [exact E'|]. intros i k. rewrite S'. ring.
Qed.

(** The scheme [a + b] computes the sum of the two fields, if the stencils are the same. *)
Theorem C80_plus : forall n m hist maxl st cells domain scaling ib a b debug os fs u, lin_mesh n m hist maxl st cells domain scaling ib a -> lin_mesh n m hist maxl st cells domain scaling ib b ->
  (forall d, (d <= n)%nat -> lf_stencil (b d) = lf_stencil (a d)) -> (forall d h, (d <= n)%nat -> length (lf_cons (a d) h) = length (lf_cons (b d) h)) -> let ref := client_ca n m hist true in
  exists oa ob o, lin_apply_to debug n maxl os fs scaling ref cells domain ib u a = Some oa /\ lin_apply_to debug n maxl os fs scaling ref cells domain ib u b = Some ob /\
    lin_apply_to debug n maxl os fs scaling ref cells domain ib u (scheme_plus a b) = Some o /\ forall i k, (o i k == oa i k + ob i k)%Q.
Proof.
  intros n m hist maxl st cells domain scaling ib a b debug os fs u LA LB HS HL ref.
  assert (H : forall d, (d <= n)%nat -> lcomb 1 1 (a d) (b d) (scheme_plus a b d)) by (intros d Hd; apply plus_comb; [apply HS; exact Hd|intros h; apply HL; exact Hd]).
  destruct (comb_apply 1 1 n m hist maxl st cells domain scaling ib a b (scheme_plus a b) debug os fs u LA LB (comb_mesh _ _ _ _ _ _ _ _ _ _ _ _ _ _ LA H) H) as (o1 & o2 & o3 & E1 & E2 & E3 & S3).
  exists o1, o2, o3. split; [exact E1|]. split; [exact E2|]. split; [exact E3|]. intros i k. rewrite S3. ring.
Qed.

(** ** OperatorSum *)

(** The operators of a sum may have any stencils: the field is the sum of the fields, and
    [scalar * sum] computes [scalar] times the field. *)
Theorem C80_operator_sum : forall n m hist maxl st cells domain scaling ib ops debug os fs u scalar, Forall (lin_mesh n m hist maxl st cells domain scaling ib) ops -> let ref := client_ca n m hist true in
  exists outs out out', Forall2 (fun lfs o => lin_apply_to debug n maxl os fs scaling ref cells domain ib u lfs = Some o) ops outs /\
    sum_apply_to debug n maxl os fs scaling ref cells domain ib u ops = Some out /\ (forall i k, (out i k == fold_right (fun (o : output) q => o i k + q)%Q 0%Q outs)%Q) /\
    sum_apply_to debug n maxl os fs scaling ref cells domain ib u (operators_scale scalar ops) = Some out' /\ (forall i k, (out' i k == scalar * out i k)%Q).
Proof.
  intros n m hist maxl st cells domain scaling ib ops debug os fs u scalar F ref.
  destruct (sum_apply_spec n m hist maxl st cells domain scaling ib debug os fs u ops F) as (outs & F2 & A). destruct (A (fun _ _ => 0%Q)) as (out & E & S1).
  assert (F' : Forall (lin_mesh n m hist maxl st cells domain scaling ib) (operators_scale scalar ops)).
  { apply Forall_map. eapply Forall_impl; [|exact F]. intros lfs LM. apply (comb_mesh scalar 0 n m hist maxl st cells domain scaling ib lfs lfs); [exact LM|]. intros d _. apply scale_comb. }
  destruct (sum_apply_spec n m hist maxl st cells domain scaling ib debug os fs u _ F') as (outs' & F2' & A'). destruct (A' (fun _ _ => 0%Q)) as (out' & E' & S1').
  exists outs, out, out'. split; [exact F2|]. split; [exact E|]. split; [|split; [exact E'|]].
  - intros i k. rewrite S1, Qplus_0_l. clear. induction outs as [|o outs IH]; cbn [sum_outs fold_right]; [reflexivity|]. rewrite IH. reflexivity.
  - intros i k. rewrite S1, S1'. assert (G : forall i k, (sum_outs outs' i k == scalar * sum_outs outs i k)%Q); [|rewrite G; ring].
    clear A A' E E' S1 S1' F' i k. revert outs outs' F2 F2'. induction F as [|lfs ops LM F IH]; intros outs outs' F2 F2' i k; inversion F2; subst; cbn [operators_scale map] in F2'; inversion F2'; subst; cbn [sum_outs]; [ring|].
    destruct (C80_scale n m hist maxl st cells domain scaling ib lfs debug os fs scalar u LM) as (o & o' & Eo & Eo' & So).
    match goal with H1 : lin_apply_to _ _ _ _ _ _ _ _ _ _ _ lfs = Some ?a, H2 : lin_apply_to _ _ _ _ _ _ _ _ _ _ _ (scheme_scale scalar lfs) = Some ?b |- _ =>
      assert (a = o) by (enough (Some a = Some o) by congruence; rewrite <- H1; exact Eo); assert (b = o') by (enough (Some b = Some o') by congruence; rewrite <- H2; exact Eo') end.
    subst. rewrite So. match goal with H1 : Forall2 _ ops ?l, H2 : Forall2 _ (map _ ops) ?l' |- _ => rewrite (IH l l' H1 H2 i k) end. ring.
Qed.

(** The operator whose assembly sets the boundary conditions: the first one of those with the
    largest stencil. *)
Theorem C80_largest : forall ops, ops <> [] -> exists lfs, nth_error ops (largest_stencil_index ops) = Some lfs /\ (forall o, In o ops -> (length (lf_stencil (o 0%nat)) <= length (lf_stencil (lfs 0%nat)))%nat) /\
  forall j o, (j < largest_stencil_index ops)%nat -> nth_error ops j = Some o -> (length (lf_stencil (o 0%nat)) < length (lf_stencil (lfs 0%nat)))%nat.
Proof. exact largest_spec. Qed.

(** The matrix of a sum: the rows of the leaves compute the explicit sum, the others are those
    of C78. *)
Theorem C80_matrix : forall n m hist maxl st cells domain scaling ib order cg y N fuel ops calls dv, let ref := client_ca n m hist true in
  ops <> [] -> Forall (fun lfs => system n m hist maxl st cells domain scaling ib lfs order cg y N fuel) ops ->
  ly_os y = ly_fs y -> ly_row_shift y = ly_col_shift y -> good_calls (ly_cells y) (leaf_number n ref cells) calls -> (forall l p, ca_mem n cells l p -> has_face n cells domain ib l p) ->
  exists rec s, ghost_recursion fuel n order ref cg cells = Some rec /\ sum_assemble_matrix y rec n maxl scaling ref cells domain ib ops calls dv = Some s /\
    (forall debug x v, represents n order ref cg cells y x v -> exists out, sum_apply_to debug n maxl (ly_os y) (ly_fs y) scaling ref cells domain ib v ops = Some out /\
      forall k fi, leaf_number n ref cells k -> (fi < ly_os y)%nat -> (product y (as_mat s) x (row_index y k fi) == out k fi)%Q) /\
    (forall b eq fi x, In b calls -> In eq (bc_eqs b) -> (fi < ly_os y)%nat -> (exists c, (c < length (bc_cells b))%nat /\ ~ (nth c (eq_coeffs eq) bc_m0 fi fi == 0)%Q) ->
      (product y (as_mat s) x (row_index y (ghost_cell b eq) fi) == sum_over (fun c => nth c (eq_coeffs eq) bc_m0 fi fi * x (col_index y (sc_index (nth c (bc_cells b) bc_e0)) fi)) (seq 0 (length (bc_cells b))))%Q) /\
    (forall k fi x, 0 <= k < ly_cells y -> (fi < ly_os y)%nat -> ~ leaf_number n ref cells k -> (forall b eq, In b calls -> In eq (bc_eqs b) -> k <> ghost_cell b eq) -> (product y (as_mat s) x (row_index y k fi) == dv * x (col_index y k fi))%Q).
Proof.
  intros n m hist maxl st cells domain scaling ib order cg y N fuel ops calls dv ref NE F SQ SH GC FACE.
  destruct (sum_matrix_facts n m hist maxl st cells domain scaling ib order cg y N fuel ops calls dv NE F SQ SH GC FACE) as (rec & s & E & E1 & F1 & _ & F3 & F4). exists rec, s.
  split; [exact E|]. split; [exact E1|]. split; [|split].
  - intros debug x v RP. destruct (F1 debug x v RP) as (out & Eo & So). exists out. split; [exact Eo|]. intros k fi (l & p & Hp & Ek) Hf. exact (So l p k fi Hp Ek Hf (FACE l p Hp)).
  - intros b eq fi x Hb He Hf NZ. apply (F3 b eq fi Hb He Hf NZ).
  - intros k fi x Hk Hf NL NG. apply (F4 k fi Hk Hf NL NG).
Qed.

(** A vector is a solution of the linear system of a sum if and only if the field satisfies
    the explicit sum on the leaves and the equations of the boundary, and the vector is zero
    on all other cells. *)
Theorem C80_solution : forall n m hist maxl st cells domain scaling ib order cg y N fuel ops calls dv b, let ref := client_ca n m hist true in
  ops <> [] -> Forall (fun lfs => system n m hist maxl st cells domain scaling ib lfs order cg y N fuel) ops ->
  ly_os y = ly_fs y -> ly_row_shift y = ly_col_shift y -> good_calls (ly_cells y) (leaf_number n ref cells) calls -> ~ (dv == 0)%Q ->
  (forall c eq, In c calls -> In eq (bc_eqs c) -> ~ ghost_number n ref cg cells (ghost_cell c eq) /\ forall fi, (fi < ly_os y)%nat -> exists j, (j < length (bc_cells c))%nat /\ ~ (nth j (eq_coeffs eq) bc_m0 fi fi == 0)%Q) ->
  (forall l p, ca_mem n cells l p -> has_face n cells domain ib l p) ->
  exists rec s b', ghost_recursion fuel n order ref cg cells = Some rec /\ sum_assemble_matrix y rec n maxl scaling ref cells domain ib ops calls dv = Some s /\ prepare_rhs y n ref cg cells calls (as_empty s) b = Some b' /\
    forall debug x v, represents n order ref cg cells y x v -> exists out, sum_apply_to debug n maxl (ly_os y) (ly_fs y) scaling ref cells domain ib v ops = Some out /\
      ((forall r, ly_row_shift y <= r < ly_row_shift y + ly_cells y * Z.of_nat (ly_os y) -> (product y (as_mat s) x r == b' r)%Q) <->
       (forall k fi, leaf_number n ref cells k -> (fi < ly_os y)%nat -> (out k fi == b (row_index y k fi))%Q) /\
       (forall c eq fi, In c calls -> In eq (bc_eqs c) -> (fi < ly_os y)%nat ->
         (sum_over (fun j => nth j (eq_coeffs eq) bc_m0 fi fi * x (col_index y (sc_index (nth j (bc_cells c) bc_e0)) fi)) (seq 0 (length (bc_cells c))) == eq_rhs eq fi fi * bc_val c fi)%Q) /\
       (forall k fi, 0 <= k < ly_cells y -> (fi < ly_os y)%nat -> ~ leaf_number n ref cells k -> (forall c eq, In c calls -> In eq (bc_eqs c) -> k <> ghost_cell c eq) -> (x (col_index y k fi) == 0)%Q)).
Proof.
  intros n m hist maxl st cells domain scaling ib order cg y N fuel ops calls dv b ref NE F SQ SH GC DV BC FACE.
  destruct (sum_matrix_facts n m hist maxl st cells domain scaling ib order cg y N fuel ops calls dv NE F SQ SH GC FACE) as (rec & s & E & E1 & F1 & F2 & F3 & F4).
  assert (SY : exists lfs, system n m hist maxl st cells domain scaling ib lfs order cg y N fuel) by (destruct ops as [|lfs ops]; [contradiction|]; exists lfs; exact (Forall_inv F)). destruct SY as (lfs & SY).
  destruct (solution_facts n m hist maxl st cells domain scaling ib lfs order cg y N fuel SY SQ s calls dv b GC DV BC FACE F2 F3 F4) as (b' & Eb & SOL).
  exists rec, s, b'. split; [exact E|]. split; [exact E1|]. split; [exact Eb|]. intros debug x v RP. destruct (F1 debug x v RP) as (out & Eo & So). exists out. split; [exact Eo|]. exact (SOL x out So).
Qed.

(** ** Examples *)

(** Another order of the cells of the stencil, or cells twice: the same hypotheses. *)
Lemma fits_incl : forall n ref s s' l z, (forall v, In v s' -> In v s) -> fits_at n ref s l z -> fits_at n ref s' l z.
Proof. intros n ref s s' l z H [F1 F2]. split; [intros v Hv; apply F1; auto|intros v x Hv; apply F2; auto]. Qed.
Lemma minus_incl : forall (s s' : stencil) d, (forall v, In v s' -> In v s) -> forall v, In v (stencil_minus s' d) -> In v (stencil_minus s d).
Proof. intros s s' d H v Hv. unfold stencil_minus in *. apply in_map_iff in Hv as (w & <- & Hw). apply in_map_iff. exists w. auto. Qed.
Lemma reordered : forall n m hist maxl st cells domain scaling ib lfs lfs', lin_mesh n m hist maxl st cells domain scaling ib lfs ->
  (forall d v, (d <= n)%nat -> In v (lf_stencil (lfs' d)) <-> In v (lf_stencil (lfs d))) -> (forall d h, (d <= n)%nat -> length (lf_cons (lfs' d) h) = length (lf_stencil (lfs' d))) ->
  lin_mesh n m hist maxl st cells domain scaling ib lfs'.
Proof.
  intros n m hist maxl st cells domain scaling ib lfs lfs' [G HS HM HR HB HG HC] H HL. split; auto.
  - intros d Hd. destruct (HR d Hd) as [R1 R2 R3 R4]. assert (I : forall v, In v (lf_stencil (lfs' d)) -> In v (lf_stencil (lfs d))) by (intros v Hv; apply H; auto). split; auto.
    + intros l z A B. exact (fits_incl _ _ _ _ _ _ I (R2 l z A B)).
    + intros l z A B C. exact (fits_incl _ _ _ _ _ _ I (R3 l z A B C)).
    + intros l z A B C. exact (fits_incl _ _ _ _ _ _ (minus_incl _ _ _ I) (R4 l z A B C)).
  - intros Hb d Hd. destruct (HB Hb d Hd) as [B1 B2 B3 B4 B5 B6 B7 B8]. assert (I : forall v, In v (lf_stencil (lfs' d)) -> In v (lf_stencil (lfs d))) by (intros v Hv; apply H; auto). split; auto.
    + intros l z A B. destruct (B7 l z A B) as (C1 & C2 & C3). split; [exact C1|]. split; [exact C2|]. exact (fits_incl _ _ _ _ _ _ I C3).
    + intros l z A B. destruct (B8 l z A B) as (C1 & C2 & C3). split; [exact C1|]. split; [exact C2|]. exact (fits_incl _ _ _ _ _ _ (minus_incl _ _ _ I) C3).
  - intros d Hd. destruct (HG d Hd) as (G1 & G2 & G3). split; [intros v Hv; apply G1, H; auto|]. split; apply H; auto.
Qed.

(** The mesh of the example of C78 with the diffusion scheme, the same with the two cells of
    the stencil exchanged, and a scheme with a stencil of size 3. *)
Definition exDiffusion : nat -> lin_flux := exOp (diffusion_coeffs (fun d => inject_Z (Z.of_nat d + 1))).
Definition exExchanged (d : nat) : lin_flux := mkLF (rev (lf_stencil (exDiffusion d))) (fun h => rev (lf_cons (exDiffusion d) h)).
Definition exThree (d : nat) : lin_flux := mkLF [repeat 0 2; unit_mult 1 d 1; repeat 0 2] (fun h => [fun i j => (inject_Z (Z.of_nat i))%Q; fun i j => h; fun i j => 1%Q]).
Definition exOps : operators := [exDiffusion; exThree; exExchanged].

Lemma exStencils : forall o d v, In o exOps -> (d <= 1)%nat -> In v (lf_stencil (o d)) <-> In v (lf_stencil (exDiffusion d)).
Proof.
  intros o d v Ho Hd. destruct Ho as [<- | [<- | [<- | []]]]; [reflexivity| |].
  - cbn [exThree exDiffusion exOp lf_stencil in_out_stencil In]. intuition.
  - cbn [exExchanged lf_stencil]. rewrite <- in_rev. reflexivity.
Qed.
Example C80_hypotheses : Forall (fun lfs => system 1 3 roomHist 3 PropsGrad.star2 exMesh exDomain 1 true lfs 1 exGhosts (exLayout false 2 1000) 3 4) exOps /\ largest_stencil_index exOps = 1%nat.
Proof.
  split; [|reflexivity]. apply Forall_forall. intros o Ho. destruct (C78_system (diffusion_coeffs (fun d => inject_Z (Z.of_nat d + 1))) false 2 2 1000 1000 ltac:(reflexivity)) as [LM GM HN DB LV]. constructor; auto.
  - apply (reordered 1 3 roomHist 3 PropsGrad.star2 exMesh exDomain 1 true exDiffusion o LM).
    + intros d v Hd. apply exStencils; auto.
    + intros d h Hd. destruct Ho as [<- | [<- | [<- | []]]]; reflexivity.
  - intros Hb d l p v Hd Hp Hv. apply (DB Hb d l p v Hd Hp). apply (exStencils o d v Ho Hd). exact Hv.
Qed.
Example C80_example : forall b, exists rec s b', ghost_recursion 4 1 1 roomRef exGhosts exMesh = Some rec /\
  sum_assemble_matrix (exLayout false 2 1000) rec 1 3 1 roomRef exMesh exDomain true exOps exCalls 1%Q = Some s /\ prepare_rhs (exLayout false 2 1000) 1 roomRef exGhosts exMesh exCalls (as_empty s) b = Some b'.
Proof.
  intros b. destruct C78_conditions as (GC & _ & BC & HF). destruct C80_hypotheses as (SY & _).
  destruct (C80_solution 1 3 roomHist 3 PropsGrad.star2 exMesh exDomain 1 true 1 exGhosts (exLayout false 2 1000) 3 4 exOps exCalls 1%Q b ltac:(discriminate) SY eq_refl eq_refl GC ltac:(discriminate) BC HF) as (rec & s & b' & E1 & E2 & E3 & _).
  exists rec, s, b'. auto.
Qed.
(** The sum is not zero. *)
Definition leaf_values (o : option output) (k : nat) : option (list Q) := option_map (fun out : output => map (fun c => Qred (out (index_of 1 roomRef c) k)) PropsInterface.exLeaves) o.
Definition exApply (lfs : nat -> lin_flux) : option output := lin_apply_to true 1 3 2 2 1 roomRef exMesh exDomain true exField lfs.
Example C80_numbers : exists a b c s, leaf_values (exApply exDiffusion) 0 = Some a /\ leaf_values (exApply exThree) 0 = Some b /\ leaf_values (exApply exExchanged) 0 = Some c /\
  leaf_values (sum_apply_to true 1 3 2 2 1 roomRef exMesh exDomain true exField exOps) 0 = Some s /\ nth 0 a 0%Q <> 0%Q /\ nth 0 b 0%Q <> 0%Q /\ c = a /\ nth 0 s 0%Q = Qred (nth 0 a 0 + nth 0 b 0 + nth 0 c 0)%Q.
Proof. do 4 eexists. repeat (split; [vm_compute; first [reflexivity | discriminate]|]). vm_compute. reflexivity. Qed.

(** ** A statement which does not hold *)

(** The configuration of a scheme contains the size of the stencil, not the stencil. For two
    schemes of the same size with other stencils [a + b] is accepted and takes the stencil of
    [a] for the coefficients of [b]: here [b] is the scheme [a] with the two cells of the
    stencil and the two coefficients exchanged, and computes the same field as [a]; the scheme
    [a + b] computes neither the sum nor twice the field. *)
Theorem C80_plus_refuted :
  lin_mesh 1 3 roomHist 3 PropsGrad.star2 exMesh exDomain 1 true exDiffusion /\ lin_mesh 1 3 roomHist 3 PropsGrad.star2 exMesh exDomain 1 true exExchanged /\
  (forall d, stencil_size exExchanged = stencil_size exDiffusion /\ forall v, In v (lf_stencil (exExchanged d)) <-> In v (lf_stencil (exDiffusion d))) /\
  exists a s, leaf_values (exApply exDiffusion) 0 = Some a /\ leaf_values (exApply exExchanged) 0 = Some a /\ leaf_values (exApply (scheme_plus exDiffusion exExchanged)) 0 = Some s /\
    s = map (fun _ => 0%Q) PropsInterface.exLeaves /\ ~ (nth 0 s 0 == nth 0 a 0 + nth 0 a 0)%Q.
Proof.
  destruct C80_hypotheses as (SY & _). rewrite Forall_forall in SY.
  split; [exact (sy_mesh _ _ _ _ _ _ _ _ _ _ _ _ _ _ _ (SY exDiffusion (or_introl eq_refl)))|].
  split; [exact (sy_mesh _ _ _ _ _ _ _ _ _ _ _ _ _ _ _ (SY exExchanged (or_intror (or_intror (or_introl eq_refl)))))|].
  split; [intros d; split; [reflexivity|intros v; cbn [exExchanged lf_stencil]; rewrite <- in_rev; reflexivity]|].
  do 2 eexists. repeat (split; [vm_compute; reflexivity|]). vm_compute. discriminate.
Qed.

Print Assumptions C80_scale.
Print Assumptions C80_minus.
Print Assumptions C80_plus.
Print Assumptions C80_operator_sum.
Print Assumptions C80_largest.
Print Assumptions C80_matrix.
Print Assumptions C80_solution.
Print Assumptions C80_plus_refuted.
