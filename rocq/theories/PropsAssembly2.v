(** C78: the assembly of the matrix of a scheme (petsc/): the linear system is the explicit scheme. *)
From Coq Require Import QArith Permutation.
From Verif Require PropsGrad PropsExact.
From Verif Require Import Base IntervalModel Spec LoiModel LcaModel LcaSpec LcaProofs LcaProofs3 RowsProofs CellArrayModel CellArrayProofs
  PropsLca PropsCellArray SubsetModel TreeProofs SubsetSpec SubsetProofs2 PropsSubset StencilModel NumberingProofs StencilProofs PropsStencil
  MeshModel MeshProofs PropsMesh AdaptModel AdaptProofs TagProofs PropsAdapt InterfaceModel InterfaceProofs PropsInterface GeomModel FluxModel BoundaryProofs PropsBoundary FluxProofs NumModel NumProofs GhostModel
  ReconModel ReconProofs ReconProofs2 PropsFlux LinFluxModel LinFluxProofs LinFluxProofs2 PropsLinFlux AssemblyModel AssemblyProofs AssemblyProofs2 PropsAssembly AssemblyProofs3 AssemblyProofs4 AssemblyProofs5 AssemblyProofs6 AssemblyProofs7.
Open Scope Z_scope.

(** ** Rows and columns *)

(** Each component of each cell has its row (its column), and all rows are used. *)
Theorem C78_indices : forall y,
  (forall c f, 0 <= c < ly_cells y -> (f < ly_os y)%nat -> ly_row_shift y <= row_index y c f < ly_row_shift y + ly_cells y * Z.of_nat (ly_os y)) /\
  (forall c f c' f', 0 <= c < ly_cells y -> 0 <= c' < ly_cells y -> (f < ly_os y)%nat -> (f' < ly_os y)%nat -> row_index y c f = row_index y c' f' -> c = c' /\ f = f') /\
  (forall r, ly_row_shift y <= r < ly_row_shift y + ly_cells y * Z.of_nat (ly_os y) -> exists c f, 0 <= c < ly_cells y /\ (f < ly_os y)%nat /\ r = row_index y c f) /\
  (forall c f, 0 <= c < ly_cells y -> (f < ly_fs y)%nat -> ly_col_shift y <= col_index y c f < ly_col_shift y + ly_cells y * Z.of_nat (ly_fs y)) /\
  (forall c f c' f', 0 <= c < ly_cells y -> 0 <= c' < ly_cells y -> (f < ly_fs y)%nat -> (f' < ly_fs y)%nat -> col_index y c f = col_index y c' f' -> c = c' /\ f = f') /\
  (forall r, ly_col_shift y <= r < ly_col_shift y + ly_cells y * Z.of_nat (ly_fs y) -> exists c f, 0 <= c < ly_cells y /\ (f < ly_fs y)%nat /\ r = col_index y c f).
Proof.
  intros y. repeat split; intros; try (eapply data_range; eauto; fail); try (eapply data_inj; eauto; fail); try (eapply data_onto; eauto; fail).
  all: try (match goal with H : row_index _ _ _ = _ |- _ => apply data_inj in H as [? ?] | H : col_index _ _ _ = _ |- _ => apply data_inj in H as [? ?] end; auto).
  all: try (unfold row_index, col_index; match goal with |- context [data_index ?a ?b ?c ?d ?e ?f] => pose proof (data_range a b c d e f ltac:(auto) ltac:(auto)) end; lia).
Qed.

(** ** The cells *)
Definition ghost_number (n : nat) (ref cg cells : ca) (k : Z) : Prop := exists l p, (proj_ghost n cg cells l p \/ pred_ghost n cg cells l p) /\ ca_get_index n ref l p = Some k.
Definition leaf_number (n : nat) (ref cells : ca) (k : Z) : Prop := exists l p, ca_mem n cells l p /\ ca_get_index n ref l p = Some k.
(** The stencils of the faces on the boundary contain no ghost of the two kinds. *)
Definition direct_boundary (n : nat) (cg cells : ca) (domain : lca) (lfs : nat -> lin_flux) : Prop := forall d l p v, (d <= n)%nat -> ca_mem n cells l p -> In v (lf_stencil (lfs d)) ->
  (outside n domain l (vadd n p (unit_mult n d 1)) -> ~ (proj_ghost n cg cells l (vadd n p v) \/ pred_ghost n cg cells l (vadd n p v))) /\
  (outside n domain l (vadd n p (unit_mult n d (-1))) -> ~ (proj_ghost n cg cells l (vadd n (vadd n p (unit_mult n d (-1))) v) \/ pred_ghost n cg cells l (vadd n (vadd n p (unit_mult n d (-1))) v))).

(** With the two cells of a face this always holds, if the leaves are inside the domain. *)
Theorem C78_two_cells : forall n m hist maxl st cells domain scaling op order cg, let lfs := fun d => mkLF (in_out_stencil n (unit_mult n d 1)) (op d) in
  lin_mesh n m hist maxl st cells domain scaling true lfs -> ghost_mesh n order (client_ca n m hist true) cg cells -> covers n cells domain -> direct_boundary n cg cells domain lfs.
Proof.
  intros n m hist maxl st cells domain scaling op order cg lfs LM GM CV.
  assert (OUT : forall l q, outside n domain l q -> (exists p, ca_mem n cells l p) -> ~ (proj_ghost n cg cells l q \/ pred_ghost n cg cells l q)).
  { intros l q Ho (p0 & Hp0) H. pose proof (lm_boundary _ _ _ _ _ _ _ _ _ _ LM eq_refl 0%nat (Nat.le_0_l n)) as BM. pose proof (bm_finest _ _ _ _ _ _ BM) as FI. set (M := a_level domain) in *.
    assert (HM : (l <= M)%nat) by (apply (FI l p0 Hp0)). destruct H as [(H1 & (c & Hc & ->) & _)|(H1 & H2 & H3 & _)].
    - assert (Lc : length c = S n) by apply Hc. pose proof (FI _ _ Hc) as HM'. destruct (descend (M - S l) c) as (z & Lz & Ez). apply (Ho z).
      + apply CV. split; [congruence|]. exists (S l). split; [exact HM'|]. fold M. rewrite Ez. exact Hc.
      + apply meets_ancestor; [exact HM|rewrite ancestor_length; exact Lc|congruence|]. rewrite <- Ez, ancestor_add. f_equal. lia.
    - assert (Lq : length q = S n) by apply H1. destruct (descend (M - l) q) as (z & Lz & Ez). apply (Ho z).
      + apply CV. split; [congruence|]. exists (Nat.pred l). fold M. split; [lia|]. replace (M - Nat.pred l)%nat with (1 + (M - l))%nat by lia. rewrite <- ancestor_add, Ez. exact H3.
      + apply meets_ancestor; [exact HM|exact Lq|congruence|exact Ez]. }
  assert (LEAF : forall l p, ca_mem n cells l p -> ~ (proj_ghost n cg cells l p \/ pred_ghost n cg cells l p)).
  { intros l p Hp [H|H]; [exact (leaf_not_proj n order _ cg cells GM l p Hp H)|exact (leaf_not_pred n order _ cg cells GM l p Hp H)]. }
  intros d l p v Hd Hp Hv. assert (Lp : length p = S n) by apply Hp. cbn [lfs lf_stencil] in Hv. unfold in_out_stencil in Hv. split; intros Ho; destruct Hv as [<-|[<-|[]]].
  - replace (vadd n p (repeat 0 (S n))) with p; [apply LEAF; exact Hp|]. symmetry. apply (list_ext n); [apply vadd_length|exact Lp|]. intros k Hk. rewrite nth_vadd by exact Hk. rewrite nth_repeat. lia.
  - apply OUT; eauto.
  - replace (vadd n (vadd n p (unit_mult n d (-1))) (repeat 0 (S n))) with (vadd n p (unit_mult n d (-1))); [apply OUT; eauto|]. symmetry. apply (list_ext n); try apply vadd_length. intros k Hk. rewrite (nth_vadd _ (vadd n p (unit_mult n d (-1)))) by exact Hk. rewrite nth_repeat. lia.
  - replace (vadd n (vadd n p (unit_mult n d (-1))) (unit_mult n d 1)) with p; [apply LEAF; exact Hp|]. symmetry. apply (list_ext n); [apply vadd_length|exact Lp|]. intros k Hk. rewrite !nth_vadd by exact Hk. rewrite !nth_unit by exact Hk. destruct (Nat.eqb k d); lia.
Qed.

(** ** The system *)
Record system (n m : nat) (hist : nat -> list lcl_call) (maxl : nat) (st : stencil) (cells : ca) (domain : lca) (scaling : Q) (ib : bool) (lfs : nat -> lin_flux) (order : nat) (cg : ca) (y : layout) (N fuel : nat) : Prop := {
  sy_mesh : lin_mesh n m hist maxl st cells domain scaling ib lfs;
  sy_ghosts : ghost_mesh n order (client_ca n m hist true) cg cells;
  sy_cells : ly_cells y = ca_nb_cells (client_ca n m hist true);
  sy_boundary : ib = true -> direct_boundary n cg cells domain lfs;
  sy_levels : (2 * max_level cells < 2 ^ N)%nat /\ (N < fuel)%nat }.

(** The product of a row and a vector. *)
Definition product (y : layout) (a : matrix) (x : Z -> Q) (r : Z) : Q := sum_over (fun c => a r c * x c)%Q (zrange (ly_col_shift y) (ly_col_shift y + ly_cells y * Z.of_nat (ly_fs y))).
(** A vector and the field it represents: the field is consistent on the ghosts, the vector
    may contain anything there. *)
Definition represents (n order : nat) (ref cg cells : ca) (y : layout) (x : Z -> Q) (v : output) : Prop :=
  (forall j, (j < ly_fs y)%nat -> ghost_equations n order ref cg cells (fun c => v c j)) /\
  (forall c j, 0 <= c < ly_cells y -> (j < ly_fs y)%nat -> ~ ghost_number n ref cg cells c -> (x (col_index y c j) == v c j)%Q).

Section Rows.
  Context (n m : nat) (hist : nat -> list lcl_call) (maxl : nat) (st : stencil) (cells : ca) (domain : lca) (scaling : Q) (ib : bool) (lfs : nat -> lin_flux) (order : nat) (cg : ca) (y : layout) (N fuel : nat).
  Context (SY : system n m hist maxl st cells domain scaling ib lfs order cg y N fuel).
  Notation ref := (client_ca n m hist true).
  Let LM := sy_mesh _ _ _ _ _ _ _ _ _ _ _ _ _ _ _ SY.
  Let NR : numbered n ref := numbered_client n m hist (lm_hist _ _ _ _ _ _ _ _ _ _ LM).
  Let GM := sy_ghosts _ _ _ _ _ _ _ _ _ _ _ _ _ _ _ SY.
  Let HN := sy_cells _ _ _ _ _ _ _ _ _ _ _ _ _ _ _ SY.

  Lemma stored_leaf : forall l p, ca_mem n cells l p -> ca_mem n ref l p.
  Proof. intros l p Hp. apply (sr_leaves _ _ _ _ _ (lm_room _ _ _ _ _ _ _ _ _ _ LM 0%nat (Nat.le_0_l n))). exact Hp. Qed.
  Lemma leaf_cellok : forall k, leaf_number n ref cells k -> cellok y k.
  Proof. intros k (l & p & Hp & Ek). destruct (numbered_index n ref l p NR (stored_leaf l p Hp)) as (i & Ei & R). unfold cellok. rewrite HN. congruence. Qed.

  Lemma recursion_facts : exists rec, ghost_recursion fuel n order ref cg cells = Some rec /\ (forall k lc j q, rec_find k rec = Some lc -> In (j, q) lc -> cellok y j) /\
    (forall k, rec_find k rec = None -> ~ ghost_number n ref cg cells k) /\ (ib = true -> direct n m hist cells domain lfs rec) /\
    (forall x v c j, represents n order ref cg cells y x v -> cellok y c -> (j < ly_fs y)%nat -> (xv y rec x c j == v c j)%Q).
  Proof.
    destruct (sy_levels _ _ _ _ _ _ _ _ _ _ _ _ _ _ _ SY) as [H1 H2]. destruct (C77_recursion n order ref cg cells N fuel GM NR H1 H2) as (rec & E & K & L & C & EQ). exists rec. split; [exact E|].
    assert (RR : forall k lc j q, rec_find k rec = Some lc -> In (j, q) lc -> cellok y j).
    { intros k lc j q Ek Hj. unfold cellok. rewrite HN. exact (recursion_entries n order ref cg cells fuel rec GM NR E k lc j q Ek Hj). }
    assert (NG : forall k, rec_find k rec = None -> ~ ghost_number n ref cg cells k).
    { intros k Ek (l & p & G & Ei). apply (proj2 (K l p k (ghost_stored n order ref cg cells GM l p G) Ei)); auto. }
    split; [exact RR|]. split; [exact NG|]. split.
    - intros Eib d l p v i Hd Hp Hv. destruct (sy_boundary _ _ _ _ _ _ _ _ _ _ _ _ _ _ _ SY Eib d l p v Hd Hp Hv) as [D1 D2].
      assert (BM := lm_boundary _ _ _ _ _ _ _ _ _ _ LM Eib d Hd). destruct (lm_stencil _ _ _ _ _ _ _ _ _ _ LM d Hd) as (G1 & G2 & G3).
      assert (NO : forall q, ca_mem n ref l q -> ~ (proj_ghost n cg cells l q \/ pred_ghost n cg cells l q) -> ca_get_index n ref l q = Some i -> rec_find i rec = None).
      { intros q Hq ND Ei. destruct (rec_find i rec) as [lc|] eqn:Er; [|reflexivity]. exfalso. apply ND. apply (K l q i Hq Ei). congruence. }
      split; intros Ho Ei.
      + apply (NO (vadd n p v)); [|apply D1; exact Ho|exact Ei]. destruct (bm_room _ _ _ _ _ _ BM l p Hp Ho) as (_ & _ & FT & _). apply FT. exact Hv.
      + apply (NO (vadd n (vadd n p (unit_mult n d (-1))) v)); [|apply D2; exact Ho|exact Ei]. destruct (bm_opposite _ _ _ _ _ _ BM l p Hp Ho) as (_ & _ & FT & _).
        assert (Hv' : In (vadd n v (neg (unit_mult n d 1))) (stencil_minus (lf_stencil (lfs d)) (unit_mult n d 1))) by (apply (minus_In n d (lf_stencil (lfs d)) ref Hd G1 G3); exists v; auto).
        specialize (FT _ Hv'). replace (vadd n (vadd n p (unit_mult n d (-1))) v) with (vadd n p (vadd n v (neg (unit_mult n d 1)))); [exact FT|].
        rewrite (neg_unit_mult n d 1). change (- (1)) with (-1). apply (list_ext n); try apply vadd_length. intros k Hk. rewrite !nth_vadd by exact Hk. lia.
    - intros x v c j [GE XV] Hc Hj. unfold xv. destruct (rec_find c rec) as [lc|] eqn:Ec; [|apply XV; auto].
      rewrite (proj2 (EQ (fun c => v c j)) (GE j Hj) c lc Ec). apply sum_ext. intros [j' q] Hin. rewrite (XV j' j); [reflexivity|exact (RR c lc j' q Ec Hin)|exact Hj|]. apply NG. exact (C c lc j' q Ec Hin).
  Qed.

  (** What the assembly of the scheme gives, before the boundary conditions. *)
  Lemma scheme_facts : exists rec s, ghost_recursion fuel n order ref cg cells = Some rec /\ assemble_scheme y rec n maxl scaling ref cells domain ib lfs asm_empty = Some s /\
    (forall debug x v, represents n order ref cg cells y x v -> exists out, lin_apply_to debug n maxl (ly_os y) (ly_fs y) scaling ref cells domain ib v lfs = Some out /\
      forall k fi, cellok y k -> (fi < ly_os y)%nat -> (ap y (as_mat s) x (row_index y k fi) == out k fi)%Q) /\
    (forall r c, (forall k fi, leaf_number n ref cells k -> (fi < ly_os y)%nat -> r <> row_index y k fi) -> as_mat s r c = 0%Q) /\
    (forall i, as_empty s i = true -> forall c, as_mat s (ly_row_shift y + i) c = 0%Q) /\
    (forall k fi, cellok y k -> (fi < ly_os y)%nat -> ~ leaf_number n ref cells k -> as_empty s (row_index y k fi - ly_row_shift y) = true) /\
    (forall l p k fi, ca_mem n cells l p -> ca_get_index n ref l p = Some k -> (fi < ly_os y)%nat -> has_face n cells domain ib l p -> as_empty s (row_index y k fi - ly_row_shift y) = false).
  Proof.
    destruct recursion_facts as (rec & E & RR & NG & HD & XV). destruct (scheme_cells n m hist maxl st cells domain scaling ib lfs LM y HN rec HD) as (Ls & Bs & LI & SC).
    destruct (scheme_acts n m hist maxl st cells domain scaling ib lfs LM y rec HD RR Ls Bs LI asm_empty) as (s & Es & A1 & A2 & A3). exists rec, s. split; [exact E|]. split; [exact Es|].
    assert (TL : forall r, touched y Ls Bs r -> exists k fi, leaf_number n ref cells k /\ (fi < ly_os y)%nat /\ r = row_index y k fi).
    { intros r H. destruct (touched_leaf n m hist maxl cells domain scaling ib lfs y rec Ls Bs r LI H) as (l & p & i & fi & Hp & Ei & Hf & Er). exists i, fi. split; [exists l, p; auto|auto]. }
    split; [|split; [|split; [|split]]].
    - intros debug x v RP. destruct (SC (ly_os y) (ly_fs y) v) as (o & Eo & So). destruct (lin_as_nonlinear _ _ _ _ _ _ _ _ _ _ LM debug (ly_os y) (ly_fs y) v o Eo) as (o' & Eo' & So'). exists o'. split; [exact Eo'|].
      intros k fi Hk Hf. rewrite So' by exact Hf. rewrite A1. rewrite (ap_zero y (as_mat asm_empty)) by (intros c; reflexivity). rewrite Qplus_0_l.
      apply (scheme_row n m hist maxl cells domain scaling ib lfs y rec RR Ls Bs x k fi o LI Hk Hf). intros i k0 Hk0. rewrite So by exact Hk0. destruct LI as (_ & _ & F1 & F2). rewrite Forall_forall in F1, F2.
      assert (LV : forall cs es k, Forall (fun c => cellok y (sc_index c)) es -> (lin_value (ly_fs y) v cs es k == lin_value (ly_fs y) (xv y rec x) cs es k)%Q).
      { intros cs es k1 Fe. rewrite Forall_forall in Fe. unfold lin_value. apply sum_ext. intros j Hj. apply in_seq in Hj. apply sum_ext. intros [mt c] Hin. apply in_combine_r in Hin. rewrite (XV x v (sc_index c) j RP); [reflexivity|auto|lia]. }
      apply Qplus_comp; apply sum_ext; intros e He.
      + destruct (F1 e He) as (a & b & _ & _ & _ & _ & _ & Fe & _). unfold iterm. apply Qplus_comp; apply hit_comp; apply LV; exact Fe.
      + destruct (F2 e He) as (a & _ & _ & _ & Fe & _). unfold bterm. apply hit_comp, LV. eapply Forall_impl; [|exact Fe]. intros c [Hc _]. exact Hc.
    - intros r c Hr. rewrite A2; [reflexivity|]. intros H. destruct (TL r H) as (k & fi & Hk & Hf & Er). exact (Hr k fi Hk Hf Er).
    - intros i Hi c. rewrite A2; [reflexivity|]. apply A3 in Hi as [_ Hi]. exact Hi.
    - intros k fi Hk Hf NL. apply A3. split; [reflexivity|]. replace (ly_row_shift y + (row_index y k fi - ly_row_shift y)) with (row_index y k fi) by lia. intros H. destruct (TL _ H) as (k' & fi' & Hk' & Hf' & Er).
      apply data_inj in Er as [-> _]; auto. apply leaf_cellok. exact Hk'.
    - intros l p k fi Hp Ek Hf HF. destruct (as_empty s (row_index y k fi - ly_row_shift y)) eqn:Ee; [|reflexivity]. exfalso. apply A3 in Ee as [_ Ee]. apply Ee. replace (ly_row_shift y + (row_index y k fi - ly_row_shift y)) with (row_index y k fi) by lia.
      apply (face_touched n m hist maxl st cells domain scaling ib lfs LM y HN rec HD RR Ls Bs l p k fi LI Hp HF Ek Hf).
  Qed.

  (** The boundary conditions and the other rows. *)
  Context (SQ : ly_os y = ly_fs y) (SH : ly_row_shift y = ly_col_shift y).
  Lemma pick_pair : forall (A : Type) (g : A -> Z) (F : A -> Q) l a, NoDup (map g l) -> In a l -> (sum_over (fun b => hit (g a) (g b) (F b)) l == F a)%Q.
  Proof.
    intros A g F. induction l as [|b l IH]; intros a ND Ha; [destruct Ha|]. cbn [map] in ND. apply NoDup_cons_iff in ND as [N1 ND]. rewrite sum_cons. destruct Ha as [->|Ha].
    - rewrite (sum_zero _ _ l); [unfold hit; rewrite Z.eqb_refl; ring|]. intros c Hc. unfold hit. destruct (Z.eqb_spec (g a) (g c)) as [E|E]; [|reflexivity]. exfalso. apply N1. rewrite E. apply in_map. exact Hc.
    - rewrite IH by auto. unfold hit. destruct (Z.eqb_spec (g a) (g b)) as [E|E]; [|ring]. exfalso. apply N1. rewrite <- E. apply in_map. exact Ha.
  Qed.
  Definition bc_value_of (b : bc_call) (eq : bc_eq) (x : Z -> Q) (fi : nat) : Q :=
    sum_over (fun c => nth c (eq_coeffs eq) bc_m0 fi fi * x (col_index y (sc_index (nth c (bc_cells b) bc_e0)) fi))%Q (seq 0 (length (bc_cells b))).
  Lemma writes_row : forall leaf calls x k fi, good_calls (ly_cells y) leaf calls -> cellok y k -> (fi < ly_os y)%nat ->
    (sum_over (fun '(r', c, q) => at_row (row_index y k fi) r' (q * x c)) (flat_map (eq_writes y) (pairs_of calls)) == sum_over (fun be => hit k (ghost_cell (fst be) (snd be)) (bc_value_of (fst be) (snd be) x fi)) (pairs_of calls))%Q.
  Proof.
    intros leaf calls x k fi GC Hk Hf. rewrite sum_flat. apply sum_ext. intros [b eq] Hin. unfold eq_writes. rewrite sum_flat. cbn [fst snd].
    assert (OK : cellok y (ghost_cell b eq)).
    { apply in_flat_map in Hin as (b' & Hb & H). apply in_map_iff in H as (e' & E & He). injection E as <- <-. apply (gc_cells _ _ _ GC b'); auto. apply nth_In. apply (gc_eqs _ _ _ GC b' e' Hb He). }
    unfold bc_value_of. rewrite hit_sum. apply sum_ext. intros c _. rewrite sum_map.
    rewrite <- (at_cell y [] (fun k lc j q H => ltac:(discriminate H)) k fi (ghost_cell b eq) (fun f => nth c (eq_coeffs eq) bc_m0 f f * x (col_index y (sc_index (nth c (bc_cells b) bc_e0)) f))%Q Hk OK Hf).
    apply sum_ext. intros f _. rewrite (row_col y SQ SH). rewrite (row_col y SQ SH). reflexivity.
  Qed.

  Lemma matrix_facts : forall calls dv, good_calls (ly_cells y) (leaf_number n ref cells) calls -> exists rec s, ghost_recursion fuel n order ref cg cells = Some rec /\
    assemble_matrix y rec n maxl scaling ref cells domain ib lfs calls dv = Some s /\
    (forall debug x v, represents n order ref cg cells y x v -> exists out, lin_apply_to debug n maxl (ly_os y) (ly_fs y) scaling ref cells domain ib v lfs = Some out /\
      forall l p k fi, ca_mem n cells l p -> ca_get_index n ref l p = Some k -> (fi < ly_os y)%nat -> has_face n cells domain ib l p -> (ap y (as_mat s) x (row_index y k fi) == out k fi)%Q) /\
    (forall l p k fi, ca_mem n cells l p -> ca_get_index n ref l p = Some k -> (fi < ly_os y)%nat -> has_face n cells domain ib l p -> as_empty s (row_index y k fi - ly_row_shift y) = false) /\
    (forall b eq fi, In b calls -> In eq (bc_eqs b) -> (fi < ly_os y)%nat -> (exists c, (c < length (bc_cells b))%nat /\ ~ (nth c (eq_coeffs eq) bc_m0 fi fi == 0)%Q) ->
      as_empty s (row_index y (ghost_cell b eq) fi - ly_row_shift y) = false /\ forall x, (ap y (as_mat s) x (row_index y (ghost_cell b eq) fi) == bc_value_of b eq x fi)%Q) /\
    (forall k fi, cellok y k -> (fi < ly_os y)%nat -> ~ leaf_number n ref cells k -> (forall b eq, In b calls -> In eq (bc_eqs b) -> k <> ghost_cell b eq) ->
      as_empty s (row_index y k fi - ly_row_shift y) = true /\ forall x, (ap y (as_mat s) x (row_index y k fi) == dv * x (col_index y k fi))%Q).
  Proof.
    intros calls dv GC. destruct scheme_facts as (rec & s1 & E & E1 & F1 & F2 & F3 & F4 & F5). exists rec.
    assert (PI : forall b eq, In (b, eq) (pairs_of calls) <-> In b calls /\ In eq (bc_eqs b)).
    { intros b eq. unfold pairs_of. rewrite in_flat_map. split; [intros (b' & Hb & H); apply in_map_iff in H as (e' & Ee & He); injection Ee as <- <-; auto|]. intros [Hb He]. exists b. split; [exact Hb|]. apply in_map. exact He. }
    assert (GOK : forall b eq, In (b, eq) (pairs_of calls) -> cellok y (ghost_cell b eq) /\ ~ leaf_number n ref cells (ghost_cell b eq)).
    { intros b eq H. apply PI in H as [Hb He]. destruct (gc_eqs _ _ _ GC b eq Hb He) as (_ & L2 & NL). split; [|exact NL]. apply (gc_cells _ _ _ GC b); auto. apply nth_In. exact L2. }
    assert (WR : forall r c q, In (r, c, q) (flat_map (eq_writes y) (pairs_of calls)) -> exists b eq k fi, In (b, eq) (pairs_of calls) /\ (k < length (bc_cells b))%nat /\ (fi < ly_os y)%nat /\ r = row_index y (ghost_cell b eq) fi /\
      c = col_index y (sc_index (nth k (bc_cells b) bc_e0)) fi /\ q = nth k (eq_coeffs eq) bc_m0 fi fi).
    { intros r c q H. apply in_flat_map in H as ([b eq] & Hbe & H). unfold eq_writes in H. apply in_flat_map in H as (k & Hk & H). apply in_map_iff in H as (fi & Ew & Hf). apply in_seq in Hk, Hf. injection Ew as Ea Eb Ec.
      exists b, eq, k, fi. split; [exact Hbe|]. split; [lia|]. split; [lia|]. rewrite (row_col y SQ SH). auto. }
    destruct (writes_spec y (flat_map (eq_writes y) (pairs_of calls)) s1 (keys_distinct y SQ _ calls GC)) as (s2 & E2 & W1 & W2 & W3).
    { intros r c q H. destruct (WR r c q H) as (b & eq & k & fi & Hbe & Hk & Hf & -> & -> & _). destruct (GOK b eq Hbe) as [G1 G2]. apply PI in Hbe as [Hb He]. split.
      - apply in_cells; auto; [apply (gc_cells _ _ _ GC b); auto; apply nth_In; exact Hk|rewrite <- SQ; exact Hf].
      - unfold zero_at. rewrite F2; [reflexivity|]. intros k' fi' Hk' Hf' Er. apply data_inj in Er as [Er _]; auto; [|apply leaf_cellok; exact Hk']. rewrite Er in G2. contradiction. }
    rewrite <- (bc_writes y _ calls s1 GC) in E2.
    assert (GE : forall k fi, cellok y k -> (fi < ly_os y)%nat -> forall c q, In (ly_row_shift y + (row_index y k fi - ly_row_shift y), c, q) (flat_map (eq_writes y) (pairs_of calls)) -> exists b eq c', In (b, eq) (pairs_of calls) /\ k = ghost_cell b eq /\ (c' < length (bc_cells b))%nat /\ q = nth c' (eq_coeffs eq) bc_m0 fi fi).
    { intros k fi Hk Hf c q H. replace (ly_row_shift y + (row_index y k fi - ly_row_shift y)) with (row_index y k fi) in H by lia. destruct (WR _ _ _ H) as (b & eq & c' & fi' & Hbe & Hc' & Hf' & Er & _ & Eq). destruct (GOK b eq Hbe) as [G1 _].
      apply data_inj in Er as [Er1 Er2]; auto. subst fi'. exists b, eq, c'. auto. }
    destruct (useless_spec y dv s2) as (s3 & E3 & U1 & U2).
    { unfold matrix_rows, matrix_cols. rewrite SQ. lia. }
    { intros i Hi Ee c. apply W3 in Ee as [Ee NW]. unfold zero_at. destruct (data_onto (ly_os y) (ly_soa y) (ly_cells y) (ly_row_shift y) (ly_row_shift y + i)) as (k & fi & Hk & Hf & Er); [unfold matrix_rows in Hi; lia|].
      assert (DEC : forall a b : Z * Z, {a = b} + {a <> b}) by (decide equality; apply Z.eq_dec).
      destruct (in_dec DEC (ly_row_shift y + i, c) (map fst (flat_map (eq_writes y) (pairs_of calls)))) as [Hin|Hn].
      - apply in_map_iff in Hin as ([[r c0] q] & Ew & Hw). cbn [fst] in Ew. injection Ew as -> ->. destruct (Qeq_dec q 0) as [Eq|Eq]; [|exfalso; apply NW; eauto].
        assert (SV : forall ws s s', NoDup (map fst ws) -> fold_opt (do_write y) ws s = Some s' -> forall r c q, In (r, c, q) ws -> (q == 0)%Q -> as_mat s' r c = as_mat s r c).
        { clear. induction ws as [|[[r0 c0] q0] ws IH]; intros s s' ND H r c q Hin Hq; [destruct Hin|]. cbn [map fst] in ND. apply NoDup_cons_iff in ND as [N1 ND]. cbn [fold_opt] in H. destruct (do_write y s (r0, c0, q0)) as [s1|] eqn:E1; [|discriminate]. cbv beta iota zeta in H.
          assert (NI : forall ws s s', fold_opt (do_write y) ws s = Some s' -> forall r c, ~ In (r, c) (map fst ws) -> as_mat s' r c = as_mat s r c).
          { clear. induction ws as [|[[r0 c0] q0] ws IH]; intros s s' H r c NI; [injection H as <-; reflexivity|]. cbn [fold_opt] in H. destruct (do_write y s (r0, c0, q0)) as [s1|] eqn:E1; [|discriminate]. cbn [map fst] in NI. rewrite (IH s1 s' H) by (intros K; apply NI; right; exact K).
            unfold do_write in E1. destruct (Qeq_bool q0 0); [injection E1 as <-; reflexivity|]. unfold mat_insert, set_row_not_empty, checked in E1. destruct (in_matrix y r0 c0); [|discriminate].
            match type of E1 with (if ?b then _ else _) = _ => destruct b; [|discriminate] end. injection E1 as <-. cbn [as_mat]. destruct (Z.eqb_spec r r0), (Z.eqb_spec c c0); cbn [andb]; try reflexivity. exfalso. apply NI. left. congruence. }
          destruct Hin as [Hin|Hin].
          - injection Hin as -> -> ->. rewrite (NI _ _ _ H) by exact N1. unfold do_write in E1. rewrite (proj2 (Qeq_bool_iff q 0) Hq) in E1. injection E1 as <-. reflexivity.
          - rewrite (IH s1 s' ND H r c q Hin Hq). unfold do_write in E1. destruct (Qeq_bool q0 0); [injection E1 as <-; reflexivity|]. unfold mat_insert, set_row_not_empty, checked in E1. destruct (in_matrix y r0 c0); [|discriminate].
            match type of E1 with (if ?b then _ else _) = _ => destruct b; [|discriminate] end. injection E1 as <-. cbn [as_mat]. destruct (Z.eqb_spec r r0), (Z.eqb_spec c c0); cbn [andb]; try reflexivity. exfalso. apply N1. apply in_map_iff. exists (r, c, q). split; [cbn [fst]; congruence|exact Hin]. }
        pose proof E2 as E2'. rewrite (bc_writes y _ calls s1 GC) in E2'. rewrite (SV _ _ _ (keys_distinct y SQ _ calls GC) E2' _ _ _ Hw Eq). rewrite F3 by exact Ee. reflexivity.
      - rewrite W2; [rewrite F3 by exact Ee; reflexivity|]. intros (q & Hq). apply Hn. apply in_map_iff. exists (ly_row_shift y + i, c, q). auto. }
    exists s3. split; [exact E|]. split. { unfold assemble_matrix. rewrite E1, E2. exact E3. }
    assert (AP : forall x k fi, cellok y k -> (fi < ly_os y)%nat -> (ap y (as_mat s3) x (row_index y k fi) == if as_empty s2 (row_index y k fi - ly_row_shift y) then dv * x (col_index y k fi) else
      ap y (as_mat s1) x (row_index y k fi) + sum_over (fun be => hit k (ghost_cell (fst be) (snd be)) (bc_value_of (fst be) (snd be) x fi)) (pairs_of calls))%Q).
    { intros x k fi Hk Hf. pose proof (row_range y k fi Hk Hf) as RG. pose proof (U2 x (row_index y k fi - ly_row_shift y) ltac:(lia)) as U. replace (ly_row_shift y + (row_index y k fi - ly_row_shift y)) with (row_index y k fi) in U by lia.
      replace (ly_col_shift y + (row_index y k fi - ly_row_shift y)) with (col_index y k fi) in U by (rewrite (row_col y SQ SH); lia). rewrite U. destruct (as_empty s2 (row_index y k fi - ly_row_shift y)); [reflexivity|]. rewrite W1, (writes_row _ calls x k fi GC Hk Hf). reflexivity. }
    assert (NOG : forall k fi x, (forall b eq, In (b, eq) (pairs_of calls) -> k <> ghost_cell b eq) -> (sum_over (fun be => hit k (ghost_cell (fst be) (snd be)) (bc_value_of (fst be) (snd be) x fi)) (pairs_of calls) == 0)%Q).
    { intros k fi x H. rewrite sum_zero; [reflexivity|]. intros [b eq] Hbe. cbn [fst snd]. unfold hit. destruct (Z.eqb_spec k (ghost_cell b eq)) as [Ek|Ek]; [exfalso; exact (H b eq Hbe Ek)|reflexivity]. }
    assert (LEAF : forall l p k fi, ca_mem n cells l p -> ca_get_index n ref l p = Some k -> (fi < ly_os y)%nat -> has_face n cells domain ib l p -> as_empty s2 (row_index y k fi - ly_row_shift y) = false).
    { intros l p k fi Hp Ek Hf HF. destruct (as_empty s2 (row_index y k fi - ly_row_shift y)) eqn:Ee; [|reflexivity]. apply W3 in Ee as [Ee _]. rewrite (F5 l p k fi Hp Ek Hf HF) in Ee. discriminate. }
    split; [|split; [|split]].
    - intros debug x v RP. destruct (F1 debug x v RP) as (out & Eo & So). exists out. split; [exact Eo|]. intros l p k fi Hp Ek Hf HF. assert (LN : leaf_number n ref cells k) by (exists l, p; auto). pose proof (leaf_cellok k LN) as Hk.
      rewrite (AP x k fi Hk Hf), (LEAF l p k fi Hp Ek Hf HF), (So k fi Hk Hf), NOG; [ring|]. intros b eq Hbe ->. apply (GOK b eq Hbe). exact LN.
    - intros l p k fi Hp Ek Hf HF. rewrite U1. eapply LEAF; eauto.
    - intros b eq fi Hb He Hf (c & Hc & NZ). assert (Hbe : In (b, eq) (pairs_of calls)) by (apply PI; auto). destruct (GOK b eq Hbe) as [Hk NL].
      assert (EF : as_empty s2 (row_index y (ghost_cell b eq) fi - ly_row_shift y) = false).
      { destruct (as_empty s2 (row_index y (ghost_cell b eq) fi - ly_row_shift y)) eqn:Ee; [|reflexivity]. exfalso. apply W3 in Ee as [_ Ee]. apply Ee. exists (col_index y (sc_index (nth c (bc_cells b) bc_e0)) fi), (nth c (eq_coeffs eq) bc_m0 fi fi). split; [|exact NZ].
        replace (ly_row_shift y + (row_index y (ghost_cell b eq) fi - ly_row_shift y)) with (row_index y (ghost_cell b eq) fi) by lia. apply in_flat_map. exists (b, eq). split; [exact Hbe|]. unfold eq_writes. apply in_flat_map. exists c. split; [apply in_seq; lia|].
        apply in_map_iff. exists fi. split; [rewrite (row_col y SQ SH); reflexivity|apply in_seq; lia]. }
      split; [rewrite U1; exact EF|]. intros x. rewrite (AP x _ fi Hk Hf), EF.
      pose proof (pick_pair _ (fun be => ghost_cell (fst be) (snd be)) (fun be => bc_value_of (fst be) (snd be) x fi) (pairs_of calls) (b, eq)) as PP. cbn [fst snd] in PP. rewrite PP; [|erewrite map_ext; [exact (gc_ghosts _ _ _ GC)|intros [b0 e0]; reflexivity]|exact Hbe].
      rewrite (ap_zero y (as_mat s1)); [ring|]. intros c0. rewrite F2; [reflexivity|]. intros k' fi' Hk' Hf' Er. apply data_inj in Er as [Er _]; auto; [|apply leaf_cellok; exact Hk']. rewrite Er in NL. contradiction.
    - intros k fi Hk Hf NL NG. assert (EF : as_empty s2 (row_index y k fi - ly_row_shift y) = true).
      { apply W3. split; [apply F4; auto|]. intros (c & q & Hin & _). destruct (GE k fi Hk Hf c q Hin) as (b & eq & c' & Hbe & Ek & _). apply PI in Hbe as [Hb He]. exact (NG b eq Hb He Ek). }
      split; [rewrite U1; exact EF|]. intros x. rewrite (AP x k fi Hk Hf), EF. reflexivity.
  Qed.
End Rows.

Lemma leaf_number_dec : forall n ref cells k, ca_wf n cells -> leaf_number n ref cells k \/ ~ leaf_number n ref cells k.
Proof.
  intros n ref cells k W. destruct (ca_for_each_cell_spec n cells W) as (cs & _ & EN & _). assert (DEC : forall a b : option Z, {a = b} + {a <> b}) by (decide equality; apply Z.eq_dec).
  assert (M : forall l p, In (l, p) (leaf_cells cs) <-> ca_mem n cells l p) by apply EN.
  destruct (in_dec DEC (Some k) (map (fun c => ca_get_index n ref (fst c) (snd c)) (leaf_cells cs))) as [H|H].
  - left. apply in_map_iff in H as ([l p] & E & H). exists l, p. split; [apply M; exact H|exact E].
  - right. intros (l & p & Hp & E). apply H. apply in_map_iff. exists (l, p). split; [exact E|apply M; exact Hp].
Qed.

(** ** The theorems *)

(** The rows of the leaves are the explicit scheme of C76 applied to the field, whatever the
    vector contains on the ghosts; the other rows are not touched. The matrix may be
    rectangular, the components contiguous or not, the block anywhere. *)
Theorem C78_scheme : forall n m hist maxl st cells domain scaling ib lfs order cg y N fuel, system n m hist maxl st cells domain scaling ib lfs order cg y N fuel -> let ref := client_ca n m hist true in
  exists rec s, ghost_recursion fuel n order ref cg cells = Some rec /\ assemble_scheme y rec n maxl scaling ref cells domain ib lfs asm_empty = Some s /\
    (forall debug x v, represents n order ref cg cells y x v -> exists out, lin_apply_to debug n maxl (ly_os y) (ly_fs y) scaling ref cells domain ib v lfs = Some out /\
      forall k fi, 0 <= k < ly_cells y -> (fi < ly_os y)%nat -> (product y (as_mat s) x (row_index y k fi) == out k fi)%Q) /\
    (forall r c, (forall k fi, leaf_number n ref cells k -> (fi < ly_os y)%nat -> r <> row_index y k fi) -> as_mat s r c = 0%Q) /\
    (forall k fi, 0 <= k < ly_cells y -> (fi < ly_os y)%nat -> ~ leaf_number n ref cells k -> as_empty s (row_index y k fi - ly_row_shift y) = true) /\
    (forall l p k fi, ca_mem n cells l p -> ca_get_index n ref l p = Some k -> (fi < ly_os y)%nat -> has_face n cells domain ib l p -> as_empty s (row_index y k fi - ly_row_shift y) = false).
Proof.
  intros n m hist maxl st cells domain scaling ib lfs order cg y N fuel SY ref. destruct (scheme_facts _ _ _ _ _ _ _ _ _ _ _ _ _ _ _ SY) as (rec & s & E & E1 & F1 & F2 & F3 & F4 & F5). exists rec, s.
  split; [exact E|]. split; [exact E1|]. split; [exact F1|]. split; [exact F2|]. split; [exact F4|exact F5].
Qed.

(** The whole matrix: the rows of the leaves, those of the boundary conditions, and the
    diagonal value on all others. *)
Theorem C78_matrix : forall n m hist maxl st cells domain scaling ib lfs order cg y N fuel calls dv, system n m hist maxl st cells domain scaling ib lfs order cg y N fuel -> let ref := client_ca n m hist true in
  ly_os y = ly_fs y -> ly_row_shift y = ly_col_shift y -> good_calls (ly_cells y) (leaf_number n ref cells) calls ->
  exists rec s, ghost_recursion fuel n order ref cg cells = Some rec /\ assemble_matrix y rec n maxl scaling ref cells domain ib lfs calls dv = Some s /\
    (forall debug x v, represents n order ref cg cells y x v -> exists out, lin_apply_to debug n maxl (ly_os y) (ly_fs y) scaling ref cells domain ib v lfs = Some out /\
      forall l p k fi, ca_mem n cells l p -> ca_get_index n ref l p = Some k -> (fi < ly_os y)%nat -> has_face n cells domain ib l p -> (product y (as_mat s) x (row_index y k fi) == out k fi)%Q) /\
    (forall b eq fi x, In b calls -> In eq (bc_eqs b) -> (fi < ly_os y)%nat -> (exists c, (c < length (bc_cells b))%nat /\ ~ (nth c (eq_coeffs eq) bc_m0 fi fi == 0)%Q) ->
      (product y (as_mat s) x (row_index y (ghost_cell b eq) fi) == sum_over (fun c => nth c (eq_coeffs eq) bc_m0 fi fi * x (col_index y (sc_index (nth c (bc_cells b) bc_e0)) fi)) (seq 0 (length (bc_cells b))))%Q) /\
    (forall k fi x, 0 <= k < ly_cells y -> (fi < ly_os y)%nat -> ~ leaf_number n ref cells k -> (forall b eq, In b calls -> In eq (bc_eqs b) -> k <> ghost_cell b eq) -> (product y (as_mat s) x (row_index y k fi) == dv * x (col_index y k fi))%Q).
Proof.
  intros n m hist maxl st cells domain scaling ib lfs order cg y N fuel calls dv SY ref SQ SH GC. destruct (matrix_facts _ _ _ _ _ _ _ _ _ _ _ _ _ _ _ SY SQ SH calls dv GC) as (rec & s & E & E1 & F1 & _ & F3 & F4). exists rec, s.
  split; [exact E|]. split; [exact E1|]. split; [exact F1|]. split.
  - intros b eq fi x Hb He Hf NZ. apply (F3 b eq fi Hb He Hf NZ).
  - intros k fi x Hk Hf NL NG. apply (F4 k fi Hk Hf NL NG).
Qed.

(** The linear system: a vector is a solution if and only if the field satisfies the explicit
    scheme on the leaves with the given right-hand side and the equations of the boundary,
    and the vector is zero on all other cells. *)
Theorem C78_solution : forall n m hist maxl st cells domain scaling ib lfs order cg y N fuel calls dv b, system n m hist maxl st cells domain scaling ib lfs order cg y N fuel -> let ref := client_ca n m hist true in
  ly_os y = ly_fs y -> ly_row_shift y = ly_col_shift y -> good_calls (ly_cells y) (leaf_number n ref cells) calls -> ~ (dv == 0)%Q ->
  (forall c eq, In c calls -> In eq (bc_eqs c) -> ~ ghost_number n ref cg cells (ghost_cell c eq) /\ forall fi, (fi < ly_os y)%nat -> exists j, (j < length (bc_cells c))%nat /\ ~ (nth j (eq_coeffs eq) bc_m0 fi fi == 0)%Q) ->
  (forall l p, ca_mem n cells l p -> has_face n cells domain ib l p) ->
  exists rec s b', ghost_recursion fuel n order ref cg cells = Some rec /\ assemble_matrix y rec n maxl scaling ref cells domain ib lfs calls dv = Some s /\ prepare_rhs y n ref cg cells calls (as_empty s) b = Some b' /\
    forall debug x v, represents n order ref cg cells y x v -> exists out, lin_apply_to debug n maxl (ly_os y) (ly_fs y) scaling ref cells domain ib v lfs = Some out /\
      ((forall r, ly_row_shift y <= r < ly_row_shift y + ly_cells y * Z.of_nat (ly_os y) -> (product y (as_mat s) x r == b' r)%Q) <->
       (forall k fi, leaf_number n ref cells k -> (fi < ly_os y)%nat -> (out k fi == b (row_index y k fi))%Q) /\
       (forall c eq fi, In c calls -> In eq (bc_eqs c) -> (fi < ly_os y)%nat ->
         (sum_over (fun j => nth j (eq_coeffs eq) bc_m0 fi fi * x (col_index y (sc_index (nth j (bc_cells c) bc_e0)) fi)) (seq 0 (length (bc_cells c))) == eq_rhs eq fi fi * bc_val c fi)%Q) /\
       (forall k fi, 0 <= k < ly_cells y -> (fi < ly_os y)%nat -> ~ leaf_number n ref cells k -> (forall c eq, In c calls -> In eq (bc_eqs c) -> k <> ghost_cell c eq) -> (x (col_index y k fi) == 0)%Q)).
Proof.
  intros n m hist maxl st cells domain scaling ib lfs order cg y N fuel calls dv b SY. cbv zeta. intros SQ SH GC DV BC FACE. destruct (matrix_facts _ _ _ _ _ _ _ _ _ _ _ _ _ _ _ SY SQ SH calls dv GC) as (rec & s & E & E1 & F1 & F2 & F3 & F4). exists rec, s.
  pose proof (sy_mesh _ _ _ _ _ _ _ _ _ _ _ _ _ _ _ SY) as LM. pose proof (sy_ghosts _ _ _ _ _ _ _ _ _ _ _ _ _ _ _ SY) as GM. pose proof (numbered_client n m hist (lm_hist _ _ _ _ _ _ _ _ _ _ LM)) as NR. pose proof (sy_cells _ _ _ _ _ _ _ _ _ _ _ _ _ _ _ SY) as HN.
  destruct (all_projection n order (client_ca n m hist true) cg cells GM NR) as (ps & Ep & P1 & _). destruct (all_prediction n order (client_ca n m hist true) cg cells GM NR) as (gs & Eg & P2 & _).
  set (b1 := sets (flat_map (eq_sets y) (pairs_of calls)) b). set (b2 := sets (zero_sets y (map sc_index gs)) (sets (zero_sets y (map fst ps)) b1)).
  exists (zero_useless y (as_empty s) b2). split; [exact E|]. split; [exact E1|]. split.
  { unfold prepare_rhs. rewrite (rhs_writes y _ calls b GC).  rewrite Ep, Eg. rewrite !enforce_zero_sets. reflexivity. }
  assert (GOK : forall k, ghost_number n (client_ca n m hist true) cg cells k -> cellok y k).
  { intros k (l & p & G & Ek). destruct (numbered_index n (client_ca n m hist true) l p NR (ghost_stored n order (client_ca n m hist true) cg cells GM l p G)) as (i & Ei & R). unfold cellok. rewrite HN. congruence. }
  assert (ZG : forall k fi, cellok y k -> (fi < ly_os y)%nat -> ~ ghost_number n (client_ca n m hist true) cg cells k -> b2 (row_index y k fi) = b1 (row_index y k fi)).
  { intros k fi Hk Hf NG. unfold b2. rewrite !sets_other; [reflexivity| |].
    - intros H. apply zero_sets_rows in H as (g & fi' & Hg & Hf' & Er). apply in_map_iff in Hg as (e & <- & He). destruct (P1 e He) as (l & p & PG & Ei & _). assert (GN : ghost_number n (client_ca n m hist true) cg cells (fst e)) by (exists l, p; auto). apply data_inj in Er as [Er _]; auto; [|apply GOK; exact GN]. rewrite Er in NG. contradiction.
    - intros H. apply zero_sets_rows in H as (g & fi' & Hg & Hf' & Er). apply in_map_iff in Hg as (e & <- & He). destruct (P2 e He) as (l & p & PG & (_ & _ & Ei)). assert (GN : ghost_number n (client_ca n m hist true) cg cells (sc_index e)) by (exists l, p; auto). apply data_inj in Er as [Er _]; auto; [|apply GOK; exact GN]. rewrite Er in NG. contradiction. }
  assert (UF : forall k fi, cellok y k -> (fi < ly_os y)%nat -> zero_useless y (as_empty s) b2 (row_index y k fi) = if as_empty s (row_index y k fi - ly_row_shift y) then 0%Q else b2 (row_index y k fi)).
  { intros k fi Hk Hf. rewrite zero_useless_spec. pose proof (row_range y k fi Hk Hf) as RG. rewrite (proj2 (Z.leb_le _ _) (proj1 RG)), (proj2 (Z.ltb_lt _ _) (proj2 RG)). reflexivity. }
  assert (PI : forall c eq, In (c, eq) (pairs_of calls) <-> In c calls /\ In eq (bc_eqs c)).
  { intros c eq. unfold pairs_of. rewrite in_flat_map. split; [intros (b' & Hb & H); apply in_map_iff in H as (e' & Ee & He); injection Ee as <- <-; auto|]. intros [Hb He]. exists c. split; [exact Hb|]. apply in_map. exact He. }
  assert (CG : forall c eq, In c calls -> In eq (bc_eqs c) -> cellok y (ghost_cell c eq)).
  { intros c eq Hc He. apply (gc_cells _ _ _ GC c); auto. apply nth_In. apply (gc_eqs _ _ _ GC c eq Hc He). }
  assert (LF : forall k, leaf_number n (client_ca n m hist true) cells k -> cellok y k /\ ~ ghost_number n (client_ca n m hist true) cg cells k).
  { intros k HL. split; [apply (leaf_cellok _ _ _ _ _ _ _ _ _ _ _ _ _ _ _ SY k HL)|]. destruct HL as (l & p & Hp & Ek). intros (l' & p' & G & Ek'). destruct (numbered_inj n (client_ca n m hist true) l p l' p' k NR) as [-> ->]; auto.
    - apply (stored_leaf _ _ _ _ _ _ _ _ _ _ _ _ _ _ _ SY). exact Hp.
    - eapply ghost_stored; eauto.
    - destruct G as [G|G]; [exact (leaf_not_proj n order (client_ca n m hist true) cg cells GM _ _ Hp G)|exact (leaf_not_pred n order (client_ca n m hist true) cg cells GM _ _ Hp G)]. }
  assert (BL : forall k fi, leaf_number n (client_ca n m hist true) cells k -> (fi < ly_os y)%nat -> zero_useless y (as_empty s) b2 (row_index y k fi) = b (row_index y k fi)).
  { intros k fi HL Hf. destruct (LF k HL) as [Hk NG]. rewrite UF by auto. pose proof HL as (l & p & Hp & Ek). rewrite (F2 l p k fi Hp Ek Hf (FACE l p Hp)). rewrite ZG by auto. unfold b1. apply sets_other. intros H. apply in_map_iff in H as ([r q] & Er & H). cbn [fst] in Er. subst r.
    apply in_flat_map in H as ([c eq] & Hce & H). unfold eq_sets in H. apply in_map_iff in H as (fi' & Ee & Hf'). apply in_seq in Hf'. injection Ee as Er _. apply PI in Hce as [Hc He]. apply data_inj in Er as [Er _]; try lia; [|apply CG; auto|exact Hk].
    apply (gc_eqs _ _ _ GC c eq Hc He). rewrite Er. exact HL. }
  assert (BB : forall c eq fi, In c calls -> In eq (bc_eqs c) -> (fi < ly_os y)%nat -> zero_useless y (as_empty s) b2 (row_index y (ghost_cell c eq) fi) = (eq_rhs eq fi fi * bc_val c fi)%Q).
  { intros c eq fi Hc He Hf. destruct (BC c eq Hc He) as [NG NZ]. rewrite UF by auto. destruct (F3 c eq fi Hc He Hf (NZ fi Hf)) as [Ee _]. rewrite Ee, ZG by auto. unfold b1. apply sets_same; [exact (rhs_distinct y _ calls GC)|].
    apply in_flat_map. exists (c, eq). split; [apply PI; auto|]. unfold eq_sets. apply in_map_iff. exists fi. split; [reflexivity|apply in_seq; lia]. }
  assert (BO : forall k fi, cellok y k -> (fi < ly_os y)%nat -> ~ leaf_number n (client_ca n m hist true) cells k -> (forall c eq, In c calls -> In eq (bc_eqs c) -> k <> ghost_cell c eq) -> zero_useless y (as_empty s) b2 (row_index y k fi) = 0%Q).
  { intros k fi Hk Hf NL NG. rewrite UF by auto. destruct (F4 k fi Hk Hf NL NG) as [Ee _]. rewrite Ee. reflexivity. }
  intros debug x v RP. destruct (F1 debug x v RP) as (out & Eo & So). exists out. split; [exact Eo|]. split.
  - intros SOL. split; [|split].
    + intros k fi HL Hf. destruct (LF k HL) as [Hk _]. rewrite <- BL by auto. rewrite <- SOL by (apply (row_range y k fi Hk Hf)). symmetry. destruct HL as (l & p & Hp & Ek). apply (So l p); auto.
    + intros c eq fi Hc He Hf. rewrite <- BB by auto. rewrite <- SOL by (apply (row_range y _ fi (CG c eq Hc He) Hf)). symmetry. apply (F3 c eq fi Hc He Hf). apply (BC c eq Hc He). exact Hf.
    + intros k fi Hk Hf NL NG. destruct (F4 k fi Hk Hf NL NG) as [_ F]. specialize (F x). change (ap y (as_mat s) x (row_index y k fi)) with (product y (as_mat s) x (row_index y k fi)) in F. rewrite SOL, BO in F by (auto; apply (row_range y k fi Hk Hf)).
      symmetry in F. apply Qmult_integral in F as [F|F]; [contradiction|exact F].
  - intros (S1 & S2 & S3) r Hr. destruct (data_onto (ly_os y) (ly_soa y) (ly_cells y) (ly_row_shift y) r Hr) as (k & fi & Hk & Hf & ->). change (data_index (ly_os y) (ly_soa y) (ly_cells y) (ly_row_shift y) k fi) with (row_index y k fi).
    destruct (leaf_number_dec n (client_ca n m hist true) cells k (proj1 (gm_wf _ _ _ _ _ GM))) as [HL|NL].
    + rewrite BL by auto. rewrite <- S1 by auto. destruct HL as (l & p & Hp & Ek). apply (So l p); auto.
    + destruct (in_dec Z.eq_dec k (map (fun '(c, eq) => ghost_cell c eq) (pairs_of calls))) as [HI|HI].
      * apply in_map_iff in HI as ([c eq] & <- & Hce). apply PI in Hce as [Hc He]. rewrite BB by auto. rewrite <- S2 by auto. apply (F3 c eq fi Hc He Hf). apply (BC c eq Hc He). exact Hf.
      * assert (NG : forall c eq, In c calls -> In eq (bc_eqs c) -> k <> ghost_cell c eq) by (intros c eq Hc He ->; apply HI, in_map_iff; exists (c, eq); split; [reflexivity|apply PI; auto]).
        rewrite BO by auto. destruct (F4 k fi Hk Hf NL NG) as [_ F]. etransitivity; [exact (F x)|]. rewrite S3 by auto. ring.
Qed.

(** ** Examples: the mesh with three levels of C47, with ghosts of both kinds; a Dirichlet
    condition on the left and on the right, a Neumann condition below and above *)
Definition sideX (x : Z) : lca := client_lca 1 3 (map (fun y => AddI [y] (mk x (x + 1))) (zrange 0 8)).
Definition sideY (y : Z) : lca := client_lca 1 3 [AddI [y] (mk 0 8)].
Definition exBc : list bc := [mkBC Dirichlet (fun _ _ _ j => inject_Z (Z.of_nat j + 1)) [([1; 0], sideX 7); ([-1; 0], sideX 0)]; mkBC Neumann (fun _ _ _ _ => 3%Q) [([0; 1], sideY 7); ([0; -1], sideY 0)]].
Definition exLayout (soa : bool) (os : nat) (shift : Z) : layout := mkLy 588 soa os os shift shift.
Definition exCalls : list bc_call := match bc_calls 1 1 roomRef exMesh exBc with Some c => c | None => [] end.

Example C78_system : forall op soa os fs rs cs, (forall d h, length (op d h) = 2%nat) -> system 1 3 roomHist 3 PropsGrad.star2 exMesh exDomain 1 true (exOp op) 1 exGhosts (mkLy 588 soa os fs rs cs) 3 4.
Proof.
  intros op soa os fs rs cs H. destruct (C76_hypotheses op H) as (LM & CV & _). constructor.
  - exact LM.
  - exact exMesh_ghosts.
  - vm_compute. reflexivity.
  - intros _. apply (C78_two_cells 1 3 roomHist 3 PropsGrad.star2 exMesh exDomain 1 op 1 exGhosts LM exMesh_ghosts CV).
  - vm_compute. lia.
Qed.

Definition exGhostNumbers : list Z := match projection_ghosts 1 roomRef exGhosts exMesh, prediction_ghosts 1 roomRef exGhosts exMesh with Some ps, Some gs => map fst ps ++ map sc_index gs | _, _ => [] end.
Lemma ex_ghost_number : forall k, ghost_number 1 roomRef exGhosts exMesh k -> In k exGhostNumbers.
Proof.
  assert (NR : numbered 1 roomRef) by (apply numbered_client; exact roomHist_ok).
  destruct (all_projection 1 1 roomRef exGhosts exMesh exMesh_ghosts NR) as (ps & Ep & _ & P2). destruct (all_prediction 1 1 roomRef exGhosts exMesh exMesh_ghosts NR) as (gs & Eg & _ & G2).
  intros k (l & p & G & Ek). unfold exGhostNumbers. rewrite Ep, Eg. apply in_or_app. destruct G as [G|G].
  - left. destruct (P2 l p G) as (e & He & Ei & _). apply in_map_iff. exists e. split; [congruence|exact He].
  - right. destruct (G2 l p G) as (e & He & _ & _ & Ei). apply in_map_iff. exists e. split; [congruence|exact He].
Qed.
Lemma ex_ghost_number_inv : forall k, In k exGhostNumbers -> ghost_number 1 roomRef exGhosts exMesh k.
Proof.
  assert (NR : numbered 1 roomRef) by (apply numbered_client; exact roomHist_ok).
  destruct (all_projection 1 1 roomRef exGhosts exMesh exMesh_ghosts NR) as (ps & Ep & P1 & _). destruct (all_prediction 1 1 roomRef exGhosts exMesh exMesh_ghosts NR) as (gs & Eg & G1 & _).
  intros k H. unfold exGhostNumbers in H. rewrite Ep, Eg in H. apply in_app_or in H as [H|H]; apply in_map_iff in H as (e & <- & He).
  - destruct (P1 e He) as (l & p & G & Ei & _). exists l, p. auto.
  - destruct (G1 e He) as (l & p & G & _ & _ & Ei). exists l, p. auto.
Qed.
Definition exLeafNumbers : list Z := map (index_of 1 roomRef) PropsInterface.exLeaves.
Lemma ex_leaf_number : forall k, leaf_number 1 roomRef exMesh k -> In k exLeafNumbers.
Proof. intros k (l & p & Hp & Ek). apply exMesh_leaf in Hp. apply in_map_iff. exists (l, p). split; [|exact Hp]. unfold index_of. cbn [fst snd]. rewrite Ek. reflexivity. Qed.
Definition memz (k : Z) (l : list Z) : bool := existsb (Z.eqb k) l.
Lemma memz_In : forall k l, memz k l = false -> ~ In k l.
Proof. intros k l E H. unfold memz in E. rewrite (proj2 (existsb_exists _ _)) in E; [discriminate|]. exists k. split; [exact H|apply Z.eqb_refl]. Qed.
Fixpoint nodupz (l : list Z) : bool := match l with [] => true | k :: l => negb (memz k l) && nodupz l end.
Lemma nodupz_spec : forall l, nodupz l = true -> NoDup l.
Proof. induction l as [|k l IH]; intros H; [constructor|]. cbn [nodupz] in H. apply andb_prop in H as [H1 H2]. constructor; [apply memz_In, negb_true_iff, H1|auto]. Qed.
Definition call_check (b : bc_call) : bool :=
  forallb (fun c => (0 <=? sc_index c) && (sc_index c <? 588)) (bc_cells b) && nodupz (map sc_index (bc_cells b)) &&
  forallb (fun e => Nat.eqb (length (eq_coeffs e)) (length (bc_cells b)) && Nat.ltb (eq_ghost e) (length (bc_cells b)) && negb (memz (ghost_cell b e) (exLeafNumbers ++ exGhostNumbers)) &&
    Nat.ltb 0 (length (bc_cells b)) && forallb (fun fi => negb (Qeq_bool (nth 0 (eq_coeffs e) bc_m0 fi fi) 0)) (seq 0 2)) (bc_eqs b).
Lemma exCalls_check : length exCalls = 12%nat /\ forallb call_check exCalls = true /\ nodupz (map (fun '(b, eq) => ghost_cell b eq) (pairs_of exCalls)) = true.
Proof. vm_compute. auto. Qed.
Example C78_conditions : good_calls 588 (leaf_number 1 roomRef exMesh) exCalls /\ length exCalls = 12%nat /\
  (forall c eq, In c exCalls -> In eq (bc_eqs c) -> ~ ghost_number 1 roomRef exGhosts exMesh (ghost_cell c eq) /\ forall fi, (fi < 2)%nat -> exists j, (j < length (bc_cells c))%nat /\ ~ (nth j (eq_coeffs eq) bc_m0 fi fi == 0)%Q) /\
  (forall l p, ca_mem 1 exMesh l p -> has_face 1 exMesh exDomain true l p).
Proof.
  destruct exCalls_check as (L & CK & ND). rewrite forallb_forall in CK.
  assert (K : forall b, In b exCalls -> (forall c, In c (bc_cells b) -> 0 <= sc_index c < 588) /\ NoDup (map sc_index (bc_cells b)) /\ forall e, In e (bc_eqs b) -> length (eq_coeffs e) = length (bc_cells b) /\ (eq_ghost e < length (bc_cells b))%nat /\
    ~ In (ghost_cell b e) (exLeafNumbers ++ exGhostNumbers) /\ (0 < length (bc_cells b))%nat /\ forall fi, (fi < 2)%nat -> ~ (nth 0 (eq_coeffs e) bc_m0 fi fi == 0)%Q).
  { intros b Hb. specialize (CK b Hb). unfold call_check in CK. apply andb_prop in CK as [CK C3]. apply andb_prop in CK as [C1 C2]. rewrite forallb_forall in C1, C3. split; [|split].
    - intros c Hc. specialize (C1 c Hc). apply andb_prop in C1 as [A B]. apply Z.leb_le in A. apply Z.ltb_lt in B. lia.
    - apply nodupz_spec. exact C2.
    - intros e He. specialize (C3 e He). apply andb_prop in C3 as [C3 A5]. apply andb_prop in C3 as [C3 A4]. apply andb_prop in C3 as [C3 A3]. apply andb_prop in C3 as [A1 A2]. apply Nat.eqb_eq in A1. apply Nat.ltb_lt in A2, A4. apply negb_true_iff in A3. apply memz_In in A3. rewrite forallb_forall in A5.
      repeat (split; [assumption|]). intros fi Hf E. apply Qeq_bool_iff in E. specialize (A5 fi ltac:(apply in_seq; lia)). rewrite E in A5. discriminate A5. }
  split; [constructor|split; [exact L|split]].
  - intros b c Hb. apply (K b Hb).
  - intros b Hb. apply (K b Hb).
  - intros b e Hb He. destruct (K b Hb) as (_ & _ & K3). destruct (K3 e He) as (A1 & A2 & A3 & _). split; [exact A1|]. split; [exact A2|]. intros LN. apply A3, in_or_app. left. apply ex_leaf_number. exact LN.
  - apply nodupz_spec. exact ND.
  - intros b e Hb He. destruct (K b Hb) as (_ & _ & K3). destruct (K3 e He) as (_ & _ & A3 & A4 & A5). split; [intros G; apply A3, in_or_app; right; apply ex_ghost_number; exact G|]. intros fi Hf. exists 0%nat. split; [exact A4|apply A5; exact Hf].
  - clear K CK L ND. intros l p Hp. left. apply exMesh_leaf in Hp.
    assert (SF : forall d l0 p1 p2, (d <= 1)%nat -> (nth d p1 0 + 1) = nth d p2 0 -> nth (1 - d) p1 0 = nth (1 - d) p2 0 -> share_face 1 d l0 p1 l0 p2).
    { intros d l0 p1 p2 Hd E1 E2. pose proof (Z.pow_pos_nonneg 2 (Z.of_nat l0) ltac:(lia) ltac:(lia)) as P. split; [rewrite E1; reflexivity|]. intros k Hk Hkd. replace k with (1 - d)%nat by lia. rewrite E2. nia. }
    assert (NB : exists d q, (d <= 1)%nat /\ In (l, q) PropsInterface.exLeaves /\ (((nth d p 0 + 1) = nth d q 0 /\ nth (1 - d) p 0 = nth (1 - d) q 0) \/ ((nth d q 0 + 1) = nth d p 0 /\ nth (1 - d) q 0 = nth (1 - d) p 0))).
    { cbn [In PropsInterface.exLeaves] in Hp. each Hp.
      - exists 0%nat, [1; 0]. cbn. split; [lia|]. split; [auto 12|]. left; lia.
      - exists 0%nat, [0; 0]. cbn. split; [lia|]. split; [auto 12|]. right; lia.
      - exists 1%nat, [0; 0]. cbn. split; [lia|]. split; [auto 12|]. right; lia.
      - exists 0%nat, [3; 2]. cbn. split; [lia|]. split; [auto 12|]. left; lia.
      - exists 0%nat, [2; 2]. cbn. split; [lia|]. split; [auto 12|]. right; lia.
      - exists 1%nat, [2; 2]. cbn. split; [lia|]. split; [auto 12|]. right; lia.
      - exists 0%nat, [7; 6]. cbn. split; [lia|]. split; [auto 12|]. left; lia.
      - exists 0%nat, [6; 6]. cbn. split; [lia|]. split; [auto 12|]. right; lia.
      - exists 1%nat, [6; 6]. cbn. split; [lia|]. split; [auto 12|]. right; lia.
      - exists 1%nat, [7; 6]. cbn. split; [lia|]. split; [auto 12|]. right; lia. }
    destruct NB as (d & q & Hd & Hq & [[E1 E2]|[E1 E2]]); exists d, l, q; (split; [exact Hd|]); (split; [apply exMesh_leaf; exact Hq|]); [left|right]; apply SF; auto.
Qed.
(** The theorem applied to this mesh: two components, interleaved, in the block which starts
    at the row 1000. *)
Example C78_solution_example : forall op b, (forall d h, length (op d h) = 2%nat) -> exists rec s b', ghost_recursion 4 1 1 roomRef exGhosts exMesh = Some rec /\
  assemble_matrix (exLayout false 2 1000) rec 1 3 1 roomRef exMesh exDomain true (exOp op) exCalls 1%Q = Some s /\ prepare_rhs (exLayout false 2 1000) 1 roomRef exGhosts exMesh exCalls (as_empty s) b = Some b'.
Proof.
  intros op b H. destruct C78_conditions as (GC & _ & BC & HF).
  destruct (C78_solution 1 3 roomHist 3 PropsGrad.star2 exMesh exDomain 1 true (exOp op) 1 exGhosts (exLayout false 2 1000) 3 4 exCalls 1%Q b (C78_system op false 2 2 1000 1000 H) eq_refl eq_refl GC ltac:(discriminate) BC HF) as (rec & s & b' & E1 & E2 & E3 & _).
  exists rec, s, b'. auto.
Qed.

(** ** A statement which does not hold *)

Lemma constant_equations : forall order ref cg cells, (order <= 5)%nat -> ghost_equations 1 order ref cg cells (fun _ => 1%Q).
Proof.
  intros order ref cg cells Ho. split.
  - intros l p cs (_ & (q & Hq & ->) & _) ND HC. assert (Lq : length q = 2%nat) by apply Hq. destruct q as [|a [|b [|? ?]]]; try discriminate Lq.
    set (A := 2 * (a / 2)) in *. set (B := 2 * (b / 2)) in *. assert (P : Permutation cs [[A; B]; [A + 1; B]; [A; B + 1]; [A + 1; B + 1]]).
    { apply NoDup_Permutation; [exact ND| |].
      - repeat constructor; cbn [In]; intros K; repeat (destruct K as [K|K]; [injection K; lia|]); exact K.
      - intros c. rewrite HC. unfold ancestor. cbn [map]. change (2 ^ Z.of_nat 1) with 2. split.
        + intros [Lc E]. destruct c as [|x [|y [|? ?]]]; try discriminate. cbn [map] in E. injection E as E1 E2. cbn [In].
          assert (X : x = A \/ x = A + 1) by lia. assert (Y : y = B \/ y = B + 1) by lia. destruct X as [X|X], Y as [Y|Y]; rewrite X, Y; auto.
        + intros K. cbn [In] in K. repeat (destruct K as [K|K]; [subst c; split; [reflexivity|]; cbn [map]; subst A B; apply f_equal2; [lia|apply f_equal2; [lia|reflexivity]]|]). exfalso; exact K. }
    rewrite (sum_perm _ _ _ _ P). cbn. reflexivity.
  - intros l p G. destruct G as (G & _). assert (Lp : length p = 2%nat) by apply G. clear G. rewrite (interpolated_ext order p (fun _ => 1%Q) (tensor_avg [[1%Q]; [1%Q]] 1%Q)).
    + rewrite interpolated_poly; auto; [|constructor; [cbn [length]; lia|constructor; [cbn [length]; lia|constructor]]|discriminate]. destruct p as [|x [|y [|? ?]]]; try discriminate. cbn [tensor_avg]. rewrite !PropsExact.average_constant by discriminate. reflexivity.
    + intros q Lq. rewrite Lp in Lq. destruct q as [|x [|y [|? ?]]]; try discriminate. cbn [tensor_avg]. rewrite !PropsExact.average_constant by discriminate. reflexivity.
Qed.

(** With a stencil of four cells the statement fails: the ghosts of the stencil of a face of
    the boundary are not replaced. The field 1 satisfies the equations of the ghosts, the
    vector is 1 except on the ghosts, where it is 0 as in the solution of the system; the row
    of the leaf (0, 1) of level 1, on the left boundary, contains its neighbour (1, 1), which
    is a ghost. *)
Definition line4d (d : nat) : stencil := [[0; 0]; unit_mult 1 d 1; unit_mult 1 d (-1); unit_mult 1 d 2].
Definition exFourth (d : nat) : lin_flux := mkLF (line4d d) (fun h => [fun _ _ => 0%Q; fun _ _ => 0%Q; fun _ _ => 0%Q; fun _ _ => 1%Q]).
Definition exVector (c : Z) : Q := if memz c exGhostNumbers then 0%Q else 1%Q.
Definition exRow : Z := index_of 1 roomRef (1%nat, [0; 1]).
Lemma exFourth_values : match ghost_recursion 4 1 1 roomRef exGhosts exMesh with
  | Some rec => match assemble_scheme (exLayout false 1 0) rec 1 3 1 roomRef exMesh exDomain true exFourth asm_empty, lin_apply_to true 1 3 1 1 1 roomRef exMesh exDomain true (fun _ _ => 1%Q) exFourth with
    | Some s, Some out => Qeq_bool (product (exLayout false 1 0) (as_mat s) exVector exRow) (out exRow 0%nat) = false | _, _ => False end
  | None => False end.
Proof. vm_compute. reflexivity. Qed.

Theorem C78_boundary_ghosts_refuted : let y := exLayout false 1 0 in
  represents 1 1 roomRef exGhosts exMesh y exVector (fun _ _ => 1%Q) /\ ca_mem 1 exMesh 1 [0; 1] /\ ca_get_index 1 roomRef 1 [0; 1] = Some exRow /\
  exists rec s out, ghost_recursion 4 1 1 roomRef exGhosts exMesh = Some rec /\ assemble_scheme y rec 1 3 1 roomRef exMesh exDomain true exFourth asm_empty = Some s /\
    lin_apply_to true 1 3 1 1 1 roomRef exMesh exDomain true (fun _ _ => 1%Q) exFourth = Some out /\ ~ (product y (as_mat s) exVector (row_index y exRow 0) == out exRow 0%nat)%Q.
Proof.
  intros y. split; [|split; [apply exMesh_leaf; cbn; auto|split; [vm_compute; reflexivity|]]].
  - split; [intros j _; apply constant_equations; lia|]. intros c j _ _ NG. change (col_index y c j) with c. unfold exVector. destruct (memz c exGhostNumbers) eqn:E; [|reflexivity]. exfalso. apply NG, ex_ghost_number_inv.
    apply existsb_exists in E as (k & Hk & E). apply Z.eqb_eq in E. rewrite E. exact Hk.
  - pose proof exFourth_values as H. destruct (ghost_recursion 4 1 1 roomRef exGhosts exMesh) as [rec|]; [|contradiction]. fold y in H.
    destruct (assemble_scheme y rec 1 3 1 roomRef exMesh exDomain true exFourth asm_empty) as [s|] eqn:Es; [|contradiction]. destruct (lin_apply_to true 1 3 1 1 1 roomRef exMesh exDomain true (fun _ _ => 1%Q) exFourth) as [out|]; [|contradiction].
    exists rec, s, out. split; [reflexivity|]. split; [exact Es|]. split; [reflexivity|]. intros K. apply Qeq_bool_iff in K. change (row_index y exRow 0) with exRow in K. rewrite H in K. discriminate K.
Qed.

Print Assumptions C78_indices.
Print Assumptions C78_two_cells.
Print Assumptions C78_scheme.
Print Assumptions C78_matrix.
Print Assumptions C78_solution.
Print Assumptions C78_system.
Print Assumptions C78_conditions.
Print Assumptions C78_solution_example.
Print Assumptions C78_boundary_ghosts_refuted.
