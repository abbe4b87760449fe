(** Model of the preallocation of the matrix (petsc/matrix_assembly.hpp L164-206): the
    number of coefficients announced for each row, before the matrix is assembled
    (AssemblyModel), and the positions MatSetValue is called with.

    [nnz] is the array of the numbers, [rows] its size: an access outside of it is [None].
    The scheme is a linear homogeneous flux-based scheme, [calls] are the stencils of the
    boundary conditions (AssemblyModel.bc_calls: the same iteration), which are enforced by
    equations (the default of FV_scheme.hpp L17). The message and the assertion for a field
    without boundary condition (FV_scheme_assembly.hpp L270-276) are not modelled. *)
From Coq Require Import QArith.
From Verif Require Import Base IntervalModel LcaModel CellArrayModel SubsetModel StencilModel InterfaceModel GeomModel FluxModel NumModel GhostModel ReconModel LinFluxModel AssemblyModel.
Open Scope Z_scope.

Definition counts := Z -> Z.
Definition no_counts : counts := fun _ => 0.
(** nnz[row] += k; nnz[row] = k *)
Definition nnz_add (rows r k : Z) (nnz : counts) : option counts :=
  checked ((0 <=? r) && (r <? rows)) (Some (fun i => if i =? r then nnz i + k else nnz i)).
Definition nnz_set (rows r k : Z) (nnz : counts) : option counts :=
  checked ((0 <=? r) && (r <? rows)) (Some (fun i => if i =? r then k else nnz i)).

(** ** The scheme: flux_based_scheme_assembly.hpp L62-129 *)

(** L80-98: what a cell of the stencil adds *)
Definition cell_count (y : layout) (rec : recursion) (cell : Z) : Z :=
  match rec_find cell rec with
  | None => Z.of_nat (ly_fs y)
  | Some linear_comb => Z.of_nat (length linear_comb) * Z.of_nat (ly_fs y)
  end.
(** L72-110 *)
Definition sparsity_interface (rows : Z) (y : layout) (rec : recursion) (nnz : counts) (i : iface) : option counts :=
  let* l := nth_error (fst i) 0 in
  let* r := nth_error (fst i) 1 in
  fold_opt (fun nnz fi => fold_opt (fun nnz (fj : nat) => fold_opt (fun nnz e =>
    let k := cell_count y rec (sc_index e) in
    let* nnz := nnz_add rows (row_index y (sc_index l) fi) k nnz in
    nnz_add rows (row_index y (sc_index r) fi) k nnz) (snd i) nnz) (seq 0 (ly_fs y)) nnz) (seq 0 (ly_os y)) nnz.
(** L112-127; stencil_size is the length of the stencil. *)
Definition sparsity_boundary_interface (rows : Z) (y : layout) (nnz : counts) (i : iface) : option counts :=
  let* l := nth_error (fst i) 0 in
  fold_opt (fun nnz fi => fold_opt (fun nnz (fj : nat) =>
    nnz_add rows (row_index y (sc_index l) fi) (Z.of_nat (length (snd i)) * Z.of_nat (ly_fs y)) nnz) (seq 0 (ly_fs y)) nnz) (seq 0 (ly_os y)) nnz.
(** L62-129 *)
Definition sparsity_scheme (rows : Z) (y : layout) (rec : recursion) (n maxl : nat) (ref cells : ca) (domain : lca) (ib : bool) (lfs : nat -> lin_flux) (nnz : counts) : option counts :=
  fold_opt (fun nnz d =>
    let direction := unit_mult n d 1 in
    let* is := for_each_interior_interface n maxl ref cells direction (lf_stencil (lfs d)) in
    let* nnz := fold_opt (sparsity_interface rows y rec) is nnz in
    if ib then
      let* bs := boundary_interfaces_both n ref cells domain direction (lf_stencil (lfs d)) in
      fold_opt (sparsity_boundary_interface rows y) bs nnz
    else Some nnz) (seq 0 (S n)) nnz.

(** ** The boundary conditions: FV_scheme_assembly.hpp L268-363; bdry_stencil_size is the
    number of cells of the stencil. *)
Definition sparsity_bc (rows : Z) (y : layout) (nnz : counts) (b : bc_call) : option counts :=
  fold_opt (fun nnz eq =>
    let* g := nth_error (bc_cells b) (eq_ghost eq) in
    fold_opt (fun nnz fi => nnz_set rows (row_index y (sc_index g) fi) (Z.of_nat (length (bc_cells b))) nnz) (seq 0 (ly_os y)) nnz) (bc_eqs b) nnz.

(** ** The ghosts: L671-722 with ghost_elimination_enabled; std::map::at throws if there is
    no entry. *)
Definition sparsity_ghosts (rows : Z) (y : layout) (rec : recursion) (ghosts : list Z) (nnz : counts) : option counts :=
  fold_opt (fun nnz g => fold_opt (fun nnz fi =>
    let* lc := rec_find g rec in
    nnz_set rows (row_index y g fi) (Z.of_nat (length lc)) nnz) (seq 0 (ly_os y)) nnz) ghosts nnz.

(** ** The other rows: matrix_assembly.hpp L300-311 *)
Definition sparsity_useless (rows : Z) (y : layout) (nnz : counts) : option counts :=
  fold_opt (fun nnz i =>
    let row := ly_row_shift y + Z.of_nat i in
    checked ((0 <=? row) && (row <? rows)) (if nnz row =? 0 then nnz_set rows row 1 nnz else Some nnz)) (seq 0 (Z.to_nat (matrix_rows y))) nnz.

(** matrix_assembly.hpp L177-193 *)
Definition preallocation (rows : Z) (y : layout) (rec : recursion) (n maxl : nat) (ref cg cells : ca) (domain : lca) (ib : bool) (lfs : nat -> lin_flux) (calls : list bc_call) : option counts :=
  let* nnz := sparsity_scheme rows y rec n maxl ref cells domain ib lfs no_counts in
  let* nnz := fold_opt (sparsity_bc rows y) calls nnz in
  let* ps := projection_ghosts n ref cg cells in
  let* nnz := sparsity_ghosts rows y rec (map fst ps) nnz in
  let* gs := prediction_ghosts n ref cg cells in
  let* nnz := sparsity_ghosts rows y rec (map sc_index gs) nnz in
  sparsity_useless rows y nnz.

(** ** The positions MatSetValue is called with *)

(** flux_based_scheme_assembly.hpp L158-189 *)
Definition column_positions (y : layout) (rec : recursion) (lrow rrow cell : Z) (fj : nat) : list (Z * Z) :=
  match rec_find cell rec with
  | None => let col := col_index y cell fj in [(lrow, col); (rrow, col)]
  | Some linear_comb => flat_map (fun '(cell, _) => let col := col_index y cell fj in [(lrow, col); (rrow, col)]) linear_comb
  end.
(** L147-194 *)
Definition interface_positions (y : layout) (rec : recursion) (i : iface) : list (Z * Z) :=
  match fst i with
  | l :: r :: _ => flat_map (fun fi => flat_map (fun fj => flat_map (fun e =>
      column_positions y rec (row_index y (sc_index l) fi) (row_index y (sc_index r) fi) (sc_index e) fj) (snd i)) (seq 0 (ly_fs y))) (seq 0 (ly_os y))
  | _ => []
  end.
(** L199-217 *)
Definition boundary_positions (y : layout) (i : iface) : list (Z * Z) :=
  match fst i with
  | l :: _ => flat_map (fun fi => flat_map (fun fj => map (fun e => (row_index y (sc_index l) fi, col_index y (sc_index e) fj)) (snd i)) (seq 0 (ly_fs y))) (seq 0 (ly_os y))
  | _ => []
  end.
(** FV_scheme_assembly.hpp L441-471: the coefficients that are 0 are not set. *)
Definition bc_positions (y : layout) (b : bc_call) : list (Z * Z) :=
  flat_map (fun eq => match nth_error (bc_cells b) (eq_ghost eq) with
    | None => []
    | Some g => flat_map (fun '(e, m) => flat_map (fun fi => if Qeq_bool (m fi fi) 0 then [] else [(col_index y (sc_index g) fi, col_index y (sc_index e) fi)]) (seq 0 (ly_os y))) (combine (bc_cells b) (eq_coeffs eq))
    end) (bc_eqs b).
(** L606-636 *)
Definition useless_positions (y : layout) (empty : Z -> bool) : list (Z * Z) :=
  flat_map (fun i => let i := Z.of_nat i in if empty i then [(ly_row_shift y + i, ly_col_shift y + i)] else []) (seq 0 (Z.to_nat (matrix_rows y))).
(** All of them; [empty] is m_is_row_empty after the boundary conditions. *)
Definition positions (y : layout) (rec : recursion) (is bs : list iface) (calls : list bc_call) (empty : Z -> bool) : list (Z * Z) :=
  flat_map (interface_positions y rec) is ++ flat_map (boundary_positions y) bs ++ flat_map (bc_positions y) calls ++ useless_positions y empty.
