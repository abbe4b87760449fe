(** Model of the assembly of the matrix of a linear homogeneous flux-based scheme
    (include/samurai/petsc/matrix_assembly.hpp, petsc/fv/FV_scheme_assembly.hpp and
    petsc/fv/flux_based_scheme_assembly.hpp), of the elimination of the ghosts it makes, and
    of the right-hand side (petsc/linear_solver.hpp).

    [cells], [cg] and [ref] are mesh[mesh_id_t::cells], [cells_and_ghosts] and [reference];
    [ref] numbers the cells. A matrix is a function of the row and of the column, changed by
    MatSetValue with ADD_VALUES or INSERT_VALUES; the flushes between the two modes have no
    effect on it. A row or a column outside of the matrix, an access outside of an array and
    a cell which is not stored are [None]. Values are rationals: no rounding. *)
From Coq Require Import QArith.
From Verif Require Import Base IntervalModel LoiModel LcaModel CellArrayModel SubsetModel StencilModel InterfaceModel GeomModel FluxModel NumModel GhostModel ReconModel LinFluxModel.
Open Scope Z_scope.

Fixpoint all_opt {A B : Type} (f : A -> option B) (l : list A) : option (list B) :=
  match l with [] => Some [] | a :: l => let* b := f a in let* bs := all_opt f l in Some (b :: bs) end.

(** ** The ghosts: indices.hpp *)

(** L71 and L150; L170 *)
Definition inter_on (a b : lca) (level : nat) : subset := on (make_op Intersect (More (Lf (leaf_of (NMesh a))) (One (Lf (leaf_of (NMesh b)))))) level.
Definition proj_set (cg cells : ca) (level : nat) : subset := inter_on (c_at cg level) (c_at cells (S level)) level.
Definition pred_set (cg cells : ca) (level : nat) : subset := inter_on (c_at cg level) (c_at cells (Nat.pred level)) level.

(** L36-49 *)
Definition get_index_start_children (n : nat) (ref : ca) (mi : mesh_interval) (t : list Z) : option Z :=
  ca_get_index n ref (S (mi_level mi)) (map (fun '(x, v) => 2 * x + v) (combine (istart (mi_i mi) :: mi_index mi) t)).

(** L80-131: the rows of children, in the order of the array; static_assert for dimensions above 3. *)
Definition child_rows (n : nat) : option (list (list Z)) :=
  match n with
  | O => Some [[0]]
  | S O => Some [[0; 0]; [0; 1]]
  | S (S O) => Some [[0; 0; 0]; [0; 1; 0]; [0; 1; 1]; [0; 0; 1]]
  | _ => None
  end.
Definition interval_size (i : interval) : nat := Z.to_nat (iend i - istart i).
(** L72-132: the ghosts of an interval with their children. *)
Definition proj_interval (n : nat) (ref : ca) (mi : mesh_interval) : option (list (Z * list Z)) :=
  let* cell_start := get_index_start n ref mi in
  let* rows := child_rows n in
  let* starts := all_opt (get_index_start_children n ref mi) rows in
  Some (map (fun ii => let ii := Z.of_nat ii in (cell_start + ii, flat_map (fun s => [s + 2 * ii; s + 2 * ii + 1]) starts)) (seq 0 (interval_size (mi_i mi)))).
(** L54-134 *)
Definition projection_ghosts (n : nat) (ref cg cells : ca) : option (list (Z * list Z)) :=
  each_level (fun level => over_set n (proj_set cg cells level) (proj_interval n ref)) (seq (min_level cells) (max_level cells - min_level cells)).

(** for_each_cell on a set: algorithm.hpp L326-358 *)
Definition cells_interval (n : nat) (ref : ca) (mi : mesh_interval) : option (list scell) :=
  let* i := get_index_start n ref mi in
  Some (map (fun ii => mkSC (mi_level mi) (istart (mi_i mi) + Z.of_nat ii :: mi_index mi) (i + Z.of_nat ii)) (seq 0 (interval_size (mi_i mi)))).
(** L160-174 *)
Definition prediction_ghosts (n : nat) (ref cg cells : ca) : option (list scell) :=
  each_level (fun level => over_set n (pred_set cg cells level) (cells_interval n ref)) (seq (S (min_level cells)) (max_level cells - min_level cells)).

(** ** Elimination of the ghosts: FV_scheme_assembly.hpp *)

(** CellLinearCombination and recursion_t; a map is a list in the order of the keys. *)
Definition comb := list (Z * Q).
Definition recursion := list (Z * comb).
Fixpoint rec_find (k : Z) (r : recursion) : option comb :=
  match r with [] => None | (k', c) :: r => if k =? k' then Some c else rec_find k r end.
(** std::map::insert: nothing if the key is there *)
Fixpoint rec_insert (k : Z) (c : comb) (r : recursion) : recursion :=
  match r with
  | [] => [(k, c)]
  | (k', c') :: r' => if k <? k' then (k, c) :: r else if k =? k' then r else (k', c') :: rec_insert k c r'
  end.
Fixpoint rec_set (k : Z) (c : comb) (r : recursion) : recursion :=
  match r with [] => [] | (k', c') :: r => if k =? k' then (k', c) :: r else (k', c') :: rec_set k c r end.

(** L807-822, L871-895, L945-977, L1036-1076 *)
Definition prediction_comb (n order : nat) (ref : ca) (ghost : scell) : option comb :=
  if Nat.ltb 2 n then None else
  let g := map (fun i => Z.shiftr i 1) (sc_coord ghost) in
  let level := Nat.pred (sc_level ghost) in
  let* parent := ca_get_index n ref level g in
  let* rest := all_opt (fun '(cs, q) => let* i := ca_get_index n ref level (shifted order g cs) in Some (i, q))
                 (filter (fun '(cs, _) => negb (is_centre order cs)) (interp_loop order (sc_coord ghost))) in
  Some ((parent, 1%Q) :: rest).

(** L101-123. A projection ghost is the mean of its 2^dim children. *)
Definition initial_recursion (n order : nat) (ref cg cells : ca) : option recursion :=
  let* ps := projection_ghosts n ref cg cells in
  let r := fold_left (fun r '(g, children) => rec_insert g (map (fun c => (c, (1 / inject_Z (2 ^ Z.of_nat (S n)))%Q)) children) r) ps [] in
  let* gs := prediction_ghosts n ref cg cells in
  fold_opt (fun r g => let* c := prediction_comb n order ref g in Some (rec_insert (sc_index g) c r)) gs r.

(** L134-155: one linear combination; the flag is [changes]. *)
Fixpoint expand_comb (r : recursion) (lc : comb) : comb * bool :=
  match lc with
  | [] => ([], false)
  | (cell, coeff) :: lc =>
      let '(lc', ch) := expand_comb r lc in
      match rec_find cell r with
      | None => ((cell, coeff) :: lc', ch)
      | Some ghost_lin_comb => (map (fun '(cell2, coeff2) => (cell2, coeff * coeff2)%Q) ghost_lin_comb ++ lc', true)
      end
  end.
(** L128-156: the pairs in the order of the keys, changed in place. *)
Fixpoint elim_pass (keys : list Z) (r : recursion) : recursion * bool :=
  match keys with
  | [] => (r, false)
  | k :: keys =>
      match rec_find k r with
      | None => elim_pass keys r
      | Some lc => let '(lc', ch) := expand_comb r lc in let '(r', ch') := elim_pass keys (rec_set k lc' r) in (r', ch || ch')
      end
  end.
(** L125-157. [None]: the loop has not stopped after [fuel] passes. *)
Fixpoint elim_loop (fuel : nat) (r : recursion) : option recursion :=
  match fuel with
  | O => None
  | S fuel => let '(r', ch) := elim_pass (map fst r) r in if ch then elim_loop fuel r' else Some r'
  end.
Definition ghost_recursion (fuel n order : nat) (ref cg cells : ca) : option recursion :=
  let* r := initial_recursion n order ref cg cells in elim_loop fuel r.

(** ** Rows and columns: L189-230 *)
Record layout := mkLy { ly_cells : Z; ly_soa : bool; ly_os : nat; ly_fs : nat; ly_row_shift : Z; ly_col_shift : Z }.
Definition matrix_rows (y : layout) : Z := ly_cells y * Z.of_nat (ly_os y).
Definition matrix_cols (y : layout) : Z := ly_cells y * Z.of_nat (ly_fs y).
Definition data_index (size : nat) (soa : bool) (n_cells shift cell : Z) (field : nat) : Z :=
  if Nat.eqb size 1 then shift + cell
  else if soa then shift + Z.of_nat field * n_cells + cell
  else shift + cell * Z.of_nat size + Z.of_nat field.
Definition col_index (y : layout) : Z -> nat -> Z := data_index (ly_fs y) (ly_soa y) (ly_cells y) (ly_col_shift y).
Definition row_index (y : layout) : Z -> nat -> Z := data_index (ly_os y) (ly_soa y) (ly_cells y) (ly_row_shift y).

(** ** The matrix *)
Definition matrix := Z -> Z -> Q.
(** The matrix and m_is_row_empty (by number in the block). *)
Record asm := mkAsm { as_mat : matrix; as_empty : Z -> bool }.
Definition asm_empty : asm := mkAsm (fun _ _ => 0%Q) (fun _ => true).

Definition in_matrix (y : layout) (r c : Z) : bool :=
  (ly_row_shift y <=? r) && (r <? ly_row_shift y + matrix_rows y) && (ly_col_shift y <=? c) && (c <? ly_col_shift y + matrix_cols y).
Definition mat_add (y : layout) (r c : Z) (q : Q) (s : asm) : option asm :=
  checked (in_matrix y r c) (Some (mkAsm (fun r' c' => if (r' =? r) && (c' =? c) then (as_mat s r' c' + q)%Q else as_mat s r' c') (as_empty s))).
Definition mat_insert (y : layout) (r c : Z) (q : Q) (s : asm) : option asm :=
  checked (in_matrix y r c) (Some (mkAsm (fun r' c' => if (r' =? r) && (c' =? c) then q else as_mat s r' c') (as_empty s))).
(** L255-260 *)
Definition set_row_not_empty (y : layout) (r : Z) (s : asm) : option asm :=
  let i := r - ly_row_shift y in
  checked ((0 <=? i) && (i <? matrix_rows y)) (Some (mkAsm (as_mat s) (fun j => if j =? i then false else as_empty s j))).

(** *** The scheme: flux_based_scheme_assembly.hpp *)

(** flux_based_scheme__lin_hom.hpp L70-145 and L159-196 with Get::Cells: an interface, its
    stencil and the coefficients of the two cells. *)
Definition lin_interior_cells (n maxl : nat) (scaling : Q) (ref cells : ca) (d : nat) (lf : lin_flux) : option (list (iface * (coeffs * coeffs))) :=
  let direction := unit_mult n d 1 in
  let min_level := min_level cells in
  let max_level := max_level cells in
  let* same := each_level (fun level =>
    let h := cell_length scaling level in
    let left := coeff_contribution n (lf_cons lf h) h h in
    let* o := same_level n ref cells level direction (lf_stencil lf) in
    Some (map (fun i => (i, (left, coeff_neg left))) o)) (seq min_level (S max_level - min_level)) in
  let* jumps := each_level (fun level =>
    let h_l := cell_length scaling level in
    let h_lp1 := cell_length scaling (S level) in
    let fc := lf_cons lf h_lp1 in
    let* a := level_jump n maxl ref cells level direction (lf_stencil lf) in
    let* b := level_jump_opposite n maxl ref cells level direction (lf_stencil lf) in
    Some (map (fun i => (i, (coeff_contribution n fc h_lp1 h_l, coeff_contribution n (coeff_neg fc) h_lp1 h_lp1))) a ++
          map (fun i => (i, (coeff_contribution n fc h_lp1 h_lp1, coeff_contribution n (coeff_neg fc) h_lp1 h_l))) b)) (seq min_level (max_level - min_level)) in
  Some (same ++ jumps).
Definition lin_boundary_cells (n : nat) (scaling : Q) (ref cells : ca) (domain : lca) (d : nat) (lf : lin_flux) : option (list (iface * coeffs)) :=
  let direction := unit_mult n d 1 in
  over_levels cells (fun level =>
    let h := cell_length scaling level in
    let fc := lf_cons lf h in
    let* a := boundary_direction n ref cells domain level direction (lf_stencil lf) in
    let* b := boundary_opposite n ref cells domain level direction (lf_stencil lf) in
    Some (map (fun i => (i, coeff_contribution n fc h h)) a ++ map (fun i => (i, coeff_contribution n (coeff_neg fc) h h)) b)) (levels cells).

(** L158-189: the coefficients of one cell of the stencil in the rows of the two cells; a
    ghost is replaced by its linear combination. *)
Definition add_column (y : layout) (rec : recursion) (lrow rrow cell : Z) (fj : nat) (lc rc : Q) (s : asm) : option asm :=
  match rec_find cell rec with
  | None => let col := col_index y cell fj in let* s := mat_add y lrow col lc s in mat_add y rrow col rc s
  | Some linear_comb => fold_opt (fun s '(cell, coeff) =>
      let col := col_index y cell fj in let* s := mat_add y lrow col (lc * coeff)%Q s in mat_add y rrow col (rc * coeff)%Q s) linear_comb s
  end.
(** L147-194 *)
Definition assemble_interface (y : layout) (rec : recursion) (s : asm) (e : iface * (coeffs * coeffs)) : option asm :=
  let '((cs, es), (lcs, rcs)) := e in
  let* l := nth_error cs 0 in
  let* r := nth_error cs 1 in
  fold_opt (fun s fi =>
    let lrow := row_index y (sc_index l) fi in
    let rrow := row_index y (sc_index r) fi in
    let* s := fold_opt (fun s fj => fold_opt (fun s c =>
        let* e := nth_error es c in
        let* lc := nth_error lcs c in
        let* rc := nth_error rcs c in
        add_column y rec lrow rrow (sc_index e) fj (lc fi fj) (rc fi fj) s) (seq 0 (length es)) s) (seq 0 (ly_fs y)) s in
    let* s := set_row_not_empty y lrow s in
    set_row_not_empty y rrow s) (seq 0 (ly_os y)) s.
(** L199-217: the ghosts are not replaced. *)
Definition assemble_boundary_interface (y : layout) (s : asm) (e : iface * coeffs) : option asm :=
  let '((cs, es), co) := e in
  let* l := nth_error cs 0 in
  fold_opt (fun s fi =>
    let row := row_index y (sc_index l) fi in
    let* s := fold_opt (fun s fj => fold_opt (fun s c =>
        let* e := nth_error es c in
        let* q := nth_error co c in
        mat_add y row (col_index y (sc_index e) fj) (q fi fj) s) (seq 0 (length es)) s) (seq 0 (ly_fs y)) s in
    set_row_not_empty y row s) (seq 0 (ly_os y)) s.

(** What the loops over the directions (flux_based_scheme__lin_hom.hpp L147-154, L198-205) visit. *)
Definition all_interior (n maxl : nat) (scaling : Q) (ref cells : ca) (lfs : nat -> lin_flux) : option (list (iface * (coeffs * coeffs))) :=
  option_map (@concat _) (all_opt (fun d => lin_interior_cells n maxl scaling ref cells d (lfs d)) (seq 0 (S n))).
Definition all_boundary (n : nat) (scaling : Q) (ref cells : ca) (domain : lca) (lfs : nat -> lin_flux) : option (list (iface * coeffs)) :=
  option_map (@concat _) (all_opt (fun d => lin_boundary_cells n scaling ref cells domain d (lfs d)) (seq 0 (S n))).
(** L135-219 *)
Definition assemble_scheme (y : layout) (rec : recursion) (n maxl : nat) (scaling : Q) (ref cells : ca) (domain : lca) (include_boundary_fluxes : bool) (lfs : nat -> lin_flux) (s : asm) : option asm :=
  let* is := all_interior n maxl scaling ref cells lfs in
  let* s := fold_opt (assemble_interface y rec) is s in
  if include_boundary_fluxes then
    let* bs := all_boundary n scaling ref cells domain lfs in fold_opt (assemble_boundary_interface y) bs s
  else Some s.

(** *** The boundary conditions: FV_scheme_assembly.hpp L372-471, L479-586 *)

(** equation_coeffs_t: the position of the ghost in the stencil, the coefficients of the
    equation and those of its right-hand side. *)
Record bc_eq := mkEq { eq_ghost : nat; eq_coeffs : coeffs; eq_rhs : nat -> nat -> Q }.
(** The cells of a stencil on the boundary, its equations, the value of the condition at the
    centre of the face. *)
Record bc_call := mkBc { bc_cells : list scell; bc_eqs : list bc_eq; bc_val : nat -> Q }.

(** stencil.hpp L274-365 for the width 1: the cell, the one inside, the ghost. *)
Definition bc_stencil (n : nat) (direction : list Z) : stencil := [repeat 0 (S n); neg direction; direction].
Inductive bc_kind := Dirichlet | Neumann.
(** FV_scheme.hpp L265-302, L318-355 *)
Definition bc_equation (k : bc_kind) (h : Q) : bc_eq :=
  match k with
  | Dirichlet => mkEq 2 [diag (1 # 2); diag 0; diag (1 # 2)] (diag 1)
  | Neumann => mkEq 2 [diag (- 1); diag 0; diag 1] (diag h)
  end.
(** A condition: its kind, its value, its region: a set of cells for each direction. *)
Record bc := mkBC { bc_type : bc_kind; bc_value : nat -> list Z -> list Z -> nat -> Q; bc_region : list (list Z * lca) }.
(** boundary.hpp L44-74 for one level *)
Definition bc_level_calls (n : nat) (scaling : Q) (ref cells : ca) (b : bc) (direction : list Z) (region : lca) (level : nat) : option (list bc_call) :=
  let eq := bc_equation (bc_type b) (cell_length scaling level) in
  over_set n (inter_on (c_at cells level) region level) (fun mi =>
    let* o := for_each_stencil_sliding n ref (bc_stencil n direction) mi in
    all_opt (fun es => let* c := nth_error es 0 in Some (mkBc es [eq] (bc_value b level (sc_coord c) direction))) o).
Definition bc_calls (n : nat) (scaling : Q) (ref cells : ca) (bcs : list bc) : option (list bc_call) :=
  option_map (@concat _) (all_opt (fun b => option_map (@concat _) (all_opt (fun '(direction, region) =>
    if is_cartesian direction then over_levels cells (bc_level_calls n scaling ref cells b direction region) (levels cells) else Some []) (bc_region b))) bcs).

(** L441-471 *)
Definition assemble_bc (y : layout) (s : asm) (b : bc_call) : option asm :=
  fold_opt (fun s eq =>
    let* g := nth_error (bc_cells b) (eq_ghost eq) in
    fold_opt (fun s c => fold_opt (fun s fi =>
        let row := col_index y (sc_index g) fi in
        let* e := nth_error (bc_cells b) c in
        let* m := nth_error (eq_coeffs eq) c in
        if Qeq_bool (m fi fi) 0 then Some s
        else let* s := mat_insert y row (col_index y (sc_index e) fi) (m fi fi) s in set_row_not_empty y row s) (seq 0 (ly_os y)) s)
      (seq 0 (length (bc_cells b))) s) (bc_eqs b) s.

(** *** The useless ghosts: L606-636 *)
Definition insert_useless (y : layout) (diag_value : Q) (s : asm) : option asm :=
  fold_opt (fun s i => let i := Z.of_nat i in
    if as_empty s i then mat_insert y (ly_row_shift y + i) (ly_col_shift y + i) diag_value s else Some s) (seq 0 (Z.to_nat (matrix_rows y))) s.

(** matrix_assembly.hpp L211-245; assemble_projection and assemble_prediction do nothing since
    ghost_elimination_enabled is true (FV_scheme_assembly.hpp L54, L751, L788). *)
Definition assemble_matrix (y : layout) (rec : recursion) (n maxl : nat) (scaling : Q) (ref cells : ca) (domain : lca) (ib : bool) (lfs : nat -> lin_flux) (calls : list bc_call) (diag_value : Q) : option asm :=
  let* s := assemble_scheme y rec n maxl scaling ref cells domain ib lfs asm_empty in
  let* s := fold_opt (assemble_bc y) calls s in
  insert_useless y diag_value s.

(** ** The right-hand side: linear_solver.hpp L173-188 *)
Definition rhs := Z -> Q.
Definition rhs_set (r : Z) (q : Q) (b : rhs) : rhs := fun i => if i =? r then q else b i.
(** L546-586 *)
Definition enforce_bc (y : layout) (b : rhs) (c : bc_call) : option rhs :=
  fold_opt (fun b eq =>
    let* g := nth_error (bc_cells c) (eq_ghost eq) in
    Some (fold_left (fun b fi => rhs_set (row_index y (sc_index g) fi) (eq_rhs eq fi fi * bc_val c fi)%Q b) (seq 0 (ly_os y)) b)) (bc_eqs c) b.
(** L724-745 *)
Definition enforce_zero (y : layout) (ghosts : list Z) (b : rhs) : rhs :=
  fold_left (fun b g => fold_left (fun b fi => rhs_set (row_index y g fi) 0%Q b) (seq 0 (ly_os y)) b) ghosts b.
(** L638-647 *)
Definition zero_useless (y : layout) (empty : Z -> bool) (b : rhs) : rhs :=
  fold_left (fun b i => let i := Z.of_nat i in if empty i then rhs_set (ly_row_shift y + i) 0%Q b else b) (seq 0 (Z.to_nat (matrix_rows y))) b.
Definition prepare_rhs (y : layout) (n : nat) (ref cg cells : ca) (calls : list bc_call) (empty : Z -> bool) (b : rhs) : option rhs :=
  let* b := fold_opt (enforce_bc y) calls b in
  let* ps := projection_ghosts n ref cg cells in
  let* gs := prediction_ghosts n ref cg cells in
  Some (zero_useless y empty (enforce_zero y (map sc_index gs) (enforce_zero y (map fst ps) b))).
