(** Model of the explicit flux-based schemes for linear homogeneous fluxes
    (include/samurai/schemes/fv/flux_based/flux_based_scheme__lin_hom.hpp and
    explicit_flux_based_scheme__lin_hom.hpp), which work on whole intervals of
    interfaces, and of the operators built on them (include/samurai/schemes/fv/operators).

    [cells], [ref], [maxl] and [domain] are those of FluxModel. The field is a function
    [u] of the index of the cell and of the component; as in the code the scheme reads and
    writes cells by their index only. Values are rationals: no rounding. *)
From Coq Require Import QArith.
From Verif Require Import Base IntervalModel LoiModel LcaModel CellArrayModel SubsetModel StencilModel InterfaceModel GeomModel FluxModel GhostModel ReconModel.
Open Scope Z_scope.

(** ** Coefficients *)

(** FluxStencilCoeffs: one matrix (output component, field component) per cell of the
    stencil. FV_scheme.hpp L207-220 (cell_coeff) reads them. *)
Definition coeffs := list (nat -> nat -> Q).

(** flux_definition.hpp, LinearHomogeneous: the coefficients depend on the mesh size. *)
Record lin_flux := mkLF { lf_stencil : stencil; lf_cons : Q -> coeffs }.

(** flux_based_scheme__lin_hom.hpp L60-65 and the unary minus on arrays of matrices. *)
Definition coeff_contribution (n : nat) (fc : coeffs) (h_face h_cell : Q) : coeffs :=
  let face_measure := (h_face ^ Z.of_nat n)%Q in
  let cell_measure := (h_cell ^ Z.of_nat (S n))%Q in
  map (fun m i j => ((face_measure / cell_measure) * m i j)%Q) fc.
Definition coeff_neg (fc : coeffs) : coeffs := map (fun m i j => (- m i j)%Q) fc.

(** ** Intervals of interfaces: interface.hpp with Get::Intervals *)

(** What the callback sees: the cells of the two iterators after their [init], and the
    number of interfaces of the interval. *)
Record run := mkRun { r_cells : list scell; r_stencil : list scell; r_size : Z }.

(** interface.hpp L43-55 *)
Definition same_level_run (n : nat) (ref : ca) (direction : list Z) (comput : stencil) (mi : mesh_interval) : option (list run) :=
  let* a := stencil_init n ref (in_out_stencil n direction) mi in
  let* b := stencil_init n ref comput mi in
  Some [mkRun a b (iend (mi_i mi) - istart (mi_i mi))].
Definition same_level_runs (n : nat) (ref cells : ca) (level : nat) (direction : list Z) (comput : stencil) : option (list run) :=
  over_set n (shifted_inter (c_at cells level) (c_at cells level) (neg direction)) (same_level_run n ref direction comput).

(** L121-145, L204-228; the interval is the one of the fine iterator. *)
Definition jump_run (n : nat) (ref : ca) (first : bool) (di : nat) (comput : stencil) (mi : mesh_interval) : option (list run) :=
  let* es := stencil_init n ref comput mi in
  let* j := ljump_init n ref di es mi in
  Some [mkRun (jump_cells first j) es (iend (mi_i mi) - istart (mi_i mi))].
Definition level_jump_runs (n maxl : nat) (ref cells : ca) (level : nat) (direction : list Z) (comput : stencil) : option (list run) :=
  if Nat.leb maxl level then Some [] else
  over_set n (on (shifted_inter (c_at cells level) (c_at cells (S level)) (neg direction)) (S level))
    (jump_run n ref true (found comput direction) comput).
Definition level_jump_opposite_runs (n maxl : nat) (ref cells : ca) (level : nat) (direction : list Z) (comput : stencil) : option (list run) :=
  if Nat.leb maxl level then Some [] else
  let minus := stencil_minus comput direction in
  over_set n (on (shifted_inter (c_at cells level) (c_at cells (S level)) direction) (S level))
    (jump_run n ref false (found minus (neg direction)) minus).

(** L361-403: the callback gets the first cell of the interface. *)
Definition boundary_run (n : nat) (ref : ca) (direction : list Z) (comput : stencil) (mi : mesh_interval) : option (list run) :=
  let* a := stencil_init n ref (in_out_stencil n direction) mi in
  let* b := stencil_init n ref comput mi in
  Some [mkRun (firstn 1 a) b (iend (mi_i mi) - istart (mi_i mi))].
Definition boundary_direction_runs (n : nat) (ref cells : ca) (domain : lca) (level : nat) (direction : list Z) (comput : stencil) : option (list run) :=
  let* s := boundary cells domain level direction in
  over_set n s (boundary_run n ref direction comput).
Definition boundary_opposite_runs (n : nat) (ref cells : ca) (domain : lca) (level : nat) (direction : list Z) (comput : stencil) : option (list run) :=
  boundary_direction_runs n ref cells domain level (neg direction) (stencil_minus comput direction).

(** flux_based_scheme__lin_hom.hpp L70-145: the intervals with the coefficients of the left
    and of the right cells. *)
Definition lin_interior (n maxl : nat) (scaling : Q) (ref cells : ca) (d : nat) (lf : lin_flux) : option (list (run * (coeffs * coeffs))) :=
  let direction := unit_mult n d 1 in
  let min_level := min_level cells in
  let max_level := max_level cells in
  let* same := each_level (fun level =>
    let h := cell_length scaling level in
    let left := coeff_contribution n (lf_cons lf h) h h in
    let* o := same_level_runs n ref cells level direction (lf_stencil lf) in
    Some (map (fun r => (r, (left, coeff_neg left))) o)) (seq min_level (S max_level - min_level)) in
  let* jumps := each_level (fun level =>
    let h_l := cell_length scaling level in
    let h_lp1 := cell_length scaling (S level) in
    let fc := lf_cons lf h_lp1 in
    let* a := level_jump_runs n maxl ref cells level direction (lf_stencil lf) in
    let* b := level_jump_opposite_runs n maxl ref cells level direction (lf_stencil lf) in
    Some (map (fun r => (r, (coeff_contribution n fc h_lp1 h_l, coeff_contribution n (coeff_neg fc) h_lp1 h_lp1))) a ++
          map (fun r => (r, (coeff_contribution n fc h_lp1 h_lp1, coeff_contribution n (coeff_neg fc) h_lp1 h_l))) b)) (seq min_level (max_level - min_level)) in
  Some (same ++ jumps).

(** L159-196 *)
Definition lin_boundary (n : nat) (scaling : Q) (ref cells : ca) (domain : lca) (d : nat) (lf : lin_flux) : option (list (run * coeffs)) :=
  let direction := unit_mult n d 1 in
  over_levels cells (fun level =>
    let h := cell_length scaling level in
    let fc := lf_cons lf h in
    let* a := boundary_direction_runs n ref cells domain level direction (lf_stencil lf) in
    let* b := boundary_opposite_runs n ref cells domain level direction (lf_stencil lf) in
    Some (map (fun r => (r, coeff_contribution n fc h h)) a ++ map (fun r => (r, coeff_contribution n (coeff_neg fc) h h)) b)) (levels cells).

(** ** explicit_flux_based_scheme__lin_hom.hpp, sequential context: L38-118 *)

(** [field_value(output_field, idx, field_i) += q] *)
Definition add_at (out : output) (idx : Z) (fi : nat) (q : Q) : output :=
  fun i k => if (i =? idx) && Nat.eqb k fi then (out i k + q)%Q else out i k.

(** The two kinds of loops over [ii]: one cell for one interface (L69-78), one coarse cell
    for two interfaces (L86-91, L107-112). *)
Definition add_run (u : output) (cell comput : Z) (fi fj : nat) (coeff : Q) (size : nat) (out : output) : output :=
  fold_left (fun out ii => let ii := Z.of_nat ii in add_at out (cell + ii) fi (coeff * u (comput + ii)%Z fj)%Q) (seq 0 size) out.
Definition add_pairs (u : output) (cell comput : Z) (fi fj : nat) (coeff : Q) (size : nat) (out : output) : output :=
  fold_left (fun out ii => let ii := Z.of_nat ii in
      add_at out (cell + ii) fi (coeff * u (comput + 2 * ii)%Z fj + coeff * u (comput + 2 * ii + 1)%Z fj)%Q) (seq 0 (size / 2)) out.

(** L66-114. The assertions of L85 and L101 are on with [debug]. *)
Definition apply_coeff (debug : bool) (u : output) (l r : scell) (size : nat) (comput : Z) (fi fj : nat) (lc rc : Q) (out : output) : option output :=
  if Nat.eqb (sc_level l) (sc_level r) || Nat.eqb size 1 then
    let out := add_run u (sc_index l) comput fi fj lc size out in
    Some (add_run u (sc_index r) comput fi fj rc size out)
  else checked (negb debug || Nat.even size)
    (if Nat.ltb (sc_level l) (sc_level r) then
       let out := add_pairs u (sc_index l) comput fi fj lc size out in
       Some (add_run u (sc_index r) comput fi fj rc size out)
     else
       let out := add_run u (sc_index l) comput fi fj lc size out in
       Some (add_pairs u (sc_index r) comput fi fj rc size out)).

(** The loops of L55-59 over the components and the stencil: [os] and [fs] are
    output_field_size and field_size. An access outside of an array is [None]. *)
Definition triple_loop {S : Type} (os fs ss : nat) (body : nat -> nat -> nat -> S -> option S) (s : S) : option S :=
  fold_opt (fun s fi => fold_opt (fun s fj => fold_opt (fun s c => body fi fj c s) (seq 0 ss) s) (seq 0 fs) s) (seq 0 os) s.
Definition apply_run (debug : bool) (os fs : nat) (u : output) (e : run * (coeffs * coeffs)) (out : output) : option output :=
  let '(r, (lcs, rcs)) := e in
  let* l := nth_error (r_cells r) 0 in
  let* rt := nth_error (r_cells r) 1 in
  triple_loop os fs (length (r_stencil r)) (fun fi fj c out =>
    let* sc := nth_error (r_stencil r) c in
    let* lc := nth_error lcs c in
    let* rc := nth_error rcs c in
    apply_coeff debug u l rt (Z.to_nat (r_size r)) (sc_index sc) fi fj (lc fi fj) (rc fi fj) out) out.

(** L273-312 *)
Definition apply_boundary_run (os fs : nat) (u : output) (e : run * coeffs) (out : output) : option output :=
  let '(r, cs) := e in
  let* l := nth_error (r_cells r) 0 in
  triple_loop os fs (length (r_stencil r)) (fun fi fj c out =>
    let* sc := nth_error (r_stencil r) c in
    let* co := nth_error cs c in
    Some (add_run u (sc_index l) (sc_index sc) fi fj (co fi fj) (Z.to_nat (r_size r)) out)) out.

(** L232-314 in a sequential context, then explicit_FV_scheme.hpp L43-60, L72-78. *)
Definition lin_apply_dir (debug : bool) (n maxl os fs : nat) (scaling : Q) (ref cells : ca) (domain : lca) (include_boundary_fluxes : bool) (u : output)
  (d : nat) (lf : lin_flux) (out : output) : option output :=
  let* i := lin_interior n maxl scaling ref cells d lf in
  let* out := fold_opt (fun out e => apply_run debug os fs u e out) i out in
  if include_boundary_fluxes then
    let* b := lin_boundary n scaling ref cells domain d lf in fold_opt (fun out e => apply_boundary_run os fs u e out) b out
  else Some out.
Definition lin_apply_to (debug : bool) (n maxl os fs : nat) (scaling : Q) (ref cells : ca) (domain : lca) (ib : bool) (u : output) (fluxes : nat -> lin_flux)
  : option output :=
  fold_opt (fun out d => lin_apply_dir debug n maxl os fs scaling ref cells domain ib u d (fluxes d) out) (seq 0 (S n)) (fun _ _ => 0%Q).

(** ** The parallel context: L120-228 *)

(** The vectors left_contributions and right_contributions. [None]: access outside. *)
Definition vec := list Q.
Fixpoint vec_add (i : nat) (q : Q) (v : vec) : option vec :=
  match v, i with
  | [], _ => None
  | x :: v, O => Some ((x + q)%Q :: v)
  | x :: v, S i => let* v := vec_add i q v in Some (x :: v)
  end.
Definition vec_run (u : output) (comput : Z) (fj : nat) (coeff : Q) (size : nat) (v : vec) : option vec :=
  fold_opt (fun v ii => vec_add ii (coeff * u (comput + Z.of_nat ii)%Z fj)%Q v) (seq 0 size) v.
Definition vec_pairs (u : output) (comput : Z) (fj : nat) (coeff : Q) (size : nat) (v : vec) : option vec :=
  fold_opt (fun v ii => vec_add ii (coeff * u (comput + 2 * Z.of_nat ii)%Z fj + coeff * u (comput + 2 * Z.of_nat ii + 1)%Z fj)%Q v) (seq 0 (size / 2)) v.

(** L160-208 *)
Definition vec_coeff (debug : bool) (u : output) (l r : scell) (size : nat) (comput : Z) (fj : nat) (lc rc : Q) (vs : vec * vec) : option (vec * vec) :=
  let '(lv, rv) := vs in
  if Nat.eqb (sc_level l) (sc_level r) || Nat.eqb size 1 then
    let* lv := vec_run u comput fj lc size lv in
    let* rv := vec_run u comput fj rc size rv in
    Some (lv, rv)
  else checked (negb debug || Nat.even size)
    (if Nat.ltb (sc_level l) (sc_level r) then
       let* lv := vec_pairs u comput fj lc size lv in
       let* rv := vec_run u comput fj rc size rv in
       Some (lv, rv)
     else
       let* lv := vec_run u comput fj lc size lv in
       let* rv := vec_pairs u comput fj rc size rv in
       Some (lv, rv)).

(** L128-227: the atomic additions made by a thread for one interval, in its order. *)
Definition atomic_add := (Z * nat * Q)%type.
Definition vec_updates (start : Z) (fi : nat) (v : vec) : list atomic_add :=
  map (fun '(ii, q) => (start + Z.of_nat ii, fi, q)) (combine (seq 0 (length v)) v).
Definition run_updates (debug : bool) (os fs : nat) (u : output) (e : run * (coeffs * coeffs)) : option (list atomic_add) :=
  let '(r, (lcs, rcs)) := e in
  let size := Z.to_nat (r_size r) in
  let* l := nth_error (r_cells r) 0 in
  let* rt := nth_error (r_cells r) 1 in
  let n_left := if Nat.eqb size 1 || Nat.leb (sc_level rt) (sc_level l) then size else (size / 2)%nat in
  let n_right := if Nat.eqb size 1 || Nat.leb (sc_level l) (sc_level rt) then size else (size / 2)%nat in
  fold_opt (fun acc fi =>
    let* vs := fold_opt (fun vs fj => fold_opt (fun vs c =>
        let* sc := nth_error (r_stencil r) c in
        let* lc := nth_error lcs c in
        let* rc := nth_error rcs c in
        vec_coeff debug u l rt size (sc_index sc) fj (lc fi fj) (rc fi fj) vs) (seq 0 (length (r_stencil r))) vs)
      (seq 0 fs) (repeat 0%Q n_left, repeat 0%Q n_right) in
    Some (acc ++ vec_updates (sc_index l) fi (fst vs) ++ vec_updates (sc_index rt) fi (snd vs))) (seq 0 os) [].

(** The additions to the field, in some order. *)
Definition run_atomics (us : list atomic_add) (out : output) : output := fold_left (fun out '(idx, fi, q) => add_at out idx fi q) us out.

(** ** Operators: the coefficients of direction [d] *)
Definition diag (q : Q) : nat -> nat -> Q := fun i j => if Nat.eqb i j then q else 0%Q.

(** operators/diffusion.hpp L128-177: [K d] in direction d. *)
Definition diffusion_coeffs (K : nat -> Q) (d : nat) (h : Q) : coeffs := [(fun i j => diag (- 1 / h) i j * - K d)%Q; (fun i j => diag (1 / h) i j * - K d)%Q].
(** L182-243: [K i] for the component i. *)
Definition multi_diffusion_coeffs (K : nat -> Q) (_ : nat) (h : Q) : coeffs := [(fun i j => diag (- 1 / h) i j * - K i)%Q; (fun i j => diag (1 / h) i j * - K i)%Q].
(** operators/divergence.hpp L18-51, operators/gradient.hpp L17-50: the column, the row d. *)
Definition divergence_coeffs (d : nat) (_ : Q) : coeffs := [(fun i j => if Nat.eqb j d then 1 # 2 else 0)%Q; (fun i j => if Nat.eqb j d then 1 # 2 else 0)%Q].
Definition gradient_coeffs (d : nat) (_ : Q) : coeffs := [(fun i j => if Nat.eqb i d then 1 # 2 else 0)%Q; (fun i j => if Nat.eqb i d then 1 # 2 else 0)%Q].
(** operators/convection_lin.hpp L25-77: [os] is the size of the field. *)
Definition upwind_coeffs (os : nat) (velocity : nat -> Q) (d : nat) (_ : Q) : coeffs :=
  let m : nat -> nat -> Q := if Nat.eqb os 1 then (fun _ _ => velocity d) else (fun _ j => if Nat.eqb j d then velocity d else 0%Q) in
  let zero : nat -> nat -> Q := fun _ _ => 0%Q in
  if Qle_bool 0 (velocity d) then [m; zero] else [zero; m].
