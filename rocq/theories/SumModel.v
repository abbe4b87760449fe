(** Model of the algebra of linear homogeneous flux-based schemes: multiplication by a scalar
    and sum of schemes of the same configuration
    (include/samurai/schemes/fv/flux_based/algebraic_operators.hpp), the sum of schemes of
    different configurations (schemes/fv/scheme_operators.hpp, class OperatorSum), its explicit
    application (schemes/fv/explicit_operator_sum.hpp) and the assembly of its matrix
    (petsc/fv/operator_sum_assembly.hpp).

    Only the part for linear homogeneous flux-based schemes: cell-based schemes, the names and
    the flags is_spd and is_symmetric are not modelled. The conversion of std::move'd
    arguments is not modelled (values). *)
From Coq Require Import QArith.
From Verif Require Import Base IntervalModel LcaModel CellArrayModel SubsetModel StencilModel InterfaceModel GeomModel FluxModel NumModel GhostModel ReconModel LinFluxModel AssemblyModel.
Open Scope Z_scope.

(** ** flux_based/algebraic_operators.hpp *)

(** L6-28: [scalar * scheme]; the function is kept if the scalar is 1. *)
Definition lf_scale (scalar : Q) (lf : lin_flux) : lin_flux :=
  mkLF (lf_stencil lf) (if Qeq_bool scalar 1 then lf_cons lf else fun h => map (fun m i j => (scalar * m i j)%Q) (lf_cons lf h)).
Definition scheme_scale (scalar : Q) (lfs : nat -> lin_flux) : nat -> lin_flux := fun d => lf_scale scalar (lfs d).
(** L166-182 *)
Definition scheme_neg (lfs : nat -> lin_flux) : nat -> lin_flux := scheme_scale (-1) lfs.
(** L84-103: a copy of the first scheme, whose function is replaced: the stencil is that of
    the first scheme. The two arrays have the same size, which is in the configuration. *)
Definition lf_plus (a b : lin_flux) : lin_flux :=
  mkLF (lf_stencil a) (fun h => map (fun '(m1, m2) i j => (m1 i j + m2 i j)%Q) (combine (lf_cons a h) (lf_cons b h))).
Definition scheme_plus (a b : nat -> lin_flux) : nat -> lin_flux := fun d => lf_plus (a d) (b d).

(** ** OperatorSum: the list of the operators *)
Definition operators := list (nat -> lin_flux).

(** explicit_FV_scheme.hpp L72-78: [apply] adds to the output field. *)
Definition lin_apply (debug : bool) (n maxl os fs : nat) (scaling : Q) (ref cells : ca) (domain : lca) (ib : bool) (u : output) (lfs : nat -> lin_flux) (out : output) : option output :=
  fold_opt (fun out d => lin_apply_dir debug n maxl os fs scaling ref cells domain ib u d (lfs d) out) (seq 0 (S n)) out.
(** explicit_operator_sum.hpp L25-32, after explicit_FV_scheme.hpp L43-60: the operators are
    applied one after the other to a field filled with 0. *)
Definition sum_apply_to (debug : bool) (n maxl os fs : nat) (scaling : Q) (ref cells : ca) (domain : lca) (ib : bool) (u : output) (ops : operators) : option output :=
  fold_opt (fun out lfs => lin_apply debug n maxl os fs scaling ref cells domain ib u lfs out) ops (fun _ _ => 0%Q).
(** scheme_operators.hpp L303-324: each operator is multiplied. *)
Definition operators_scale (scalar : Q) (ops : operators) : operators := map (scheme_scale scalar) ops.

(** scheme_operators.hpp L36-49; cfg_t::stencil_size is the size of the stencil of all
    directions. *)
Definition stencil_size (lfs : nat -> lin_flux) : nat := length (lf_stencil (lfs 0%nat)).
Definition largest_stencil_index (ops : operators) : nat :=
  let sizes := map stencil_size ops in
  let max := fold_left Nat.max sizes 0%nat in
  length ((fix before (l : list nat) : list nat := match l with [] => [] | size :: l => if Nat.eqb size max then [] else size :: before l end) sizes).

(** ** petsc/fv/operator_sum_assembly.hpp *)

(** L180-189: all operators add to the same matrix; each has its own vector m_is_row_empty,
    and its own copy of the recursion of the ghosts, which depends on the mesh only. *)
Definition sum_assemble_scheme (y : layout) (rec : recursion) (n maxl : nat) (scaling : Q) (ref cells : ca) (domain : lca) (ib : bool) (ops : operators) (st : matrix * list (Z -> bool)) : option (matrix * list (Z -> bool)) :=
  fold_opt (fun '(a, es) lfs =>
    let* s := assemble_scheme y rec n maxl scaling ref cells domain ib lfs (mkAsm a (as_empty asm_empty)) in
    Some (as_mat s, es ++ [as_empty s])) ops st.
(** L191-198, L234-237: the boundary conditions and the other rows are those of the operator
    with the largest stencil. *)
Definition sum_assemble_matrix (y : layout) (rec : recursion) (n maxl : nat) (scaling : Q) (ref cells : ca) (domain : lca) (ib : bool) (ops : operators) (calls : list bc_call) (diag_value : Q) : option asm :=
  let* st := sum_assemble_scheme y rec n maxl scaling ref cells domain ib ops (as_mat asm_empty, []) in
  let* e := nth_error (snd st) (largest_stencil_index ops) in
  let* s := fold_opt (assemble_bc y) calls (mkAsm (fst st) e) in
  insert_useless y diag_value s.
