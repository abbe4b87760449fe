(** Model of the preallocation of the matrix of a sum of schemes
    (petsc/fv/operator_sum_assembly.hpp L156-178): the numbers announced are those of the
    scheme with the largest stencil (SumModel.largest_stencil_index), while all schemes add to
    the matrix (SumModel.sum_assemble_scheme). *)
From Coq Require Import QArith.
From Verif Require Import Base IntervalModel LcaModel CellArrayModel SubsetModel StencilModel InterfaceModel GeomModel FluxModel NumModel GhostModel ReconModel LinFluxModel AssemblyModel NnzModel SumModel.
Open Scope Z_scope.

(** matrix_assembly.hpp L177-193 with operator_sum_assembly.hpp L156-178; the numbers of the
    other rows (sparsity_pattern_useless_ghosts) are also those of NnzModel. *)
Definition sum_preallocation (rows : Z) (y : layout) (rec : recursion) (n maxl : nat) (ref cg cells : ca) (domain : lca) (ib : bool) (ops : operators) (calls : list bc_call) : option counts :=
  let* largest := nth_error ops (largest_stencil_index ops) in
  preallocation rows y rec n maxl ref cg cells domain ib largest calls.

(** ** The stencils of lines of cells *)

(** stencil.hpp L167-181 *)
Definition line_stencil_from (n d size : nat) (from : Z) : stencil := map (fun i => unit_mult n d (from + Z.of_nat i)) (seq 0 size).
(** stencil.hpp L183-187, the default of flux_definition.hpp; the division of C++ truncates. *)
Definition line_stencil (n d size : nat) : stencil := line_stencil_from n d size (Z.quot (- Z.of_nat size) 2 + 1).
