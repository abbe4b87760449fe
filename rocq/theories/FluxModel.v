(** Model of the boundary interfaces (include/samurai/interface.hpp L336-500 and
    boundary.hpp) and of the explicit flux-based schemes for non-linear fluxes
    (include/samurai/schemes/fv). As in InterfaceModel, [cells] is
    mesh[mesh_id_t::cells], [ref] the reference mesh, [maxl] is mesh.max_level(),
    and [domain] is mesh.subdomain(). Values are rationals: no rounding. *)
From Coq Require Import QArith.
From Verif Require Import Base IntervalModel LoiModel LcaModel CellArrayModel SubsetModel StencilModel InterfaceModel GeomModel.
Open Scope Z_scope.

(** ** Boundary interfaces *)

(** boundary.hpp L6-18. [max_level - level] is an unsigned difference: [None] where it wraps. *)
Definition boundary (cells : ca) (domain : lca) (level : nat) (direction : list Z) : option subset :=
  if Nat.ltb (a_level domain) level then None else
  let one_interval := Z.shiftl 1 (Z.of_nat (a_level domain - level)) in
  Some (on (make_op Difference (More (Lf (leaf_of (NMesh (c_at cells level))))
                               (One (Lf (leaf_of (NTrans (map (Z.mul (- one_interval)) direction) (NMesh domain))))))) level).

(** interface.hpp L336-387 (Get::Cells): the callback gets the first cell of the two. *)
Definition boundary_interval (n : nat) (ref : ca) (direction : list Z) (comput : stencil) (mi : mesh_interval) : option (list iface) :=
  let* a := for_each_stencil_sliding n ref (in_out_stencil n direction) mi in
  let* b := for_each_stencil_sliding n ref comput mi in
  Some (combine (map (firstn 1) a) b).
Definition boundary_direction (n : nat) (ref cells : ca) (domain : lca) (level : nat) (direction : list Z) (comput : stencil) : option (list iface) :=
  let* s := boundary cells domain level direction in
  over_set n s (boundary_interval n ref direction comput).

(** L389-403 *)
Definition boundary_opposite (n : nat) (ref cells : ca) (domain : lca) (level : nat) (direction : list Z) (comput : stencil) : option (list iface) :=
  boundary_direction n ref cells domain level (neg direction) (stencil_minus comput direction).

(** L405-417 and L428-437, L452-464 *)
Definition boundary_interfaces_direction (n : nat) (ref cells : ca) (domain : lca) (direction : list Z) (comput : stencil) : option (list iface) :=
  over_levels cells (fun level => boundary_direction n ref cells domain level direction comput) (levels cells).
Definition boundary_interfaces_both (n : nat) (ref cells : ca) (domain : lca) (direction : list Z) (comput : stencil) : option (list iface) :=
  over_levels cells (fun level =>
    let* a := boundary_direction n ref cells domain level direction comput in
    let* b := boundary_opposite n ref cells domain level direction comput in
    Some (a ++ b)) (levels cells).

(** ** Flux-based schemes *)

(** A value with its components; only the first output_field_size ones matter. *)
Definition value := nat -> Q.

(** flux_definition.hpp L73-114. The field is a parameter of the functions in the
    code; it is not modified by a scheme, and is part of the functions here. *)
Record normal_flux := mkNF {
  nf_stencil : stencil;
  nf_cons : list scell -> value;
  nf_flux : option (list scell -> value * value) }.
Definition flux_as_conservative (nf : normal_flux) (cells : list scell) : value * value :=
  let flux := nf_cons nf cells in (flux, fun k => (- flux k)%Q).
Definition flux_function (nf : normal_flux) : list scell -> value * value :=
  match nf_flux nf with Some f => f | None => flux_as_conservative nf end.

(** flux_based_scheme__nonlin.hpp L62-68; the dimension is [S n]. *)
Definition contribution (n : nat) (flux : value) (h_face h_cell : Q) : value :=
  let face_measure := (h_face ^ Z.of_nat n)%Q in
  let cell_measure := (h_cell ^ Z.of_nat (S n))%Q in
  fun k => ((face_measure / cell_measure) * flux k)%Q.

(** [output(cell) += contrib], for a cell of an array of cells. [None]: no such cell. *)
Definition output := Z -> value.
Definition add_value (out : output) (cell : option scell) (v : value) : option output :=
  let* c := cell in
  Some (fun i k => if i =? sc_index c then (out i k + v k)%Q else out i k).

(** An interface with the two contributions computed for it:
    flux_based_scheme__nonlin.hpp L109-111, L134-136, L152-154. *)
Definition event := (list scell * (value * value))%type.
Definition interior_event (n : nat) (f : list scell -> value * value) (h_face h_left h_right : Q) (i : iface) : event :=
  let flux_values := f (snd i) in
  (fst i, (contribution n (fst flux_values) h_face h_left, contribution n (snd flux_values) h_face h_right)).

(** The loops over levels of L99 and L117, which do not skip the empty levels. *)
Fixpoint each_level {A : Type} (f : nat -> option (list A)) (ls : list nat) : option (list A) :=
  match ls with [] => Some [] | l :: ls => let* a := f l in let* b := each_level f ls in Some (a ++ b) end.

(** L86-158 *)
Definition scheme_interior (n maxl : nat) (scaling : Q) (ref cells : ca) (d : nat) (nf : normal_flux) : option (list event) :=
  let direction := unit_mult n d 1 in
  let f := flux_function nf in
  let min_level := min_level cells in
  let max_level := max_level cells in
  let* same := each_level (fun level =>
    let h := cell_length scaling level in
    let* o := same_level n ref cells level direction (nf_stencil nf) in
    Some (map (interior_event n f h h h) o)) (seq min_level (S max_level - min_level)) in
  let* jumps := each_level (fun level =>
    let h_l := cell_length scaling level in
    let h_lp1 := cell_length scaling (S level) in
    let* a := level_jump n maxl ref cells level direction (nf_stencil nf) in
    let* b := level_jump_opposite n maxl ref cells level direction (nf_stencil nf) in
    Some (map (interior_event n f h_lp1 h_l h_lp1) a ++ map (interior_event n f h_lp1 h_lp1 h_l) b)) (seq min_level (max_level - min_level)) in
  Some (same ++ jumps).

(** L165-204. [side] selects flux_values[0] or flux_values[1]. *)
Definition boundary_event (n : nat) (side : value * value -> value) (f : list scell -> value * value) (h : Q) (i : iface) : list scell * value :=
  (fst i, contribution n (side (f (snd i))) h h).
Definition scheme_boundary (n : nat) (scaling : Q) (ref cells : ca) (domain : lca) (d : nat) (nf : normal_flux) : option (list (list scell * value)) :=
  let direction := unit_mult n d 1 in
  let f := flux_function nf in
  over_levels cells (fun level =>
    let h := cell_length scaling level in
    let* a := boundary_direction n ref cells domain level direction (nf_stencil nf) in
    let* b := boundary_opposite n ref cells domain level direction (nf_stencil nf) in
    Some (map (boundary_event n fst f h) a ++ map (boundary_event n snd f h) b)) (levels cells).

(** explicit_flux_based_scheme__nonlin.hpp L32-67 *)
Fixpoint add_interior (evs : list event) (out : output) : option output :=
  match evs with
  | [] => Some out
  | (cs, (lv, rv)) :: evs =>
      let* out := add_value out (nth_error cs 0) lv in
      let* out := add_value out (nth_error cs 1) rv in
      add_interior evs out
  end.
Fixpoint add_boundary (evs : list (list scell * value)) (out : output) : option output :=
  match evs with
  | [] => Some out
  | (cs, v) :: evs => let* out := add_value out (nth_error cs 0) v in add_boundary evs out
  end.
Definition scheme_apply_dir (n maxl : nat) (scaling : Q) (ref cells : ca) (domain : lca) (include_boundary_fluxes : bool)
  (d : nat) (nf : normal_flux) (out : output) : option output :=
  let* i := scheme_interior n maxl scaling ref cells d nf in
  let* out := add_interior i out in
  if include_boundary_fluxes then
    let* b := scheme_boundary n scaling ref cells domain d nf in add_boundary b out
  else Some out.

(** explicit_FV_scheme.hpp L43-60, L72-78: apply_to *)
Fixpoint scheme_apply_dirs (n maxl : nat) (scaling : Q) (ref cells : ca) (domain : lca) (ib : bool)
  (fluxes : nat -> normal_flux) (ds : list nat) (out : output) : option output :=
  match ds with
  | [] => Some out
  | d :: ds =>
      let* out := scheme_apply_dir n maxl scaling ref cells domain ib d (fluxes d) out in
      scheme_apply_dirs n maxl scaling ref cells domain ib fluxes ds out
  end.
Definition scheme_apply_to (n maxl : nat) (scaling : Q) (ref cells : ca) (domain : lca) (ib : bool) (fluxes : nat -> normal_flux) : option output :=
  scheme_apply_dirs n maxl scaling ref cells domain ib fluxes (seq 0 (S n)) (fun _ _ => 0%Q).
