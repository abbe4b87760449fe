(** Model of include/samurai/interface.hpp: the traversal of interior interfaces.
    [cells] is mesh[mesh_id_t::cells], [ref] the reference mesh (which numbers the
    cells and answers mesh.get_index), [maxl] is mesh.max_level(). A call of the
    callback is the pair (interface_cells, comput_cells). Modelled for get_type ==
    Get::Cells and sequential runs; with OpenMP each thread has its own iterators. *)
From Verif Require Import Base IntervalModel LoiModel LcaModel CellArrayModel SubsetModel StencilModel.
Open Scope Z_scope.

Definition iface := (list scell * list scell)%type.

(** [-direction] and [comput_stencil - direction] *)
Definition neg (direction : list Z) : list Z := map Z.opp direction.
Definition stencil_minus (s : stencil) (direction : list Z) : stencil := map (fun v => add_vec v (neg direction)) s.

(** L24-26, L97-101, L177-181: intersection(a, translate(b, v)) *)
Definition shifted_inter (a b : lca) (v : list Z) : subset :=
  make_op Intersect (More (Lf (leaf_of (NMesh a))) (One (Lf (leaf_of (NTrans v (NMesh b)))))).

(** for_each_meshinterval, algorithm.hpp L157-168: the interval carries set.level(). *)
Fixpoint concat_calls {A : Type} (f : interval * list Z -> option (list A)) (calls : list (interval * list Z)) : option (list A) :=
  match calls with
  | [] => Some []
  | c :: calls => let* a := f c in let* b := concat_calls f calls in Some (a ++ b)
  end.
Definition over_set {A : Type} (n : nat) (s : subset) (f : mesh_interval -> option (list A)) : option (list A) :=
  let* calls := subset_calls n s in
  concat_calls (fun '(i, yz) => f (mkMI (s_ref s) i yz)) calls.

(** L11-67 *)
Definition same_level_interval (n : nat) (ref : ca) (direction : list Z) (comput : stencil) (mi : mesh_interval) : option (list iface) :=
  let* a := for_each_stencil_sliding n ref (in_out_stencil n direction) mi in
  let* b := for_each_stencil_sliding n ref comput mi in
  Some (combine a b).
Definition same_level (n : nat) (ref cells : ca) (level : nat) (direction : list Z) (comput : stencil) : option (list iface) :=
  over_set n (shifted_inter (c_at cells level) (c_at cells level) (neg direction)) (same_level_interval n ref direction comput).

(** The loop of L138-143 and L221-226. [first] is the index of the coarse cell in
    the array of the LevelJumpIterator (stencil.hpp L589-590). *)
Definition jump_cells (first : bool) (j : ljump) : list scell :=
  if first then [lj_coarse j; lj_fine j] else [lj_fine j; lj_coarse j].
Fixpoint jump_slide (first : bool) (k : nat) (j : ljump) (es : list scell) : list iface :=
  match k with
  | O => []
  | S k => (jump_cells first j, es) :: jump_slide first k (ljump_move_next j) (stencil_move_next es)
  end.
(** [find] returning -1 gives an index outside of the array. *)
Definition found (s : stencil) (v : list Z) : nat := match find_vector s v with Some d => d | None => length s end.
Definition jump_interval (n : nat) (ref : ca) (first : bool) (di : nat) (comput : stencil) (mi : mesh_interval) : option (list iface) :=
  let* es := stencil_init n ref comput mi in
  let* j := ljump_init n ref di es mi in
  Some (jump_slide first (Z.to_nat (iend (mi_i mi) - istart (mi_i mi))) j es).

(** L82-146 *)
Definition level_jump (n maxl : nat) (ref cells : ca) (level : nat) (direction : list Z) (comput : stencil) : option (list iface) :=
  if Nat.leb maxl level then Some [] else
  over_set n (on (shifted_inter (c_at cells level) (c_at cells (S level)) (neg direction)) (S level))
    (jump_interval n ref true (found comput direction) comput).

(** L161-229 *)
Definition level_jump_opposite (n maxl : nat) (ref cells : ca) (level : nat) (direction : list Z) (comput : stencil) : option (list iface) :=
  if Nat.leb maxl level then Some [] else
  let minus := stencil_minus comput direction in
  over_set n (on (shifted_inter (c_at cells level) (c_at cells (S level)) direction) (S level))
    (jump_interval n ref false (found minus (neg direction)) minus).

(** L244-258 *)
Definition interfaces_of_level (n maxl : nat) (ref cells : ca) (direction : list Z) (comput : stencil) (level : nat) : option (list iface) :=
  let* a := same_level n ref cells level direction comput in
  let* b := level_jump n maxl ref cells level direction comput in
  let* c := level_jump_opposite n maxl ref cells level direction comput in
  Some (a ++ b ++ c).

(** L273-284, for_each_level: algorithm.hpp L45-62 *)
Fixpoint over_levels {A : Type} (cells : ca) (f : nat -> option (list A)) (ls : list nat) : option (list A) :=
  match ls with
  | [] => Some []
  | l :: ls =>
      let* a := (if lca_is_empty (c_at cells l) then Some [] else f l) in
      let* b := over_levels cells f ls in
      Some (a ++ b)
  end.
Definition for_each_interior_interface (n maxl : nat) (ref cells : ca) (direction : list Z) (comput : stencil) : option (list iface) :=
  over_levels cells (interfaces_of_level n maxl ref cells direction comput) (levels cells).

(** L300-307 and L320-332 *)
Fixpoint over_directions {A : Type} (f : list Z -> option (list A)) (ds : list (list Z)) : option (list A) :=
  match ds with [] => Some [] | d :: ds => let* a := f d in let* b := over_directions f ds in Some (a ++ b) end.
Definition interior_interfaces (n maxl : nat) (ref cells : ca) : option (list iface) :=
  over_directions (fun d => for_each_interior_interface n maxl ref cells d (in_out_stencil n d)) (map (fun d => unit_mult n d 1) (seq 0 (S n))).
