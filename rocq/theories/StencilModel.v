(** Model of include/samurai/stencil.hpp and of the index helpers of
    include/samurai/indices.hpp. The dimension is [S n]. A stencil is the list of
    its vectors. *)
From Verif Require Import Base IntervalModel LoiModel LcaModel CellArrayModel SubsetModel.
Open Scope Z_scope.

Definition stencil := list (list Z).

(** stencil.hpp L26-30 *)
Definition is_cartesian (direction : list Z) : bool :=
  fold_right (fun x s => Z.abs x + s) 0 direction =? 1.

(** First position (from [id] on) of an element satisfying [p]. *)
Fixpoint find_from (p : list Z -> bool) (id : nat) (s : stencil) : option nat :=
  match s with
  | [] => None
  | v :: s => if p v then Some id else find_from p (S id) s
  end.

(** L32-53; [None] is -1. *)
Definition find_stencil_origin (s : stencil) : option nat := find_from (forallb (Z.eqb 0)) 0 s.

(** L55-75; [None] is -1. *)
Definition find_vector (s : stencil) (v : list Z) : option nat := find_from (fun w => list_eqb Z.eqb w v) 0 s.

(** L77-88 *)
Fixpoint direction_index_from (i : nat) (direction : list Z) : nat :=
  match direction with
  | [] => 0
  | x :: direction => if negb (x =? 0) then i else direction_index_from (S i) direction
  end.
Definition find_direction_index (direction : list Z) : nat := direction_index_from 0 direction.

(** [s(i, d) = v] on a zero vector of the dimension. *)
Definition unit_mult (n d : nat) (v : Z) : list Z := map (fun k => if Nat.eqb k d then v else 0) (seq 0 (S n)).

(** L165-180: the vectors from, from + 1, ... along direction d. *)
Definition line_stencil_from (n d size : nat) (from : Z) : stencil :=
  map (fun i => unit_mult n d (from + Z.of_nat i)) (seq 0 size).

(** L182-186: integer division of a negative number truncates toward zero. *)
Definition line_stencil (n d size : nat) : stencil :=
  line_stencil_from n d size (Z.quot (- Z.of_nat size) 2 + 1).

(** L147-163: explicit neighbours. *)
Definition line_stencil_of (n d : nat) (neighbours : list Z) : stencil := map (unit_mult n d) neighbours.

(** L94-145: the star stencils, written out in the code for dimensions 1 to 3 and
    widths 0 to 2: the line along x with its centre, then the lines along the other
    directions without it. *)
Definition star_stencil (n width : nat) : stencil :=
  let w := Z.of_nat width in
  map (unit_mult n 0) (zrange (- w) (w + 1)) ++
  flat_map (fun d => map (unit_mult n d) (zrange (- w) 0 ++ zrange 1 (w + 1))) (seq 1 n).

(** L217-241 *)
Definition cartesian_directions (n : nat) : stencil :=
  flat_map (fun d => [unit_mult n d (-1); unit_mult n d 1]) (seq 0 (S n)).

(** L396-403 *)
Definition in_out_stencil (n : nat) (direction : list Z) : stencil := [repeat 0 (S n); direction].

(** L405-444. [set_nth] is the assignment of one component of a view. *)
Fixpoint set_nth (d : nat) (v : Z) (l : list Z) : list Z :=
  match l, d with
  | [], _ => []
  | _ :: l, O => v :: l
  | x :: l, S d => x :: set_nth d v l
  end.
Definition convert_vector (n : nat) (direction v : list Z) : list Z :=
  match n with
  | O => map (Z.mul (nth 0 direction 0)) v
  | S _ =>
      let d := find_direction_index direction in
      let d := if Nat.eqb d 0 then 1%nat else d in
      let cos := nth 0 direction 0 in
      let sin := nth d direction 0 in
      set_nth d (sin * nth 0 v 0 + cos * nth d v 0) (set_nth 0 (cos * nth 0 v 0 - sin * nth d v 0) v)
  end.
Definition convert_for_direction (n : nat) (s : stencil) (direction : list Z) : stencil :=
  map (convert_vector n direction) s.

(** ** Iterators *)

(** mesh_interval.hpp: a level, an interval and the other coordinates. *)
Record mesh_interval := mkMI { mi_level : nat; mi_i : interval; mi_index : list Z }.

(** The members of a Cell set by the iterators (origin and length are geometry). *)
Record scell := mkSC { sc_level : nat; sc_coord : list Z; sc_index : Z }.

Definition add_vec (p v : list Z) : list Z := map (fun '(x, y) => x + y) (combine p v).

(** indices.hpp L6-17 and L19-35 on the reference mesh [c]. *)
Definition get_index_start (n : nat) (c : ca) (mi : mesh_interval) : option Z :=
  ca_get_index n c (mi_level mi) (istart (mi_i mi) :: mi_index mi).
Definition get_index_start_translated (n : nat) (c : ca) (mi : mesh_interval) (v : list Z) : option Z :=
  ca_get_index n c (mi_level mi) (add_vec (istart (mi_i mi) :: mi_index mi) v).

(** Test of stencil.hpp L497-501 and L535-540, followed by assert(false); [nb] is
    mesh.nb_cells(). *)
Definition check_index (nb i : Z) : option Z := if (0 <? i) && (nb <? i) then None else Some i.

(** mesh.hpp L308-319: nb_cells() of the reference mesh. *)
Definition mesh_nb_cells (c : ca) : option Z :=
  option_map (fun i => istart i + iindex i + (iend i - istart i))
    (nth_error (rev (a_cells (c_at c (max_level c)) 0)) 0).

(** stencil.hpp L473-543. *)
Definition stencil_entry (n : nat) (c : ca) (nb : Z) (mi : mesh_interval) (origin : scell) (v : list Z) : option scell :=
  let coord := add_vec (sc_coord origin) v in
  if forallb (Z.eqb 0) (tl v) then Some (mkSC (mi_level mi) coord (sc_index origin + nth 0 v 0))
  else
    let* i := get_index_start_translated n c mi v in
    let* i := check_index nb i in
    Some (mkSC (mi_level mi) coord i).

Fixpoint stencil_entries (n : nat) (c : ca) (nb : Z) (mi : mesh_interval) (origin : scell) (o id : nat) (s : stencil)
  : option (list scell) :=
  match s with
  | [] => Some []
  | v :: s =>
      let* e := (if Nat.eqb id o then Some origin else stencil_entry n c nb mi origin v) in
      let* es := stencil_entries n c nb mi origin o (S id) s in
      Some (e :: es)
  end.

Definition stencil_init (n : nat) (c : ca) (s : stencil) (mi : mesh_interval) : option (list scell) :=
  let* o := find_stencil_origin s in
  let* nb := mesh_nb_cells c in
  let* i := get_index_start n c mi in
  let* i := check_index nb i in
  stencil_entries n c nb mi (mkSC (mi_level mi) (istart (mi_i mi) :: mi_index mi) i) o 0 s.

(** L562-569 *)
Definition move_cell (dx di : Z) (e : scell) : scell :=
  mkSC (sc_level e) (match sc_coord e with [] => [] | x :: yz => x + dx :: yz end) (sc_index e + di).
Definition stencil_move_next (es : list scell) : list scell := map (move_cell 1 1) es.

(** L658-669: the cells seen by the calls of [f], one list per step. *)
Fixpoint slide (k : nat) (es : list scell) : list (list scell) :=
  match k with
  | O => []
  | S k => es :: slide k (stencil_move_next es)
  end.
Definition for_each_stencil_sliding (n : nat) (c : ca) (s : stencil) (mi : mesh_interval) : option (list (list scell)) :=
  let* es := stencil_init n c s mi in
  Some (slide (Z.to_nat (iend (mi_i mi) - istart (mi_i mi))) es).

(** ** LevelJumpIterator: L583-646 *)

(** The state: fine cell, coarse cell, m_ii. *)
Record ljump := mkLJ { lj_fine : scell; lj_coarse : scell; lj_ii : nat }.

(** L608-618; [fine] are the cells of the fine iterator after its own init. *)
Definition ljump_init (n : nat) (c : ca) (direction_index : nat) (fine : list scell) (mi : mesh_interval) : option ljump :=
  let coarse_mi := mkMI (pred (mi_level mi)) (ishr (mi_i mi) 1) (map (fun y => Z.shiftr y 1) (mi_index mi)) in
  let* cs := stencil_init n c [repeat 0 (S n)] coarse_mi in
  let* co := nth_error cs 0 in
  let* fi := nth_error fine direction_index in
  Some (mkLJ fi co 0).

(** L625-635 *)
Definition ljump_move_next (j : ljump) : ljump :=
  let dx := if Nat.eqb (lj_ii j mod 2) 1 then 1 else 0 in
  mkLJ (move_cell 1 1 (lj_fine j)) (move_cell dx dx (lj_coarse j)) (S (lj_ii j)).

Fixpoint ljump_steps (k : nat) (j : ljump) : ljump :=
  match k with O => j | S k => ljump_steps k (ljump_move_next j) end.

(** ** static_nested_loop: static_algorithm.hpp L14-33 (compile-time bounds) and
    L57-82 (run-time bounds) *)

(** The values of [for (int i = start; i < end; i += step)], for step > 0. *)
Definition loop_values (start end_ step : Z) : list Z :=
  map (fun k => start + Z.of_nat k * step) (seq 0 (Z.to_nat ((end_ - start + step - 1) / step))).

(** [rem] is nloops - iloop; one array [index] is written by all loops, at
    position nloops - 1 - iloop = rem - 1, and handed to [f]. The result is the
    list of calls and the array at the end. *)
Fixpoint nested_loop_impl (rem : nat) (vals : list Z) (index : list Z) : list (list Z) * list Z :=
  match rem with
  | O => ([index], index)
  | S r =>
      fold_left (fun '(calls, index) i =>
        let '(calls', index') := nested_loop_impl r vals (set_nth r i index) in (calls ++ calls', index')) vals ([], index)
  end.
Definition static_nested_loop (nloops : nat) (start end_ step : Z) (uninitialised : list Z) : list (list Z) :=
  fst (nested_loop_impl nloops (loop_values start end_ step) uninitialised).
