(** Model of [samurai::CellList] and [samurai::CellArray]
    (include/samurai/cell_list.hpp, include/samurai/cell_array.hpp). *)
From Verif Require Import Base IntervalModel Spec LoiModel LcaModel.
Open Scope Z_scope.

(** cell_array.hpp L154: std::array of max_size + 1 level arrays; [c_at] is only
    read for levels 0..max_size. *)
Record ca := mkCa { c_max : nat; c_at : nat -> lca }.

(** cell_list.hpp L43, L54-60: one LevelCellList per level, filled by client calls
    [cl[level][...]...]. [hist level] is the history of calls at that level. *)
Definition cl_run (n : nat) (hist : nat -> list lcl_call) (level : nat) : lcl n :=
  lcl_run n level (hist level).

(** cell_array.hpp L406-417 *)
Fixpoint min_level_from (level fuel : nat) (c : ca) : nat :=
  match fuel with
  | O => S (c_max c)
  | S fuel => if negb (lca_is_empty (c_at c level)) then level else min_level_from (S level) fuel c
  end.
Definition min_level (c : ca) : nat := min_level_from 0 (S (c_max c)) c.

(** cell_array.hpp L390-401 *)
Fixpoint max_level_from (level : nat) (c : ca) : nat :=
  if negb (lca_is_empty (c_at c level)) then level
  else match level with O => 0%nat | S l => max_level_from l c end.
Definition max_level (c : ca) : nat := max_level_from (c_max c) c.

(** The loop [for (level = min_level(); level <= max_level(); ++level)]. *)
Definition levels (c : ca) : list nat := seq (min_level c) (S (max_level c) - min_level c).

(** cell_array.hpp L364-373 *)
Definition ca_nb_cells (c : ca) : Z :=
  fold_left (fun s level => s + nb_cells (c_at c level)) (seq 0 (S (c_max c))) 0.

(** algorithm.hpp L92-108: calls f(level, interval, yz). *)
Fixpoint concat_opt {A} (l : list (option (list A))) : option (list A) :=
  match l with
  | [] => Some []
  | None :: _ => None
  | Some x :: l => match concat_opt l with Some y => Some (x ++ y) | None => None end
  end.
Definition ca_for_each_interval (n : nat) (c : ca) : option (list (nat * (interval * list Z))) :=
  concat_opt (map (fun level => option_map (map (pair level)) (for_each_interval n (c_at c level))) (levels c)).

(** algorithm.hpp L290-300: calls f(cell) with cell = (level, coordinates, index);
    empty levels are guarded. *)
Definition ca_for_each_cell (n : nat) (c : ca) : option (list (nat * (list Z * Z))) :=
  concat_opt (map (fun level =>
    if lca_is_empty (c_at c level) then Some []
    else option_map (map (pair level)) (for_each_cell n (c_at c level))) (levels c)).

(** cell_array.hpp L459-469: the accumulator runs across the levels; the
    traversal of one level is guarded against emptiness. *)
Fixpoint update_levels (ls : list nat) (acc : Z) (at_ : nat -> lca) : (nat -> lca) * Z :=
  match ls with
  | [] => (at_, acc)
  | level :: ls =>
      if lca_is_empty (at_ level) then update_levels ls acc at_
      else let '(a, acc) := update_index_from acc (at_ level) in
           update_levels ls acc (upd at_ level a)
  end.
Definition ca_update_index (c : ca) : ca :=
  mkCa (c_max c) (fst (update_levels (levels c) 0 (c_at c))).

(** cell_array.hpp L256-270. Origin and scaling factor are not modelled here. *)
Definition ca_of_cl (n m : nat) (cl : nat -> lcl n) (with_update_index : bool) : ca :=
  let c := mkCa m (fun level => lca_of_lcl (cl level)) in
  if with_update_index then ca_update_index c else c.

(** cell_array.hpp L308-329 *)
Definition ca_get_index (n : nat) (c : ca) (level : nat) (coord : list Z) : option Z :=
  get_index n (c_at c level) coord.

(** cell_array.hpp L570-586 *)
Definition ca_eqb (n : nat) (c1 c2 : ca) : bool :=
  Nat.eqb (max_level c1) (max_level c2) && Nat.eqb (min_level c1) (min_level c2)
  && forallb (fun level => lca_eqb n (c_at c1 level) (c_at c2 level)) (levels c1).

(** ** Iterator: cell_array.hpp L493-509 and L592-629 *)

(** Position: the level and the iterator in that level's array. *)
Record ca_iter := mkCaIt { ci_level : nat; ci_it : iter }.

Definition ca_begin (n : nat) (c : ca) : option ca_iter :=
  if Nat.ltb (c_max c) (min_level c) then None
  else option_map (mkCaIt (min_level c)) (it_begin n (c_at c (min_level c))).

(** Comparison with the end() of a level compares the array and
    m_current_index[0] (level_cell_array.hpp L1082-1086). *)
Definition at_level_end (c : ca) (level : nat) (p : ca_iter) : bool :=
  Nat.eqb (ci_level p) level && Nat.eqb (it_cur (ci_it p)) (length (a_cells (c_at c level) 0)).

(** L599-613 *)
Definition ca_inc (n : nat) (c : ca) (p : ca_iter) : option ca_iter :=
  if at_level_end c (max_level c) p then Some p
  else match it_inc (c_at c (ci_level p)) (ci_it p) with
       | None => None
       | Some it' =>
           let p' := mkCaIt (ci_level p) it' in
           if Nat.ltb (ci_level p) (max_level c) && at_level_end c (ci_level p) p'
           then option_map (mkCaIt (S (ci_level p))) (it_begin n (c_at c (S (ci_level p))))
           else Some p'
       end.

(** The loop from begin() to end(); the calls are (level, interval, index). *)
Fixpoint ca_traverse (n fuel : nat) (c : ca) (p : ca_iter) : option (list (nat * (interval * list Z))) :=
  if at_level_end c (max_level c) p then Some []
  else match fuel with
       | O => None
       | S fuel =>
           match it_deref (c_at c (ci_level p)) (ci_it p), ca_inc n c p with
           | Some i, Some p' =>
               match ca_traverse n fuel c p' with
               | Some rest => Some ((ci_level p, (i, it_index (ci_it p))) :: rest)
               | None => None
               end
           | _, _ => None
           end
       end.

(** Number of x-intervals of all levels, a bound on the number of steps. *)
Definition ca_nb_intervals (c : ca) : nat :=
  fold_right (fun level s => (length (a_cells (c_at c level) 0) + s)%nat) 0%nat (levels c).

Definition ca_iterate (n : nat) (c : ca) : option (list (nat * (interval * list Z))) :=
  match ca_begin n c, it_end n (c_at c (max_level c)) with
  | Some p, Some _ => ca_traverse n (ca_nb_intervals c) c p
  | _, _ => None
  end.
