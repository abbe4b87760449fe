(** Model of [transfer] (include/samurai/reconstruction.hpp L1047-1193): a field on a mesh
    from a field on another mesh of the same domain.

    As in ReconModel the cases of the dimensions 1, 2 and 3 are one function on lists of
    coordinates, and a field is a function of level and coordinates. Every access to a
    field is checked against the reference of its mesh; the result is [None] if a cell is not
    stored, if an index leaves a view, or if a shift of an integer is too large. *)
From Coq Require Import QArith.
From Verif Require Import Base IntervalModel LoiModel LcaModel CellArrayModel SubsetModel StencilModel MeshModel NumModel AdaptModel MrModel GhostModel ReconModel.
Open Scope Z_scope.

(** L1062-1080 (same_cell): copy of a row of common leaves. *)
Definition same_op (n : nat) (ref_src ref_dst : ca) (level : nat) (src : cfield) (d : cfield) (call : interval * list Z) : option cfield :=
  let '(i, yz) := call in
  checked (forallb (stored n ref_src level) (row_cells i yz) && forallb (stored n ref_dst level) (row_cells i yz))
    (Some (set_cells d (map (fun p => (p, src p)) (row_cells i yz)))).

(** L1086-1126 (proj_cell): a row [i] of the finer level [level_src] is added to the cells of
    [level_dst] that contain it. The view [dst] is the interval [i >> shift]; the index in it
    is that of the coarse cell relative to the first one. *)
Definition proj_op (n : nat) (ref_src ref_dst : ca) (level_dst level_src : nat) (src : cfield) (d : cfield) (call : interval * list Z) : option cfield :=
  let '(i, yz) := call in
  let shift := Z.of_nat (level_src - level_dst) in
  let up := map (fun y => Z.shiftr y shift) yz in
  let view := row_cells (ishr i shift) up in
  checked (forallb (stored n ref_src level_src) (row_cells i yz) && forallb (stored n ref_dst level_dst) view && Nat.ltb ((level_src - level_dst) * S n) 31)
    (fold_opt (fun d x =>
         let i_dst := Z.shiftr x shift - Z.shiftr (istart i) shift in
         let* c := nth_error view (Z.to_nat i_dst) in
         Some (add_cells d [(c, (src (x :: yz) / inject_Z (Z.shiftl 1 (shift * Z.of_nat (S n))))%Q)]))
       (range_from (Z.to_nat (iend i - istart i)) (istart i) 1) d).

(** L1128-1189 (pred_cell): each cell of a row of the finer level [level_dst] gets the
    portion of the coarser cell that contains it. *)
Definition pred_op (n order : nat) (ref_src ref_dst : ca) (level_dst level_src : nat) (src : cfield) (st : cfield * memo) (call : interval * list Z) : option (cfield * memo) :=
  let '(i, yz) := call in
  let shift := Z.of_nat (level_dst - level_src) in
  checked (Nat.ltb (level_dst - level_src) 31)
    (fold_opt (fun '(d, values) x =>
         let p := x :: yz in
         let p_src := map (fun y => Z.shiftr y shift) p in
         let sub := map (fun '(y, y_src) => y - Z.shiftl y_src shift) (combine p p_src) in
         let '(m, values) := prediction order (level_dst - level_src) sub values in
         checked (stored n ref_dst level_dst p && forallb (fun '(k, _) => stored n ref_src level_src (add_vec p_src k)) m)
           (Some (set_cells d [(p, pm_value m src p_src)], values)))
       (range_from (Z.to_nat (iend i - istart i)) (istart i) 1) st).

(** L1060-1191: one level of the destination, from 0. *)
Definition transfer_level (n order min_src max_src : nat) (cells_src ref_src cells_dst ref_dst : ca) (u : nat -> cfield) (values : memo) (level_dst : nat) : option (cfield * memo) :=
  let dst := c_at cells_dst level_dst in
  let* same := subset_calls n (inter dst (c_at cells_src level_dst)) in
  let* d := fold_opt (same_op n ref_src ref_dst level_dst (u level_dst)) same (fun _ => 0%Q) in
  let* d := fold_opt (fun d level_src =>
      let* calls := subset_calls n (on (inter dst (c_at cells_src level_src)) level_src) in
      fold_opt (proj_op n ref_src ref_dst level_dst level_src (u level_src)) calls d) (seq (S level_dst) (max_src - level_dst)) d in
  fold_opt (fun st level_src =>
      let* calls := subset_calls n (on (inter dst (c_at cells_src level_src)) level_dst) in
      fold_opt (pred_op n order ref_src ref_dst level_dst level_src (u level_src)) calls st) (seq min_src (level_dst - min_src)) (d, values).

(** L1047-1193. [min_*], [max_*]: [mesh.min_level()] and [mesh.max_level()]. *)
Definition transfer (n order min_src max_src min_dst max_dst : nat) (cells_src ref_src cells_dst ref_dst : ca) (u : nat -> cfield) (values : memo)
  : option ((nat -> cfield) * memo) :=
  fold_opt (fun '(v, values) level_dst =>
      let* (d, values) := transfer_level n order min_src max_src cells_src ref_src cells_dst ref_dst u values level_dst in
      Some ((fun l => if Nat.eqb l level_dst then d else v l), values))
    (seq min_dst (S max_dst - min_dst)) ((fun _ _ => 0%Q), values).
