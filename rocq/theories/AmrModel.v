(** Model of the adaptation of an AMR mesh: [graduation(tag, stencil)]
    (algorithm/graduation.hpp L14-176, with the operators of algorithm/utils.hpp), which is
    called between the marking of the leaves and [update_field] (AdaptModel.update_cells);
    the sub-meshes of an AMR mesh ([amr::Mesh::update_sub_mesh_impl], amr/mesh.hpp L99-188)
    and [update_ghost] (algorithm/update.hpp L27-49).

    One rank, dimensions 1 to 3. As in HartenModel a view that reads or writes a cell
    without a number in the reference mesh is an error ([None]), and so is a mask whose
    length is not the one of its view. *)
From Coq Require Import QArith.
From Verif Require Import Base IntervalModel LoiModel LcaModel CellArrayModel SubsetModel StencilModel MeshModel NumModel AdaptModel MrModel GhostModel HartenModel.
Open Scope Z_scope.

(** ** graduation *)

(** tag_to_keep<0>(tag), algorithm/utils.hpp L63-71, L86-94, L109-117 *)
Definition keep_op (n : nat) (reference : ca) (level : nat) (i : interval) (yz : list Z) (t : tfield) : option tfield :=
  or_view n reference flag_keep level (row_cells i yz) (map (fun _ => true) (row_cells i yz)) t.

(** tag_to_keep<gw>(tag, CellFlag::refine), algorithm/utils.hpp L73-83, L96-106, L119-129.
    The mask is a lazy expression; it is evaluated for each offset. *)
Definition keep_around_op (n : nat) (reference : ca) (level : nat) (gw : Z) := spread_op n reference level (nested_loop (S n) (- gw) (gw + 1)) flag_refine flag_keep.

(** keep_children_together_op, algorithm/utils.hpp L149-213: on the cells of level [level],
    the children of a cell all get keep when one of them has it. The mask is evaluated
    before the writes ([xt::xtensor<bool, 1> mask = ...]). *)
Definition together_op (n : nat) (reference : ca) (level : nat) (i : interval) (yz : list Z) (t : tfield) : option tfield :=
  let mask := map (fun x => negb (fold_left Z.lor (map (fun '(cx, cyz) => Z.land (t (S level) cx cyz) flag_keep) (children x yz)) 0 =? 0)) (strided i) in
  checked (forallb (stored n reference (S level)) (projection_reads i yz))
    (Some (fold_left (fun t k => masked (fun v => Z.lor v flag_keep) (S level) (child_view i yz k) mask t) (seq 0 (length (parities (S (length yz))))) t)).

(** graduate_op, algorithm/graduation.hpp L26-98: the cells of level [level] of the interval
    give the flag [flag] of their neighbour on the side [- s] to the cell below them. [mask]
    is assigned the second time with the same views of the tags: it only changes the flag. *)
Definition graduate_view (n : nat) (reference : ca) (level : nat) (s : list Z) (i : interval) (yz : list Z) (t : tfield) (flag : Z) : option tfield :=
  checked (forallb (stored n reference level) (moved_cells (opposite s) i yz))
    (or_view n reference flag (Nat.pred level) (row_cells (ishr i 1) (map (fun y => Z.shiftr y 1) yz))
       (flag_mask flag level (moved_cells (opposite s) i yz) t) t).
Definition graduate_part (n : nat) (reference : ca) (level : nat) (s : list Z) (i : interval) (yz : list Z) (t : tfield) : option tfield :=
  fold_tags (graduate_view n reference level s i yz) [flag_refine; flag_keep] t.
(** In dimension 1 the even and the odd cells are not separated (L27-35). *)
Definition graduate_op (n : nat) (reference : ca) (level : nat) (s : list Z) (i : interval) (yz : list Z) (t : tfield) : option tfield :=
  match n with
  | O => graduate_part n reference level s i yz t
  | S _ =>
      let* t := (if is_valid (even_elements i) then graduate_part n reference level s (even_elements i) yz t else Some t) in
      if is_valid (odd_elements i) then graduate_part n reference level s (odd_elements i) yz t else Some t
  end.

(** L118-175: one level. *)
Definition graduation_step (n : nat) (gw : Z) (stencil : list (list Z)) (cells reference : ca) (t : tfield) (level : nat) : option tfield :=
  let leaves := inter (c_at cells level) (c_at cells level) in
  let* t := apply_tags n (on (inter (c_at cells level) (c_at reference (Nat.pred level))) (Nat.pred level)) (keep_op n reference (Nat.pred level)) t in
  let* t := apply_tags n leaves (keep_around_op n reference level gw) t in
  let* t := apply_tags n (on leaves (Nat.pred level)) (together_op n reference (Nat.pred level)) t in
  fold_tags (fun t s =>
    apply_tags n (on (make_op Intersect (More (moved_leaf s (c_at cells level)) (One (mesh_leaf (c_at cells (Nat.pred level)))))) level)
      (graduate_op n reference level s) t) stencil t.
(** [maxl] is mesh.max_level(), [gw] is graduation_width. *)
Definition graduation (n maxl : nat) (gw : Z) (stencil : list (list Z)) (cells reference : ca) (t : tfield) : option tfield :=
  fold_tags (graduation_step n gw stencil cells reference) (rev (seq 1 maxl)) t.

(** ** The sub-meshes *)

Record amr_mesh := mkAmr { a_ghosts : ca; a_proj : ca; a_pred : ca; a_all : ca }.

(** [lcl[index_yz].add_interval(interval)] for each call of a subset, then [{lcl}]. *)
Definition lca_of_calls (n level : nat) (calls : list (interval * list Z)) : lca :=
  lca_of_lcl (lcl_run n level (map (fun '(i, yz) => AddI yz i) calls)).

(** amr/mesh.hpp L119-136 *)
Definition proj_set (ghosts cells : ca) (u proj : nat -> lca) (level : nat) : subset :=
  on (make_op Difference
       (More (Nd Union (More (Nd Intersect (More (mesh_leaf (c_at ghosts (Nat.pred level))) (One (mesh_leaf (u (Nat.pred level))))))
                             (One (mesh_leaf (proj (Nat.pred level))))))
             (One (mesh_leaf (c_at cells (Nat.pred level)))))) level.
Fixpoint amr_proj (n : nat) (ghosts cells : ca) (u : nat -> lca) (ls : list nat) (proj : nat -> lca) : option (nat -> lca) :=
  match ls with
  | [] => Some proj
  | level :: ls =>
      let* calls := subset_calls n (proj_set ghosts cells u proj level) in
      amr_proj n ghosts cells u ls (upd proj level (lca_of_calls n level calls))
  end.

(** L138-154 *)
Definition pred_set (ghosts cells : ca) (u : nat -> lca) (domain : lca) (level : nat) : subset :=
  on (make_op Intersect
       (More (Nd Difference (More (mesh_leaf (c_at ghosts level)) (One (Nd Union (More (mesh_leaf (u level)) (One (mesh_leaf (c_at cells level))))))))
             (One (mesh_leaf domain)))) level.
Fixpoint amr_pred (n : nat) (ghosts cells : ca) (u : nat -> lca) (domain : lca) (ls : list nat) (pred : nat -> lca) : option (nat -> lca) :=
  match ls with
  | [] => Some pred
  | level :: ls =>
      let* calls := subset_calls n (pred_set ghosts cells u domain level) in
      amr_pred n ghosts cells u domain ls (upd pred level (lca_of_calls n level calls))
  end.

(** L156-173: [cl[level - 1]] and [.on(level - 1)] with level = 0 are out of the arrays. *)
Fixpoint pred_ghosts (n : nat) (s : Z) (pred : nat -> lca) (ls : list nat) (cl : cell_list) : option cell_list :=
  match ls with
  | [] => Some cl
  | O :: _ => None
  | S coarse :: ls =>
      let* calls := subset_calls n (on (inter (pred (S coarse)) (pred (S coarse))) coarse) in
      pred_ghosts n s pred ls (add_calls cl coarse (flat_map (fun '(i, yz) => ghost_calls n s i yz) calls))
  end.

(** L176-187 *)
Fixpoint amr_all (n : nat) (ghosts : ca) (proj : nat -> lca) (ls : list nat) (all : nat -> lca) : option (nat -> lca) :=
  match ls with
  | [] => Some all
  | level :: ls =>
      let* calls := subset_calls n (make_op Union (More (mesh_leaf (c_at ghosts level)) (One (mesh_leaf (proj level))))) in
      amr_all n ghosts proj ls (upd all level (lca_of_calls n level calls))
  end.

(** L99-188 on a new mesh. [m]: the largest level a CellArray can hold; [minl], [maxl]: the
    bounds of the mesh; [w]: ghost_width, which is the maximum of max_stencil_width and
    prediction_order (L40); [s]: prediction_order. *)
Definition amr_sub_mesh (n m minl maxl : nat) (w s : Z) (domain : lca) (cells : ca) : option amr_mesh :=
  let* calls := ca_for_each_interval n cells in
  let cl := add_ghosts n w calls (fun _ => []) in
  let ghosts := ca_of_cl n m (cl_run n cl) false in
  let lo := min_level cells in
  let hi := max_level cells in
  let* u := construct_union n minl maxl cells in
  let* proj := amr_proj n ghosts cells u (seq (S lo) (hi - lo)) lca_empty in
  let* pred := amr_pred n ghosts cells u domain (seq (S lo) (hi - lo)) lca_empty in
  let* cl := pred_ghosts n s pred (seq lo (S hi - lo)) cl in
  let ghosts := ca_of_cl n m (cl_run n cl) false in
  let* all := amr_all n ghosts proj (seq lo (S hi - lo)) lca_empty in
  Some (mkAmr ghosts (mkCa m proj) (mkCa m pred) (mkCa m all)).

(** ** update_ghost, algorithm/update.hpp L27-49 *)

(** L35-39 *)
Definition amr_projection_step (n : nat) (r : amr_mesh) (v : lfield) (level : nat) : option lfield :=
  apply_op n (Nat.pred level) (on (inter (c_at (a_proj r) level) (c_at (a_all r) (Nat.pred level))) (Nat.pred level))
    (projection_ghost n (a_all r) level (v level)) v.
(** L42-47; [reference][level - 1] with level = 0 is out of the array. *)
Definition amr_prediction_step (n order : nat) (bc : nat -> lfield -> option lfield) (r : amr_mesh) (v : lfield) (level : nat) : option lfield :=
  match level with
  | O => None
  | S coarse =>
      let* v := apply_op n level (on (inter (c_at (a_pred r) level) (c_at (a_all r) coarse)) level)
                  (prediction_ghost n order (a_all r) level (v coarse)) v in
      bc level v
  end.
(** [maxl] is mesh.max_level(); [bc level] is [update_bc(level, field)]. *)
Definition update_ghost (n order maxl : nat) (bc : nat -> lfield -> option lfield) (r : amr_mesh) (v : lfield) : option lfield :=
  let* v := fold_levels (amr_projection_step n r) (rev (seq 1 maxl)) v in
  let* v := bc 0%nat v in
  let lo := min_level (a_all r) in
  fold_levels (amr_prediction_step n order bc r) (seq lo (S maxl - lo)) v.
