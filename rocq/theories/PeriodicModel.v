(** Model of the periodic directions: [update_ghost_periodic] and [update_tag_periodic]
    (algorithm/update.hpp L497-561, L591-658), the ghosts that
    [MRMesh::update_sub_mesh_impl] adds for them (mr/mesh.hpp L245-308), the place of the
    copies in [update_ghost_mr] (algorithm/update.hpp L106-138), and the boundary
    conditions, which skip the periodic directions (bc.hpp L906-915, L996-1005).

    One field with one component, exact arithmetic, one rank. [periodic] is
    [mesh.periodicity()], one boolean by direction. *)
From Coq Require Import QArith.
From Verif Require Import Base IntervalModel LoiModel LcaModel CellArrayModel SubsetModel StencilModel MeshModel NumModel AdaptModel MrModel GhostModel HartenModel.
Open Scope Z_scope.

(** level_cell_array.hpp L668-703; on an empty array the end iterator is dereferenced
    ([None]). *)
Definition min_indices (n : nat) (a : lca) : option (list Z) := mapM (fun d => min_start (a_cells a d)) (seq 0 (S n)).
Definition max_indices (n : nat) (a : lca) : option (list Z) := mapM (fun d => max_end (a_cells a d)) (seq 0 (S n)).

(** The extent of the domain on a level: [min_indices >> delta_l],
    [max_indices >> delta_l] and [(max_indices - min_indices) >> delta_l], with
    [delta_l = domain.level() - level], which underflows on a level finer than the domain
    ([None]). *)
Record extent := mkExt { e_low : list Z; e_high : list Z; e_period : list Z }.
Definition extent_at (n : nat) (domain : lca) (level : nat) : option extent :=
  let* mins := min_indices n domain in
  let* maxs := max_indices n domain in
  let delta := Z.of_nat (a_level domain - level) in
  checked (Nat.leb level (a_level domain))
    (Some (mkExt (map (fun x => Z.shiftr x delta) mins) (map (fun x => Z.shiftr x delta) maxs)
                 (map (fun '(x, y) => Z.shiftr (y - x) delta) (combine mins maxs)))).

(** The boxes [lca1] and [lca2]: from [a] to [b] in direction [d], the domain widened by
    the ghost width [gw] in the others. *)
Definition slab (n level : nat) (e : extent) (gw : Z) (d : nat) (a b : Z) : lca :=
  lca_of_box n level (map (fun k => if Nat.eqb k d then a else nth k (e_low e) 0 - gw) (seq 0 (S n)))
                     (map (fun k => if Nat.eqb k d then b else nth k (e_high e) 0 + gw) (seq 0 (S n))).

(** The vector [stencil]. *)
Definition period_vector (n : nat) (e : extent) (d : nat) : list Z := unit_mult n d (nth d (e_period e) 0).

(** ** update_ghost_periodic, update_tag_periodic *)

(** Values of the cells of one level. *)
Definition get {V} (u : Z -> list Z -> V) (p : list Z) : V := u (hd 0 p) (tl p).
Definition put {V} (u : Z -> list Z -> V) (p : list Z) (q : V) : Z -> list Z -> V :=
  fun x yz => if Z.eqb x (hd 0 p) && zlist_eqb yz (tl p) then q else u x yz.
(** Assignment of a view: the right-hand side is evaluated first. *)
Definition assign_row {V} (f : list Z -> V) (cells : list (list Z)) (u : Z -> list Z -> V) : Z -> list Z -> V :=
  fold_left (fun u p => put u p (f p)) cells u.

(** L539-543, L554-558: the cells of an interval get the values of the cells at the
    offset [t]. *)
Definition copy_op (n : nat) (reference : ca) (level : nat) (t : list Z) (i : interval) (yz : list Z) (u : field) : option field :=
  checked (forallb (stored n reference level) (row_cells i yz) && forallb (stored n reference level) (moved_cells t i yz))
    (Some (assign_row (fun p => get u (add_vec p t)) (row_cells i yz) u)).

(** L635-640, L650-655: the tags of the two cells are joined, first in one then in the
    other. *)
Definition join_op (n : nat) (reference : ca) (level : nat) (t : list Z) (i : interval) (yz : list Z) (g : Z -> list Z -> Z) : option (Z -> list Z -> Z) :=
  checked (forallb (stored n reference level) (row_cells i yz) && forallb (stored n reference level) (moved_cells t i yz))
    (let g1 := assign_row (fun p => Z.lor (get g p) (get g (add_vec p t))) (row_cells i yz) g in
     Some (assign_row (fun q => Z.lor (get g1 q) (get g1 (add_vec q (opposite t)))) (moved_cells t i yz) g1)).

(** The body of the loop over the directions: the ghosts before the domain, then those
    after it. *)
Definition periodic_direction {A} (n : nat) (reference : ca) (level : nat) (e : extent) (gw : Z)
  (op : list Z -> interval -> list Z -> A -> option A) (u : A) (d : nat) : option A :=
  let t := period_vector n e d in
  let low := nth d (e_low e) 0 in
  let high := nth d (e_high e) 0 in
  let* u := apply_tags n (inter (c_at reference level) (slab n level e gw d (low - gw) low)) (op t) u in
  apply_tags n (inter (c_at reference level) (slab n level e gw d high (high + gw))) (op (opposite t)) u.

Definition periodic_directions {A} (n : nat) (periodic : list bool) (reference : ca) (domain : lca) (gw : Z)
  (op : nat -> list Z -> interval -> list Z -> A -> option A) (level : nat) (u : A) : option A :=
  let* e := extent_at n domain level in
  fold_tags (fun u d => if nth d periodic false then periodic_direction n reference level e gw (op level) u d else Some u) (seq 0 (S n)) u.

Definition update_ghost_periodic (n : nat) (periodic : list bool) (reference : ca) (domain : lca) (gw : Z) (level : nat) (v : lfield) : option lfield :=
  let* u := periodic_directions n periodic reference domain gw (copy_op n reference) level (v level) in
  Some (upd v level u).
Definition update_tag_periodic (n : nat) (periodic : list bool) (reference : ca) (domain : lca) (gw : Z) (level : nat) (t : tfield) : option tfield :=
  let* g := periodic_directions n periodic reference domain gw (join_op n reference) level (t level) in
  Some (upd t level g).

(** ** The ghosts of the periodic directions, mr/mesh.hpp L245-308 *)

(** L285-289, L299-303: the cells of the set, moved by [t]. *)
Definition image_calls (t : list Z) (calls : list (interval * list Z)) : list lcl_call :=
  map (fun '(i, yz) => AddI (add_vec yz (tl t)) (iadd i (hd 0 t))) calls.

(** L263-305, for one direction; [all] is [all_cells[level]], [cs] the calls made on
    [cell_list[level]]. *)
Definition periodic_images (n level : nat) (e : extent) (gw : Z) (d : nat) (all : lca) : option (list lcl_call) :=
  let t := period_vector n e d in
  let low := nth d (e_low e) 0 in
  let high := nth d (e_high e) 0 in
  let* c1 := subset_calls n (inter all (slab n level e gw d (low - gw) (low + gw))) in
  let* c2 := subset_calls n (inter all (slab n level e gw d (high - gw) (high + gw))) in
  Some (image_calls t c1 ++ image_calls (opposite t) c2).

Definition periodic_ghosts (n : nat) (periodic : list bool) (domain : lca) (gw : Z) (level : nat) (cs : list lcl_call) (all : lca)
  : option (list lcl_call * lca) :=
  let* e := extent_at n domain level in
  fold_tags (fun '(cs, all) d =>
    if nth d periodic false then
      let* added := periodic_images n level e gw d all in
      let cs := cs ++ added in
      Some (cs, lca_of_lcl (lcl_run n level cs))
    else Some (cs, all)) (seq 0 (S n)) (cs, all).

(** Loop L254-256. The bounds are those of [all_cells] before the loop: the loop adds
    cells only on levels that have some. *)
Definition periodic_loop (n : nat) (periodic : list bool) (domain : lca) (gw : Z) (ls : list nat) (cl : cell_list) (at_ : nat -> lca)
  : option (cell_list * (nat -> lca)) :=
  fold_tags (fun '(cl, at_) level =>
    let* (cs, all) := periodic_ghosts n periodic domain gw level (cl level) (at_ level) in
    Some (upd cl level cs, upd at_ level all)) ls (cl, at_).

(** [update_sub_mesh] with the periodic directions. [ghost_width] is the largest of
    [max_stencil_width] and [prediction_order] (mr/mesh.hpp L50). *)
Definition update_sub_mesh_periodic (n m minl maxl : nat) (w s : Z) (periodic : list bool) (domain : lca) (cells : ca) : option mr_mesh :=
  let* calls := ca_for_each_interval n cells in
  let cl := add_ghosts n w calls (fun _ => []) in
  let ghosts := ca_of_cl n m (cl_run n cl) false in
  if Nat.eqb maxl minl then Some (mkMr ghosts (mkCa m lca_empty) ghosts)
  else
    let* u := construct_union n minl maxl cells in
    let* cl := mra_loop n s cells ghosts u (union_levels (min_level cells) (max_level cells)) cl in
    let all := ca_of_cl n m (cl_run n cl) false in
    let* (cl, at_) := periodic_loop n periodic domain (Z.max w s) (seq (min_level all) (S (max_level all) - min_level all)) cl (c_at all) in
    let* (at_, pr) := proj_loop n u (seq 0 (max_level cells)) cl at_ lca_empty in
    Some (mkMr ghosts (mkCa m pr) (mkCa m at_)).

(** ** update_ghost_mr with the copies *)

(** [per level] is [update_ghost_periodic(level, field)]. *)
Definition update_ghost_mr_periodic (n order : nat) (per bc : nat -> lfield -> option lfield) (cells : ca) (r : mr_mesh) (subdomain : lca) (v : lfield)
  : option lfield :=
  let min_level := min_level (r_all r) in
  let max_level := max_level (r_all r) in
  let* v := fold_levels (fun v level => let* v := per level v in projection_step n r v level) (rev (seq (S min_level) (max_level - min_level))) v in
  let* v := (if Nat.ltb 0 min_level && negb (Nat.eqb min_level max_level)
             then let* v := bc (Nat.pred min_level) v in per (Nat.pred min_level) v else Some v) in
  let* v := bc min_level v in
  let* v := per min_level v in
  fold_levels (fun v level =>
    let* v := apply_op n level (predicted_set cells r subdomain level) (prediction_ghost n order (r_all r) level (v (Nat.pred level))) v in
    let* v := per level v in
    bc level v) (seq (S min_level) (max_level - min_level)) v.

(** ** The boundary conditions (bc.hpp L906-915, L996-1005): a direction with a periodic
    component is skipped. *)
Definition crosses (periodic : list bool) (dir : list Z) : bool := existsb (fun '(x, b) => negb (x =? 0) && b) (combine dir periodic).

Definition apply_extrapolation_periodic (n : nat) (periodic : list bool) (cells reference : ca) (domain : lca) (size level : nat)
  (diagonals_only only_fill_ghost_neighbours : bool) (u : field) : option field :=
  checked (Nat.leb level (a_level domain))
    (extrapolate_directions n cells reference domain size level diagonals_only only_fill_ghost_neighbours
       (filter (fun dir => negb (crosses periodic dir)) (nested_loop (S n) (-1) 2)) u).
Fixpoint extrapolate_layers_periodic (n : nat) (periodic : list bool) (cells reference : ca) (domain : lca) (level : nat) (corners : nat -> bool)
  (only_fill_ghost_neighbours : bool) (layers : list nat) (u : field) : option field :=
  match layers with
  | [] => Some u
  | k :: layers =>
      let* u := (if Nat.leb (2 * k) 6
                 then apply_extrapolation_periodic n periodic cells reference domain (2 * k) level (corners k) only_fill_ghost_neighbours u else Some u) in
      extrapolate_layers_periodic n periodic cells reference domain level corners only_fill_ghost_neighbours layers u
  end.
Definition without_periodic (periodic : list bool) (b : bc) : bc :=
  mkBc (bc_size b) (filter (fun '(dir, _) => negb (crosses periodic dir)) (bc_region b)) (bc_value b) (bc_apply b).
Definition update_bc_periodic (n : nat) (periodic : list bool) (cells reference : ca) (domain : lca) (minl maxl width order : nat) (dx : nat -> Q)
  (bs : list bc) (level : nat) (v : lfield) : option lfield :=
  let u := v level in
  let* u := (if Nat.ltb order width && negb (Nat.eqb minl maxl)
             then extrapolate_layers_periodic n periodic cells reference domain level (fun _ => false) true (seq 1 order) u else Some u) in
  let* u := apply_bcs n cells reference minl maxl (dx level) (map (without_periodic periodic) bs) level u in
  let real_max_stencil_size := fold_left Nat.max (map bc_size bs) 0%nat in
  let* u := extrapolate_layers_periodic n periodic cells reference domain level (fun k => Nat.leb k (Nat.div real_max_stencil_size 2)) false
              (seq 1 (Nat.max width order)) u in
  Some (upd v level u).
