(** Model of the construction of the ghosts of a multiresolution mesh
    ([MRMesh::update_sub_mesh_impl], mr/mesh.hpp L129-335).

    Not modelled: the reductions over the ranks and the cells of the neighbouring
    subdomains (L131-139, L215-242), the ghosts for the periodic directions
    (L245-307), which add nothing on one rank without periodic direction. *)
From Verif Require Import Base IntervalModel LoiModel LcaModel CellArrayModel SubsetModel StencilModel MeshModel AdaptModel.
Open Scope Z_scope.

(** [cell_list]: the calls made so far, by level. *)
Definition cell_list := nat -> list lcl_call.
Definition add_calls (cl : cell_list) (level : nat) (cs : list lcl_call) : cell_list := upd cl level (cl level ++ cs).

(** L159-171: each interval of the leaves widened by [max_stencil_width] in every
    direction. [ghost_calls] is the same loop as in uniform_mesh.hpp. *)
Fixpoint add_ghosts (n : nat) (w : Z) (calls : list (nat * (interval * list Z))) (cl : cell_list) : cell_list :=
  match calls with
  | [] => cl
  | (level, (i, yz)) :: calls => add_ghosts n w calls (add_calls cl level (ghost_calls n w i yz))
  end.

(** L184-190 ([k] = 1) and L203-209 ([k] = 2): the interval [k] levels below, widened
    by [prediction_order]. *)
Definition below_calls (n : nat) (s k : Z) (i : interval) (yz : list Z) : list lcl_call :=
  ghost_calls n s (ishr i k) (map (fun y => Z.shiftr y k) yz).

(** L178 *)
Definition uncovered (ghosts u : lca) (level : nat) : subset :=
  on (make_op Difference (More (Lf (leaf_of (NMesh ghosts))) (One (Lf (leaf_of (NMesh u)))))) level.

(** Body of the loop L176-212. *)
Definition mra_step (n : nat) (s : Z) (cells ghosts : ca) (u : nat -> lca) (level : nat) (cl : cell_list) : option cell_list :=
  let* calls := subset_calls n (uncovered (c_at ghosts level) (u level) level) in
  let cl := add_calls cl (Nat.pred level) (flat_map (fun '(i, yz) => below_calls n s 1 i yz) calls) in
  let* calls := subset_calls n (inter (c_at cells level) (c_at cells level)) in
  Some (if Nat.ltb 0 (Nat.pred level)
        then add_calls cl (Nat.pred (Nat.pred level)) (flat_map (fun '(i, yz) => below_calls n s 2 i yz) calls)
        else cl).

(** L176: for (level = max_level; level >= (min_level == 0 ? 1 : min_level); --level) *)
Fixpoint mra_loop (n : nat) (s : Z) (cells ghosts : ca) (u : nat -> lca) (ls : list nat) (cl : cell_list) : option cell_list :=
  match ls with
  | [] => Some cl
  | level :: ls => let* cl := mra_step n s cells ghosts u level cl in mra_loop n s cells ghosts u ls cl
  end.

(** Loop L309-327; [at_] is [all_cells], [pr] is [proj_cells]. The calls added to
    [cell_list[level + 1]] (L318-322) are those of [subdomain_calls] with a shift of 1. *)
Fixpoint proj_loop (n : nat) (u : nat -> lca) (ls : list nat) (cl : cell_list) (at_ pr : nat -> lca) : option ((nat -> lca) * (nat -> lca)) :=
  match ls with
  | [] => Some (at_, pr)
  | level :: ls =>
      let* calls := subset_calls n (inter (at_ level) (u level)) in
      let cl := add_calls cl (S level) (flat_map (fun '(i, yz) => subdomain_calls n 1 i yz) calls) in
      let lcl_proj := lcl_run n level (map (fun '(i, yz) => AddI yz i) calls) in
      proj_loop n u ls cl
        (upd at_ (S level) (lca_of_lcl (lcl_run n (S level) (cl (S level)))))
        (upd pr level (lca_of_lcl lcl_proj))
  end.

Record mr_mesh := mkMr { r_ghosts : ca; r_proj : ca; r_all : ca }.

(** [m]: the largest level a CellArray can hold; [minl], [maxl]: the bounds of the
    mesh (m_min_level, m_max_level); [w]: max_stencil_width; [s]: prediction_order. *)
Definition update_sub_mesh (n m minl maxl : nat) (w s : Z) (cells : ca) : option mr_mesh :=
  let* calls := ca_for_each_interval n cells in
  let cl := add_ghosts n w calls (fun _ => []) in
  let ghosts := ca_of_cl n m (cl_run n cl) false in
  if Nat.eqb maxl minl then Some (mkMr ghosts (mkCa m lca_empty) ghosts)
  else
    let* u := construct_union n minl maxl cells in
    let* cl := mra_loop n s cells ghosts u (union_levels (min_level cells) (max_level cells)) cl in
    let* (at_, pr) := proj_loop n u (seq 0 (max_level cells)) cl (c_at (ca_of_cl n m (cl_run n cl) false)) lca_empty in
    Some (mkMr ghosts (mkCa m pr) (mkCa m at_)).

(** mesh.hpp L534-553 with the sub-meshes in the order of MRMeshId (mr/mesh.hpp
    L21-30): cells, cells_and_ghosts, proj_cells, union_cells (left empty), all_cells,
    which is the reference. *)
Definition mr_renumber (n : nat) (cells : ca) (r : mr_mesh) : option (list ca) :=
  renumbering n [cells; r_ghosts r; r_proj r; mkCa (c_max cells) lca_empty; r_all r] 4.
