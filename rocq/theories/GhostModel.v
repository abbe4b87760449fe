(** Model of the update of the ghosts of a multiresolution mesh
    ([update_ghost_mr], algorithm/update.hpp L91-142) and of the boundary conditions
    (bc.hpp).

    One field with one component, exact arithmetic. Not modelled: the exchanges
    between ranks and the periodic directions ([update_ghost_subdomains],
    [update_ghost_periodic]), which do nothing on one rank without periodic direction. *)
From Coq Require Import QArith.
From Verif Require Import Base IntervalModel LoiModel LcaModel CellArrayModel SubsetModel StencilModel MeshModel NumModel AdaptModel MrModel.
Open Scope Z_scope.

(** Whether the cell [p] of level [level] has a place in the storage of a field, that is
    a number in the reference mesh. A read or a write elsewhere is an error ([None]). *)
Definition stored (n : nat) (reference : ca) (level : nat) (p : list Z) : bool :=
  match ca_get_index n reference level p with Some _ => true | None => false end.

Definition checked {A} (b : bool) (r : option A) : option A := if b then r else None.

(** The cells of an interval of a row. *)
Definition row_cells (i : interval) (yz : list Z) : list (list Z) := map (fun x => x :: yz) (strided i).

(** ** The two operators with the cells they read (numeric/projection.hpp L21-45,
    numeric/prediction.hpp L420-861) *)
Definition projection_reads (i : interval) (yz : list Z) : list (list Z) :=
  flat_map (fun x => map (fun '(cx, cyz) => cx :: cyz) (children x yz)) (strided i).
Definition projection_ghost (n : nat) (reference : ca) (level : nat) (u : field) (i : interval) (yz : list Z) : option (list write) :=
  checked (forallb (stored n reference level) (projection_reads i yz) && forallb (stored n reference (Nat.pred level)) (row_cells i yz))
    (projection_op_ u i yz).

(** All the cells at a distance at most [order] of the parent, in every direction. *)
Definition prediction_reads (n order : nat) (i : interval) (yz : list Z) : list (list Z) :=
  flat_map (fun x => map (add_vec (map (fun y => Z.shiftr y 1) (x :: yz))) (nested_loop (S n) (- Z.of_nat order) (Z.of_nat order + 1))) (strided i).
Definition prediction_ghost (n order : nat) (reference : ca) (level : nat) (u : field) (i : interval) (yz : list Z) : option (list write) :=
  checked (forallb (stored n reference (Nat.pred level)) (prediction_reads n order i yz) && forallb (stored n reference level) (row_cells i yz))
    (prediction_false order u i yz).

(** ** update_ghost_mr *)
Notation mesh_leaf a := (Lf (leaf_of (NMesh a))).

(** L112-113 *)
Definition projection_step (n : nat) (r : mr_mesh) (v : lfield) (level : nat) : option lfield :=
  apply_op n (Nat.pred level) (on (inter (c_at (r_all r) level) (c_at (r_proj r) (Nat.pred level))) (Nat.pred level))
    (projection_ghost n (r_all r) level (v level)) v.

(** L128-132 *)
Definition predicted_set (cells : ca) (r : mr_mesh) (subdomain : lca) (level : nat) : subset :=
  on (make_op Intersect
       (More (Nd Difference (More (mesh_leaf (c_at (r_all r) level))
                (One (Nd Union (More (mesh_leaf (c_at cells level)) (One (mesh_leaf (c_at (r_proj r) level))))))))
       (More (mesh_leaf subdomain)
       (One (mesh_leaf (c_at (r_all r) (Nat.pred level))))))) level.

(** L126-138 *)
Definition prediction_step (n order : nat) (bc : nat -> lfield -> option lfield) (cells : ca) (r : mr_mesh) (subdomain : lca) (v : lfield) (level : nat)
  : option lfield :=
  let* v := apply_op n level (predicted_set cells r subdomain level) (prediction_ghost n order (r_all r) level (v (Nat.pred level))) v in
  bc level v.

(** [bc level] is [update_bc(level, field)]. *)
Definition update_ghost_mr (n order : nat) (bc : nat -> lfield -> option lfield) (cells : ca) (r : mr_mesh) (subdomain : lca) (v : lfield)
  : option lfield :=
  let min_level := min_level (r_all r) in
  let max_level := max_level (r_all r) in
  let* v := fold_levels (projection_step n r) (rev (seq (S min_level) (max_level - min_level))) v in
  let* v := (if Nat.ltb 0 min_level && negb (Nat.eqb min_level max_level) then bc (Nat.pred min_level) v else Some v) in
  let* v := bc min_level v in
  fold_levels (prediction_step n order bc cells r subdomain) (seq (S min_level) (max_level - min_level)) v.

(** ** Boundary conditions *)

(** A boundary condition: its stencil size, its region ([BcRegion::region_t]: a list of
    directions, each with cells of the domain), the value it takes in a cell through the
    face in a direction (constant or function), and its apply function: from the length of
    a cell, the value and the values of the stencil cells to the assignments, given by
    positions in the stencil. *)
Record bc := mkBc {
  bc_size : nat;
  bc_region : list (list Z * lca);
  bc_value : nat -> list Z -> list Z -> Q;
  bc_apply : Q -> Q -> list Q -> list (nat * Q) }.

(** bc.hpp L1041-1115 (DirichletImpl) for orders 1 to 4. The assignments are in order
    and read only the first cells, which they do not assign. *)
Definition dirichlet (order : nat) (dx v : Q) (us : list Q) : list (nat * Q) :=
  let u k := nth k us 0%Q in
  (match order with
  | 1%nat => [(1%nat, 2 * v - u 0%nat)]
  | 2%nat => [(2%nat, (8 # 3) * v + (1 # 3) * u 0%nat - 2 * u 1%nat);
              (3%nat, 8 * v + 2 * u 0%nat - 9 * u 1%nat)]
  | 3%nat => [(3%nat, (16 # 5) * v - (1 # 5) * u 0%nat + u 1%nat - 3 * u 2%nat);
              (4%nat, (64 # 5) * v - (9 # 5) * u 0%nat + 8 * u 1%nat - 18 * u 2%nat);
              (5%nat, 32 * v - 6 * u 0%nat + 25 * u 1%nat - 50 * u 2%nat)]
  | 4%nat => [(4%nat, (128 # 35) * v + (1 # 7) * u 0%nat - (4 # 5) * u 1%nat + 2 * u 2%nat - 4 * u 3%nat);
              (5%nat, (128 # 7) * v + (12 # 7) * u 0%nat - 9 * u 1%nat + 20 * u 2%nat - 30 * u 3%nat);
              (6%nat, (384 # 7) * v + (50 # 7) * u 0%nat - 36 * u 1%nat + 75 * u 2%nat - 100 * u 3%nat);
              (7%nat, 128 * v + 20 * u 0%nat - 98 * u 1%nat + 196 * u 2%nat - 245 * u 3%nat)]
  | _ => []
  end)%Q.

(** L1130-1154 (NeumannImpl), order 1 *)
Definition neumann (dx v : Q) (us : list Q) : list (nat * Q) := [(1%nat, dx * v + nth 0 us 0)]%Q.

(** L1167-1232 (PolynomialExtrapolation) for stencil sizes 2, 4 and 6 *)
Definition extrapolation (size : nat) (us : list Q) : list (nat * Q) :=
  let u k := nth k us 0%Q in
  (match size with
  | 2%nat => [(1%nat, u 0%nat)]
  | 4%nat => [(3%nat, u 0%nat - u 1%nat * 3 + u 2%nat * 3)]
  | 6%nat => [(5%nat, u 0%nat - u 1%nat * 5 + u 2%nat * 10 - u 3%nat * 10 + u 4%nat * 5)]
  | _ => []
  end)%Q.

(** Value of a field in a cell given by its coordinates, and assignment. *)
Definition value_at (u : field) (p : list Z) : Q := match p with x :: yz => u x yz | [] => 0%Q end.
Definition assign_at (u : field) (p : list Z) (q : Q) : field := match p with x :: yz => write1 u (x, yz, q) | [] => u end.

(** One call of the function given to for_each_stencil, on the stencil around [p]. The
    iterator of stencil.hpp follows the storage; here the stencil cells are given by their
    coordinates (C44 relates the two). [f] is the apply function with its value. *)
Definition stencil_call (n : nat) (reference : ca) (level : nat) (st : stencil) (f : list Z -> list Q -> list (nat * Q)) (u : field) (p : list Z)
  : option field :=
  let cs := map (add_vec p) st in
  checked (forallb (stored n reference level) cs)
    (Some (fold_left (fun u '(k, q) => match nth_error cs k with Some c => assign_at u c q | None => u end) (f p (map (value_at u) cs)) u)).

Fixpoint fold_cells (f : field -> list Z -> option field) (ps : list (list Z)) (u : field) : option field :=
  match ps with [] => Some u | p :: ps => let* u := f u p in fold_cells f ps u end.

(** L852-888 (__apply_bc_on_subset) *)
Definition bc_on_subset (n : nat) (reference : ca) (level : nat) (set : subset) (st : stencil) (f : list Z -> list Q -> list (nat * Q)) (u : field)
  : option field :=
  let* calls := subset_calls n set in
  fold_cells (stencil_call n reference level st f) (flat_map (fun '(i, yz) => row_cells i yz) calls) u.

(** [-(stencil_size / 2) * direction] *)
Definition outwards (size : nat) (direction : list Z) : list Z := map (Z.mul (- Z.of_nat (Nat.div size 2))) direction.
Notation moved_leaf t a := (Lf (leaf_of (translate t (NMesh a)))).

(** L891-935 (apply_bc_impl), for one direction of the region. [minl], [maxl]:
    mesh.min_level(), mesh.max_level(); [dx]: the length of a cell of [level]. The
    stencil is [line_stencil<dim, 0, stencil_size>]. *)
Definition apply_bc_direction (n : nat) (cells reference : ca) (minl maxl : nat) (dx : Q) (b : bc) (level : nat) (u : field)
  (direction : list Z) (region : lca) : option field :=
  if is_cartesian direction then
    let st := convert_for_direction n (line_stencil n 0 (bc_size b)) direction in
    let f p us := bc_apply b dx (bc_value b level direction p) us in
    let bdry_cells := Nd Intersect (More (mesh_leaf (c_at cells level)) (One (mesh_leaf region))) in
    let* u := bc_on_subset n reference level (subset_init level bdry_cells) st f u in
    if Nat.eqb minl maxl then Some u
    else
      let inner_cells_and_ghosts :=
        Nd Intersect (More (moved_leaf (outwards (bc_size b) direction) (c_at reference level)) (One (mesh_leaf region))) in
      bc_on_subset n reference level (subset_init level (Nd Difference (More inner_cells_and_ghosts (One bdry_cells)))) st f u
  else Some u.

Fixpoint apply_bc_impl (n : nat) (cells reference : ca) (minl maxl : nat) (dx : Q) (b : bc) (level : nat) (region : list (list Z * lca)) (u : field)
  : option field :=
  match region with
  | [] => Some u
  | (direction, lca) :: region =>
      let* u := apply_bc_direction n cells reference minl maxl dx b level u direction lca in
      apply_bc_impl n cells reference minl maxl dx b level region u
  end.

(** L937-976 (__apply_extrapolation_bc_on_subset) *)
Definition extrapolate_on_subset (n : nat) (cells reference : ca) (size level : nat) (direction : list Z) (set : tree leaf)
  (only_fill_ghost_neighbours : bool) (u : field) : option field :=
  let st := convert_for_direction n (line_stencil n 0 size) direction in
  let f (_ : list Z) us := extrapolation size us in
  let bdry_cells := Nd Intersect (More (mesh_leaf (c_at cells level)) (One set)) in
  let translated_outer_nghbr := moved_leaf (outwards size direction) (c_at reference level) in
  let* u := (if only_fill_ghost_neighbours then Some u
             else bc_on_subset n reference level (subset_init level (Nd Intersect (More translated_outer_nghbr (One bdry_cells)))) st f u) in
  let inner_cells_and_ghosts := Nd Intersect (More translated_outer_nghbr (One set)) in
  bc_on_subset n reference level (subset_init level (Nd Difference (More inner_cells_and_ghosts (One bdry_cells)))) st f u.

(** The sets of L1013-1031: the cells of the domain next to its boundary, in a Cartesian
    direction or (dimensions 2 and 3) in a diagonal one. *)
Definition boundary_set (n : nat) (domain : lca) (one_interval : Z) (dir : list Z) : tree leaf :=
  let along k := moved_leaf (unit_mult n k (one_interval * - nth k dir 0)) domain in
  if is_cartesian dir then Nd Difference (More (mesh_leaf domain) (One (moved_leaf (map (fun d => - one_interval * d) dir) domain)))
  else match n with
       | 2%nat => Nd Difference (More (mesh_leaf domain) (One (Nd Union (More (along 0%nat) (More (along 1%nat) (One (along 2%nat)))))))
       | _ => Nd Difference (More (mesh_leaf domain) (One (Nd Union (More (along 0%nat) (One (along 1%nat))))))
       end.

(** L978-1038 (apply_extrapolation_bc_impl). [1 << (domain.level() - level)] on a level
    finer than the domain is undefined. *)
Fixpoint extrapolate_directions (n : nat) (cells reference : ca) (domain : lca) (size level : nat) (diagonals_only only_fill_ghost_neighbours : bool)
  (dirs : list (list Z)) (u : field) : option field :=
  match dirs with
  | [] => Some u
  | dir :: dirs =>
      let* u := (if forallb (Z.eqb 0) dir || (diagonals_only && is_cartesian dir) then Some u
                 else extrapolate_on_subset n cells reference size level dir
                        (boundary_set n domain (Z.shiftl 1 (Z.of_nat (a_level domain - level))) dir) only_fill_ghost_neighbours u) in
      extrapolate_directions n cells reference domain size level diagonals_only only_fill_ghost_neighbours dirs u
  end.
Definition apply_extrapolation (n : nat) (cells reference : ca) (domain : lca) (size level : nat) (diagonals_only only_fill_ghost_neighbours : bool)
  (u : field) : option field :=
  checked (Nat.leb level (a_level domain))
    (extrapolate_directions n cells reference domain size level diagonals_only only_fill_ghost_neighbours (nested_loop (S n) (-1) 2) u).

(** The loops over the ghost layers, L1253-1275 and L1311-1334: layers 1 to [k], of which
    those with a stencil of at most 6 cells are handled. *)
Fixpoint extrapolate_layers (n : nat) (cells reference : ca) (domain : lca) (level : nat) (corners : nat -> bool) (only_fill_ghost_neighbours : bool)
  (layers : list nat) (u : field) : option field :=
  match layers with
  | [] => Some u
  | k :: layers =>
      let* u := (if Nat.leb (2 * k) 6
                 then apply_extrapolation n cells reference domain (2 * k) level (corners k) only_fill_ghost_neighbours u else Some u) in
      extrapolate_layers n cells reference domain level corners only_fill_ghost_neighbours layers u
  end.

Fixpoint apply_bcs (n : nat) (cells reference : ca) (minl maxl : nat) (dx : Q) (bs : list bc) (level : nat) (u : field) : option field :=
  match bs with
  | [] => Some u
  | b :: bs =>
      let* u := apply_bc_impl n cells reference minl maxl dx b level (bc_region b) u in
      apply_bcs n cells reference minl maxl dx bs level u
  end.

(** L1236-1336 (update_bc). [width]: max_stencil_width, [order]: prediction_order,
    [dx]: the length of a cell by level. *)
Definition update_bc (n : nat) (cells reference : ca) (domain : lca) (minl maxl width order : nat) (dx : nat -> Q) (bs : list bc) (level : nat) (v : lfield)
  : option lfield :=
  let u := v level in
  let* u := (if Nat.ltb order width && negb (Nat.eqb minl maxl)
             then extrapolate_layers n cells reference domain level (fun _ => false) true (seq 1 order) u else Some u) in
  let* u := apply_bcs n cells reference minl maxl (dx level) bs level u in
  let real_max_stencil_size := fold_left Nat.max (map bc_size bs) 0%nat in
  let* u := extrapolate_layers n cells reference domain level (fun k => Nat.leb k (Nat.div real_max_stencil_size 2)) false
              (seq 1 (Nat.max width order)) u in
  Some (upd v level u).

(** L360-397 (Everywhere::get_region) *)
Fixpoint everywhere_from (n : nat) (domain : lca) (dirs : list (list Z)) : option (list (list Z * lca)) :=
  match dirs with
  | [] => Some []
  | dir :: dirs =>
      let* rest := everywhere_from n domain dirs in
      if forallb (Z.eqb 0) dir then Some rest
      else
        let t := boundary_set n domain 1 dir in
        let* a := lca_of_subset n (subset_init (common_level t) t) in
        Some ((dir, a) :: rest)
  end.
Definition everywhere (n : nat) (domain : lca) : option (list (list Z * lca)) := everywhere_from n domain (nested_loop (S n) (-1) 2).
