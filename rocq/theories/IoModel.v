(** Model of the points and the connectivity written by save (include/samurai/hdf5.hpp).

    The cells are those of for_each_cell, in that order (C08, C12). The coordinates are rationals
    (double in the code). [points_id], a std::map, is the list of its entries in the order of
    their insertion; the last loop goes over it in another order, which is a parameter. *)
From Coq Require Import QArith.
From Verif Require Import Base SubsetModel ReconModel GeomModel.
Open Scope nat_scope.

(** L61-83: the vertices of the unit cell; only declared for the other dimensions. [n] is
    dim - 1. *)
Definition get_element (n : nat) : option (list (list Z)) :=
  match n with
  | 0 => Some [[0]; [1]]%Z
  | 1 => Some [[0; 0]; [1; 0]; [1; 1]; [0; 1]]%Z
  | 2 => Some [[0; 0; 0]; [1; 0; 0]; [1; 1; 0]; [0; 1; 0]; [0; 0; 1]; [1; 0; 1]; [1; 1; 1]; [0; 1; 1]]%Z
  | _ => None
  end.

(** L131, L137: start_corner + cell.length * element[i] *)
Definition vertex (c : cell) (e : list Z) : list Q := zip (fun x d => x + cl_length c * inject_Z d)%Q (corner c) e.

(** The keys of the map: arrays of numbers. *)
Fixpoint point_eqb (a b : list Q) : bool :=
  match a, b with
  | [], [] => true
  | x :: a, y :: b => Qeq_bool x y && point_eqb a b
  | _, _ => false
  end.
Definition points := list (list Q * nat).

(** L140-149: the number of a point; the state is points_id and id. *)
Definition number_point (st : points * nat) (a : list Q) : (points * nat) * nat :=
  let '(points_id, id) := st in
  match find (fun '(p, _) => point_eqb p a) points_id with
  | None => ((points_id ++ [(a, id)], S id), id)
  | Some (_, k) => ((points_id, id), k)
  end.
(** L135-150: the vertices of one cell *)
Fixpoint number_points (st : points * nat) (ps : list (list Q)) : (points * nat) * list nat :=
  match ps with
  | [] => (st, [])
  | a :: ps => let '(st, k) := number_point st a in let '(st, ks) := number_points st ps in (st, k :: ks)
  end.
(** L125-154 *)
Fixpoint number_cells (element : list (list Z)) (st : points * nat) (cells : list cell) : (points * nat) * list (list nat) :=
  match cells with
  | [] => (st, [])
  | c :: cells => let '(st, ks) := number_points st (map (vertex c) element) in let '(st, rows) := number_cells element st cells in (st, ks :: rows)
  end.

(** L161-162: the first components of row [k] of [coords] *)
Fixpoint set_coords (coords : list (list Q)) (k : nat) (p : list Q) : option (list (list Q)) :=
  match coords, k with
  | [], _ => None
  | row :: coords, 0 => Some ((p ++ skipn (length p) row) :: coords)
  | row :: coords, S k => let* coords := set_coords coords k p in Some (row :: coords)
  end.
(** L104-165 *)
Definition extract_coords_and_connectivity (order : points -> points) (n : nat) (cells : list cell) : option (list (list Q) * list (list nat)) :=
  let* element := get_element n in
  let '((points_id, _), connectivity) := number_cells element ([], 0) cells in
  let* coords := fold_opt (fun coords '(p, idx) => set_coords coords idx p) (order points_id) (repeat [0; 0; 0]%Q (length points_id)) in
  Some (coords, connectivity).
