(** Model of the geometry: include/samurai/cell.hpp and box.hpp, and the construction
    of a LevelCellArray on a box of doubles. Coordinates are rationals (no rounding);
    origin_point and scaling_factor, which the model of LevelCellArray leaves out, are
    arguments. [1 << level] is 2^level: the overflow of int at level 31 is not modelled. *)
From Coq Require Import QArith Qround Qabs.
From Verif Require Import Base IntervalModel LoiModel LcaModel CellArrayModel SubsetModel.
Open Scope Q_scope.

Definition zip {A B C : Type} (f : A -> B -> C) (a : list A) (b : list B) : list C := map (fun '(x, y) => f x y) (combine a b).

(** cell.hpp L14-18 *)
Definition cell_length (scaling : Q) (level : nat) : Q := scaling / inject_Z (2 ^ Z.of_nat level).

(** cell.hpp L62-74 *)
Record cell := mkCell { cl_origin : list Q; cl_level : nat; cl_indices : list Z; cl_index : Z; cl_length : Q }.

(** cell.hpp L77-89 *)
Definition make_cell (origin : list Q) (scaling : Q) (level : nat) (indices : list Z) (index : Z) : cell :=
  mkCell origin level indices index (cell_length scaling level).

(** cell.hpp L112-116, L119-122 *)
Definition corner (c : cell) : list Q := zip (fun o i => o + cl_length c * inject_Z i) (cl_origin c) (cl_indices c).
Definition corner_at (c : cell) (i : nat) : Q := nth i (cl_origin c) 0 + cl_length c * inject_Z (nth i (cl_indices c) 0%Z).

(** cell.hpp L128-131, L134-137 *)
Definition center (c : cell) : list Q := zip (fun o i => o + cl_length c * (inject_Z i + (1 # 2))) (cl_origin c) (cl_indices c).
Definition center_at (c : cell) (i : nat) : Q := nth i (cl_origin c) 0 + cl_length c * (inject_Z (nth i (cl_indices c) 0%Z) + (1 # 2)).

(** cell.hpp L139-145 *)
Definition face_center (c : cell) (direction : list Z) : list Q :=
  zip (fun x d => x + (cl_length c / 2) * inject_Z d) (center c) direction.

(** level_cell_array.hpp L590-599 and cell_array.hpp L355-358 *)
Definition ca_get_cell (n : nat) (origin : list Q) (scaling : Q) (c : ca) (level : nat) (coord : list Z) : option cell :=
  let* k := ca_get_index n c level coord in Some (make_cell origin scaling level coord k).

(** box.hpp L105-117: length, min_length *)
Definition box_length (bmin bmax : list Q) : list Q := zip (fun a b => b - a) bmin bmax.
Fixpoint min_from (m : Q) (xs : list Q) : Q := match xs with [] => m | x :: xs => min_from (if Qle_bool m x then m else x) xs end.
Definition min_length (bmin bmax : list Q) : Q := match box_length bmin bmax with [] => 0 | x :: xs => min_from x xs end.

(** box.hpp L160-186. [fuel] bounds the number of turns of the while loop. *)
Definition approx_length (lens : list Q) (sub : Q) : list Q := map (fun x => inject_Z (Qceiling (x / sub)) * sub) lens.
Definition too_far (tol : Q) (lens approx : list Q) : bool :=
  existsb (fun '(a, x) => negb (Qle_bool (Qabs (a - x)) (tol * x))) (combine approx lens).
Fixpoint halve_loop (fuel : nat) (tol : Q) (lens : list Q) (sub : Q) : option Q :=
  match fuel with
  | O => None
  | S fuel => if too_far tol lens (approx_length lens sub) then halve_loop fuel tol lens (sub / 2) else Some sub
  end.
(** The box (its min_corner is the one given, here its max_corner) and subdivision_length on return. *)
Definition approximate_box (fuel : nat) (bmin bmax : list Q) (tol sub : Q) : option (list Q * Q) :=
  let lens := box_length bmin bmax in
  let* sub := (if negb (Qle_bool sub 0) then Some sub else halve_loop fuel tol lens (min_length bmin bmax)) in
  Some (zip Qplus bmin (approx_length lens sub), sub).

(** Conversion of a double to int. *)
Definition truncate (q : Q) : Z := Z.quot (Qnum q) (Zpos (Qden q)).

(** level_cell_array.hpp L343-371: the array and its scaling_factor; origin_point is [bmin]. *)
Definition lca_of_domain (fuel n level : nat) (bmin bmax : list Q) (tol scaling : Q) : option (lca * Q) :=
  let* r := approximate_box fuel bmin bmax tol scaling in
  let end_pt := map (fun x => truncate (x / cell_length (snd r) level)) (box_length bmin (fst r)) in
  Some (lca_of_box n level (repeat 0%Z (S n)) end_pt, snd r).
