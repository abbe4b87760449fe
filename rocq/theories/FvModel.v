(** Model of an explicit finite volume step on an adapted mesh: the operators of
    stencil_field.hpp and demos/FiniteVolume/stencil_field.hpp with their fluxes, the
    assignment [unp1 = u - dt * op(u)] over the leaves, and the correction of the fluxes at
    the interfaces of two levels ([flux_correction] of the demos).

    One rank, scalar fields, rational numbers. A flux that reads a cell without a number in
    the reference mesh is an error ([None]). The demos exist in dimensions 1 and 2; the
    operators also in dimension 3. Here the dimension is any [S n]: in dimension [S n] the
    face of a cell has [2^n] faces of children, each with the weight [1 / 2^n] (1 in
    dimension 1, .5 in dimension 2). *)
From Coq Require Import QArith Qabs Qminmax.
From Verif Require Import Base IntervalModel LoiModel LcaModel CellArrayModel SubsetModel StencilModel MeshModel NumModel AdaptModel MrModel GeomModel GhostModel HartenModel.
Open Scope Z_scope.

(** field.hpp L117-131 (operator()): the value of a stored cell. *)
Definition cell_value (u : lfield) (level : nat) (p : list Z) : Q := match p with x :: y => u level x y | [] => 0%Q end.
Definition read (n : nat) (reference : ca) (u : lfield) (level : nat) (p : list Z) : option Q :=
  checked (stored n reference level p) (Some (cell_value u level p)).

(** An operator applied to its fields: the fluxes of a cell of a level through its two faces
    in a direction (left_flux, right_flux; down_flux, up_flux; front_flux, back_flux). *)
Record fv_op := mkFv { left_flux : nat -> nat -> list Z -> option Q; right_flux : nat -> nat -> list Z -> option Q }.

(** ** The fluxes *)

(** stencil_field.hpp L95-167, L203-225 and demos/FiniteVolume/stencil_field.hpp L256-266: a
    flux between two neighbours, [f d ul ur]. *)
Definition two_point (n : nat) (reference : ca) (f : nat -> Q -> Q -> Q) (u : lfield) : fv_op :=
  mkFv (fun d level p => let* ul := read n reference u level (add_vec p (unit_mult n d (-1))) in
                         let* ur := read n reference u level p in Some (f d ul ur))
       (fun d level p => let* ul := read n reference u level p in
                         let* ur := read n reference u level (add_vec p (unit_mult n d 1)) in Some (f d ul ur)).

(** stencil_field.hpp L86-92 (upwind_op) *)
Definition upwind_flux (a ul ur : Q) : Q := ((1 # 2) * a * (ul + ur) + (1 # 2) * Qabs a * (ul - ur))%Q.
(** stencil_field.hpp L183-201 (upwind_scalar_burgers_op) *)
Definition Qltb (a b : Q) : bool := negb (Qle_bool b a).
Definition scalar_burgers_flux (a ul ur : Q) : Q :=
  let mask1 := Qltb (a * ul) (a * ur) in
  let mask2 := Qltb 0 (ul * ur) in
  let small := Qmin (Qabs ul) (Qabs ur) in
  let large := Qmax (Qabs ul) (Qabs ur) in
  if mask1 && mask2 then ((1 # 2) * small * small)%Q else if negb mask1 then ((1 # 2) * large * large)%Q else 0%Q.
(** demos/FiniteVolume/stencil_field.hpp L245-254 (upwind_Burgers_op) *)
Definition burgers_flux (lb ul ur : Q) : Q := ((1 # 2) * ((1 # 2) * (ul * ul) + (1 # 2) * (ur * ur)) - (1 # 2) * lb * (ur - ul))%Q.

(** demos/FiniteVolume/stencil_field.hpp L86-227 (upwind_variable_op): the velocity at the
    face is extrapolated from three cells, with a limiter of the slopes. *)
Definition mc (y : Q) : Q := Qmax 0 (Qmin (Qmin (2 * y) ((1 # 2) * (1 + y))) 2).
Definition limited_flux (vel ul ur lb r : Q) : Q :=
  (Qmin 0 vel * ur + Qmax 0 vel * ul + (1 # 2) * mc r * Qabs vel * (1 - lb * Qabs vel) * (ur - ul))%Q.
Definition tiny : Q := 1 # 100000000.
Definition slope_ratio (vel denom before after : Q) : Q :=
  ((1 / (if Qltb (Qabs denom) tiny then tiny else denom)) * (if Qle_bool 0 vel then before else after))%Q.
Definition variable (n : nat) (reference : ca) (scaling dt : Q) (vel : nat -> lfield) (u : lfield) : fv_op :=
  let at_ (w : lfield) level p d k := read n reference w level (add_vec p (unit_mult n d k)) in
  mkFv (fun d level p =>
          let* v1 := at_ (vel d) level p d (-1) in let* v2 := at_ (vel d) level p d 0 in let* v3 := at_ (vel d) level p d 1 in
          let* u1 := at_ u level p d (-2) in let* u2 := at_ u level p d (-1) in let* u3 := at_ u level p d 0 in let* u4 := at_ u level p d 1 in
          let face := ((3 # 8) * v1 + (3 # 4) * v2 - (1 # 8) * v3)%Q in
          Some (limited_flux face u2 u3 (dt / cell_length scaling level) (slope_ratio face (u3 - u2) (u2 - u1) (u4 - u3))))
       (fun d level p =>
          let* v1 := at_ (vel d) level p d 1 in let* v2 := at_ (vel d) level p d 0 in let* v3 := at_ (vel d) level p d (-1) in
          let* u1 := at_ u level p d (-1) in let* u2 := at_ u level p d 0 in let* u3 := at_ u level p d 1 in let* u4 := at_ u level p d 2 in
          let face := ((3 # 8) * v1 + (3 # 4) * v2 - (1 # 8) * v3)%Q in
          Some (limited_flux face u2 u3 (dt / cell_length scaling level) (slope_ratio face (u3 - u2) (u2 - u1) (u4 - u3)))).

(** ** The operator and the step *)

(** stencil_field.hpp L27-52 (finite_volume::operator()) *)
Fixpoint fv_sum (op : fv_op) (level : nat) (p : list Z) (ds : list nat) : option Q :=
  match ds with
  | [] => Some 0%Q
  | d :: ds =>
      let* a := left_flux op d level p in
      let* b := right_flux op d level p in
      let* r := fv_sum op level p ds in
      Some (- a + b + r)%Q
  end.
Definition finite_volume (n : nat) (scaling : Q) (op : fv_op) (level : nat) (p : list Z) : option Q :=
  let* s := fv_sum op level p (seq 0 (S n)) in Some (s / cell_length scaling level)%Q.

(** [dest(level, i, yz) = e(level, i, yz)] where the value of [e] in a cell is [g]. *)
Definition row_update (n : nat) (reference : ca) (level : nat) (g : list Z -> option Q) (i : interval) (yz : list Z) (v : lfield) : option lfield :=
  let* qs := mapM g (row_cells i yz) in
  let* ws := assign i yz qs in
  checked (forallb (stored n reference level) (row_cells i yz)) (Some (upd v level (write_all ws (v level)))).

(** field.hpp L669-680: [unp1 = u - dt * op(u)], over the leaves. *)
Definition fv_update (n : nat) (scaling dt : Q) (op : fv_op) (cells reference : ca) (u v : lfield) : option lfield :=
  let* calls := ca_for_each_interval n cells in
  fold_tags (fun v '(level, (i, yz)) =>
    row_update n reference level
      (fun p => let* a := read n reference u level p in let* b := finite_volume n scaling op level p in Some (a - dt * b)%Q) i yz v) calls v.

(** The children of a cell along its face in direction [d] on the side [s]. *)
Definition side_children (n d : nat) (s : Z) (p : list Z) : list (list Z) :=
  map (fun o => add_vec (map (Z.mul 2) p) o) (filter (fun o => nth d o 0 =? (if s =? 1 then 1 else 0)) (nested_loop (S n) 0 2)).

Definition side_flux (op : fv_op) (s : Z) := if s =? 1 then right_flux op else left_flux op.
Fixpoint sum_flux (f : list Z -> option Q) (ps : list (list Z)) : option Q :=
  match ps with [] => Some 0%Q | p :: ps => let* a := f p in let* r := sum_flux f ps in Some (a + r)%Q end.

(** demos/FiniteVolume/advection_2d.cpp L64-146, advection_1d.cpp L49-87,
    AMR_Burgers_Hat.cpp L138-170, level_set.cpp L133-226, scalar_burgers_2d.cpp L64-155: the
    leaves of level [level] with finer leaves on the side [s] of direction [d]. *)
Definition correct_op (n : nat) (scaling dt : Q) (op : fv_op) (reference : ca) (level d : nat) (s : Z) (i : interval) (yz : list Z) (v : lfield) : option lfield :=
  row_update n reference level
    (fun p =>
       let* a := read n reference v level p in
       let* c := side_flux op s d level p in
       let* f := sum_flux (side_flux op s d (S level)) (side_children n d s p) in
       Some (a + inject_Z s * (dt / cell_length scaling level * (c - f / inject_Z (2 ^ Z.of_nat n))))%Q) i yz v.
Definition finer_beside (n : nat) (cells : ca) (level d : nat) (s : Z) : subset :=
  on (make_op Intersect (More (moved_leaf (unit_mult n d (- s)) (c_at cells (S level))) (One (mesh_leaf (c_at cells level))))) level.
Definition sides_of (n : nat) : list (nat * Z) := flat_map (fun d => [(d, 1); (d, -1)]) (seq 0 (S n)).
Definition correct_level (n : nat) (scaling dt : Q) (op : fv_op) (cells reference : ca) (v : lfield) (level : nat) : option lfield :=
  fold_tags (fun v '(d, s) => apply_tags n (finer_beside n cells level d s) (correct_op n scaling dt op reference level d s) v) (sides_of n) v.
Definition flux_correction (n minl maxl : nat) (scaling dt : Q) (op : fv_op) (cells reference : ca) (v : lfield) : option lfield :=
  fold_tags (correct_level n scaling dt op cells reference) (seq minl (maxl - minl)) v.

(** One step: AMR_Burgers_Hat.cpp L255-264, advection_2d.cpp L253-259. [op]: the operator of
    the assignment, [op']: the one of the correction; [v]: the values of [unp1] before. *)
Definition fv_step (n minl maxl : nat) (scaling dt : Q) (with_correction : bool) (op op' : fv_op) (cells reference : ca) (u v : lfield) : option lfield :=
  let* v := fv_update n scaling dt op cells reference u v in
  if with_correction then flux_correction n minl maxl scaling dt op' cells reference v else Some v.

(** advection_2d.cpp (and advection_1d.cpp, advection_2d_user_bc.cpp, scalar_burgers_2d.cpp):
    the levels are those of the mesh. *)
Definition advection_step (n minl maxl : nat) (scaling dt : Q) (with_correction : bool) (a : nat -> Q) (cells reference : ca) (u v : lfield) : option lfield :=
  let op := two_point n reference (fun d => upwind_flux (a d)) u in
  fv_step n minl maxl scaling dt with_correction op op cells reference u v.
(** AMR_Burgers_Hat.cpp: dimension 1. In [main] (L223, L258) dx is the length of a cell of
    the finest level the mesh may have, [maxl]; in [flux_correction] (L133-136) it is the one of
    the finest level that has cells, and the levels are those with cells. *)
Definition burgers_step (maxl : nat) (scaling dt : Q) (with_correction : bool) (cells reference : ca) (u v : lfield) : option lfield :=
  let op dx := two_point 0 reference (fun _ => burgers_flux (dx / dt)) u in
  fv_step 0 (min_level cells) (max_level cells) scaling dt with_correction
    (op (cell_length scaling maxl)) (op (cell_length scaling (max_level cells))) cells reference u v.
(** level_set.cpp L341-343 *)
Definition level_set_step (scaling dt : Q) (vel : nat -> lfield) (cells reference : ca) (u v : lfield) : option lfield :=
  let op := variable 1 reference scaling dt vel u in
  fv_step 1 (min_level cells) (max_level cells) scaling dt true op op cells reference u v.
