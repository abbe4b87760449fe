(** Model of the adaptation of an AMR mesh as the demos write it: update_ghost, the marks of a
    criterion, graduation, update_field, again and again until the mesh does not change
    (demos/FiniteVolume/AMR_Burgers_Hat.cpp L232-246, level_set.cpp L312-328 where the ghosts
    are updated after the marks).

    One field; update_field transfers each of its fields in the same way
    (algorithm/update.hpp L721-744). *)
From Coq Require Import QArith Qabs.
From Verif Require Import Base IntervalModel LoiModel LcaModel CellArrayModel SubsetModel StencilModel MeshModel NumModel AdaptModel MrModel GhostModel HartenModel AmrModel.
Open Scope Z_scope.

(** mesh.hpp L534-553 with the sub-meshes in the order of AMR_Id (amr/mesh.hpp L16-26):
    cells, cells_and_ghosts, proj_cells, pred_cells, all_cells, which is the reference. *)
Definition amr_renumber (n : nat) (cells : ca) (r : amr_mesh) : option (list ca) :=
  renumbering n [cells; a_ghosts r; a_proj r; a_pred r; a_all r] 4.

Record amr_setting := mkAmrSetting {
  g_max : nat;                       (* the largest level a CellArray can hold *)
  g_min_level : nat; g_max_level : nat;
  g_width : Z;                       (* ghost_width *)
  g_order : nat;                     (* prediction_order *)
  g_grad : Z;                        (* graduation_width *)
  g_stencil : list (list Z);         (* the stencil given to graduation *)
  g_level : nat;                     (* the level of domain() *)
  g_domain : lca }.

(** A mesh with its sub-meshes and the numbering: the leaves numbered as in the reference,
    the sub-meshes, the numbered reference. *)
Definition make_amr (n : nat) (g : amr_setting) (cells : ca) : option (ca * (amr_mesh * ca)) :=
  let* r := amr_sub_mesh n (g_max g) (g_min_level g) (g_max_level g) (g_width g) (Z.of_nat (g_order g)) (g_domain g) cells in
  let* subs := amr_renumber n cells r in
  match subs with
  | [cells'; _; _; _; reference] => Some (cells', (r, reference))
  | _ => None
  end.

(** algorithm/update.hpp L746-815: [true] when the mesh is unchanged. The new leaves get their
    numbers when the next iteration makes the mesh again. *)
Definition update_field (n : nat) (g : amr_setting) (cells cells' reference : ca) (t : tfield) (u : lfield) : option (bool * (ca * lfield)) :=
  let* numbers := ca_for_each_cell n reference in
  let* new := update_cells n (g_min_level g) (g_max_level g) cells' (storage_of numbers t) in
  let* (new', _) := make_amr n g new in
  if same_mesh n (g_min_level g) (g_max_level g) cells' new' then Some (true, (cells, u))
  else
    let* v := update_fields n (g_order g) (g_min_level g) (g_max_level g) cells' new u in
    Some (false, (new, v)).

(** One iteration. [bc cells reference level] is [update_bc(level, field)]; [criterion cells
    reference u] is the tag field after the marks; [early]: the ghosts are updated before the
    marks. *)
Definition amr_step (n : nat) (g : amr_setting) (early : bool) (bc : ca -> ca -> nat -> lfield -> option lfield)
  (criterion : ca -> ca -> lfield -> option tfield) (cells : ca) (u : lfield) : option (bool * (ca * lfield)) :=
  let* (cells', rr) := make_amr n g cells in
  let '(r, reference) := rr in
  let* u := (if early then update_ghost n (g_order g) (g_max_level g) (bc cells (a_all r)) r u else Some u) in
  let* t := criterion cells (a_all r) u in
  let* t := graduation n (g_max_level g) (g_grad g) (g_stencil g) cells' (a_all r) t in
  let* u := (if early then Some u else update_ghost n (g_order g) (g_max_level g) (bc cells (a_all r)) r u) in
  update_field n g cells cells' reference t u.

(** [while (true)], cut after [fuel] iterations; the flag tells whether it has ended. *)
Fixpoint amr_loop (n : nat) (g : amr_setting) (early : bool) (bc : ca -> ca -> nat -> lfield -> option lfield)
  (criterion : ca -> ca -> lfield -> option tfield) (fuel : nat) (cells : ca) (u : lfield) : option (bool * (ca * lfield)) :=
  match fuel with
  | O => Some (false, (cells, u))
  | S fuel =>
      let* (unchanged, next) := amr_step n g early bc criterion cells u in
      if unchanged : bool then Some (true, next)
      else amr_loop n g early bc criterion fuel (fst next) (snd next)
  end.

(** ** Two criteria *)

(** level_set.cpp L80-117: [bound] is [1.2 * 5 * sqrt(2) * cell_length(max_level)]. [t0] is
    what the tags hold before: [tag.resize()] sets nothing. *)
Definition band_mark (minl maxl : nat) (bound : Q) (u : lfield) (t : tfield) (c : nat * (list Z * Z)) : tfield :=
  let '(l, (p, _)) := c in
  let x := hd 0 p in
  let yz := tl p in
  twrite t l x yz (if below (Qabs (u l x yz)) bound then (if Nat.eqb l maxl then flag_keep else flag_refine)
                   else (if Nat.eqb l minl then flag_keep else flag_coarsen)).
Definition band (n minl maxl : nat) (bound : Q) (t0 : tfield) (cells reference : ca) (u : lfield) : option tfield :=
  let* cs := ca_for_each_cell n cells in
  Some (fold_left (band_mark minl maxl bound u) cs t0).

(** AMR_Burgers_Hat.cpp L54-102, in dimension 1: [slope] is 0.01 and [dx] is cell_length. A
    mask on a view writes its cells one by one; the reads of the field are checked, as in
    HartenModel. *)
Definition slope_at (dx : nat -> Q) (u : lfield) (l : nat) (x : Z) : Q :=
  Qabs ((u l (x + 1)%Z [] - u l (x - 1)%Z []) / (2 * dx l))%Q.
Definition slope_mark (minl maxl : nat) (slope : Q) (dx : nat -> Q) (u : lfield) (l : nat) (t : tfield) (x : Z) : tfield :=
  twrite t l x [] (if Nat.eqb l maxl then (if below slope (slope_at dx u l x) then flag_keep else flag_coarsen)
                   else if Nat.eqb l minl then flag_keep
                   else (if below slope (slope_at dx u l x) then flag_refine else flag_coarsen)).
Definition slope_row (minl maxl : nat) (slope : Q) (dx : nat -> Q) (reference : ca) (u : lfield) (l : nat) (i : interval) (yz : list Z) (t : tfield) : option tfield :=
  checked (forallb (fun x => stored 0 reference l [x] && stored 0 reference l [x - 1] && stored 0 reference l [x + 1]) (strided i))
    (Some (fold_left (slope_mark minl maxl slope dx u l) (strided i) t)).
Definition slopes (minl maxl : nat) (slope : Q) (dx : nat -> Q) (cells reference : ca) (u : lfield) : option tfield :=
  fold_tags (fun t level =>
      let* calls := for_each_interval 0 (c_at cells level) in
      fold_calls (slope_row minl maxl slope dx reference u level) calls t)
    (seq minl (S maxl - minl)) (fun _ _ _ => flag_keep).
