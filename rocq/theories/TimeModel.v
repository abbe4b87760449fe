(** The time loops of the demos: adaptation of the mesh, clock, ghosts, finite-volume step. *)
From Coq Require Import QArith.
From Verif Require Import Base IntervalModel LcaModel CellArrayModel SubsetModel StencilModel MeshModel NumModel AdaptModel MrModel GhostModel HartenModel
  AmrModel AmrLoopModel FvModel.
Open Scope Z_scope.

(** demos/FiniteVolume/AMR_Burgers_Hat.cpp L245-250, advection_1d.cpp L191-196,
    advection_2d.cpp L244-249, scalar_burgers_2d.cpp L255-260, with exact arithmetic: the new
    dt and t. *)
Definition clock (Tf dt t : Q) : Q * Q :=
  let t := (t + dt)%Q in
  if below Tf t then ((dt + (Tf - t))%Q, Tf) else (dt, t).

(** AMR_Burgers_Hat.cpp L229-274, advection_2d.cpp L240-268: [while (t != Tf)], cut after
    [fuel] steps; the flag tells whether it has ended. [adapted]: the adaptation of the mesh
    and the update of the ghosts; its flag is false when its own loop has been cut. It gives
    the leaves, the reference and the field. The clock comes between the two in the code: it
    uses neither. [rest cells u] is what [unp1] contains after its resize, and after the
    [swap] it stays in the cells that are not leaves. The output files are not modelled. *)
Fixpoint time_loop (adapted : ca -> lfield -> option (bool * (ca * (ca * lfield)))) (scheme : Q -> ca -> ca -> lfield -> lfield -> option lfield)
  (rest : ca -> lfield -> lfield) (Tf : Q) (fuel : nat) (dt t : Q) (cells : ca) (u : lfield) : option (bool * (Q * (ca * lfield))) :=
  if Qeq_bool t Tf then Some (true, (t, (cells, u)))
  else match fuel with
  | O => Some (false, (t, (cells, u)))
  | S fuel =>
      let* (ended, next) := adapted cells u in
      let '(cells, (reference, u)) := next in
      if ended : bool then
        let '(dt, t) := clock Tf dt t in
        let* v := scheme dt cells reference u (rest cells u) in
        time_loop adapted scheme rest Tf fuel dt t cells v
      else Some (false, (t, (cells, u)))
  end.

(** AMR_Burgers_Hat.cpp L232-243 and L255 *)
Definition amr_adapted (n : nat) (g : amr_setting) (early : bool) (bc : ca -> ca -> nat -> lfield -> option lfield)
  (criterion : ca -> ca -> lfield -> option tfield) (fuel : nat) (cells : ca) (u : lfield) : option (bool * (ca * (ca * lfield))) :=
  let* (ended, next) := amr_loop n g early bc criterion fuel cells u in
  let '(cells, u) := next in
  let* r := amr_sub_mesh n (g_max g) (g_min_level g) (g_max_level g) (g_width g) (Z.of_nat (g_order g)) (g_domain g) cells in
  let* u := update_ghost n (g_order g) (g_max_level g) (bc cells (a_all r)) r u in
  Some (ended, (cells, (a_all r, u))).

(** advection_2d.cpp L242 and L253 *)
Definition mr_adapted (n : nat) (g : setting) (bc : ca -> ca -> nat -> lfield -> option lfield) (cells : ca) (u : lfield) : option (bool * (ca * (ca * lfield))) :=
  let* next := adapt n g bc cells u in
  let '(cells, u) := next in
  let* r := update_sub_mesh n (h_max g) (h_min_level g) (h_max_level g) (h_width g) (Z.of_nat (h_order g)) cells in
  let* sub := construct_subdomain n (h_max_level g) cells in
  let* u := update_ghost_mr n (h_order g) (bc cells (r_all r)) cells r sub u in
  Some (true, (cells, (r_all r, u))).

(** A scheme with fluxes between two cells that may depend on dt. *)
Definition two_point_scheme (n minl maxl : nat) (scaling : Q) (with_correction : bool) (f : Q -> nat -> Q -> Q -> Q) (dt : Q) (cells reference : ca) (u v : lfield) : option lfield :=
  let op := two_point n reference (f dt) u in
  fv_step n minl maxl scaling dt with_correction op op cells reference u v.
