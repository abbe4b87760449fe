(** Model of [Mesh_base] (mesh.hpp), [UniformMesh] (uniform_mesh.hpp) and of the
    addressing of fields (field.hpp). *)
From Verif Require Import Base IntervalModel LoiModel LcaModel CellArrayModel SubsetModel StencilModel.
Open Scope Z_scope.

(** ** Subdomain: mesh.hpp L579-602 *)

(** The calls [lcl[new_index].add_interval(to_add)] made for one interval of the
    leaves, [shift] = max_level - level. *)
Definition subdomain_calls (n shift : nat) (i : interval) (yz : list Z) : list lcl_call :=
  let s := Z.of_nat shift in
  map (fun stencil => AddI (add_yz (map (fun y => Z.shiftl y s) yz) stencil) (ishl i s))
    (nested_loop n 0 (Z.shiftl 1 s)).

(** A level above [maxl] would make the unsigned difference wrap around: [None]. *)
Definition construct_subdomain (n maxl : nat) (cells : ca) : option lca :=
  let* calls := ca_for_each_interval n cells in
  if forallb (fun '(level, _) => Nat.leb level maxl) calls then
    Some (lca_of_lcl (lcl_run n maxl (flat_map (fun '(level, (i, yz)) => subdomain_calls n (maxl - level) i yz) calls)))
  else None.

(** ** Union: mesh.hpp L604-647 *)

(** Body of the loop (L624-646). The list [lcl] is filled by the calls of the
    subset, i.e. it is [lca_of_subset]. *)
Definition union_step (n : nat) (cells : ca) (u : nat -> lca) (level : nat) : option (nat -> lca) :=
  let expr := on (make_op Union (More (Lf (leaf_of (NMesh (c_at cells level)))) (One (Lf (leaf_of (NMesh (u level))))))) (pred level) in
  let* a := lca_of_subset n expr in
  Some (upd u (pred level) a).

Fixpoint union_loop (n : nat) (cells : ca) (ls : list nat) (u : nat -> lca) : option (nat -> lca) :=
  match ls with
  | [] => Some u
  | level :: ls => let* u := union_step n cells u level in union_loop n cells ls u
  end.

(** [for (level = max_lvl; level >= (min_lvl == 0 ? 1 : min_lvl); --level)] *)
Definition union_levels (minl maxl : nat) : list nat :=
  let lo := if Nat.eqb minl 0 then 1%nat else minl in rev (seq lo (S maxl - lo)).

(** A fresh CellArray holds empty arrays (cell_array.hpp L241-247). *)
Definition construct_union (n minl maxl : nat) (cells : ca) : option (nat -> lca) :=
  union_loop n cells (union_levels minl maxl) (upd lca_empty maxl (lca_empty maxl)).

(** ** Numbering of the sub-meshes: mesh.hpp L534-553, uniform_mesh.hpp L165-183 *)

Fixpoint mapM {A B} (f : A -> option B) (l : list A) : option (list B) :=
  match l with
  | [] => Some []
  | x :: l => let* y := f x in let* ys := mapM f l in Some (y :: ys)
  end.

(** [i.index = reference[level].get_interval(i, index).index]; only the start of [i]
    is looked up. As in [update_index] the traversal visits [m_cells[0]] in storage
    order, so the assignments rewrite that vector. *)
Definition renumber_level (n : nat) (reference a : lca) : option lca :=
  let* calls := for_each_interval n a in
  let* is := mapM (fun '(i, yz) =>
      let* r := get_interval n reference (istart i :: yz) in
      Some (mkI (istart i) (iend i) (istep i) (iindex r))) calls in
  Some (mkLca (a_level a) (upd (a_cells a) 0 is) (a_offsets a)).

Fixpoint renumber_levels (n : nat) (reference : ca) (ls : list nat) (at_ : nat -> lca) : option (nat -> lca) :=
  match ls with
  | [] => Some at_
  | level :: ls =>
      let* a := renumber_level n (c_at reference level) (at_ level) in
      renumber_levels n reference ls (upd at_ level a)
  end.
Definition renumber_sub_mesh (n : nat) (reference c : ca) : option ca :=
  let* at_ := renumber_levels n reference (levels c) (c_at c) in
  Some (mkCa (c_max c) at_).

(** The array of sub-meshes [m_cells]; [reference] is the position of the reference. *)
Definition renumbering (n : nat) (subs : list ca) (reference : nat) : option (list ca) :=
  let* r := nth_error subs reference in
  let ref := ca_update_index r in
  mapM (fun '(id, c) => if Nat.eqb id reference then Some ref else renumber_sub_mesh n ref c)
    (combine (seq 0 (length subs)) subs).

(** ** Uniform meshes: uniform_mesh.hpp L147-163 *)

Definition ghost_calls (n : nat) (gw : Z) (i : interval) (yz : list Z) : list lcl_call :=
  map (fun stencil => AddI (add_yz yz stencil) (mk (istart i - gw) (iend i + gw))) (nested_loop n (- gw) (gw + 1)).

Definition uniform_ghosts (n : nat) (gw : Z) (cells : lca) : option lca :=
  let* calls := for_each_interval n cells in
  Some (lca_of_lcl (lcl_run n (a_level cells) (flat_map (fun '(i, yz) => ghost_calls n gw i yz) calls))).

(** UniformMesh(cl): L100-110; the cells and the reference after renumbering. *)
Definition uniform_mesh (n : nat) (gw : Z) (l : lcl n) : option (lca * lca) :=
  let cells := lca_of_lcl l in
  let* ghosts := uniform_ghosts n gw cells in
  let reference := update_index ghosts in
  let* cells := renumber_level n reference cells in
  Some (cells, reference).

(** ** Fields: field.hpp L115-130 (and the same code for each layout), L682-732 *)

(** [field(level, interval, index)]: the positions in the storage designated by the
    view, or [Some None] when the check throws. The outer [None] is the access out
    of bounds when the start of the interval is not in the reference mesh. *)
Definition field_view (n : nat) (reference : ca) (level : nat) (i : interval) (yz : list Z) : option (option (list Z)) :=
  let* r := get_interval n (c_at reference level) (istart i :: yz) in
  if (iend r - istep r <? iend i - istep i) || (istart i <? istart r) then Some None
  else Some (Some (loop_values (iindex r + istart i) (iindex r + iend i) (istep i))).

(** ** Partition over ranks: mesh.hpp L714-738 *)

(** level_cell_array.hpp L627-636 *)
Definition lca_nb_intervals (n : nat) (a : lca) : nat :=
  fold_left (fun s d => s + length (a_cells a d))%nat (seq 0 (S n)) 0%nat.

(** Calls on [subdomain_cells] for one rank. *)
Definition partition_calls (n : nat) (domain : lca) (size rank : nat) : option (list lcl_call) :=
  let* calls := for_each_interval n domain in
  let chunk := (lca_nb_intervals n domain / size)%nat in
  let subdomain_start := (rank * chunk)%nat in
  let subdomain_end := ((rank + 1) * chunk)%nat in
  Some (flat_map (fun '(k, (i, yz)) =>
          if Nat.leb subdomain_start k && Nat.ltb k subdomain_end then [AddI yz i] else [])
        (combine (seq 0 (length calls)) calls)).
Definition partition_mesh (n : nat) (domain : lca) (size rank : nat) : option lca :=
  let* cs := partition_calls n domain size rank in
  Some (lca_of_lcl (lcl_run n (a_level domain) cs)).

(** ** State, serialisation, swap: mesh.hpp L166-196, L515-526 *)

(** A LevelCellArray with its geometry; [serialize] (level_cell_array.hpp L183-194)
    writes intervals, offsets and level only. *)
Record glca := mkG { g_lca : lca; g_origin : list Z; g_scaling : Z }.
Definition glca_load (archive target : glca) : glca := mkG (g_lca archive) (g_origin target) (g_scaling target).

(** The members of Mesh_base. Origin and scaling stand for exact numbers. The list of
    neighbours holds meshes; only ranks are kept. *)
Record mesh := mkMesh {
  m_cells : list glca; m_domain : glca; m_subdomain : glca; m_union : list glca;
  m_min_level : nat; m_max_level : nat; m_periodic : list bool; m_neighbours : list nat }.

(** What an archive holds, in the order of serialize (L180-193): m_min_level twice. *)
Record archive := mkArchive { ar_cells : list glca; ar_domain : glca; ar_subdomain : glca; ar_union : list glca; ar_levels : nat * nat }.
Definition mesh_save (m : mesh) : archive :=
  mkArchive (m_cells m) (m_domain m) (m_subdomain m) (m_union m) (m_min_level m, m_min_level m).
(** Loading into a mesh [t] (a default constructed one for MPI): the second value
    overwrites the first in the same member. *)
Definition load_list (l t : list glca) : list glca := map (fun '(a, b) => glca_load a b) (combine l t).
Definition mesh_load (ar : archive) (t : mesh) : mesh :=
  mkMesh (load_list (ar_cells ar) (m_cells t)) (glca_load (ar_domain ar) (m_domain t))
    (glca_load (ar_subdomain ar) (m_subdomain t)) (load_list (ar_union ar) (m_union t))
    (snd (ar_levels ar)) (m_max_level t) (m_periodic t) (m_neighbours t).

(** L515-526 *)
Definition mesh_swap (a b : mesh) : mesh * mesh :=
  (mkMesh (m_cells b) (m_domain b) (m_subdomain b) (m_union b) (m_min_level b) (m_max_level b) (m_periodic a) (m_neighbours b),
   mkMesh (m_cells a) (m_domain a) (m_subdomain a) (m_union a) (m_min_level a) (m_max_level a) (m_periodic b) (m_neighbours a)).
