(** Model of the masks of the cells that exist in a mesh ([MRMesh::exists], mr/mesh.hpp
    L337-360, and [MROMesh::exists], mr/mesh_with_overleaves.hpp L249-271).

    The mask is made by xt::empty: an entry which was not written is [None]. A write outside of
    it, a wrong access in [find], an endless loop and the end of the function without return are
    the [None] of the result. [a] is [cells()[type][level]], [index] the coordinates y, z. *)
From Verif Require Import Base IntervalModel LcaModel.
Open Scope Z_scope.

(** out[iout] = v *)
Definition set_mask (out : list (option bool)) (iout : nat) (v : bool) : option (list (option bool)) :=
  if Nat.ltb iout (length out) then Some (firstn iout out ++ Some v :: skipn (S iout) out) else None.

(** mr/mesh.hpp L341-343, mesh_with_overleaves.hpp L255-256 *)
Definition empty_mask (itv : interval) : list (option bool) := repeat None (Z.to_nat ((iend itv - istart itv) / istep itv)).

(** One pass of the loop: mr/mesh.hpp L347-355, mesh_with_overleaves.hpp L260-268 *)
Definition mark (n : nat) (a : lca) (index : list Z) (i : Z) (iout : nat) (out : list (option bool)) : option (list (option bool)) :=
  match find n a (i :: index) with
  | None => None
  | Some None => set_mask out iout false
  | Some (Some _) => set_mask out iout true
  end.

(** The loop of mesh_with_overleaves.hpp L258-269; [fuel] bounds the number of passes. *)
Fixpoint mark_all (fuel : nat) (n : nat) (a : lca) (index : list Z) (stop step i : Z) (iout : nat) (out : list (option bool)) : option (list (option bool)) :=
  if i <? stop then
    match fuel with
    | O => None
    | S fuel => match mark n a index i iout out with None => None | Some out => mark_all fuel n a index stop step (i + step) (S iout) out end
    end
  else Some out.

(** mesh_with_overleaves.hpp L249-271 *)
Definition mro_exists (n : nat) (a : lca) (itv : interval) (index : list Z) : option (list (option bool)) :=
  mark_all (Z.to_nat (iend itv - istart itv)) n a index (iend itv) (istep itv) (istart itv) 0 (empty_mask itv).

(** mr/mesh.hpp L337-360: the return is inside the loop. *)
Definition mr_exists (n : nat) (a : lca) (itv : interval) (index : list Z) : option (list (option bool)) :=
  if istart itv <? iend itv then mark n a index (istart itv) 0 (empty_mask itv) else None.
