(** Model of the exchanges between MPI ranks: update_ghost_subdomains and
    update_tag_subdomains, algorithm/update.hpp L167-361; update_mesh_neighbour, mesh.hpp
    L555-577.

    The world: each rank runs its code, a list of instructions on its own memory. A message
    sent to a rank with a tag waits in the channel (source, destination, tag); channels are
    first in first out (MPI: messages do not overtake each other). A rank whose next
    instruction is a receive waits for a message in the channel it names. [Wait] is wait_all:
    it may return when, for each destination, the messages have been received, or before if
    the implementation buffers what is sent there ([buffered], not known to the program).
    A schedule is a list of ranks; a rank that cannot move does nothing. *)
From Verif Require Import Base IntervalModel LoiModel LcaModel CellArrayModel SubsetModel MeshModel.
Open Scope Z_scope.

Section World.
  Context {St Msg : Type}.
  Inductive instr :=
  | Send (dst tag : nat) (pack : St -> option Msg)          (* isend *)
  | Recv (src tag : nat) (unpack : St -> Msg -> option St)  (* recv, and the use of what is received *)
  | Wait.
  Record proc := mkP { p_code : list instr; p_mem : St }.
  Record world := mkW { w_proc : nat -> proc; w_chan : nat -> nat -> nat -> list Msg }.

  Definition set_proc (w : world) (r : nat) (p : proc) : nat -> proc := fun r' => if (r' =? r)%nat then p else w_proc w r'.
  Definition set_chan (w : world) (src dst tag : nat) (ms : list Msg) : nat -> nat -> nat -> list Msg :=
    fun s d t => if (s =? src)%nat && (d =? dst)%nat && (t =? tag)%nat then ms else w_chan w s d t.

  (** Whether wait_all can return, [size] ranks: all the channels from [r] are free. *)
  Definition free (size : nat) (buffered : nat -> nat -> bool) (w : world) (r : nat) : bool :=
    forallb (fun d => buffered r d || forallb (fun t => match w_chan w r d t with [] => true | _ => false end) (seq 0 size)) (seq 0 size).

  (** One instruction of rank [r]. [None]: it has finished, or has to wait, or makes an
      access out of bounds. *)
  Definition step (size : nat) (buffered : nat -> nat -> bool) (w : world) (r : nat) : option world :=
    match p_code (w_proc w r) with
    | [] => None
    | Send dst tag pack :: code =>
        match pack (p_mem (w_proc w r)) with
        | Some m => Some (mkW (set_proc w r (mkP code (p_mem (w_proc w r)))) (set_chan w r dst tag (w_chan w r dst tag ++ [m])))
        | None => None
        end
    | Recv src tag unpack :: code =>
        match w_chan w src r tag with
        | [] => None
        | m :: ms => match unpack (p_mem (w_proc w r)) m with
                     | Some mem => Some (mkW (set_proc w r (mkP code mem)) (set_chan w src r tag ms))
                     | None => None
                     end
        end
    | Wait :: code => if free size buffered w r then Some (mkW (set_proc w r (mkP code (p_mem (w_proc w r)))) (w_chan w)) else None
    end.
  Definition run (size : nat) (buffered : nat -> nat -> bool) (w : world) (schedule : list nat) : world :=
    fold_left (fun w r => match step size buffered w r with Some w' => w' | None => w end) schedule w.

  (** All the ranks with their code, nothing in the channels. *)
  Definition launch (code : nat -> list instr) (mem : nat -> St) : world := mkW (fun r => mkP (code r) (mem r)) (fun _ _ _ => []).

  (** Sends to all the neighbours, receives from all of them in the same order, waits; a
      neighbour is a rank and what is known of it. *)
  Definition exchange {X} (r : nat) (neighbours : list (nat * X)) (pack : nat * X -> St -> option Msg) (unpack : nat * X -> St -> Msg -> option St) : list instr :=
    map (fun x => Send (fst x) (fst x) (pack x)) neighbours ++ map (fun x => Recv (fst x) r (unpack x)) neighbours ++ [Wait].
End World.
Arguments instr : clear implicits. Arguments proc : clear implicits. Arguments world : clear implicits.

(** ** Fields *)

(** A rank: its reference mesh, its subdomain, and for each neighbour its rank and the copies
    of its reference mesh and subdomain. *)
Record rank := mkRank { k_ref : ca; k_sub : lca; k_neigh : list (nat * (ca * lca)) }.

Section Fields.
  Context {V : Type}.

  (** [field(level, i, index)] for a field of [ncomp] components, the positions in the order
      of its iterator: the components of a cell are contiguous (the layout of MRMesh fields,
      field.hpp L115-130 and L140-160). *)
  Definition view (n ncomp : nat) (reference : ca) (level : nat) (i : interval) (yz : list Z) : option (list Z) :=
    match field_view n reference level i yz with
    | Some (Some ps) => Some (flat_map (fun p => map (fun c => Z.of_nat ncomp * p + Z.of_nat c) (seq 0 ncomp)) ps)
    | _ => None
    end.

  (** std::copy into the view, or an assignment combined with the old value. *)
  Fixpoint write (comb : V -> V -> V) (ps : list Z) (vs : list V) (u : Z -> V) : Z -> V :=
    match ps, vs with
    | p :: ps, v :: vs => write comb ps vs (fun j => if j =? p then comb (u p) v else u j)
    | _, _ => u
    end.

  (** L191-195: what is copied in the buffer *)
  Fixpoint pack_calls (n ncomp : nat) (reference : ca) (level : nat) (calls : list (interval * list Z)) (u : Z -> V) : option (list V) :=
    match calls with
    | [] => Some []
    | (i, yz) :: calls =>
        let* ps := view n ncomp reference level i yz in
        let* vs := pack_calls n ncomp reference level calls u in Some (map u ps ++ vs)
    end.
  Definition pack (n ncomp : nat) (reference : ca) (level : nat) (s : subset) (u : Z -> V) : option (list V) :=
    let* calls := subset_calls n s in pack_calls n ncomp reference level calls u.

  (** L214-221: [i.size()] values from [count] on; reading after the end of the buffer, or
      writing after the end of the view, is out of bounds *)
  Fixpoint unpack_calls (n ncomp : nat) (comb : V -> V -> V) (reference : ca) (level : nat) (calls : list (interval * list Z)) (buffer : list V) (count : nat) (u : Z -> V) : option (Z -> V) :=
    match calls with
    | [] => Some u
    | (i, yz) :: calls =>
        let size := Z.to_nat (isize i) in
        let* ps := view n ncomp reference level i yz in
        if ((count + size <=? length buffer) && (size <=? length ps))%nat
        then unpack_calls n ncomp comb reference level calls buffer (count + size) (write comb ps (firstn size (skipn count buffer)) u)
        else None
    end.
  Definition unpack (n ncomp : nat) (comb : V -> V -> V) (reference : ca) (level : nat) (s : subset) (u : Z -> V) (buffer : list V) : option (Z -> V) :=
    let* calls := subset_calls n s in unpack_calls n ncomp comb reference level calls buffer 0 u.

  (** intersection(a, b, c).on(level) *)
  Definition inter3 (a b c : lca) (level : nat) : subset :=
    on (make_op Intersect (More (Lf (leaf_of (NMesh a))) (More (Lf (leaf_of (NMesh b))) (One (Lf (leaf_of (NMesh c))))))) level.

  Definition both (me : rank) (level : nat) (x : nat * (ca * lca)) : bool :=
    negb (lca_is_empty (c_at (k_ref me) level)) && negb (lca_is_empty (c_at (fst (snd x)) level)).

  (** update_ghost_subdomains on one level, L167-223 *)
  Definition ghost_code (n ncomp : nat) (level r : nat) (me : rank) : list (instr (Z -> V) (list V)) :=
    exchange r (filter (both me level) (k_neigh me))
      (fun '(_, (ref, sub)) => pack n ncomp (k_ref me) level (inter3 (c_at (k_ref me) level) (c_at ref level) (k_sub me) level))
      (fun '(_, (ref, sub)) => unpack n ncomp (fun _ v => v) (k_ref me) level (inter3 (c_at ref level) (c_at (k_ref me) level) sub level)).

  (** update_ghost_subdomains on all the levels, L233-248; [size] ranks. The all_reduce are
      computed on the meshes of the ranks. *)
  Definition world_levels (ranks : nat -> rank) (size : nat) : list nat :=
    let lo := fold_left Nat.min (map (fun r => min_level (k_ref (ranks r))) (seq 0 size)) (min_level (k_ref (ranks 0%nat))) in
    let hi := fold_left Nat.max (map (fun r => max_level (k_ref (ranks r))) (seq 0 size)) (max_level (k_ref (ranks 0%nat))) in
    seq lo (S hi - lo).
  Definition all_ghosts_code (n ncomp : nat) (ranks : nat -> rank) (size r : nat) : list (instr (Z -> V) (list V)) :=
    flat_map (fun level => ghost_code n ncomp level r (ranks r)) (world_levels ranks size).

  (** update_tag_subdomains, L252-361: [out] tells whose subdomain is exchanged, [comb] is
      assignment ([erase]) or bitwise or. *)
  Definition tag_code (n : nat) (out : bool) (comb : V -> V -> V) (level r : nat) (me : rank) : list (instr (Z -> V) (list V)) :=
    exchange r (filter (both me level) (k_neigh me))
      (fun '(_, (ref, sub)) => pack n 1 (k_ref me) level (inter3 (c_at (k_ref me) level) (c_at ref level) (if out then k_sub me else sub) level))
      (fun '(_, (ref, sub)) => unpack n 1 comb (k_ref me) level (inter3 (c_at (k_ref me) level) (c_at ref level) (if out then sub else k_sub me) level)).
End Fields.

(** ** Meshes *)

(** update_mesh_neighbour, mesh.hpp L555-577. The memory of a rank: its mesh, and its
    neighbours with their meshes ([MPI_Subdomain], L46-55). What is received is loaded over the
    mesh that is there. [archive]: what the serialisation writes, [load]: what it restores. *)
Definition mesh_code {Mesh Archive : Type} (archive : Mesh -> Archive) (load : Archive -> Mesh -> Mesh) (r : nat) (neighbours : list nat)
  : list (instr (Mesh * list (nat * Mesh)) Archive) :=
  exchange r (map (fun b => (b, tt)) neighbours)
    (fun _ mem => Some (archive (fst mem)))
    (fun x mem a => Some (fst mem, map (fun y => if (fst y =? fst x)%nat then (fst y, load a (snd y)) else y) (snd mem))).

(** partition_mesh, mesh.hpp L736-743: all the other ranks are neighbours. *)
Definition neighbour_ranks (size r : nat) : list nat := filter (fun ir => negb (ir =? r)%nat) (seq 0 size).
