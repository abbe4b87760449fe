(** Specification vocabulary for LevelCellList / LevelCellArray. *)
From Verif Require Import Base IntervalModel Spec LoiModel LcaModel.
Open Scope Z_scope.

(** The cells added by a client history, read off the calls themselves. *)
Definition added (c : lcl_call) (cell : list Z) : Prop :=
  match c with
  | Touch _ => False
  | AddI yz i => tl cell = yz /\ in_i i (nth 0 cell 0)
  | AddP yz p => cell = p :: yz
  | AddC cell' => cell = cell'
  end.

(** Calls whose index has the right dimension. *)
Definition call_dim (n : nat) (c : lcl_call) : Prop :=
  match c with
  | Touch yz => length yz = n
  | AddI yz _ => length yz = n
  | AddP yz _ => length yz = n
  | AddC cell => length cell = S n
  end.

(** The call adds at least one cell, i.e. does not leave an empty row behind. *)
Definition call_adds (c : lcl_call) : Prop :=
  match c with
  | Touch _ => False
  | AddI _ i => istart i < iend i
  | AddP _ _ => True
  | AddC _ => True
  end.

(** Membership in a cell list: look the keys up from the outermost map. *)
Fixpoint grid_mem (n : nat) : grid n -> list Z -> Prop :=
  match n with
  | O => fun l p => covers l (nth 0 p 0)
  | S m => fun g p => exists sub, In (nth (S m) p 0, sub) g /\ grid_mem m sub p
  end.

(** Row [r] of dimension [d]: the slice designated by two consecutive offsets;
    the only row of the last dimension is the whole vector. *)
Definition offs (n : nat) (a : lca) (d : nat) : list nat :=
  if Nat.eqb d n then [0%nat; length (a_cells a d)] else a_offsets a d.
Definition row (n : nat) (a : lca) (d r : nat) : list interval :=
  let lo := nth r (offs n a d) 0%nat in
  let hi := nth (S r) (offs n a d) 0%nat in
  firstn (hi - lo) (skipn lo (a_cells a d)).

(** A cell is stored in row [r] of dimension [d] if an interval of the row
    contains its coordinate [d] and, for d > 0, the cell is stored in the row of
    dimension d-1 the interval's index points to. *)
Fixpoint mem_row (n : nat) (a : lca) (d r : nat) (p : list Z) : Prop :=
  exists i, In i (row n a d r) /\ in_i i (nth d p 0) /\
    match d with
    | O => True
    | S m => mem_row n a m (Z.to_nat (iindex i + nth d p 0)) p
    end.

Definition lca_mem (n : nat) (a : lca) (p : list Z) : Prop :=
  length p = S n /\ mem_row n a n 0 p.

(** Positions [index + start, index + end) designated by consecutive intervals
    follow one another, from [p] to [q]. *)
Fixpoint chained (p : Z) (l : list interval) (q : Z) : Prop :=
  match l with
  | [] => p = q
  | i :: l => iindex i + istart i = p /\ istart i < iend i /\ chained (iindex i + iend i) l q
  end.

(** Well-formed array (C07). [strict]: additionally no row is empty. *)
Record wf_gen (strict : bool) (n : nat) (a : lca) : Prop := mkWf {
  wf_first : forall d, (d <= n)%nat -> nth_error (offs n a d) 0 = Some 0%nat;
  wf_last : forall d, (d <= n)%nat ->
    nth_error (offs n a d) (length (offs n a d) - 1) = Some (length (a_cells a d));
  wf_mono : forall d r lo hi, (d <= n)%nat ->
    nth_error (offs n a d) r = Some lo -> nth_error (offs n a d) (S r) = Some hi ->
    (lo <= hi)%nat /\ (strict = true -> (lo < hi)%nat);
  wf_normal : forall d r, (d <= n)%nat -> (S r < length (offs n a d))%nat ->
    normal (row n a d r);
  wf_chain : forall d, (d < n)%nat ->
    chained 0 (a_cells a (S d)) (Z.of_nat (length (offs n a d) - 1)) }.

Definition wf_weak := wf_gen false.

(** No row is empty, the array holds at least one cell. *)
Definition wf_full := wf_gen true.

(** The array with no cell at all has empty vectors everywhere. *)
Definition lca_no_cells (n : nat) (a : lca) : Prop :=
  (forall d, (d <= n)%nat -> a_cells a d = []) /\ (forall d, (d < n)%nat -> a_offsets a d = []).

(** What the operations accept: an array without cells, or a full one. *)
Definition wf (n : nat) (a : lca) : Prop := lca_no_cells n a \/ wf_full n a.

(** ** Traversals *)

(** Order of cells: the last coordinate is the most significant one. *)
Fixpoint lex_lt (p q : list Z) : Prop :=
  match p, q with
  | x :: p', y :: q' => lex_lt p' q' \/ (p' = q' /\ x < y)
  | _, _ => False
  end.

(** The cells designated by a list of calls f(interval, yz). *)
Definition cells_of_calls (calls : list (interval * list Z)) : list (list Z) :=
  flat_map (fun '(i, yz) => map (fun x => x :: yz) (zrange (istart i) (iend i))) calls.

(** The cells of an array, in traversal order. *)
Definition enumeration (n : nat) (a : lca) (cs : list (list Z)) : Prop :=
  StronglySorted lex_lt cs /\ forall p, In p cs <-> lca_mem n a p.

(** ** Client histories *)

(** The row (y, z, ...) a call works on. *)
Definition call_row (c : lcl_call) : list Z :=
  match c with
  | Touch yz => yz
  | AddI yz _ => yz
  | AddP yz _ => yz
  | AddC cell => tl cell
  end.

(** Every row the history mentions receives a cell at some point. *)
Definition rows_filled (cs : list lcl_call) : Prop :=
  forall c, In c cs -> exists c', In c' cs /\ call_row c' = call_row c /\ call_adds c'.

(** The array obtained from a client history. *)
Definition client_lca (n level : nat) (cs : list lcl_call) : lca := lca_of_lcl (lcl_run n level cs).
