(** Model of the parallel traversal: parallel_for_each_cell, algorithm.hpp L228-257, under
    for_each_cell of a CellArray (L290-300).

    Inside [omp parallel], one thread ([single]) walks over the intervals and creates one
    task per interval; the other threads run the tasks that exist, in any order and at the
    same time. The region ends when all the tasks are complete, so that the levels follow
    each other. A task runs the function on the cells of its interval from left to right.

    A run of the function on a cell is a sequence of atomic operations on the common store
    ([Z -> V], the data of a field) and on its local variables [L], which begin as [start].
    A schedule is a list of choices: 0 lets the first thread create its next task, S i lets
    the i-th task execute its next operation; a choice that is impossible does nothing. Any
    interleaving, for any number of threads, is one of these schedules. The iterator is
    firstprivate in the task, hence a copy. *)
From Verif Require Import Base IntervalModel LoiModel LcaModel CellArrayModel SubsetModel.
Open Scope Z_scope.

Section Tasks.
  Context {L V : Type} (start : L).
  Definition op := L -> (Z -> V) -> L * (Z -> V).
  (** What the function does; the first component, the numbers in the store of the cells the
      function is called for, is a label that no definition below looks at. *)
  Definition call := (list Z * list op)%type.
  Definition task := (L * list call)%type.
  Record machine := mkM { m_pending : list (list call); m_active : list task; m_store : Z -> V }.

  Definition replace (i : nat) (t : task) (ts : list task) : list task := firstn i ts ++ t :: skipn (S i) ts.
  Definition step (m : machine) (choice : nat) : machine :=
    match choice with
    | O => match m_pending m with
           | [] => m
           | cs :: pending => mkM pending (m_active m ++ [(start, cs)]) (m_store m)
           end
    | S i => match nth_error (m_active m) i with
             | Some (loc, (k, o :: os) :: cs) =>
                 let '(loc, st) := o loc (m_store m) in mkM (m_pending m) (replace i (loc, (k, os) :: cs) (m_active m)) st
             | Some (_, (_, []) :: cs) => mkM (m_pending m) (replace i (start, cs) (m_active m)) (m_store m)
             | _ => m
             end
    end.
  Definition run (m : machine) (schedule : list nat) : machine := fold_left step schedule m.
  Definition complete (m : machine) : bool :=
    match m_pending m with [] => forallb (fun t => match snd t with [] => true | _ => false end) (m_active m) | _ => false end.

  (** One parallel region. [None]: the schedule ends before the region does. *)
  Definition region (tasks : list (list call)) (st : Z -> V) (schedule : list nat) : option (Z -> V) :=
    let m := run (mkM tasks [] st) schedule in if complete m then Some (m_store m) else None.

  (** The same, run by one thread in order. *)
  Fixpoint run_ops (os : list op) (loc : L) (st : Z -> V) : Z -> V :=
    match os with [] => st | o :: os => let '(loc, st) := o loc st in run_ops os loc st end.
  Definition run_calls (cs : list call) (st : Z -> V) : Z -> V := fold_left (fun st c => run_ops (snd c) start st) cs st.

  (** What the function does on a cell, given its level, coordinates and number. *)
  Definition body := nat -> list Z -> Z -> list op.
  (** What the function does on an interval of a set, with the numbers of its cells. *)
  Definition interval_body := interval -> list Z -> call.

  (** parallel_for_each_meshinterval and for_each_meshinterval, L150-181: one task for each
      interval of the set. The interval and the indices are formal arguments passed by
      reference in an orphaned task, hence firstprivate. *)
  Definition parallel_for_each_meshinterval (n : nat) (s : subset) (f : interval_body) (schedule : list nat) (st : Z -> V) : option (Z -> V) :=
    let* calls := subset_calls n s in region (map (fun '(i, yz) => [f i yz]) calls) st schedule.
  Definition sequential_for_each_meshinterval (n : nat) (s : subset) (f : interval_body) (st : Z -> V) : option (Z -> V) :=
    let* calls := subset_calls n s in Some (run_calls (map (fun '(i, yz) => f i yz) calls) st).

  (** L228-257 *)
  Definition level_tasks (n : nat) (f : body) (level : nat) (a : lca) : option (list (list call)) :=
    match it_begin n a, it_end n a with
    | Some b, Some _ =>
        let* calls := traverse (length (a_cells a 0)) a b in
        Some (map (fun '(i, yz) => map (fun x => ([iindex i + x], f level (x :: yz) (iindex i + x))) (zrange (istart i) (iend i))) calls)
    | _, _ => None
    end.
  (** L290-300, one schedule for each level *)
  Fixpoint parallel_levels (n : nat) (f : body) (c : ca) (ls : list nat) (schedules : nat -> list nat) (st : Z -> V) : option (Z -> V) :=
    match ls with
    | [] => Some st
    | l :: ls =>
        let* st := (if lca_is_empty (c_at c l) then Some st
                    else let* ts := level_tasks n f l (c_at c l) in region ts st (schedules l)) in
        parallel_levels n f c ls schedules st
    end.
  Definition parallel_for_each_cell (n : nat) (f : body) (c : ca) (schedules : nat -> list nat) (st : Z -> V) : option (Z -> V) :=
    parallel_levels n f c (levels c) schedules st.

  (** Run::Sequential *)
  Definition sequential_for_each_cell (n : nat) (f : body) (c : ca) (st : Z -> V) : option (Z -> V) :=
    let* cs := ca_for_each_cell n c in Some (run_calls (map (fun '(l, (p, k)) => ([k], f l p k)) cs) st).
End Tasks.
