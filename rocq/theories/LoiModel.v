(** Model of [samurai::ListOfIntervals] (include/samurai/list_of_intervals.hpp).
    The std::forward_list is a Coq list; iterators become recursion. *)
From Verif Require Import Base IntervalModel.
Open Scope Z_scope.

(** list_of_intervals.hpp L112-117: the erase loop. [cur] is the element
    [*it.second], [rest] what follows it. *)
Fixpoint merge_loop (i cur : interval) (rest : list interval) : list interval :=
  match rest with
  | [] => [cur]
  | n :: rest' =>
      if istart n <=? iend i then
        merge_loop i (mkI (istart cur) (Z.max (iend n) (iend i)) (istep cur) (iindex cur)) rest'
      else cur :: n :: rest'
  end.

(** list_of_intervals.hpp L94-117, for a valid interval: forward_find_if (L17-29)
    walks to the first element with [interval.start <= value.end]. *)
Fixpoint add_valid (i : interval) (l : list interval) : list interval :=
  match l with
  | [] => [i]
  | v :: tl =>
      if istart i <=? iend v then
        if iend i <? istart v then i :: v :: tl
        else merge_loop i
               (mkI (Z.min (istart v) (istart i)) (Z.max (iend v) (iend i)) (istep v) (iindex v)) tl
      else v :: add_valid i tl
  end.

(** list_of_intervals.hpp L87-118 *)
Definition add_interval (l : list interval) (i : interval) : list interval :=
  if is_valid i then add_valid i l else l.

(** list_of_intervals.hpp L80-83 *)
Definition add_point (l : list interval) (p : Z) : list interval :=
  add_interval l (mk p (p + 1)).

(** A client history: any sequence of calls on a list. *)
Inductive loi_call := AddInterval (i : interval) | AddPoint (p : Z).

Definition loi_step (l : list interval) (c : loi_call) : list interval :=
  match c with
  | AddInterval i => add_interval l i
  | AddPoint p => add_point l p
  end.

Definition loi_run (cs : list loi_call) : list interval := fold_left loi_step cs [].
