(** Small specification vocabulary, independent of the model's algorithms. *)
From Verif Require Import Base IntervalModel.
Open Scope Z_scope.

(** [x] is one of the integers of the half-open interval [i]. *)
Definition in_i (i : interval) (x : Z) : Prop := istart i <= x < iend i.

(** [x] is covered by one of the intervals of the list. *)
Definition covers (l : list interval) (x : Z) : Prop := exists i, In i l /\ in_i i x.

(** Normal form: non-empty intervals, increasing, separated by at least one
    uncovered integer. *)
Definition normal (l : list interval) : Prop :=
  Forall (fun i => istart i < iend i) l /\
  StronglySorted (fun a b => iend a < istart b) l.

(** Bounds of the intervals. *)
Definition bounds (l : list interval) : list (Z * Z) :=
  map (fun i => (istart i, iend i)) l.
