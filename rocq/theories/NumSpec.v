(** Specification vocabulary for the numerics: averages of polynomials. *)
From Coq Require Import QArith.
From Verif Require Import Base.
Open Scope Q_scope.

Fixpoint qpow (x : Q) (n : nat) : Q := match n with O => 1 | S n => x * qpow x n end.

(** Mean of y^m over [a, b]. *)
Definition mono_avg (m : nat) (a b : Q) : Q := (qpow b (S m) - qpow a (S m)) / (inject_Z (Z.of_nat (S m)) * (b - a)).

(** Mean over [a, b] of the polynomial with coefficients p_0, p_1, ... *)
Fixpoint avg_from (m : nat) (p : list Q) (a b : Q) : Q :=
  match p with [] => 0 | c :: p => c * mono_avg m a b + avg_from (S m) p a b end.
Definition poly_avg (p : list Q) (a b : Q) : Q := avg_from 0 p a b.

(** Mean over the cell of coordinate [x] on the grid of step [h]. *)
Definition cell_avg (p : list Q) (h : Q) (x : Z) : Q := poly_avg p (inject_Z x * h) ((inject_Z x + 1) * h).
