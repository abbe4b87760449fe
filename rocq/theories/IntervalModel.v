(** Model of [samurai::Interval] (include/samurai/interval.hpp).
    Coordinates ([value_t] = int) and indices ([index_t] = long long) are
    unbounded integers here: no overflow. *)
From Verif Require Import Base.
Open Scope Z_scope.

(** interval.hpp L40-98: members start, end, step (default 1), index (default 0). *)
Record interval := mkI { istart : Z; iend : Z; istep : Z; iindex : Z }.

(** Constructor [Interval(start, end, index = 0)], interval.hpp L102-107. *)
Definition mk (s e : Z) : interval := mkI s e 1 0.
Definition mkidx (s e idx : Z) : interval := mkI s e 1 idx.

(** interval.hpp L113-116 *)
Definition icontains (i : interval) (x : Z) : bool :=
  (istart i <=? x) && (x <? iend i).

(** interval.hpp L122-125 (as a signed integer: the cast to size_t is only
    meaningful for valid intervals). *)
Definition isize (i : interval) : Z := iend i - istart i.

(** interval.hpp L131-134 *)
Definition is_valid (i : interval) : bool := istart i <? iend i.

(** [x & 1] as a boolean. *)
Definition odd_bit (x : Z) : bool := Z.testbit x 0.

(** interval.hpp L142-150 *)
Definition even_elements (i : interval) : interval :=
  mkI (istart i + (if odd_bit (istart i) then 1 else 0))
      (iend i - (if odd_bit (iend i) then 0 else 1))
      2 (iindex i).

(** interval.hpp L158-166 *)
Definition odd_elements (i : interval) : interval :=
  mkI (istart i + (if odd_bit (istart i) then 0 else 1))
      (iend i - (if odd_bit (iend i) then 1 else 0))
      2 (iindex i).

(** interval.hpp L169-175 *)
Definition imul (i : interval) (k : Z) : interval :=
  mkI (istart i * k) (iend i * k) (istep i * k) (iindex i).

(** interval.hpp L178-188: [floor(start / double(i))]; the double quotient of two
    ints followed by floor is modelled by [Z.div] (exact for 32-bit operands). *)
Definition idiv (i : interval) (k : Z) : interval :=
  let s := istart i / k in
  let e := iend i / k in
  mkI s (if s =? e then e + 1 else e) 1 (iindex i).

(** interval.hpp L218-224; C++ [>>] on ints is arithmetic shift. *)
Definition ishr (i : interval) (s : Z) : interval :=
  mkI (Z.shiftr (istart i) s) (Z.shiftr (iend i - 1) s + 1) 1 (iindex i).

(** interval.hpp L243-249 *)
Definition ishl (i : interval) (s : Z) : interval :=
  mkI (Z.shiftl (istart i) s) (Z.shiftl (iend i) s) 1 (iindex i).

(** interval.hpp L252-257 and L260-265 *)
Definition iadd (i : interval) (k : Z) : interval :=
  mkI (istart i + k) (iend i + k) (istep i) (iindex i).
Definition isub (i : interval) (k : Z) : interval :=
  mkI (istart i - k) (iend i - k) (istep i) (iindex i).

(** interval.hpp L334-339: [operator-(value_t i, interval)] returns interval - i. *)
Definition isub_left (k : Z) (i : interval) : interval := isub i k.

(** The coordinates visited when an interval is used as a strided range
    [xt::range(start, end, step)] (field.hpp): start, start+step, ... < end. *)
Fixpoint range_from (n : nat) (x step : Z) : list Z :=
  match n with
  | O => []
  | S n' => x :: range_from n' (x + step) step
  end.
Definition range_count (s e step : Z) : nat := Z.to_nat ((e - s + step - 1) / step).
Definition strided (i : interval) : list Z :=
  range_from (range_count (istart i) (iend i) (istep i)) (istart i) (istep i).
