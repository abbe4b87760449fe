(** Model of the prediction and projection operators:
    include/samurai/numeric/prediction.hpp and numeric/projection.hpp.

    Values are rationals (no rounding). A scalar field on one level is a function
    [u x yz] of the cell coordinates; [yz] is the list of the other coordinates.
    The operators are run on an interval [i] and the other coordinates, as in
    INIT_OPERATOR (operators_base.hpp); a field applied to an interval is a view
    (field.hpp): the list of the values at the strided coordinates. Combining two
    views of different lengths is an error ([None]). *)
From Coq Require Import QArith.
From Verif Require Import Base IntervalModel SubsetModel.
Open Scope Z_scope.

(** prediction.hpp L73-104 *)
Definition prediction_coeffs (s : nat) : list Q :=
  match s with
  | 1%nat => [-1 # 8]
  | 2%nat => [-22 # 128; 3 # 128]
  | 3%nat => [-201 # 1024; 11 # 256; -5 # 1024]
  | 4%nat => [-3461 # 16384; 949 # 16384; -185 # 16384; 35 # 32768]
  | 5%nat => [-29011 # 131072; 569 # 8192; -4661 # 262144; 49 # 16384; -63 # 262144]
  | _ => []
  end.

(** prediction.hpp L16-71, [interp_coeffs<2 s + 1>(sign)]. *)
Definition interp_coeffs (s : nat) (sg : Q) : list Q :=
  match s with
  | 0%nat => [1]
  | 1%nat => [sg * (1 # 8); 1; - sg * (1 # 8)]
  | 2%nat => [- sg * (3 # 128); sg * (22 # 128); 1; - sg * (22 # 128); sg * (3 # 128)]
  | 3%nat => [sg * (5 # 1024); - sg * (11 # 256); sg * (201 # 1024); 1; - sg * (201 # 1024); sg * (11 # 256); - sg * (5 # 1024)]
  | 4%nat => [- sg * (35 # 32768); sg * (185 # 16384); - sg * (949 # 16384); sg * (3461 # 16384); 1;
              - sg * (3461 # 16384); sg * (949 # 16384); - sg * (185 # 16384); sg * (35 # 32768)]
  | 5%nat => [sg * (63 # 262144); - sg * (49 # 16384); sg * (4661 # 262144); - sg * (569 # 8192); sg * (29011 # 131072); 1;
              - sg * (29011 # 131072); sg * (569 # 8192); - sg * (4661 # 262144); sg * (49 # 16384); - sg * (63 # 262144)]
  | _ => []
  end%Q.

Definition field := Z -> list Z -> Q.
Definition vec := list Q.

(** ** Views *)

(** field.hpp: field(level, i, yz). *)
Definition view (u : field) (i : interval) (yz : list Z) : vec := map (fun x => u x yz) (strided i).

Definition vzip (f : Q -> Q -> Q) (a b : vec) : option vec :=
  if Nat.eqb (length a) (length b) then Some (map (fun '(x, y) => f x y) (combine a b)) else None.
Definition vscale (c : Q) (a : vec) : vec := map (Qmult c) a.

(** xt::view(a, xt::range(lo, hi)); the range is clipped to the size. *)
Definition vslice (lo hi : Z) (a : vec) : vec := firstn (Z.to_nat (hi - lo)) (skipn (Z.to_nat lo) a).

(** ** The operators Qs_i, Qs_j, Qs_k: L129-309 *)

(** Shifting along direction [d]: the interval for d = 0, else a component of yz. *)
Fixpoint bump (d : nat) (t : Z) (yz : list Z) : list Z :=
  match yz, d with
  | [], _ => []
  | y :: yz, O => y + t :: yz
  | y :: yz, S d => y :: bump d t yz
  end.
Definition move (d : nat) (t : Z) (i : interval) (yz : list Z) : interval * list Z :=
  match d with O => (iadd i t, yz) | S d => (i, bump d t yz) end.

(** The inner expression m_e: called with an integral_constant, a position. *)
Definition expr := nat -> interval -> list Z -> option vec.

(** L106-121: field_hack ignores the integral_constant. *)
Definition field_hack (u : field) : expr := fun _ i yz => Some (view u i yz).

(** L129-161, L177-212, L228-263. [k] is slim - s. Below slim the inner expression is
    called with integral_constant s + 1, at slim with slim: when the inner
    expression is itself a Qs this is the index its own sum starts from. *)
Fixpoint Qs (c : list Q) (d k s : nat) (e : expr) (i : interval) (yz : list Z) : option vec :=
  let t := Z.of_nat s in
  match k with
  | O =>
      let* a := e s (fst (move d t i yz)) (snd (move d t i yz)) in
      let* b := e s (fst (move d (- t) i yz)) (snd (move d (- t) i yz)) in
      let* v := vzip Qminus a b in
      Some (vscale (nth (s - 1) c 0%Q) v)
  | S k =>
      let* a := e (S s) (fst (move d t i yz)) (snd (move d t i yz)) in
      let* b := e (S s) (fst (move d (- t) i yz)) (snd (move d (- t) i yz)) in
      let* v := vzip Qminus a b in
      let* w := Qs c d k (S s) e i yz in
      vzip Qplus (vscale (nth (s - 1) c 0%Q) v) w
  end.
Definition Qs_impl (order d : nat) (e : expr) : expr :=
  fun s i yz => Qs (prediction_coeffs order) d (order - s) s e i yz.

(** L163-309: Qs_i = [0], Qs_j = [1], Qs_ij = [0; 1], ... *)
Definition Qs_of (order : nat) (ds : list nat) (u : field) : expr := fold_right (Qs_impl order) (field_hack u) ds.

(** ** prediction_op *)

(** The terms added to src: L414, L521-523, L692-698 (none for order 0). *)
Definition terms (dim order : nat) : list (list nat) :=
  match order with
  | O => []
  | S _ =>
      match dim with
      | 1%nat => [[0%nat]]
      | 2%nat => [[0%nat]; [1%nat]; [0; 1]%nat]
      | 3%nat => [[0%nat]; [1%nat]; [2%nat]; [0; 1]%nat; [0; 2]%nat; [1; 2]%nat; [0; 1; 2]%nat]
      | _ => []
      end
  end.

(** src + / - term + / - term ...: [true] is a plus. *)
Fixpoint add_terms (acc : vec) (l : list (bool * vec)) : option vec :=
  match l with
  | [] => Some acc
  | (sg, v) :: l => let* acc := vzip (if sg : bool then Qplus else Qminus) acc v in add_terms acc l
  end.

Fixpoint sequence {A} (l : list (option A)) : option (list A) :=
  match l with [] => Some [] | x :: l => let* y := x in let* l' := sequence l in Some (y :: l') end.

(** What is written: coordinates of a cell and its new value. *)
Definition write := (Z * list Z * Q)%type.
(** dest(level, i, yz) = v *)
Definition assign (i : interval) (yz : list Z) (v : vec) : option (list write) :=
  if Nat.eqb (length (strided i)) (length v) then Some (map (fun '(x, q) => (x, yz, q)) (combine (strided i) v)) else None.

Local Notation P := true.
Local Notation M := false.

(** Signs, dest_on_level = true: dimension 1 L416-417, dimension 2 L525-528,
    dimension 3 L700-707. The argument tells for every direction whether the child
    is the odd one. *)
Definition signs_true (odd : list bool) : list bool :=
  match odd with
  | [false] => [P]
  | [true] => [M]
  | [false; false] => [P; P; M]
  | [true; false] => [M; P; P]
  | [false; true] => [P; M; P]
  | [true; true] => [M; M; M]
  | [false; false; false] => [P; P; P; M; M; M; P]
  | [true; false; false] => [M; P; P; P; P; M; M]
  | [false; true; false] => [P; M; P; P; M; P; M]
  | [true; true; false] => [M; M; P; M; P; P; P]
  | [false; false; true] => [P; P; M; M; P; P; M]
  | [true; false; true] => [M; P; M; P; M; P; P]
  | [false; true; true] => [P; M; M; P; P; M; P]
  | [true; true; true] => [M; M; M; M; M; M; M]
  | _ => []
  end.

(** Signs, dest_on_level = false: dimension 1 L435 and L443, dimension 2 L545-626,
    dimension 3 L730-857. *)
Definition signs_false (odd : list bool) : list bool :=
  match odd with
  | [false] => [P]
  | [true] => [M]
  | [false; true] => [P; M; P]
  | [true; true] => [M; M; M]
  | [false; false] => [P; P; M]
  | [true; false] => [M; P; P]
  | [false; true; true] => [P; M; M; P; P; M; P]
  | [true; true; true] => [M; M; M; M; M; M; M]
  | [false; false; true] => [P; P; M; M; P; P; M]
  | [true; false; true] => [M; P; M; P; M; P; P]
  | [false; true; false] => [P; M; P; P; M; P; M]
  | [true; true; false] => [M; M; P; M; P; P; P]
  | [false; false; false] => [P; P; P; M; M; M; P]
  | [true; false; false] => [M; P; P; P; P; M; M]
  | _ => []
  end.

(** Parities of the children in the order of the assignments: first direction
    fastest. *)
Fixpoint parities (dim : nat) : list (list bool) :=
  match dim with
  | O => [[]]
  | S d => map (fun l => l ++ [false]) (parities d) ++ map (fun l => l ++ [true]) (parities d)
  end.
Definition bz (b : bool) : Z := if b then 1 else 0.

(** L403-418, L508-529, L678-708 (order 0: L365-378, L447-464, L631-653): the cells
    of [i] of the source level, the destination is the next finer level. *)
Definition prediction_true (order : nat) (u : field) (i : interval) (yz : list Z) : option (list write) :=
  let dim := S (length yz) in
  let ii := let r := ishl i 1 in mkI (istart r) (iend r) 2 (iindex r) in
  let jj := map (fun y => Z.shiftl y 1) yz in
  let* qs := sequence (map (fun ds => Qs_of order ds u 1%nat i yz) (terms dim order)) in
  let* ws := sequence (map (fun par =>
    match par with
    | [] => None
    | pi :: pj =>
        let* v := add_terms (view u i yz) (combine (signs_true par) qs) in
        assign (iadd ii (bz pi)) (map (fun '(y, b) => y + bz b) (combine jj pj)) v
    end) (parities dim)) in
  Some (concat ws).

(** L420-445, L531-629, L710-861 (order 0: L380-401, L466-506, L655-676): the cells
    of [i] of the destination level. *)
Definition prediction_false (order : nat) (u : field) (i : interval) (yz : list Z) : option (list write) :=
  let dim := S (length yz) in
  let yc := map (fun y => Z.shiftr y 1) yz in
  let oddyz := map odd_bit yz in
  let* qs := sequence (map (fun ds => Qs_of order ds u 1%nat (ishr i 1) yc) (terms dim order)) in
  let ev := even_elements i in
  let* w1 :=
    (if is_valid ev then
       let dec := if odd_bit (istart i) then 1 else 0 in
       let sl q := vslice dec (Z.of_nat (length q)) q in
       let* v := add_terms (view u (ishr ev 1) yc) (combine (signs_false (false :: oddyz)) (map sl qs)) in
       assign ev yz v
     else Some []) in
  let od := odd_elements i in
  let* w2 :=
    (if is_valid od then
       let dec := if odd_bit (iend i) then 1 else 0 in
       let sl q := vslice 0 (Z.of_nat (length q) - dec) q in
       let* v := add_terms (view u (ishr od 1) yc) (combine (signs_false (true :: oddyz)) (map sl qs)) in
       assign od yz v
     else Some []) in
  Some (w1 ++ w2).

(** ** projection_op_: projection.hpp L21-45 *)

(** The sum of the children views, in the order of the code (2D: j fastest). *)
Definition sum_views (l : list vec) : option vec :=
  match l with [] => None | v :: l => add_terms v (map (fun w => (true, w)) l) end.
Definition fine_row (yz : list Z) (p : list bool) : list Z := map (fun '(y, b) => 2 * y + bz b) (combine yz p).
Definition projection_op_ (u : field) (i : interval) (yz : list Z) : option (list write) :=
  let order := match length yz with
               | 1%nat => [[false; false]; [false; true]; [true; false]; [true; true]]
               | n => parities (S n)
               end in
  let c := match length yz with O => 1 # 2 | 1%nat => 1 # 4 | _ => 1 # 8 end%Q in
  let* s := sum_views (map (fun par =>
    match par with
    | [] => []
    | pi :: pj => view u (if pi : bool then iadd (imul i 2) 1 else imul i 2) (fine_row yz pj)
    end) order) in
  assign i yz (vscale c s).

(** ** Fields with several components stored by component (is_soa), dimension 1 *)

(** The level-based operator of dimension 1 (L420-445) on such a field: the view is
    taken on axis 0, which is the component axis there (in dimension 2, L550-587, the
    code distinguishes the two layouts). Lists of rows, one row per component. *)
Definition mzip (f : Q -> Q -> Q) (a b : list vec) : option (list vec) :=
  if Nat.eqb (length a) (length b) then sequence (map (fun '(x, y) => vzip f x y) (combine a b)) else None.
Definition mslice (lo hi : Z) (a : list vec) : list vec := firstn (Z.to_nat (hi - lo)) (skipn (Z.to_nat lo) a).
Definition prediction_false_soa (order : nat) (us : list field) (i : interval) : option (list (list write)) :=
  let* qs := sequence (map (fun u => Qs_of order [0%nat] u 1%nat (ishr i 1) []) us) in
  let ev := even_elements i in
  let* w1 :=
    (if is_valid ev then
       let dec := if odd_bit (istart i) then 1 else 0 in
       let* v := mzip Qplus (map (fun u => view u (ishr ev 1) []) us) (mslice dec (Z.of_nat (length qs)) qs) in
       sequence (map (assign ev []) v)
     else Some (map (fun _ => []) us)) in
  let od := odd_elements i in
  let* w2 :=
    (if is_valid od then
       let dec := if odd_bit (iend i) then 1 else 0 in
       let* v := mzip Qminus (map (fun u => view u (ishr od 1) []) us) (mslice 0 (Z.of_nat (length qs) - dec) qs) in
       sequence (map (assign od []) v)
     else Some (map (fun _ => []) us)) in
  Some (map (fun '(a, b) => a ++ b) (combine w1 w2)).
