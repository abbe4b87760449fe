(** Model of include/samurai/reconstruction.hpp: the prediction over several levels
    ([prediction_map], [prediction], [portion]), the reconstruction of a field on the
    finest level and the transfer of a field to another mesh.

    The three overloads of each function (dimensions 1, 2 and 3) are one function on lists
    of coordinates, first coordinate first. Coefficients are rationals, kept in lowest
    terms; a [std::map] is a list of pairs in the order of insertion (the code visits it in
    the order of the keys; the sums do not depend on it). *)
From Coq Require Import QArith.
From Verif Require Import Base IntervalModel LoiModel LcaModel CellArrayModel SubsetModel StencilModel MeshModel NumModel AdaptModel MrModel GhostModel.
Open Scope Z_scope.

(** ** prediction_map: L15-115 *)
Definition pmap := list (list Z * Q).

(** L31-39 and [+=] on the reference it returns: [this->operator()(k) += q]. *)
Fixpoint pm_add (k : list Z) (q : Q) (m : pmap) : pmap :=
  match m with
  | [] => [(k, Qred q)]
  | (k', q') :: m => if zlist_eqb k k' then (k', Qred (q' + q)) :: m else (k', q') :: pm_add k q m
  end.
(** L56-63 *)
Definition pm_plus (m p : pmap) : pmap := fold_left (fun m '(k, q) => pm_add k q m) p m.
(** L74-81, L147-153 *)
Definition pm_scale (d : Q) (p : pmap) : pmap := map (fun '(k, q) => (k, Qred (q * d))) p.

(** ** prediction: L160-285 *)

(** The function-local static map [values]. [order] is a template parameter, so that each
    order has its own map; it is also part of the key. *)
Definition memo := list ((nat * nat * list Z) * pmap).
Definition memo_eqb (a b : nat * nat * list Z) : bool :=
  let '(o, l, i) := a in let '(o', l', i') := b in Nat.eqb o o' && Nat.eqb l l' && zlist_eqb i i'.
Fixpoint memo_find (k : nat * nat * list Z) (v : memo) : option pmap :=
  match v with [] => None | (k', m) :: v => if memo_eqb k k' then Some m else memo_find k v end.
(** [values[k]]: a new key gets an empty map. *)
Definition memo_get (k : nat * nat * list Z) (v : memo) : pmap := match memo_find k v with Some m => m | None => [] end.
Fixpoint memo_set (k : nat * nat * list Z) (m : pmap) (v : memo) : memo :=
  match v with [] => [(k, m)] | (k', m') :: v => if memo_eqb k k' then (k, m) :: v else (k', m') :: memo_set k m v end.

(** The nested loops over [ci], [cj], [ck], the first outermost, with the coefficients. *)
Fixpoint interp_loop (s : nat) (idx : list Z) : list (list nat * Q) :=
  match idx with
  | [] => [([], 1%Q)]
  | i :: idx =>
      let c := interp_coeffs s (if Z.odd i then -1 else 1)%Q in
      flat_map (fun ci => map (fun '(cs, q) => (ci :: cs, nth ci c 0 * q)%Q) (interp_loop s idx)) (seq 0 (length c))
  end.
Definition is_centre (s : nat) (cs : list nat) : bool := forallb (Nat.eqb s) cs.
(** [ig + static_cast<index_t>(ci - order)], in every direction. *)
Definition shifted (s : nat) (g : list Z) (cs : list nat) : list Z := map (fun '(x, c) => x + (Z.of_nat c - Z.of_nat s)) (combine g cs).

Fixpoint prediction (order level : nat) (idx : list Z) (values : memo) {struct level} : pmap * memo :=
  match level with
  | O => ([(idx, 1%Q)], values)
  | S lev =>
      let k := (order, level, idx) in
      match memo_find k values with
      | Some m => (m, values)
      | None =>
          let g := map (fun i => Z.shiftr i 1) idx in
          let '(m, values) := prediction order lev g values in
          let values := memo_set k m values in
          let values := fold_left (fun values '(cs, q) =>
            if is_centre order cs then values
            else let '(m, values) := prediction order lev (shifted order g cs) values in
                 memo_set k (pm_plus (memo_get k values) (pm_scale q m)) values) (interp_loop order idx) values in
          (memo_get k values, values)
      end
  end.

(** ** portion: L427-1044 *)

(** The sum of [kv.second * f(level, i + kv.first[0], j + kv.first[1], ..)] over a map, in
    the cell [p] (the code does it for all the cells of an interval). *)
Definition pm_value (m : pmap) (u : list Z -> Q) (p : list Z) : Q := fold_left (fun r '(k, q) => (r + q * u (add_vec p k))%Q) m 0%Q.

(** [portion(f, level, i, j, delta_l, ii, jj)] with integers. *)
Definition portion (order : nat) (u : list Z -> Q) (p : list Z) (delta_l : nat) (ii : list Z) (values : memo) : Q * memo :=
  let '(m, values) := prediction order delta_l ii values in (pm_value m u p, values).

(** [portion(f, level, i, j, delta_l, ii, jj)] with intervals (of step 1 and index 0): the
    sum of the maps is kept in another static map, whose key is made of the order, the
    level and the intervals. *)
Definition sums := list ((nat * nat * list (Z * Z)) * pmap).
Fixpoint zpairs_eqb (a b : list (Z * Z)) : bool :=
  match a, b with
  | [], [] => true
  | (x, x') :: a, (y, y') :: b => (x =? y) && (x' =? y') && zpairs_eqb a b
  | _, _ => false
  end.
Definition sums_eqb (a b : nat * nat * list (Z * Z)) : bool :=
  let '(o, l, i) := a in let '(o', l', i') := b in Nat.eqb o o' && Nat.eqb l l' && zpairs_eqb i i'.
Fixpoint sums_find (k : nat * nat * list (Z * Z)) (v : sums) : option pmap :=
  match v with [] => None | (k', m) :: v => if sums_eqb k k' then Some m else sums_find k v end.

(** The nested loops over the intervals, the first outermost. *)
Fixpoint block (ii : list (Z * Z)) : list (list Z) :=
  match ii with
  | [] => [[]]
  | (a, b) :: ii => flat_map (fun x => map (cons x) (block ii)) (range_from (Z.to_nat (b - a)) a 1)
  end.

Definition portion_block (order level : nat) (u : list Z -> Q) (p : list Z) (delta_l : nat) (ii : list (Z * Z)) (st : sums * memo) : Q * (sums * memo) :=
  let '(sums, values) := st in
  match sums_find (order, level, ii) sums with
  | Some m => (pm_value m u p, st)
  | None =>
      let '(m, values) := fold_left (fun '(m, values) i => let '(p, values) := prediction order delta_l i values in (pm_plus m p, values))
                            (block ii) ([], values) in
      (pm_value m u p, (((order, level, ii), m) :: sums, values))
  end.

(** ** reconstruction: L287-425 *)

Fixpoint fold_opt {S A : Type} (f : S -> A -> option S) (l : list A) (s : S) : option S :=
  match l with [] => Some s | a :: l => let* s := f s a in fold_opt f l s end.

(** Whether the reconstructed field has a place for the cell [p]: its mesh has the domain on
    the level of the domain and nothing else (L407-411). *)
Definition placed (n : nat) (domain : lca) (p : list Z) : bool := match get_index n domain p with Some _ => true | None => false end.

(** Fields as functions of the whole list of coordinates. *)
Definition cfield := list Z -> Q.
Definition set_cells (d : cfield) (cs : list (list Z * Q)) : cfield :=
  fold_left (fun d '(c, q) => fun c' => if zlist_eqb c' c then q else d c') cs d.
Definition add_cells (d : cfield) (cs : list (list Z * Q)) : cfield :=
  fold_left (fun d '(c, q) => fun c' => if zlist_eqb c' c then (d c' + q)%Q else d c') cs d.

(** The cells [i_f, j_f, k_f] of the fine level, of step [nb_cells] in the first direction. *)
Definition fine_cells (dl : nat) (i : interval) (yz sub : list Z) : list (list Z) :=
  let nb_cells := Z.shiftl 1 (Z.of_nat dl) in
  let f := iadd (ishl i (Z.of_nat dl)) (hd 0 sub) in
  row_cells (mkI (istart f) (iend f) nb_cells (iindex f)) (add_vec (map (fun y => Z.shiftl y (Z.of_nat dl)) yz) (tl sub)).

(** L311-316, L343-346, L379-383: one pair of the map. *)
Definition recon_add (n : nat) (reference : ca) (domain : lca) (level dl : nat) (src : cfield) (i : interval) (yz sub : list Z) (d : cfield) (kv : list Z * Q)
  : option cfield :=
  let '(k, q) := kv in
  let dest := fine_cells dl i yz sub in
  let from := row_cells (iadd i (hd 0 k)) (add_vec yz (tl k)) in
  checked (Nat.eqb (length dest) (length from) && forallb (placed n domain) dest && forallb (stored n reference level) from)
    (Some (add_cells d (combine dest (map (fun p => (q * src p)%Q) from)))).

(** L308-317, L334-347, L366-384: one position in the coarse cells. *)
Definition recon_sub (n order : nat) (reference : ca) (domain : lca) (level dl : nat) (src : cfield) (i : interval) (yz : list Z) (st : cfield * memo) (sub : list Z)
  : option (cfield * memo) :=
  let '(d, values) := st in
  let '(m, values) := prediction order dl sub values in
  let* d := fold_opt (recon_add n reference domain level dl src i yz sub) m d in
  Some (d, values).

(** L287-389 (reconstruction_op_). The loop over the last direction is the outermost. The
    difference of the levels must not be negative ([std::size_t]) and [1 << delta_l] must
    fit in an integer. *)
Definition reconstruction_op (n order : nat) (reference : ca) (domain : lca) (level : nat) (src : cfield) (st : cfield * memo) (call : interval * list Z)
  : option (cfield * memo) :=
  let '(i, yz) := call in
  let dl := (a_level domain - level)%nat in
  checked (Nat.leb level (a_level domain) && Nat.ltb dl 31)
    (if Nat.eqb dl 0 then
       checked (forallb (placed n domain) (row_cells i yz) && forallb (stored n reference level) (row_cells i yz))
         (Some (set_cells (fst st) (map (fun p => (p, src p)) (row_cells i yz)), snd st))
     else fold_opt (recon_sub n order reference domain level dl src i yz) (map (@rev Z) (block (repeat (0, Z.shiftl 1 (Z.of_nat dl)) (S n)))) st).

(** L399-425. [u level] is the field on that level; [values]: the static map of [prediction]. *)
Definition reconstruction (n order : nat) (cells reference : ca) (domain : lca) (u : nat -> cfield) (values : memo) : option (cfield * memo) :=
  fold_opt (fun st level =>
      let* calls := subset_calls n (on (inter (c_at cells level) domain) level) in
      fold_opt (reconstruction_op n order reference domain level (u level)) calls st)
    (seq (min_level cells) (S (max_level cells) - min_level cells)) ((fun _ => 0%Q), values).
