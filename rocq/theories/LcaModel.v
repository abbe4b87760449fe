(** Model of [LevelCellList] (level_cell_list.hpp), [LevelCellArray]
    (level_cell_array.hpp) with its iterator, and of [find] and the traversals
    of algorithm.hpp, for an arbitrary dimension.

    The template parameter Dim is [S n] throughout: [n] is dim - 1.
    Coordinates of a cell are a list [x; y; z; ...] of length [S n]; the [yz]
    index of a row is the tail of it, of length [n]. *)
From Verif Require Import Base IntervalModel LoiModel.
Open Scope Z_scope.

(** ** LevelCellList *)

(** level_cell_list.hpp L21-33: nested std::map ending in an interval list. A
    std::map is a list of (key, value) in increasing key order. *)
Fixpoint grid (n : nat) : Type :=
  match n with
  | O => list interval
  | S m => list (Z * grid m)
  end.

Definition grid_empty (n : nat) : grid n :=
  match n with O => [] | S _ => [] end.

(** std::map operator[]: find the key or insert a default value in key order,
    then apply [f] to the mapped value. *)
Fixpoint map_update {V : Type} (dflt : V) (k : Z) (f : V -> V) (m : list (Z * V)) : list (Z * V) :=
  match m with
  | [] => [(k, f dflt)]
  | (k', v) :: m' =>
      if k <? k' then (k, f dflt) :: (k', v) :: m'
      else if k =? k' then (k', f v) :: m'
      else (k', v) :: map_update dflt k f m'
  end.

(** level_cell_list.hpp L40-52: access_grid_yz; [index[dim-1]] is the key of the
    outermost map. The mutable reference is modelled by the update [f]. *)
Fixpoint grid_update (n : nat) (yz : list Z) (f : list interval -> list interval) : grid n -> grid n :=
  match n with
  | O => fun l => f l
  | S m => fun g => map_update (grid_empty m) (nth m yz 0) (grid_update m yz f) g
  end.

Record lcl (n : nat) := mkLcl { l_level : nat; l_grid : grid n }.
Arguments mkLcl {n}. Arguments l_level {n}. Arguments l_grid {n}.

(** Client calls on a LevelCellList: [lcl[yz]] alone (creates the row),
    [lcl[yz].add_interval(i)], [lcl[yz].add_point(p)] and [lcl.add_cell(cell)]
    (L170-176). *)
Inductive lcl_call :=
| Touch (yz : list Z)
| AddI (yz : list Z) (i : interval)
| AddP (yz : list Z) (p : Z)
| AddC (cell : list Z).

Definition grid_step (n : nat) (g : grid n) (c : lcl_call) : grid n :=
  match c with
  | Touch yz => grid_update n yz (fun l => l) g
  | AddI yz i => grid_update n yz (fun l => add_interval l i) g
  | AddP yz p => grid_update n yz (fun l => add_point l p) g
  | AddC cell => grid_update n (tl cell) (fun l => add_point l (nth 0 cell 0)) g
  end.

Definition lcl_run (n level : nat) (cs : list lcl_call) : lcl n :=
  mkLcl level (fold_left (grid_step n) cs (grid_empty n)).

(** level_cell_list.hpp L156-160 *)
Definition grid_is_empty (n : nat) : grid n -> bool :=
  match n with
  | O => fun l => match l with [] => true | _ => false end
  | S m => fun g => match g with [] => true | _ => false end
  end.

(** ** LevelCellArray *)

(** level_cell_array.hpp L209-212. The std::array of vectors is a function of the
    dimension index; only arguments below dim (resp. dim - 1) matter.
    [a_offsets d] is [m_offsets[d]], i.e. [offsets(d+1)]. Origin point and
    scaling factor are handled in the geometry model. *)
Record lca := mkLca {
  a_level : nat;
  a_cells : nat -> list interval;
  a_offsets : nat -> list nat }.

Definition upd {A : Type} (f : nat -> A) (d : nat) (v : A) : nat -> A :=
  fun k => if Nat.eqb k d then v else f k.

Definition push_cell (a : lca) (d : nat) (i : interval) : lca :=
  mkLca (a_level a) (upd (a_cells a) d (a_cells a d ++ [i])) (a_offsets a).
Definition append_cells (a : lca) (d : nat) (l : list interval) : lca :=
  mkLca (a_level a) (upd (a_cells a) d (a_cells a d ++ l)) (a_offsets a).
Definition push_offset (a : lca) (d : nat) (o : nat) : lca :=
  mkLca (a_level a) (a_cells a) (upd (a_offsets a) d (a_offsets a d ++ [o])).

Definition lca_empty (level : nat) : lca := mkLca level (fun _ => []) (fun _ => []).

(** level_cell_array.hpp L803-825: update of the working interval for key [i];
    [N] is the dimension being filled. *)
Definition init_curr (N : nat) (a : lca) (curr : interval) (i : Z) : lca * interval :=
  let fresh := mkidx i (i + 1) (Z.of_nat (length (a_offsets a (pred N))) - i) in
  if is_valid curr then
    if iend curr <? i then (push_cell a N curr, fresh)
    else (a, mkI (istart curr) (iend curr + 1) (istep curr) (iindex curr))
  else (a, fresh).

(** level_cell_array.hpp L774-847 *)
Fixpoint init_lcl (n : nat) : grid n -> lca -> lca :=
  match n with
  | O => fun l a => append_cells a 0 l
  | S m => fun g a =>
      let body (s : lca * interval) (point : Z * grid m) :=
        let '(a, curr) := s in
        let i := fst point in
        let previous_offset := length (a_cells a m) in
        let a := init_lcl m (snd point) a in
        let '(a, curr) := init_curr (S m) a curr i in
        (push_offset a m previous_offset, curr) in
      let '(a, curr) := fold_left body g (a, mkidx 0 0 0) in
      if is_valid curr then push_cell a (S m) curr else a
  end.

(** level_cell_array.hpp L313-316: the closing offset of each dimension. *)
Fixpoint close_offsets (n : nat) (a : lca) : lca :=
  match n with
  | O => a
  | S m => let a := close_offsets m a in push_offset a m (length (a_cells a m))
  end.

(** level_cell_array.hpp L289-318 *)
Definition lca_of_lcl {n : nat} (l : lcl n) : lca :=
  let a := lca_empty (l_level l) in
  if grid_is_empty n (l_grid l) then a
  else close_offsets n (init_lcl n (l_grid l) a).

(** level_cell_array.hpp L849-877. A box is given by its corners (lists of
    length dim). *)
Definition box_len (bmin bmax : list Z) (d : nat) : nat := Z.to_nat (nth d bmax 0 - nth d bmin 0).

Fixpoint box_loop (bmin bmax : list Z) (d size : nat) (a : lca) : lca :=
  match d with
  | O =>
      mkLca (a_level a)
        (upd (a_cells a) 0
           (map (fun i => mkidx (nth 0 bmin 0) (nth 0 bmax 0)
                                (Z.of_nat (i * box_len bmin bmax 0) - nth 0 bmin 0)) (seq 0 size)))
        (a_offsets a)
  | S m =>
      let len := box_len bmin bmax d in
      let off := seq 0 (len * size + 1) in
      let cs := map (fun i => mkidx (nth d bmin 0) (nth d bmax 0)
                                    (Z.of_nat (nth (i * len) off 0%nat) - nth d bmin 0)) (seq 0 size) in
      box_loop bmin bmax m (size * len)
        (mkLca (a_level a) (upd (a_cells a) d cs) (upd (a_offsets a) m off))
  end.

Definition lca_of_box (n level : nat) (bmin bmax : list Z) : lca :=
  box_loop bmin bmax n 1 (lca_empty level).

(** level_cell_array.hpp L612-616 *)
Definition lca_is_empty (a : lca) : bool :=
  match a_cells a 0 with [] => true | _ => false end.

(** level_cell_array.hpp L640-649 *)
Definition nb_cells (a : lca) : Z :=
  fold_left (fun acc i => acc + isize i) (a_cells a 0) 0.

(** level_cell_array.hpp L663-703: std::max_element / std::min_element over a
    vector; dereferencing the end iterator of an empty one is [None]. *)
Definition max_end (l : list interval) : option Z :=
  match l with [] => None | i :: l => Some (fold_left (fun m j => if m <? iend j then iend j else m) l (iend i)) end.
Definition min_start (l : list interval) : option Z :=
  match l with [] => None | i :: l => Some (fold_left (fun m j => if istart j <? m then istart j else m) l (istart i)) end.

(** level_cell_array.hpp L906-935 and interval.hpp operator== (start, end, step
    and index are compared). *)
Definition interval_eqb (i j : interval) : bool :=
  (istart i =? istart j) && (iend i =? iend j) && (istep i =? istep j) && (iindex i =? iindex j).
Fixpoint list_eqb {A} (eqb : A -> A -> bool) (l1 l2 : list A) : bool :=
  match l1, l2 with
  | [], [] => true
  | x :: l1, y :: l2 => eqb x y && list_eqb eqb l1 l2
  | _, _ => false
  end.
Definition lca_eqb (n : nat) (a b : lca) : bool :=
  Nat.eqb (a_level a) (a_level b)
  && forallb (fun d => Nat.eqb (length (a_cells a d)) (length (a_cells b d))) (seq 0 (S n))
  && forallb (fun d => list_eqb interval_eqb (a_cells a d) (a_cells b d)) (seq 0 (S n))
  && forallb (fun d => list_eqb Nat.eqb (a_offsets a d) (a_offsets b d)) (seq 0 n).

(** ** Search: algorithm.hpp L364-449 *)

(** Conversion of a signed value used as a vector index; a negative one becomes a
    huge index in C++, an out-of-range access: [None]. *)
Definition z_index (z : Z) : option nat := if z <? 0 then None else Some (Z.to_nat z).

(** std::lower_bound (libstdc++: [len], [half = len / 2], compare the middle)
    with comparator [interval.end < v]. [None]: out-of-range access or fuel. *)
Fixpoint lower_bound (fuel : nat) (l : list interval) (first len : nat) (v : Z) : option nat :=
  match len with
  | O => Some first
  | S _ =>
      match fuel with
      | O => None
      | S fuel =>
          let half := Nat.div2 len in
          match nth_error l (first + half) with
          | None => None
          | Some i =>
              if iend i <? v then lower_bound fuel l (first + half + 1) (len - half - 1) v
              else lower_bound fuel l first half v
          end
      end
  end.

(** algorithm.hpp L366-384 on the range [lo, hi) of vector [l]. Outer [None] is
    undefined behaviour, inner [None] is the returned -1; a found position is
    relative to [lo]. *)
Definition my_binary_search (l : list interval) (lo hi : nat) (v : Z) : option (option nat) :=
  if Nat.ltb hi lo || Nat.ltb (length l) hi then None else
  match lower_bound (hi - lo) l lo (hi - lo) v with
  | None => None
  | Some r =>
      if Nat.eqb r hi then Some None
      else match nth_error l r with
           | None => None
           | Some i =>
               if iend i <? v then Some None
               else if icontains i v then Some (Some (r - lo)%nat) else Some None
           end
  end.

(** algorithm.hpp L386-430 *)
Fixpoint find_impl (a : lca) (N : nat) (lo hi : nat) (coord : list Z) : option (option nat) :=
  match my_binary_search (a_cells a N) lo hi (nth N coord 0) with
  | None => None
  | Some None => Some None
  | Some (Some k) =>
      match N with
      | O => Some (Some (k + lo)%nat)
      | S m =>
          match nth_error (a_cells a N) (k + lo) with
          | None => None
          | Some i =>
              match z_index (iindex i + nth N coord 0) with
              | None => None
              | Some off_ind =>
                  match nth_error (a_offsets a m) off_ind, nth_error (a_offsets a m) (off_ind + 1) with
                  | Some lo', Some hi' => find_impl a m lo' hi' coord
                  | _, _ => None
                  end
              end
          end
      end
  end.

(** algorithm.hpp L432-436 *)
Definition find (n : nat) (a : lca) (coord : list Z) : option (option nat) :=
  find_impl a n 0 (length (a_cells a n)) coord.

(** algorithm.hpp L438-449; inner [None] is SIZE_MAX. *)
Definition find_on_dim (a : lca) (d lo hi : nat) (coord : Z) : option (option nat) :=
  match my_binary_search (a_cells a d) lo hi coord with
  | None => None
  | Some None => Some None
  | Some (Some k) => Some (Some (k + lo)%nat)
  end.

(** level_cell_array.hpp L523-549: row -1 is an out-of-range access. *)
Definition get_interval (n : nat) (a : lca) (coord : list Z) : option interval :=
  match find n a coord with
  | Some (Some row) => nth_error (a_cells a 0) row
  | _ => None
  end.

(** level_cell_array.hpp L551-569 *)
Definition get_index (n : nat) (a : lca) (coord : list Z) : option Z :=
  match get_interval n a coord with
  | Some i => Some (iindex i + nth 0 coord 0)
  | None => None
  end.

(** ** Iterator: level_cell_array.hpp L235-284 and L948-1050 *)

(** The iterator's arrays are regrouped: [f_off], [f_idx] of frame [d] are
    [m_offset_index[d]] (as a position) and [m_index[d]]; [f_cur] is
    [m_current_index[d+1]]. [it_cur] is [m_current_index[0]]. *)
Record frame := mkF { f_off : nat; f_idx : Z; f_cur : nat }.
Record iter := mkIt { it_cur : nat; it_frames : list frame }.

(** L385-403 / L427-445: [None] when an empty vector is dereferenced. *)
Fixpoint begin_frames (a : lca) (d n : nat) : option (list frame) :=
  match n with
  | O => Some []
  | S n =>
      match nth_error (a_cells a (S d)) 0, begin_frames a (S d) n with
      | Some c, Some fs => Some (mkF 0 (istart c) 0 :: fs)
      | _, _ => None
      end
  end.
Definition it_begin (n : nat) (a : lca) : option iter :=
  match begin_frames a 0 n with Some fs => Some (mkIt 0 fs) | None => None end.

(** L405-425 / L447-467: [cells.end() - 1], [offsets.cend() - 2]. *)
Fixpoint end_frames (a : lca) (d n : nat) : option (list frame) :=
  match n with
  | O => Some []
  | S n =>
      let k := (length (a_cells a (S d)) - 1)%nat in
      if Nat.ltb (length (a_offsets a d)) 2 then None else
      match nth_error (a_cells a (S d)) k, end_frames a (S d) n with
      | Some c, Some fs => Some (mkF (length (a_offsets a d) - 2) (iend c - 1) k :: fs)
      | _, _ => None
      end
  end.
Definition it_end (n : nat) (a : lca) : option iter :=
  match a_cells a 0 with
  | [] => None
  | _ => match end_frames a 0 n with
         | Some fs => Some (mkIt (length (a_cells a 0)) fs)
         | None => None
         end
  end.

(** L969-990: the carry loop from dimension [d]; [curd] is [m_current_index[d]]. *)
Fixpoint inc_loop (a : lca) (d curd : nat) (fs : list frame) : option (list frame) :=
  match fs with
  | [] => Some []
  | f :: fs' =>
      match nth_error (a_offsets a d) (f_off f + 1) with
      | None => None
      | Some o =>
          if Nat.eqb curd o then
            match nth_error (a_cells a (S d)) (f_cur f) with
            | None => None
            | Some c =>
                let idx := f_idx f + 1 in
                let cur := if idx =? iend c then S (f_cur f) else f_cur f in
                let idx :=
                  if idx =? iend c then
                    match nth_error (a_cells a (S d)) cur with
                    | None => idx
                    | Some c' => istart c'
                    end
                  else idx in
                match inc_loop a (S d) cur fs' with
                | None => None
                | Some fs'' => Some (mkF (f_off f + 1) idx cur :: fs'')
                end
            end
          else Some fs
      end
  end.

(** L960-992 *)
Definition it_inc (a : lca) (it : iter) : option iter :=
  if Nat.eqb (it_cur it) (length (a_cells a 0)) then Some it
  else match inc_loop a 0 (S (it_cur it)) (it_frames it) with
       | None => None
       | Some fs => Some (mkIt (S (it_cur it)) fs)
       end.

(** L1004-1028. [*m_offset_index[d] - 1] is unsigned: offset 0 gives SIZE_MAX,
    never equal to a position, hence the comparison [dst + 1 = offset].
    [--m_offset_index[d]] below 0 is [None]. *)
Fixpoint dec_loop (a : lca) (d curd : nat) (fs : list frame) : option (list frame) :=
  match fs with
  | [] => Some []
  | f :: fs' =>
      match nth_error (a_offsets a d) (f_off f) with
      | None => None
      | Some o =>
          if Nat.eqb (S curd) o then
            match f_off f, nth_error (a_cells a (S d)) (f_cur f) with
            | S off, Some c =>
                if f_idx f =? istart c then
                  match f_cur f with
                  | O => match dec_loop a (S d) (f_cur f) fs' with
                         | None => None
                         | Some fs'' => Some (mkF off (f_idx f) (f_cur f) :: fs'')
                         end
                  | S cur =>
                      match nth_error (a_cells a (S d)) cur, dec_loop a (S d) cur fs' with
                      | Some c', Some fs'' => Some (mkF off (iend c' - 1) cur :: fs'')
                      | _, _ => None
                      end
                  end
                else
                  match dec_loop a (S d) (f_cur f) fs' with
                  | None => None
                  | Some fs'' => Some (mkF off (f_idx f - 1) (f_cur f) :: fs'')
                  end
            | _, _ => None
            end
          else Some fs
      end
  end.

(** L994-1030. Decrementing begin() moves before the vector: [None]. *)
Definition it_dec (a : lca) (it : iter) : option iter :=
  match it_cur it with
  | O => None
  | S cur => match dec_loop a 0 cur (it_frames it) with
             | None => None
             | Some fs => Some (mkIt cur fs)
             end
  end.

(** [*it] and [it.index()] *)
Definition it_deref (a : lca) (it : iter) : option interval := nth_error (a_cells a 0) (it_cur it).
Definition it_index (it : iter) : list Z := map f_idx (it_frames it).

(** ** Traversals: algorithm.hpp *)

(** The loop [for (it = begin; it != end; ++it) f(deref it, it.index())]: the list of
    the calls in order. Equality of iterators compares [m_current_index[0]]
    only (level_cell_array.hpp L1082-1086). *)
Fixpoint traverse (fuel : nat) (a : lca) (it : iter) : option (list (interval * list Z)) :=
  if Nat.eqb (it_cur it) (length (a_cells a 0)) then Some []
  else match fuel with
       | O => None
       | S fuel =>
           match it_deref a it, it_inc a it with
           | Some i, Some it' =>
               match traverse fuel a it' with
               | Some rest => Some ((i, it_index it) :: rest)
               | None => None
               end
           | _, _ => None
           end
       end.

(** algorithm.hpp L68-90 *)
Definition for_each_interval (n : nat) (a : lca) : option (list (interval * list Z)) :=
  if lca_is_empty a then Some []
  else match it_begin n a, it_end n a with
       | Some b, Some _ => traverse (length (a_cells a 0)) a b
       | _, _ => None
       end.

(** Coordinates of an interval: start, ..., end - 1. *)
Definition zrange (s e : Z) : list Z := map (fun k => s + Z.of_nat k) (seq 0 (Z.to_nat (e - s))).

(** algorithm.hpp L205-226: no emptiness guard. A call is (coordinates, index). *)
Definition for_each_cell (n : nat) (a : lca) : option (list (list Z * Z)) :=
  match it_begin n a, it_end n a with
  | Some b, Some _ =>
      match traverse (length (a_cells a 0)) a b with
      | Some calls =>
          Some (flat_map (fun '(i, yz) =>
                  map (fun x => (x :: yz, iindex i + x)) (zrange (istart i) (iend i))) calls)
      | None => None
      end
  | _, _ => None
  end.

(** ** Numbering: level_cell_array.hpp L600-610 *)

(** The traversal visits [m_cells[0]] in storage order (L967), so assigning
    through the iterator is a map with an accumulator over that vector. Returns
    the accumulated size too (used by CellArray). *)
Fixpoint renumber (acc : Z) (l : list interval) : list interval * Z :=
  match l with
  | [] => ([], acc)
  | i :: l =>
      let '(l', acc') := renumber (acc + isize i) l in
      (mkI (istart i) (iend i) (istep i) (acc - istart i) :: l', acc')
  end.

Definition update_index_from (acc : Z) (a : lca) : lca * Z :=
  let '(l, acc') := renumber acc (a_cells a 0) in
  (mkLca (a_level a) (upd (a_cells a) 0 l) (a_offsets a), acc').

Definition update_index (a : lca) : lca := fst (update_index_from 0 a).
