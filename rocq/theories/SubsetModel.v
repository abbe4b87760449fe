(** Model of the algebra of sets: include/samurai/subset/{node_op, subset_node,
    subset_op_base, subset_op}.hpp and static_nested_loop
    (include/samurai/static_algorithm.hpp).

    As in LcaModel the dimension is [S n]. Every function that reads a vector at a
    computed position returns an [option]; [None] is an out-of-range access (or a
    loop that does not end within its fuel). *)
From Verif Require Import Base IntervalModel LoiModel LcaModel.
Open Scope Z_scope.

Definition INT_MAX : Z := 2147483647.
Definition INT_MIN : Z := -2147483648.

Notation "'let*' x ':=' e 'in' k" := (match e with Some x => k | None => None end)
  (at level 200, x pattern, e at level 100, k at level 200, right associativity).

(** subset_node.hpp L22-26 *)
Definition shift_value (v s : Z) : Z := if 0 <=? s then Z.shiftl v s else Z.shiftr v (- s).

(** ** Nodes: node_op.hpp *)

(** mesh_node (L182-310), translate_op (L316-375), projection_op (L381-448). A
    projection carries m_shift_level and m_level. *)
Inductive node :=
| NMesh (a : lca)
| NTrans (t : list Z) (nd : node)
| NProj (shift_level : Z) (level : nat) (nd : node).

Fixpoint node_data (nd : node) : lca :=
  match nd with NMesh a => a | NTrans _ nd => node_data nd | NProj _ _ nd => node_data nd end.

(** L161-165, L300-304, L444-448 *)
Fixpoint node_level (nd : node) : nat :=
  match nd with NMesh a => a_level a | NTrans _ nd => node_level nd | NProj _ l _ => l end.

(** L167-171, L306-310 *)
Definition node_is_empty (nd : node) : bool := lca_is_empty (node_data nd).

(** L98-102, L232-236 *)
Definition node_size (nd : node) (d : nat) : nat := length (a_cells (node_data nd) d).

(** L238-246, L359-363, L426-430 *)
Fixpoint node_start (nd : node) (d k : nat) : option Z :=
  match nd with
  | NMesh a => if lca_is_empty a then Some INT_MAX else option_map istart (nth_error (a_cells a d) k)
  | NTrans t nd => option_map (fun v => v + nth d t 0) (node_start nd d k)
  | NProj s _ nd => option_map (fun v => if 0 <=? s then Z.shiftl v s else Z.shiftr v (- s)) (node_start nd d k)
  end.

(** L248-256, L365-369, L432-436 *)
Fixpoint node_end (nd : node) (d k : nat) : option Z :=
  match nd with
  | NMesh a => if lca_is_empty a then Some INT_MAX else option_map iend (nth_error (a_cells a d) k)
  | NTrans t nd => option_map (fun v => v + nth d t 0) (node_end nd d k)
  | NProj s _ nd => option_map (fun v => if 0 <=? s then Z.shiftl v s else Z.shiftr v (- s)) (node_end nd d k)
  end.

(** L116-120, L258-262; [offsets(d)] is [m_offsets[d - 1]]. *)
Definition node_offset (nd : node) (d k : nat) : option nat := nth_error (a_offsets (node_data nd) (pred d)) k.

(** L122-126, L270-274 *)
Definition node_interval (nd : node) (d k : nat) : option interval := nth_error (a_cells (node_data nd) d) k.

(** L128-133, L276-280; inner [None] is SIZE_MAX. *)
Definition node_find (nd : node) (d lo hi : nat) (coord : Z) : option (option nat) :=
  find_on_dim (node_data nd) d lo hi coord.

(** L282-286, L371-375, L438-442: the transformation of the inner node is not
    applied. *)
Definition node_transform (nd : node) (d : nat) (coord : Z) : Z :=
  match nd with
  | NMesh _ => coord
  | NTrans t _ => coord - nth d t 0
  | NProj s _ _ => if 0 <=? s then Z.shiftr coord s else Z.shiftl coord (- s)
  end.

(** L481-487 and L489-495 (the rvalue constructor, L411-417, sets m_level). *)
Definition translate (t : list Z) (nd : node) : node := NTrans t nd.
Definition projection (nd : node) (level : nat) : node :=
  NProj (Z.of_nat level - Z.of_nat (node_level nd)) level nd.

(** ** subset_node: subset_node.hpp L65-94 *)

(** Per-dimension state. m_index = SIZE_MAX (invalid state, never read) is
    represented by 0. *)
Record cursor := mkC {
  c_index : nat; c_ipos : bool; c_start : nat; c_end : nat;
  c_soff : nat; c_eoff : nat; c_cur : Z;
  c_work : list interval; c_woffs : list (nat * nat) }.

(** m_d is not stored: reset sets it to dim - 1 and decrement_dim/increment_dim
    bracket the recursive calls, so that it is the [d] of the enclosing apply;
    it is an argument of the functions below. *)
Record leaf := mkLeaf { l_node : node; l_shift : Z; l_cs : nat -> cursor }.

Definition set_cursor (lf : leaf) (d : nat) (c : cursor) : leaf :=
  mkLeaf (l_node lf) (l_shift lf) (upd (l_cs lf) d c).

(** L498-509 *)
Definition leaf_set_shift (ref common : nat) (lf : leaf) : leaf :=
  mkLeaf (l_node lf)
    (Z.min (Z.of_nat ref - Z.of_nat (node_level (l_node lf))) (Z.of_nat common - Z.of_nat (node_level (l_node lf))))
    (l_cs lf).

(** L135-157 *)
Definition leaf_reset (n : nat) (lf : leaf) : option leaf :=
  let c := l_cs lf n in
  let size := node_size (l_node lf) n in
  let* cur := (if Nat.eqb 0 size then Some INT_MAX
               else option_map (fun v => shift_value v (l_shift lf)) (node_start (l_node lf) n 0)) in
  Some (set_cursor lf n (mkC 0 false 0 size 0 size cur (c_work c) (c_woffs c))).

(** L116-120 and L163-176 *)
Definition cursor_is_valid (c : cursor) : bool := negb (Nat.eqb (c_end c) (c_start c)).
Definition leaf_eval (d : nat) (scan : Z) (lf : leaf) : bool :=
  let c := l_cs lf d in negb (xorb (scan <? c_cur c) (c_ipos c)) && cursor_is_valid c.

(** The invalid state of L185-189, L253-257, L366-370, followed by L377. *)
Definition invalid_cursor (c : cursor) : cursor :=
  mkC 0 false 0 0 (c_soff c) (c_eoff c) INT_MAX (c_work c) (c_woffs c).

(** L304-307 / L330-337: the offsets of the row of dimension d - 1 below
    coordinate [y] of dimension d, searched between positions [lo] and [hi]. *)
Definition child_row (nd : node) (d lo hi : nat) (y : Z) : option (option (nat * nat)) :=
  let* found := node_find nd d lo hi (node_transform nd d y) in
  match found with
  | None => Some None
  | Some index =>
      let* i := node_interval nd d index in
      let* off_ind := z_index (iindex i + node_transform nd d y) in
      let* o1 := node_offset nd d off_ind in
      let* o2 := node_offset nd d (off_ind + 1) in
      Some (Some (o1, o2))
  end.

(** L309-318 / L339-348: project the intervals of positions [ks] of dimension m. *)
Fixpoint project_row (nd : node) (m : nat) (k : Z) (ks : list nat) (l : list interval) : option (list interval) :=
  match ks with
  | [] => Some l
  | o :: ks =>
      let* s := node_start nd m o in
      let* e := node_end nd m o in
      let start := Z.shiftr s k in
      let end_ := Z.shiftr (e - 1) k + 1 in
      let end_ := if start =? end_ then end_ + 1 else end_ in
      project_row nd m k ks (add_interval l (mk start end_))
  end.

(** L300-320 / L328-350: loop over the children coordinates [ys]. *)
Fixpoint gather (nd : node) (d lo hi : nat) (k : Z) (ys : list Z) (acc : list (nat * nat) * list interval)
  : option (list (nat * nat) * list interval) :=
  match ys with
  | [] => Some acc
  | y :: ys =>
      let* r := child_row nd d lo hi y in
      match r with
      | None => gather nd d lo hi k ys acc
      | Some (o1, o2) =>
          let* l := project_row nd (pred d) k (seq o1 (o2 - o1)) (snd acc) in
          gather nd d lo hi k ys (fst acc ++ [(o1, o2)], l)
      end
  end.

(** L326-351: loop over the rows gathered at dimension d. *)
Fixpoint gather_rows (nd : node) (d : nat) (k : Z) (ys : list Z) (rows : list (nat * nat))
  (acc : list (nat * nat) * list interval) : option (list (nat * nat) * list interval) :=
  match rows with
  | [] => Some acc
  | (lo, hi) :: rows =>
      let* acc := gather nd d lo hi k ys acc in
      gather_rows nd d k ys rows acc
  end.

(** L178-379, from dimension [S m] to [m]. *)
Definition leaf_decrement (n m : nat) (i : Z) (lf : leaf) : option leaf :=
  let d := S m in
  let nd := l_node lf in
  let s := l_shift lf in
  let c := l_cs lf d in
  let c' := l_cs lf m in
  if c_cur c =? INT_MAX then Some (set_cursor lf m (invalid_cursor c'))
  else
    let shift_i := shift_value i (- s) in
    if 0 <=? s then
      let* r := child_row nd d (c_soff c) (c_eoff c) shift_i in
      match r with
      | None => Some (set_cursor lf m (invalid_cursor c'))
      | Some (o1, o2) =>
          let* v := node_start nd m o1 in
          Some (set_cursor lf m (mkC o1 false o1 o2 o1 o2 (shift_value v s) (c_work c') (c_woffs c')))
      end
    else
      let ys := zrange shift_i (shift_i + Z.shiftl 1 (- s)) in
      let* r := (if Nat.eqb d n then gather nd d (c_soff c) (c_eoff c) (- s) ys ([], [])
                 else gather_rows nd d (- s) ys (c_woffs c) ([], [])) in
      let '(woffs, work) := r in
      match work with
      | [] => Some (set_cursor lf m (mkC 0 false 0 0 (c_soff c') (c_eoff c') INT_MAX [] woffs))
      | i0 :: _ => Some (set_cursor lf m (mkC 0 false 0 (length work) (c_soff c') (c_eoff c') (istart i0) work woffs))
      end.

(** L430-445: the merging loop of the top dimension. *)
Fixpoint merge_next (fuel : nat) (nd : node) (d : nat) (s : Z) (index end_ : nat) (value : Z) : option (nat * Z) :=
  if Nat.ltb (index + 1) end_ then
    match fuel with
    | O => None
    | S fuel =>
        let* st := node_start nd d (index + 1) in
        if shift_value st s <=? value then
          let* e := node_end nd d (index + 1) in
          merge_next fuel nd d s (index + 1) end_ (shift_value (e - 1) s + 1)
        else Some (index, value)
    end
  else Some (index, value).

(** L387-461 *)
Definition leaf_update (n d : nat) (scan sentinel : Z) (lf : leaf) : option leaf :=
  let nd := l_node lf in
  let s := l_shift lf in
  let c := l_cs lf d in
  if scan =? c_cur c then
    if c_ipos c then
      let index := S (c_index c) in
      let* cur :=
        (if Nat.leb (c_end c) index then Some sentinel
         else if (0 <=? s) || Nat.eqb d n then option_map (fun v => shift_value v s) (node_start nd d index)
         else option_map istart (nth_error (c_work c) index)) in
      Some (set_cursor lf d (mkC index false (c_start c) (c_end c) (c_soff c) (c_eoff c) cur (c_work c) (c_woffs c)))
    else
      let* r :=
        (if 0 <=? s then option_map (fun v => (c_index c, shift_value v s)) (node_end nd d (c_index c))
         else if Nat.eqb d n then
           let* e := node_end nd d (c_index c) in
           let value := shift_value (e - 1) s + 1 in
           let value := if c_cur c =? value then value + 1 else value in
           merge_next (c_end c) nd d s (c_index c) (c_end c) value
         else option_map (fun i => (c_index c, iend i)) (nth_error (c_work c) (c_index c))) in
      let '(index, cur) := r in
      Some (set_cursor lf d (mkC index true (c_start c) (c_end c) (c_soff c) (c_eoff c) cur (c_work c) (c_woffs c)))
  else Some lf.

(** L463-467 *)
Definition leaf_min (d : nat) (lf : leaf) : Z := c_cur (l_cs lf d).

(** L469-490; [e & 1] is [e mod 2]. *)
Definition leaf_max (n d : nat) (lf : leaf) : option Z :=
  let nd := l_node lf in
  let s := l_shift lf in
  let c := l_cs lf d in
  if Nat.eqb (c_start c) (c_end c) then Some INT_MIN
  else if 0 <=? s then option_map (fun e => shift_value (e + e mod 2) s) (node_end nd d (c_end c - 1))
  else if Nat.eqb d n then option_map (fun e => shift_value (e - 1) s + 1) (node_end nd d (c_end c - 1))
  else match c_work c with
       | [] => Some INT_MIN
       | w => option_map iend (nth_error w (length w - 1))
       end.

(** ** Operators: subset_op.hpp *)

Inductive fn := Intersect | Union | Difference.

(** Expression trees; an operator has at least one argument. *)
Inductive tree (A : Type) : Type :=
| Lf (x : A)
| Nd (f : fn) (es : args A)
with args (A : Type) : Type :=
| One (e : tree A)
| More (e : tree A) (es : args A).
Arguments Lf {A}. Arguments Nd {A}. Arguments One {A}. Arguments More {A}.

Fixpoint tmap {A B} (g : A -> B) (t : tree A) : tree B :=
  match t with Lf x => Lf (g x) | Nd f es => Nd f (amap g es) end
with amap {A B} (g : A -> B) (es : args A) : args B :=
  match es with One e => One (tmap g e) | More e es => More (tmap g e) (amap g es) end.

Fixpoint tmapM {A B} (g : A -> option B) (t : tree A) : option (tree B) :=
  match t with
  | Lf x => let* y := g x in Some (Lf y)
  | Nd f es => let* es' := amapM g es in Some (Nd f es')
  end
with amapM {A B} (g : A -> option B) (es : args A) : option (args B) :=
  match es with
  | One e => let* e' := tmapM g e in Some (One e')
  | More e es => let* e' := tmapM g e in let* es' := amapM g es in Some (More e' es')
  end.

(** L17-26, L52-61, L87-96: variadic functors on the list of argument values. *)
Fixpoint and_all (bs : list bool) : bool :=
  match bs with [] => true | [a] => a | a :: bs => a && and_all bs end.
Fixpoint or_all (bs : list bool) : bool :=
  match bs with [] => false | [a] => a | a :: bs => a || or_all bs end.
Fixpoint not_all (bs : list bool) : bool :=
  match bs with [] => true | [a] => negb a | a :: bs => negb a && not_all bs end.

(** L17-26, L52-61, L105-116 *)
Definition fn_eval (f : fn) (d : nat) (bs : list bool) : bool :=
  match f, bs with
  | Intersect, _ => and_all bs
  | Union, _ => or_all bs
  | Difference, a :: bs => if Nat.ltb 0 d then a || or_all bs else a && not_all bs
  | Difference, [] => false
  end.

(** L28-37, L63-72, L118-122 *)
Definition fn_is_empty (f : fn) (bs : list bool) : bool :=
  match f, bs with
  | Intersect, _ => or_all bs
  | Union, _ => and_all bs
  | Difference, a :: _ => a
  | Difference, [] => true
  end.

(** subset_op_base.hpp L174-183 *)
Fixpoint teval (d : nat) (t : tree bool) : bool :=
  match t with Lf b => b | Nd f es => fn_eval f d (aeval d es) end
with aeval (d : nat) (es : args bool) : list bool :=
  match es with One e => [teval d e] | More e es => teval d e :: aeval d es end.

(** L224-233 *)
Fixpoint tempty (t : tree bool) : bool :=
  match t with Lf b => b | Nd f es => fn_is_empty f (aempty es) end
with aempty (es : args bool) : list bool :=
  match es with One e => [tempty e] | More e es => tempty e :: aempty es end.

(** L269-293: do_min / do_max of the arguments (utils.hpp L249-280); the minimum
    is associative, the nesting does not matter. *)
Fixpoint tmin (t : tree Z) : Z :=
  match t with Lf v => v | Nd _ es => amin es end
with amin (es : args Z) : Z :=
  match es with One e => tmin e | More e es => Z.min (tmin e) (amin es) end.
Fixpoint tmax (t : tree Z) : Z :=
  match t with Lf v => v | Nd _ es => amax es end
with amax (es : args Z) : Z :=
  match es with One e => tmax e | More e es => Z.max (tmax e) (amax es) end.

(** L299-308 *)
Fixpoint tlevel (t : tree nat) : nat :=
  match t with Lf v => v | Nd _ es => alevel es end
with alevel (es : args nat) : nat :=
  match es with One e => tlevel e | More e es => Nat.max (tlevel e) (alevel es) end.

Definition common_level (t : tree leaf) : nat := tlevel (tmap (fun lf => node_level (l_node lf)) t).

(** ** subset_operator: subset_op_base.hpp *)

(** The operator tree with its leaves' states, and m_ref_level. The m_ref_level of
    inner operators is not represented: only set_shift, which recurses to the
    leaves (L323-332), matters for them. *)
Record subset := mkSub { s_tree : tree leaf; s_ref : nat }.

(** L156-167, L323-332 *)
Definition subset_init (ref : nat) (t : tree leaf) : subset :=
  mkSub (tmap (leaf_set_shift ref (common_level t)) t) ref.

(** A cursor before any reset; its content is irrelevant (see replay theorem). *)
Definition cursor0 : cursor := mkC 0 false 0 0 0 0 0 [] [].
Definition leaf_of (nd : node) : leaf := mkLeaf nd 0 (fun _ => cursor0).

(** L102-108: intersection(...), union_(...), difference(...) on arguments that are
    nodes ([Lf (leaf_of nd)]) or other operators. *)
Definition make_op (f : fn) (es : args leaf) : subset := 
  subset_init (common_level (Nd f es)) (Nd f es).

(** L143-149 *)
Definition on (s : subset) (ref : nat) : subset := subset_init ref (s_tree s).

(** static_algorithm.hpp L53-90: the outermost loop sets the last component. *)
Fixpoint nested_loop (k : nat) (start end_ : Z) : list (list Z) :=
  match k with
  | O => [[]]
  | S k => flat_map (fun i => map (fun l => l ++ [i]) (nested_loop k start end_)) (zrange start end_)
  end.

(** A call of the user's function: f(interval, index_yz). *)
Definition call := (interval * list Z)%type.

Definition add_yz (a b : list Z) : list Z := map (fun '(x, y) => x + y) (combine a b).

(** L357-389 *)
Definition emit (n ref common : nat) (result : interval) (yz : list Z) : list call :=
  if Nat.leb ref common then [(result, yz)]
  else
    let sh := Z.of_nat (ref - common) in
    let yz' := map (fun y => Z.shiftl y sh) yz in
    map (fun st => (ishl result sh, add_yz yz' st)) (nested_loop n 0 (Z.shiftl 1 sh)).

(** L417-461: the while loop. [r] is [Some start] when r_ipos = 1. [sub] is
    sub_apply. *)
Fixpoint scan_loop (fuel n d : nat) (sub : interval -> tree leaf -> option (tree leaf * list call))
  (sentinel scan : Z) (r : option Z) (t : tree leaf) : option (tree leaf * list call) :=
  if scan <? sentinel then
    match fuel with
    | O => None
    | S fuel =>
        let in_res := teval d (tmap (leaf_eval d scan) t) in
        let* (r, t, calls) :=
          match r, in_res with
          | None, true => Some (Some scan, t, [])
          | Some s, false =>
              if is_valid (mk s scan) then let* (t, calls) := sub (mk s scan) t in Some (None, t, calls)
              else Some (None, t, [])
          | _, _ => Some (r, t, [])
          end in
        let* t := tmapM (leaf_update n d scan sentinel) t in
        let* (t, calls') := scan_loop fuel n d sub sentinel (tmin (tmap (leaf_min d) t)) r t in
        Some (t, calls ++ calls')
    end
  else Some (t, []).

(** Twice the number of intervals to look at in all leaves, plus one: a bound on
    the number of turns of the loop. *)
Fixpoint tsum (t : tree nat) : nat :=
  match t with Lf v => v | Nd _ es => asum es end
with asum (es : args nat) : nat :=
  match es with One e => tsum e | More e es => (tsum e + asum es)%nat end.
Definition scan_fuel (d : nat) (t : tree leaf) : nat :=
  tsum (tmap (fun lf => 2 * (c_end (l_cs lf d) - c_start (l_cs lf d)) + 1)%nat t).

(** L343-350: the loop of sub_apply for d > 0, over the values [is]. *)
Fixpoint sub_loop (n m : nat) (rec : list Z -> tree leaf -> option (tree leaf * list call))
  (yz : list Z) (is : list Z) (t : tree leaf) : option (tree leaf * list call) :=
  match is with
  | [] => Some (t, [])
  | i :: is =>
      let* t := tmapM (leaf_decrement n m i) t in
      let* (t, calls) := rec (i :: yz) t in
      let* (t, calls') := sub_loop n m rec yz is t in
      Some (t, calls ++ calls')
  end.

(** L396-462 with sub_apply L339-389. [yz] holds m_index_yz[d], ..., m_index_yz[dim-2]. *)
Fixpoint apply (n ref d : nat) (yz : list Z) (t : tree leaf) : option (tree leaf * list call) :=
  if tempty (tmap (fun lf => node_is_empty (l_node lf)) t) then Some (t, [])
  else
    let sub result t :=
      match d with
      | O => Some (t, emit n ref (common_level t) result yz)
      | S m => sub_loop n m (apply n ref m) yz (zrange (istart result) (iend result)) t
      end in
    let* ms := tmapM (leaf_max n d) t in
    scan_loop (scan_fuel d t) n d sub (tmax ms + 1) (tmin (tmap (leaf_min d) t)) None t.

(** L114-120: operator(). Returns the operator in its final state and the calls. *)
Definition subset_run (n : nat) (s : subset) : option (subset * list call) :=
  let* t := tmapM (leaf_reset n) (s_tree s) in
  let* (t, calls) := apply n (s_ref s) n [] t in
  Some (mkSub t (s_ref s), calls).

(** The calls of the user's function alone. *)
Definition subset_calls (n : nat) (s : subset) : option (list call) := option_map snd (subset_run n s).

(** level_cell_array.hpp L320-332: LevelCellArray(subset). *)
Definition lca_of_subset (n : nat) (s : subset) : option lca :=
  let* calls := subset_calls n s in
  Some (lca_of_lcl (lcl_run n (s_ref s) (map (fun '(i, yz) => AddI yz i) calls))).

(** node_op.hpp L508-512 (and L497-506 with every component of [c] equal to the
    size): contraction(t, c). *)
Definition contraction (nd : node) (c : list Z) : subset :=
  make_op Intersect (More (Lf (leaf_of (translate c nd))) (One (Lf (leaf_of (translate (map Z.opp c) nd))))).

(** node_op.hpp L514-568: the sign vectors in the order of expand_impl, first
    component fastest (the code writes them out for dimensions 1 to 3). *)
Fixpoint signs (dim : nat) : list (list Z) :=
  match dim with
  | O => [[]]
  | S d => map (fun l => l ++ [1]) (signs d) ++ map (fun l => l ++ [-1]) (signs d)
  end.
Fixpoint args_of {A} (e : tree A) (es : list (tree A)) : args A :=
  match es with [] => One e | e' :: es => More e (args_of e' es) end.
Definition expand (n : nat) (nd : node) (size : Z) : subset :=
  match map (fun sg => Lf (leaf_of (translate (map (Z.mul size) sg) nd))) (signs (S n)) with
  | [] => make_op Union (One (Lf (leaf_of nd)))
  | e :: es => make_op Union (args_of e es)
  end.
