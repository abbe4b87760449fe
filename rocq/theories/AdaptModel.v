(** Model of mesh adaptation from tags: algorithm/update.hpp (update_field,
    update_field_mr, detail::update_fields), mr/operators.hpp (maximum) and
    cell_flag.hpp. *)
From Coq Require Import QArith.
From Verif Require Import Base IntervalModel LoiModel LcaModel CellArrayModel SubsetModel MeshModel NumModel.
Open Scope Z_scope.

(** cell_flag.hpp L8-14 *)
Definition flag_keep : Z := 1.
Definition flag_coarsen : Z := 2.
Definition flag_refine : Z := 4.
Definition flag_enlarge : Z := 8.

(** [tag & static_cast<int>(flag)] as a condition. *)
Definition has (flag tag : Z) : bool := negb (Z.land tag flag =? 0).

(** ** The new cell list: update.hpp L758-799 and L829-870 *)

(** Body of the loop over the cells of an interval: the calls [cl[level']...] for the
    cell [x] of the row [yz], whose tag is [t]. *)
Definition tag_body (n minl maxl level : nat) (yz : list Z) (x t : Z) : list (nat * lcl_call) :=
  if has flag_refine t then
    if Nat.ltb level maxl then
      map (fun stencil => (S level, AddI (add_yz (map (Z.mul 2) yz) stencil) (mk (2 * x) (2 * x + 2)))) (nested_loop n 0 2)
    else [(level, AddP yz x)]
  else if has flag_keep t then [(level, AddP yz x)]
  else if has flag_coarsen t then
    if Nat.ltb minl level then [(Nat.pred level, AddP (map (fun y => Z.shiftr y 1) yz) (Z.shiftr x 1))]
    else [(level, AddP yz x)]
  else [].

(** [for (i = start; i < end; ++i) { ...; itag++; }]; [k] is the number of turns left.
    [tag] is the storage of the field; its size is not modelled. *)
Fixpoint tag_loop (n minl maxl level : nat) (tag : Z -> Z) (yz : list Z) (k : nat) (x itag : Z) : list (nat * lcl_call) :=
  match k with
  | O => []
  | S k => tag_body n minl maxl level yz x (tag itag) ++ tag_loop n minl maxl level tag yz k (x + 1) (itag + 1)
  end.

Definition tag_calls (n minl maxl : nat) (cells : ca) (tag : Z -> Z) : option (list (nat * lcl_call)) :=
  let* calls := ca_for_each_interval n cells in
  Some (flat_map (fun '(level, (i, yz)) =>
    tag_loop n minl maxl level tag yz (Z.to_nat (iend i - istart i)) (istart i) (istart i + iindex i)) calls).

(** [cl[level]] for a level above max_size is out of range. The cells of
    [new_mesh = {cl, mesh}] before their renumbering (mesh.hpp L303-323). *)
Definition hist_of (cs : list (nat * lcl_call)) (level : nat) : list lcl_call :=
  map snd (filter (fun '(l, _) => Nat.eqb l level) cs).
Definition update_cells (n minl maxl : nat) (cells : ca) (tag : Z -> Z) : option ca :=
  let* cs := tag_calls n minl maxl cells tag in
  if forallb (fun '(l, _) => Nat.leb l (c_max cells)) cs then
    Some (ca_of_cl n (c_max cells) (cl_run n (hist_of cs)) false)
  else None.

(** ** Transfer of a field: update.hpp L685-721 *)

(** A field on all levels: [u level x yz]. *)
Definition lfield := nat -> field.

Fixpoint zlist_eqb (a b : list Z) : bool :=
  match a, b with
  | [], [] => true
  | x :: a, y :: b => (x =? y) && zlist_eqb a b
  | _, _ => false
  end.

(** Assignments, in order. *)
Definition write1 (u : field) (w : write) : field :=
  let '(x, yz, q) := w in fun x' yz' => if (x' =? x) && zlist_eqb yz' yz then q else u x' yz'.
Definition write_all (ws : list write) (u : field) : field := fold_left write1 ws u.

(** [set.apply_op(op)] with an operator writing on level [dest]. *)
Definition apply_op (n dest : nat) (set : subset) (op : interval -> list Z -> option (list write)) (v : lfield) : option lfield :=
  let* calls := subset_calls n set in
  let* ws := mapM (fun '(i, yz) => op i yz) calls in
  Some (upd v dest (write_all (concat ws) (v dest))).

Definition inter (a b : lca) : subset := make_op Intersect (More (Lf (leaf_of (NMesh a))) (One (Lf (leaf_of (NMesh b))))).

(** algorithm/utils.hpp L19-49: dest(level, i, index) = src(level, i, index). *)
Definition copy_op (u : field) (i : interval) (yz : list Z) : option (list write) := assign i yz (view u i yz).

Definition copy_level (n : nat) (old new : ca) (u : lfield) (v : lfield) (level : nat) : option lfield :=
  apply_op n level (inter (c_at old level) (c_at new level)) (copy_op (u level)) v.

Definition move_level (n order : nat) (old new : ca) (u : lfield) (v : lfield) (level : nat) : option lfield :=
  let* v := apply_op n (Nat.pred level) (on (inter (c_at old level) (c_at new (Nat.pred level))) (Nat.pred level))
              (projection_op_ (u level)) v in
  apply_op n level (on (inter (c_at new level) (c_at old (Nat.pred level))) (Nat.pred level))
    (prediction_true order (u (Nat.pred level))) v.

Fixpoint fold_levels (f : lfield -> nat -> option lfield) (ls : list nat) (v : lfield) : option lfield :=
  match ls with [] => Some v | l :: ls => let* v := f v l in fold_levels f ls v end.

(** new_field.fill(0), then the two loops. *)
Definition update_fields (n order minl maxl : nat) (old new : ca) (u : lfield) : option lfield :=
  let* v := fold_levels (copy_level n old new u) (seq minl (S maxl - minl)) (fun _ _ _ => 0%Q) in
  fold_levels (move_level n order old new u) (seq (S minl) (maxl - minl)) v.

(** ** The reduction of tags on sibling groups: mr/operators.hpp L20-128 *)

(** A tag field on all levels. *)
Definition tfield := nat -> Z -> list Z -> Z.

(** The children of the cell [x] of the row [yz], in the order of the code. *)
Definition children (x : Z) (yz : list Z) : list (Z * list Z) :=
  map (fun par => (2 * x + bz (hd false par), fine_row yz (tl par))) (parities (S (length yz))).

Definition twrite (t : tfield) (level : nat) (x : Z) (yz : list Z) (v : Z) : tfield :=
  fun l x' yz' => if Nat.eqb l level && (x' =? x) && zlist_eqb yz' yz then v else t l x' yz'.

(** [xt::masked_view(field(level, ...), mask) |= flag] (resp. [&= ~flag]) for a view
    given by its cells. *)
Definition masked (f : Z -> Z) (level : nat) (cells : list (Z * list Z)) (mask : list bool) (t : tfield) : tfield :=
  fold_left (fun t '((x, yz), m) => if m : bool then twrite t level x yz (f (t level x yz)) else t) (combine cells mask) t.

(** The views of child number [k] for all the cells of the interval. *)
Definition child_view (i : interval) (yz : list Z) (k : nat) : list (Z * list Z) :=
  map (fun x => nth k (children x yz) (0, [])) (strided i).

Definition maximum_op (level : nat) (i : interval) (yz : list Z) (t : tfield) : tfield :=
  let nb := length (parities (S (length yz))) in
  let flags t f := map (fun x => map (fun '(cx, cyz) => Z.land (t (S level) cx cyz) f) (children x yz)) (strided i) in
  (* mask = (child0 & keep) | (child1 & keep) | ... *)
  let mask := map (fun l => negb (fold_left Z.lor l 0 =? 0)) (flags t flag_keep) in
  let t := fold_left (fun t k => masked (fun v => Z.lor v flag_keep) (S level) (child_view i yz k) mask t) (seq 0 nb) t in
  let t := masked (fun v => Z.lor v flag_keep) level (map (fun x => (x, yz)) (strided i)) mask t in
  (* mask = (child0 & coarsen) & (child1 & coarsen) & ... *)
  let mask := map (fun l => negb (fold_left Z.land l (-1) =? 0)) (flags t flag_coarsen) in
  let t := fold_left (fun t k => masked (fun v => Z.land v (Z.lnot flag_coarsen)) (S level) (child_view i yz k) (map negb mask) t) (seq 0 nb) t in
  masked (fun v => Z.lor v flag_keep) level (map (fun x => (x, yz)) (strided i)) mask t.

(** [keep_subset.apply_op(maximum(tag))] for the calls of the subset. *)
Definition maximum_calls (level : nat) (calls : list (interval * list Z)) (t : tfield) : tfield :=
  fold_left (fun t '(i, yz) => maximum_op level i yz t) calls t.

(** mr/adapt.hpp L335-344 without periodicity and without MPI (update_tag_periodic
    and update_tag_subdomains then do nothing): for level = maxl, ..., 1. *)
Definition maximum_level (n : nat) (cells all_cells : ca) (t : tfield) (level : nat) : option tfield :=
  let* calls := subset_calls n (on (inter (c_at cells level) (c_at all_cells (Nat.pred level))) (Nat.pred level)) in
  Some (maximum_calls (Nat.pred level) calls t).
Fixpoint maximum_levels (n : nat) (cells all_cells : ca) (ls : list nat) (t : tfield) : option tfield :=
  match ls with
  | [] => Some t
  | l :: ls => let* t := maximum_level n cells all_cells t l in maximum_levels n cells all_cells ls t
  end.
Definition final_pass (n maxl : nat) (cells all_cells : ca) (t : tfield) : option tfield :=
  maximum_levels n cells all_cells (rev (seq 1 maxl)) t.
