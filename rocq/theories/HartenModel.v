(** Model of the adaptation of a multiresolution mesh: [Adapt::operator()] and
    [Adapt::harten] (mr/adapt.hpp L127-155, L197-351), the operators it applies
    (mr/operators.hpp, mr/criteria.hpp, algorithm/utils.hpp) and [update_field_mr]
    (algorithm/update.hpp L817-887).

    One field with one component, exact arithmetic, one rank, no periodic direction
    ([update_tag_subdomains], [update_tag_periodic], [update_ghost_subdomains] and
    [keep_only_one_coarse_tag] then do nothing). The fields are maps from levels and cells;
    a read or a write of a cell without a number in the reference mesh is an error
    ([None]), as is the union of two views of different lengths. *)
From Coq Require Import QArith Qabs.
From Verif Require Import Base IntervalModel LoiModel LcaModel CellArrayModel SubsetModel StencilModel MeshModel NumModel AdaptModel MrModel GhostModel.
Open Scope Z_scope.

Definition cut (p : list Z) : Z * list Z := (hd 0 p, tl p).

(** [xt::masked_view(tag(level, cells), mask) |= flag], resp. [= flag]. *)
Definition update_view (n : nat) (reference : ca) (f : Z -> Z) (level : nat) (cells : list (list Z)) (mask : list bool) (t : tfield) : option tfield :=
  checked (forallb (stored n reference level) cells && Nat.eqb (length cells) (length mask))
    (Some (masked f level (map cut cells) mask t)).
Definition or_view (n : nat) (reference : ca) (flag : Z) := update_view n reference (fun v => Z.lor v flag).
Definition set_view (n : nat) (reference : ca) (flag : Z) := update_view n reference (fun _ => flag).

(** [tag(level, cells) & flag] used as a mask. *)
Definition flag_mask (flag : Z) (level : nat) (cells : list (list Z)) (t : tfield) : list bool :=
  map (fun p => negb (Z.land (t level (hd 0 p) (tl p)) flag =? 0)) cells.

(** [set.apply_op(op)] with an operator that updates the tags, call after call. *)
Fixpoint fold_calls {A} (op : interval -> list Z -> A -> option A) (calls : list (interval * list Z)) (t : A) : option A :=
  match calls with
  | [] => Some t
  | (i, yz) :: calls => let* t := op i yz t in fold_calls op calls t
  end.
Definition apply_tags {A} (n : nat) (set : subset) (op : interval -> list Z -> A -> option A) (t : A) : option A :=
  let* calls := subset_calls n set in fold_calls op calls t.
Fixpoint fold_tags {A B} (f : A -> B -> option A) (ls : list B) (t : A) : option A :=
  match ls with [] => Some t | l :: ls => let* t := f t l in fold_tags f ls t end.

(** ** Marking around flagged cells

    keep_around_refine (mr/operators.hpp L648-701), enlarge (L588-641), extend (L743-798)
    and tag_to_keep<0> with a flag (algorithm/utils.hpp L60-140): the cells of the
    interval having the flag [seen] give the flag [given] to the cells at the offsets [vs].
    The mask is a lazy expression: it is evaluated for each offset. *)
Definition moved_cells (v : list Z) (i : interval) (yz : list Z) : list (list Z) := map (fun p => add_vec p v) (row_cells i yz).
Definition spread_op (n : nat) (reference : ca) (level : nat) (vs : list (list Z)) (seen given : Z) (i : interval) (yz : list Z) (t : tfield)
  : option tfield :=
  fold_tags (fun t v => or_view n reference given level (moved_cells v i yz) (flag_mask seen level (row_cells i yz) t) t) vs t.

Definition box1 (n : nat) : list (list Z) := nested_loop (S n) (-1) 2.
Definition keep_around_refine (n : nat) (reference : ca) (level : nat) := spread_op n reference level (box1 n) flag_refine flag_keep.
Definition extend (n : nat) (reference : ca) (level : nat) := spread_op n reference level (box1 n) flag_refine flag_keep.
Definition enlarge (n : nat) (reference : ca) (level : nat) := spread_op n reference level (box1 n) flag_keep flag_enlarge.
Definition tag_to_keep (n : nat) (reference : ca) (level : nat) (flag : Z) := spread_op n reference level (nested_loop (S n) 0 1) flag flag_keep.

(** ** maximum with the cells it reads and writes (mr/operators.hpp L20-128) *)
Definition maximum_tags (n : nat) (reference cells : ca) (t : tfield) (level : nat) : option tfield :=
  apply_tags n (on (inter (c_at cells level) (c_at reference (Nat.pred level))) (Nat.pred level))
    (fun i yz t => checked (forallb (stored n reference level) (projection_reads i yz) && forallb (stored n reference (Nat.pred level)) (row_cells i yz))
                     (Some (maximum_op (Nat.pred level) i yz t))) t.

(** ** balance_2to1 (mr/operators.hpp L129-160)

    [cell_flag(level, i - s) |= cell_flag(level, i) & keep]: the two views overlap, the
    right-hand side is evaluated in a temporary (xtensor semantics of an assignment without
    [noalias]). *)
Definition opposite (v : list Z) : list Z := map Z.opp v.
Definition balance_op (n : nat) (reference : ca) (level : nat) (s : list Z) (i : interval) (yz : list Z) (t : tfield) : option tfield :=
  checked (forallb (stored n reference level) (row_cells i yz))
    (or_view n reference flag_keep level (moved_cells (opposite s) i yz) (flag_mask flag_keep level (row_cells i yz) t) t).

(** ** make_graduation (mr/operators.hpp L805-870) on level [level] *)
Definition graduation_part (n : nat) (reference : ca) (level : nat) (i : interval) (yz : list Z) (t : tfield) : option tfield :=
  if is_valid i then
    checked (forallb (stored n reference level) (row_cells i yz))
      (or_view n reference flag_refine (Nat.pred level) (row_cells (ishr i 1) (map (fun y => Z.shiftr y 1) yz)) (flag_mask flag_keep level (row_cells i yz) t) t)
  else Some t.
Definition graduation_op (n : nat) (reference : ca) (level : nat) (i : interval) (yz : list Z) (t : tfield) : option tfield :=
  let* t := graduation_part n reference level (even_elements i) yz t in
  graduation_part n reference level (odd_elements i) yz t.

(** ** The two graduations: mr/adapt.hpp L266-285 and L287-310 *)

(** mr/adapt.hpp L164-194, the first coordinate first. *)
Definition box_dir (n : nat) : list (list Z) :=
  match n with
  | 0%nat => [[-1]; [1]]
  | 1%nat => [[-1; 1]; [1; 1]; [-1; -1]; [1; -1]]
  | 2%nat => [[-1; -1; -1]; [1; -1; -1]; [-1; 1; -1]; [1; 1; -1]; [-1; -1; 1]; [1; -1; 1]; [-1; 1; 1]; [1; 1; 1]]
  | _ => []
  end.
Definition grad_stencil (n : nat) (gw : Z) : list (list Z) := map (map (Z.mul gw)) (box_dir n).

Definition coarsening_step (n : nat) (gw : Z) (cells reference : ca) (t : tfield) (level : nat) : option tfield :=
  let* t := maximum_tags n reference cells t level in
  fold_tags (fun t s =>
    apply_tags n (on (make_op Intersect (More (mesh_leaf (c_at cells level)) (One (moved_leaf s (c_at reference (Nat.pred level)))))) (Nat.pred level))
      (balance_op n reference (Nat.pred level) s) t) (grad_stencil n gw) t.
Definition coarsening_graduation (n maxl : nat) (gw : Z) (cells reference : ca) (t : tfield) : option tfield :=
  fold_tags (coarsening_step n gw cells reference) (rev (seq 1 maxl)) t.

Definition refinement_step (n : nat) (gw : Z) (domain : lca) (cells reference : ca) (t : tfield) (level : nat) : option tfield :=
  let* t := apply_tags n (inter (c_at cells level) (c_at cells level)) (extend n reference level) t in
  fold_tags (fun t s =>
    apply_tags n (on (make_op Intersect (More (moved_leaf s (c_at cells level)) (More (mesh_leaf (c_at reference (Nat.pred level))) (One (mesh_leaf domain))))) level)
      (graduation_op n reference level) t) (grad_stencil n gw) t.
Definition refinement_graduation (n minl maxl : nat) (gw : Z) (domain : lca) (cells reference : ca) (t : tfield) : option tfield :=
  fold_tags (refinement_step n gw domain cells reference) (rev (seq (S minl) (maxl - minl))) t.

(** L335-343 *)
Definition final_maximum (n maxl : nat) (cells reference : ca) (t : tfield) : option tfield :=
  fold_tags (maximum_tags n reference cells) (rev (seq 1 maxl)) t.

(** L266-343 *)
Definition graduate_tags (n minl maxl : nat) (gw : Z) (domain : lca) (cells reference : ca) (t : tfield) : option tfield :=
  let* t := coarsening_graduation n maxl gw cells reference t in
  let* t := refinement_graduation n minl maxl gw domain cells reference t in
  final_maximum n maxl cells reference t.

(** ** The details: mr/operators.hpp L166-263, mr/adapt.hpp L221-225 *)

(** The values [field - w] for the predicted values [w]. *)
Definition minus_writes (u : field) (ws : list write) : list write := map (fun '(x, yz, q) => (x, yz, (u x yz - q)%Q)) ws.
Definition stencil_cells (n order : nat) (i : interval) (yz : list Z) : list (list Z) :=
  flat_map (fun p => map (add_vec p) (nested_loop (S n) (- Z.of_nat order) (Z.of_nat order + 1))) (row_cells i yz).
(** The first part writes the details of the children, the second one the detail of the
    cell itself. *)
Definition detail_op (n order : nat) (reference : ca) (u : lfield) (level : nat) (i : interval) (yz : list Z) (d : lfield) : option lfield :=
  let* d :=
    checked (forallb (stored n reference (S level)) (projection_reads i yz) && forallb (stored n reference level) (stencil_cells n order i yz))
      (let* ws := prediction_true order (u level) i yz in
       Some (upd d (S level) (write_all (minus_writes (u (S level)) ws) (d (S level))))) in
  if Nat.leb 1 level then
    checked (forallb (stored n reference (Nat.pred level)) (prediction_reads n order i yz) && forallb (stored n reference level) (row_cells i yz))
      (let* ws := prediction_false order (u (Nat.pred level)) i yz in
       Some (upd d level (write_all (minus_writes (u level) ws) (d level))))
  else Some d.

(** [top] is [max_level - ite]. *)
Definition compute_details (n order minl top : nat) (cells reference : ca) (u : lfield) : option lfield :=
  fold_tags (fun d level => apply_tags n (on (inter (c_at reference level) (c_at cells (S level))) level) (detail_op n order reference u level) d)
    (seq (Nat.pred minl) (top - Nat.pred minl)) (fun _ _ _ => 0%Q).

(** ** The criteria: mr/criteria.hpp L14-184 and L280-330, mr/adapt.hpp L228-243 *)
Definition below (a b : Q) : bool := negb (Qle_bool b a).
Definition child_cells (i : interval) (yz : list Z) (k : nat) : list (list Z) := map (fun '(x, y) => x :: y) (child_view i yz k).
Definition at_cell (d : lfield) (level : nat) (c : Z * list Z) : Q := d level (fst c) (snd c).

(** In dimension 1 only the detail of the first child is read. *)
Definition to_coarsen_mr (n : nat) (reference : ca) (d : lfield) (eps : Q) (minl level : nat) (i : interval) (yz : list Z) (t : tfield) : option tfield :=
  if Nat.ltb minl (S level) then
    let mask := map (fun x => forallb (fun c => below (Qabs (at_cell d (S level) c)) eps)
                                (match yz with [] => firstn 1 (children x yz) | _ => children x yz end)) (strided i) in
    fold_tags (fun t k => set_view n reference flag_coarsen (S level) (child_cells i yz k) mask t) (seq 0 (length (parities (S (length yz))))) t
  else Some t.

Definition to_refine_mr (n : nat) (reference : ca) (d : lfield) (eps : Q) (maxl level : nat) (i : interval) (yz : list Z) (t : tfield) : option tfield :=
  let nb := length (parities (S (length yz))) in
  let mask_ghost := map (fun x => below (eps / inject_Z (2 ^ Z.of_nat (S n)))%Q (Qabs (d level x yz))) (strided i) in
  let* t := checked (forallb (stored n reference level) (row_cells i yz))
              (fold_tags (fun t k => or_view n reference flag_keep (S level) (child_cells i yz k) mask_ghost t) (seq 0 nb) t) in
  if Nat.ltb (S level) maxl then
    fold_tags (fun t k => set_view n reference flag_refine (S level) (child_cells i yz k)
                            (map (fun c => below eps (Qabs (at_cell d (S level) c))) (child_view i yz k)) t) (seq 0 nb) t
  else Some t.

(** L230-231: eps / (1 << (dim * (max_level - level))), a shift of an [int]. *)
Definition eps_level (n maxl level : nat) (eps : Q) : option Q :=
  let exponent := Z.of_nat (S n) * Z.of_nat (maxl - level) in
  if exponent <? 31 then Some (eps / inject_Z (2 ^ exponent))%Q else None.

(** L228-243; [factor] is pow(2.0, regularity + dim). [all_cells][level - 1] with level = 0
    is out of the array. *)
Definition criteria_step (n minl maxl : nat) (eps factor : Q) (cells reference : ca) (d : lfield) (t : tfield) (level : nat) : option tfield :=
  match level with
  | O => None
  | S coarse =>
      let* eps_l := eps_level n maxl level eps in
      let set := on (inter (c_at cells level) (c_at reference coarse)) coarse in
      let* t := apply_tags n set (to_coarsen_mr n reference d eps_l minl coarse) t in
      apply_tags n set (to_refine_mr n reference d (factor * eps_l)%Q maxl coarse) t
  end.
Definition criteria (n minl maxl top : nat) (eps factor : Q) (cells reference : ca) (d : lfield) (t : tfield) : option tfield :=
  fold_tags (criteria_step n minl maxl eps factor cells reference d) (seq minl (S top - minl)) t.

(** L245-260; [r_cag] is cells_and_ghosts. *)
Definition around_step (n : nat) (enlarged : bool) (cells cag reference : ca) (t : tfield) (level : nat) : option tfield :=
  let leaves := inter (c_at cells level) (c_at cells level) in
  let* t := apply_tags n leaves (keep_around_refine n reference level) t in
  if enlarged then
    let* t := apply_tags n leaves (enlarge n reference level) t in
    apply_tags n (inter (c_at cag level) (c_at cag level)) (tag_to_keep n reference level flag_enlarge) t
  else Some t.
Definition around (n : nat) (enlarged : bool) (minl top : nat) (cells cag reference : ca) (t : tfield) : option tfield :=
  fold_tags (around_step n enlarged cells cag reference) (seq minl (S top - minl)) t.

(** L206-210, after [m_tag.fill(0)] *)
Definition keep_leaf (t : tfield) (c : nat * (list Z * Z)) : tfield := let '(l, (p, _)) := c in twrite t l (hd 0 p) (tl p) flag_keep.
Definition first_tags (n : nat) (cells : ca) : option tfield :=
  let* cs := ca_for_each_cell n cells in
  Some (fold_left keep_leaf cs (fun _ _ _ => 0)).

(** ** One iteration: L197-351

    [cells]: the leaves; [cag]: cells_and_ghosts; [reference]: all_cells; [d]: the details. *)
Definition harten_tags (n minl maxl ite : nat) (gw : Z) (eps factor : Q) (enlarged : bool) (domain : lca) (cells cag reference : ca) (d : lfield)
  : option tfield :=
  let* t := first_tags n cells in
  let* t := criteria n minl maxl (maxl - ite) eps factor cells reference d t in
  let* t := around n enlarged minl (maxl - ite) cells cag reference t in
  graduate_tags n minl maxl gw domain cells reference t.

(** A mesh with its sub-meshes and the numbering: the leaves numbered as in the reference,
    the sub-meshes, the numbered reference (mr/mesh.hpp L118-260, mesh.hpp L534-553). The
    numbers are only used by [update_cells] and by the comparison of two meshes. *)
Definition make_mesh (n m minl maxl : nat) (w : Z) (order : nat) (cells : ca) : option (ca * (mr_mesh * ca)) :=
  let* r := update_sub_mesh n m minl maxl w (Z.of_nat order) cells in
  let* subs := mr_renumber n cells r in
  match subs with
  | [cells'; _; _; _; reference] => Some (cells', (r, reference))
  | _ => None
  end.

(** The storage of a tag field: the values in the order of the numbers of the reference. *)
Definition storage_of (numbers : list (nat * (list Z * Z))) (t : tfield) (k : Z) : Z :=
  match List.find (fun '(_, (_, i)) => i =? k) numbers with
  | Some (l, (p, _)) => t l (hd 0 p) (tl p)
  | None => 0
  end.

(** mesh.hpp L868-887; both meshes have the bounds [minl] and [maxl]. *)
Definition same_mesh (n minl maxl : nat) (a b : ca) : bool :=
  forallb (fun level => lca_eqb n (c_at a level) (c_at b level)) (seq minl (S maxl - minl)).

(** algorithm/update.hpp L817-887: the new leaves, and whether the mesh is unchanged. *)
Definition update_field_mr (n m minl maxl : nat) (w : Z) (order : nat) (cells cells' reference : ca) (t : tfield) (u : lfield)
  : option (bool * (ca * lfield)) :=
  let* numbers := ca_for_each_cell n reference in
  let* new := update_cells n minl maxl cells' (storage_of numbers t) in
  let* (new', _) := make_mesh n m minl maxl w order new in
  if same_mesh n minl maxl cells' new' then Some (true, (cells, u))
  else
    let* v := update_fields n order minl maxl cells' new u in
    Some (false, (new, v)).

Record setting := mkSetting {
  h_max : nat;                       (* the largest level a CellArray can hold *)
  h_min_level : nat; h_max_level : nat;
  h_width : Z;                       (* max_stencil_width *)
  h_order : nat;                     (* prediction_order *)
  h_grad : Z;                        (* graduation_width *)
  h_eps : Q; h_factor : Q;           (* eps and pow(2, regularity + dim) *)
  h_enlarge : bool;
  h_domain : lca }.

(** [bc cells reference level] is [update_bc(level, field)] on the mesh with these leaves and
    this reference. *)
Definition harten (n : nat) (g : setting) (bc : ca -> ca -> nat -> lfield -> option lfield) (ite : nat) (cells : ca) (u : lfield)
  : option (bool * (ca * lfield)) :=
  let minl := h_min_level g in
  let maxl := h_max_level g in
  let* (cells', rr) := make_mesh n (h_max g) minl maxl (h_width g) (h_order g) cells in
  let '(r, reference) := rr in
  let* sub := construct_subdomain n maxl cells in
  let* u := update_ghost_mr n (h_order g) (bc cells (r_all r)) cells r sub u in
  let* d := compute_details n (h_order g) minl (maxl - ite) cells (r_all r) u in
  let* t := harten_tags n minl maxl ite (h_grad g) (h_eps g) (h_factor g) (h_enlarge g) (h_domain g) cells (r_ghosts r) (r_all r) d in
  update_field_mr n (h_max g) minl maxl (h_width g) (h_order g) cells cells' reference t u.

(** L127-155: iterations [ite], [ite + 1], ... while some remain. The update of the ghosts
    at L139 is repeated by the first iteration (L218). *)
Fixpoint adapt_loop (n : nat) (g : setting) (bc : ca -> ca -> nat -> lfield -> option lfield) (remaining ite : nat) (cells : ca) (u : lfield)
  : option (ca * lfield) :=
  match remaining with
  | O => Some (cells, u)
  | S remaining =>
      let* (unchanged, next) := harten n g bc ite cells u in
      if unchanged : bool then Some next
      else adapt_loop n g bc remaining (S ite) (fst next) (snd next)
  end.
Definition adapt (n : nat) (g : setting) (bc : ca -> ca -> nat -> lfield -> option lfield) (cells : ca) (u : lfield) : option (ca * lfield) :=
  if Nat.eqb (h_min_level g) (h_max_level g) then Some (cells, u)
  else adapt_loop n g bc (h_max_level g - h_min_level g) 0 cells u.
