(** Model of graduation.hpp: is_graduated and make_graduation, on a CellArray. *)
From Verif Require Import Base IntervalModel LoiModel LcaModel CellArrayModel SubsetModel MeshModel AdaptModel.
Open Scope Z_scope.

(** [intersection(translate(mesh[level], s), mesh[level_below]).on(level_below)],
    L25 and L61. *)
Definition grad_set (c : ca) (level below : nat) (s : list Z) : subset :=
  on (make_op Intersect (More (Lf (leaf_of (NTrans s (NMesh (c_at c level))))) (One (Lf (leaf_of (NMesh (c_at c below))))))) below.

(** The loops of L18-24 and L54-60: for (level = min_level + 2; level <= max_level)
    for (level_below = min_level; level_below < level - 1) for each row of the stencil. *)
Definition grad_cases (minl maxl : nat) (stencil : list (list Z)) : list (nat * nat * list Z) :=
  flat_map (fun level => flat_map (fun below => map (fun s => (level, below, s)) stencil) (seq minl (level - 1 - minl)))
    (seq (minl + 2) (S maxl - (minl + 2))).

(** L11-38: leaves at the first set on which the lambda is called. *)
Fixpoint no_call (n : nat) (c : ca) (cases : list (nat * nat * list Z)) : option bool :=
  match cases with
  | [] => Some true
  | (level, below, s) :: cases =>
      let* calls := subset_calls n (grad_set c level below s) in
      match calls with [] => no_call n c cases | _ :: _ => Some false end
  end.
Definition is_graduated (n : nat) (c : ca) (stencil : list (list Z)) : option bool :=
  no_call n c (grad_cases (min_level c) (max_level c) stencil).

(** [tag(level_below, i, index) = true], L65: None when the view is not inside one
    interval of the mesh. The storage of the field is a function of the position; its
    size is not modelled. *)
Definition tag_view (n : nat) (c : ca) (below : nat) (tag : Z -> bool) (i : interval) (yz : list Z) : option (Z -> bool) :=
  let* view := field_view n c below i yz in
  let* ps := view in
  Some (fun k => existsb (Z.eqb k) ps || tag k).
Fixpoint tag_views (n : nat) (c : ca) (below : nat) (tag : Z -> bool) (calls : list (interval * list Z)) : option (Z -> bool) :=
  match calls with [] => Some tag | (i, yz) :: calls => let* tag := tag_view n c below tag i yz in tag_views n c below tag calls end.

(** L51-70 *)
Fixpoint grad_tags (n : nat) (c : ca) (tag : Z -> bool) (cases : list (nat * nat * list Z)) : option (Z -> bool) :=
  match cases with
  | [] => Some tag
  | (level, below, s) :: cases =>
      let* calls := subset_calls n (grad_set c level below s) in
      let* tag := tag_views n c below tag calls in
      grad_tags n c tag cases
  end.

(** L78-93, body of the loop over an interval *)
Definition grad_body (n level : nat) (yz : list Z) (x : Z) (t : bool) : list (nat * lcl_call) :=
  if t then map (fun s => (S level, AddI (add_yz (map (Z.mul 2) yz) s) (mk (2 * x) (2 * x + 2)))) (nested_loop n 0 2)
  else [(level, AddP yz x)].
Fixpoint grad_loop (n level : nat) (tag : Z -> bool) (yz : list Z) (k : nat) (x itag : Z) : list (nat * lcl_call) :=
  match k with
  | O => []
  | S k => grad_body n level yz x (tag itag) ++ grad_loop n level tag yz k (x + 1) (itag + 1)
  end.
Definition grad_calls (n : nat) (c : ca) (tag : Z -> bool) : option (list (nat * lcl_call)) :=
  let* calls := ca_for_each_interval n c in
  Some (flat_map (fun '(level, (i, yz)) =>
    grad_loop n level tag yz (Z.to_nat (iend i - istart i)) (istart i) (istart i + iindex i)) calls).

(** One turn of the loop up to [Mesh new_ca = {cl, true}], L49-97. *)
Definition grad_step (n minl maxl : nat) (stencil : list (list Z)) (c : ca) : option ca :=
  let* tag := grad_tags n c (fun _ => false) (grad_cases minl maxl stencil) in
  let* cs := grad_calls n c tag in
  if forallb (fun '(l, _) => Nat.leb l (c_max c)) cs then Some (ca_of_cl n (c_max c) (cl_run n (hist_of cs)) true) else None.

(** [while (true)], L49-105: at most [fuel] turns. *)
Fixpoint grad_while (fuel n minl maxl : nat) (stencil : list (list Z)) (c : ca) : option ca :=
  match fuel with
  | O => None
  | S fuel =>
      let* new := grad_step n minl maxl stencil c in
      if ca_eqb n new c then Some c else grad_while fuel n minl maxl stencil new
  end.
Definition make_graduation (fuel n : nat) (stencil : list (list Z)) (c : ca) : option ca :=
  grad_while fuel n (min_level c) (max_level c) stencil c.
