(** Specification vocabulary for the set algebra: what an expression denotes,
    independently of how it is evaluated. *)
From Verif Require Import Base IntervalModel Spec LoiModel LcaModel LcaSpec SubsetModel TreeProofs.
Open Scope Z_scope.

(** Cell [p] of level [lp] and cell [q] of level [lq] occupy overlapping boxes:
    the cell p of level l is the product of the [p_k / 2^l, (p_k + 1) / 2^l). *)
Definition meets (n lp : nat) (p : list Z) (lq : nat) (q : list Z) : Prop :=
  forall k, (k <= n)%nat ->
    nth k p 0 * 2 ^ Z.of_nat lq < (nth k q 0 + 1) * 2 ^ Z.of_nat lp /\
    nth k q 0 * 2 ^ Z.of_nat lp < (nth k p 0 + 1) * 2 ^ Z.of_nat lq.

(** Componentwise sum; a missing component counts for 0. *)
Definition vadd (n : nat) (q v : list Z) : list Z := map (fun k => nth k q 0 + nth k v 0) (seq 0 (S n)).
Definition vopp (v : list Z) : list Z := map Z.opp v.

(** A mesh, or a translated mesh: the nodes the documentation recommends. *)
Definition simple (nd : node) : Prop :=
  match nd with NMesh _ => True | NTrans _ (NMesh _) => True | _ => False end.
Definition node_vect (nd : node) : list Z := match nd with NTrans v _ => v | _ => [] end.
Definition node_mesh (nd : node) : lca := match nd with NMesh a => a | NTrans _ (NMesh a) => a | _ => lca_empty 0 end.

(** The node contains a cell overlapping cell [p] of level [ref]. *)
Definition denotes (n ref : nat) (p : list Z) (nd : node) : Prop :=
  exists q, lca_mem n (node_mesh nd) q /\ meets n ref p (a_level (node_mesh nd)) (vadd n q (node_vect nd)).

(** Operands accepted: well formed, and such that the coordinates brought to the
    working level [w] stay below the value INT_MAX used as end mark. *)
Definition operand_ok (n w : nat) (nd : node) : Prop :=
  simple nd /\ wf n (node_mesh nd) /\
  forall q k, lca_mem n (node_mesh nd) q -> (k <= n)%nat ->
    (nth k (vadd n q (node_vect nd)) 0 + 2) * 2 ^ Z.max 0 (Z.of_nat w - Z.of_nat (a_level (node_mesh nd))) + 1 < 2 ^ 31 - 1.

(** The finest level of the operands. *)
Definition finest (t : tree leaf) : nat := tlevel (tmap (fun lf => a_level (node_mesh (l_node lf))) t).

Definition operands_ok (n ref : nat) (t : tree leaf) : Prop :=
  forall lf, tin lf t -> operand_ok n (Nat.min ref (finest t)) (l_node lf).

(** The set of cells of level [ref] an expression denotes. *)
Definition expr_mem (n ref : nat) (t : tree leaf) (p : list Z) : Prop :=
  tsem (tmap (fun lf => denotes n ref p (l_node lf)) t).
