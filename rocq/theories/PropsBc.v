(** Property C56: the values that boundary conditions put in the ghosts. *)
From Coq Require Import QArith Lqa.
From Verif Require Import Base IntervalModel LcaModel SubsetModel NumModel AdaptModel GhostModel.
Open Scope Q_scope.

(** The polynomial of coefficients [cs] (constant term first) at [x]. *)
Fixpoint poly (cs : list Q) (x : Q) : Q :=
  match cs with [] => 0 | c :: cs => c + x * poly cs x end.

(** Abscissae in cells: the stencil cell number [k] has its centre at [k]. *)
Definition at_cells (cs : list Q) (count : nat) : list Q := map (fun k => poly cs (inject_Z (Z.of_nat k))) (seq 0 count).

Lemma short_list : forall (cs : list Q) k, (length cs <= k)%nat -> exists ds, length ds = k /\ forall x, poly cs x == poly ds x.
Proof.
  intros cs k. revert cs. induction k as [|k IH]; intros cs H.
  - exists []. destruct cs; [split; [auto|intros; reflexivity]|cbn in H; lia].
  - destruct cs as [|c cs].
    + exists (repeat 0 (S k)). split; [apply repeat_length|]. intros x. cbn [poly]. generalize (S k). intros m. induction m as [|m IHm]; cbn [repeat poly]; [reflexivity|].
      rewrite <- IHm. ring.
    + destruct (IH cs) as (ds & L & E); [cbn in H; lia|]. exists (c :: ds). split; [cbn; lia|]. intros x. cbn [poly]. rewrite (E x). reflexivity.
Qed.

(** Dirichlet of order 1 to 4: with any polynomial of degree at most [order], if the inner
    cells hold its values at their centres and the boundary value is its value on the
    face (between the cells order - 1 and order), each of the [order] ghosts gets its value
    at the centre of the ghost. The ghosts are the cells after the inner ones, each
    assigned once. *)
Theorem C56_dirichlet : forall order dx cs us, (1 <= order <= 4)%nat -> (length cs <= S order)%nat ->
  (forall k, (k < order)%nat -> nth k us 0 == poly cs (inject_Z (Z.of_nat k))) ->
  forall v, v == poly cs (inject_Z (Z.of_nat order) - (1 # 2)) ->
  let ws := dirichlet order dx v us in
  map fst ws = seq order order /\
  forall k q, In (k, q) ws -> q == poly cs (inject_Z (Z.of_nat k)).
Proof.
  intros order dx cs us Ho Hl Hu v Hv. cbv zeta.
  destruct (short_list cs (S order) Hl) as (ds & Ld & Ed).
  assert (Hu' : forall k, (k < order)%nat -> nth k us 0 == poly ds (inject_Z (Z.of_nat k))) by (intros k Hk; rewrite Hu, Ed by auto; reflexivity).
  rewrite Ed in Hv. clear Hu. split; [destruct order as [|[|[|[|[|o]]]]]; try lia; reflexivity|].
  intros k q Hin. rewrite Ed. clear Ed.
  assert (U0 : (0 < order)%nat -> nth 0 us 0 == poly ds 0) by (intros H; apply (Hu' 0%nat H)).
  assert (U1 : (1 < order)%nat -> nth 1 us 0 == poly ds 1) by (intros H; apply (Hu' 1%nat H)).
  assert (U2 : (2 < order)%nat -> nth 2 us 0 == poly ds 2) by (intros H; apply (Hu' 2%nat H)).
  assert (U3 : (3 < order)%nat -> nth 3 us 0 == poly ds 3) by (intros H; apply (Hu' 3%nat H)).
  destruct order as [|[|[|[|[|o]]]]]; try lia; cbn [dirichlet] in Hin; cbn [length] in Ld;
  repeat (destruct ds as [|? ds]; [discriminate|]); (destruct ds; [|discriminate]);
  repeat match goal with H : (_ < _)%nat -> _ |- _ => first [specialize (H ltac:(lia))|clear H] end;
  repeat (destruct Hin as [E|Hin]; [apply pair_equal_spec in E as [<- <-]; rewrite ?U0, ?U1, ?U2, ?U3, Hv; cbn [poly]; 
    unfold inject_Z; cbn [Z.of_nat Pos.of_succ_nat Pos.succ]; field|]); destruct Hin.
Qed.

(** Neumann: with an affine function, the ghost gets its value at the centre of the
    ghost. [x] is the abscissa of the inner cell, in physical units. *)
Theorem C56_neumann : forall dx a slope x us, nth 0 us 0 == a + slope * x ->
  map fst (neumann dx slope us) = [1%nat] /\
  forall k q, In (k, q) (neumann dx slope us) -> q == a + slope * (x + dx).
Proof.
  intros dx a slope x us H. split; [reflexivity|]. intros k q [E|[]]. apply pair_equal_spec in E as [<- <-]. rewrite H. ring.
Qed.

(** Polynomial extrapolation: the last cell of the stencil gets the value at its centre of
    any polynomial of degree at most size - 2 whose values the other cells hold. *)
Theorem C56_extrapolation : forall half cs us, (1 <= half <= 3)%nat -> (length cs <= 2 * half - 1)%nat ->
  (forall k, (k < 2 * half - 1)%nat -> nth k us 0 == poly cs (inject_Z (Z.of_nat k))) ->
  let ws := extrapolation (2 * half) us in
  map fst ws = [(2 * half - 1)%nat] /\
  forall k q, In (k, q) ws -> q == poly cs (inject_Z (Z.of_nat k)).
Proof.
  intros half cs us Hh Hl Hu. cbv zeta. destruct (short_list cs (2 * half - 1) Hl) as (ds & Ld & Ed).
  assert (Hu' : forall k, (k < 2 * half - 1)%nat -> nth k us 0 == poly ds (inject_Z (Z.of_nat k))) by (intros k Hk; rewrite Hu, Ed by auto; reflexivity).
  clear Hu. split; [destruct half as [|[|[|[|o]]]]; try lia; reflexivity|].
  intros k q Hin. rewrite Ed. clear Ed.
  assert (U0 : (0 < 2 * half - 1)%nat -> nth 0 us 0 == poly ds 0) by (intros H; apply (Hu' 0%nat H)).
  assert (U1 : (1 < 2 * half - 1)%nat -> nth 1 us 0 == poly ds 1) by (intros H; apply (Hu' 1%nat H)).
  assert (U2 : (2 < 2 * half - 1)%nat -> nth 2 us 0 == poly ds 2) by (intros H; apply (Hu' 2%nat H)).
  assert (U3 : (3 < 2 * half - 1)%nat -> nth 3 us 0 == poly ds 3) by (intros H; apply (Hu' 3%nat H)).
  assert (U4 : (4 < 2 * half - 1)%nat -> nth 4 us 0 == poly ds 4) by (intros H; apply (Hu' 4%nat H)).
  destruct half as [|[|[|[|o]]]]; try lia; cbn [Nat.mul Nat.add Nat.sub] in *; cbn [extrapolation] in Hin; cbn [length] in Ld;
  repeat (destruct ds as [|? ds]; [discriminate|]); (destruct ds; [|discriminate]);
  repeat match goal with H : (_ < _)%nat -> _ |- _ => first [specialize (H ltac:(lia))|clear H] end;
  repeat (destruct Hin as [E|Hin]; [apply pair_equal_spec in E as [<- <-]; rewrite ?U0, ?U1, ?U2, ?U3, ?U4; cbn [poly];
    unfold inject_Z; cbn [Z.of_nat Pos.of_succ_nat Pos.succ]; field|]); destruct Hin.
Qed.

(** The degrees are the best possible: order + 1 (resp. size - 1) is not reached. *)
Theorem C56_degrees_sharp :
  (forall order, (1 <= order <= 4)%nat -> exists cs, length cs = S (S order) /\
    exists k q, In (k, q) (dirichlet order 1 (poly cs (inject_Z (Z.of_nat order) - (1 # 2))) (at_cells cs order)) /\
      ~ q == poly cs (inject_Z (Z.of_nat k))) /\
  (forall half, (1 <= half <= 3)%nat -> exists cs, length cs = (2 * half)%nat /\
    exists k q, In (k, q) (extrapolation (2 * half) (at_cells cs (2 * half - 1))) /\ ~ q == poly cs (inject_Z (Z.of_nat k))).
Proof.
  split.
  - intros order Ho. exists (repeat 0 (S order) ++ [1]). split; [rewrite app_length, repeat_length; cbn; lia|].
    destruct order as [|[|[|[|[|o]]]]]; try lia; eexists; eexists; (split; [left; reflexivity|]); vm_compute; discriminate.
  - intros half Ho. exists (repeat 0 (2 * half - 1) ++ [1]). split; [rewrite app_length, repeat_length; cbn; lia|].
    destruct half as [|[|[|[|o]]]]; try lia; eexists; eexists; (split; [left; reflexivity|]); vm_compute; discriminate.
Qed.

(** 1 + 2 x + x^2 - x^3 + 3 x^4 with the condition of order 4. *)
Example C56_example : let cs := [1; 2; 1; -1; 3] in
  map (fun '(k, q) => (k, Qred q)) (dirichlet 4 1 (poly cs (7 # 2)) (at_cells cs 4)) =
  map (fun k => (k, Qred (poly cs (inject_Z (Z.of_nat k))))) [4; 5; 6; 7]%nat.
Proof. vm_compute. reflexivity. Qed.

Print Assumptions C56_dirichlet.
Print Assumptions C56_neumann.
Print Assumptions C56_extrapolation.
Print Assumptions C56_degrees_sharp.
