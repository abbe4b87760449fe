(** Proofs about the linear flux-based schemes: what the loops over intervals add. *)
From Coq Require Import QArith.
From Verif Require Import Base IntervalModel Spec LoiModel LcaModel LcaSpec LcaProofs LcaProofs3 RowsProofs CellArrayModel CellArrayProofs
  PropsLca PropsCellArray SubsetModel TreeProofs SubsetSpec SubsetProofs2 PropsSubset StencilModel NumberingProofs StencilProofs PropsStencil
  MeshModel MeshProofs PropsMesh AdaptModel AdaptProofs TagProofs PropsAdapt GradModel GradProofs PropsGrad NumProofs InterfaceModel InterfaceProofs
  PropsInterface GeomModel PropsNum PropsTransfer FluxModel BoundaryProofs PropsBoundary FluxProofs GhostModel ReconModel LinFluxModel.
Open Scope Z_scope.

(** ** Loops which add *)
Lemma fold_add : forall (A : Type) (f : output -> A -> option output) (g : A -> Z -> nat -> Q) l,
  (forall a o, In a l -> exists o', f o a = Some o' /\ forall i k, (o' i k == o i k + g a i k)%Q) ->
  forall o, exists o', fold_opt f l o = Some o' /\ forall i k, (o' i k == o i k + sum_over (fun a => g a i k) l)%Q.
Proof.
  intros A f g. induction l as [|a l IH]; intros H o.
  - exists o. split; [reflexivity|]. intros i k. rewrite sum_nil. ring.
  - cbn [fold_opt]. destruct (H a o (or_introl eq_refl)) as (o1 & -> & S1). destruct (IH (fun b o' Hb => H b o' (or_intror Hb)) o1) as (o' & E & S').
    exists o'. split; [exact E|]. intros i k. rewrite S', S1, sum_cons. ring.
Qed.
Lemma fold_left_add : forall (A : Type) (f : output -> A -> output) (g : A -> Z -> nat -> Q) l,
  (forall a o i k, In a l -> (f o a i k == o i k + g a i k)%Q) ->
  forall o i k, (fold_left f l o i k == o i k + sum_over (fun a => g a i k) l)%Q.
Proof.
  intros A f g. induction l as [|a l IH]; intros H o i k; cbn [fold_left].
  - rewrite sum_nil. ring.
  - rewrite IH by (intros; apply H; right; auto). rewrite H by (left; auto). rewrite sum_cons. ring.
Qed.

Definition only (k fi : nat) (q : Q) : Q := if Nat.eqb k fi then q else 0%Q.
Lemma add_at_spec : forall out idx fi q i k, (add_at out idx fi q i k == out i k + hit i idx (only k fi q))%Q.
Proof. intros. unfold add_at, hit, only. destruct (i =? idx), (Nat.eqb k fi); cbn [andb]; ring. Qed.

Lemma add_run_spec : forall u cell comput fi fj co size out i k,
  (add_run u cell comput fi fj co size out i k ==
   out i k + sum_over (fun ii => hit i (cell + Z.of_nat ii) (only k fi (co * u (comput + Z.of_nat ii)%Z fj))) (seq 0 size))%Q.
Proof. intros. unfold add_run. apply fold_left_add with (g := fun ii i k => hit i (cell + Z.of_nat ii) (only k fi (co * u (comput + Z.of_nat ii)%Z fj)%Q)). intros. apply add_at_spec. Qed.

Lemma hit_plus : forall i j a b, (hit i j (a + b) == hit i j a + hit i j b)%Q.
Proof. intros. unfold hit. destruct (i =? j); ring. Qed.
Lemma hit_comp : forall i j a b, (a == b -> hit i j a == hit i j b)%Q.
Proof. intros i j a b H. unfold hit. destruct (i =? j); [exact H|reflexivity]. Qed.
Lemma only_plus : forall k f a b, (only k f (a + b) == only k f a + only k f b)%Q.
Proof. intros. unfold only. destruct (Nat.eqb k f); ring. Qed.
Lemma only_comp : forall k f a b, (a == b -> only k f a == only k f b)%Q.
Proof. intros k f a b H. unfold only. destruct (Nat.eqb k f); [exact H|reflexivity]. Qed.

Lemma sum_seq_S : forall (f : nat -> Q) a m, (sum_over f (seq a (S m)) == sum_over f (seq a m) + f (a + m)%nat)%Q.
Proof. intros f a m. rewrite seq_S, sum_app, sum_cons, sum_nil. ring. Qed.
Lemma sum_pairs : forall (f : nat -> Q) m, (sum_over f (seq 0 (2 * m)) == sum_over (fun j => f (2 * j)%nat + f (2 * j + 1)%nat) (seq 0 m))%Q.
Proof.
  intros f. induction m as [|m IH]; [reflexivity|]. replace (2 * S m)%nat with (S (S (2 * m))) by lia. rewrite !sum_seq_S, IH. cbn [Nat.add].
  replace (2 * m + 1)%nat with (S (2 * m)) by lia. ring.
Qed.

Lemma add_pairs_spec : forall u cell comput fi fj co size out i k, Nat.even size = true ->
  (add_pairs u cell comput fi fj co size out i k ==
   out i k + sum_over (fun ii => hit i (cell + Z.of_nat (ii / 2)) (only k fi (co * u (comput + Z.of_nat ii)%Z fj))) (seq 0 size))%Q.
Proof.
  intros u cell comput fi fj co size out i k He. apply Nat.even_spec in He as [m ->]. unfold add_pairs. rewrite Nat.mul_comm, Nat.div_mul by lia. rewrite Nat.mul_comm.
  rewrite fold_left_add with (g := fun ii i k => hit i (cell + Z.of_nat ii) (only k fi (co * u (comput + 2 * Z.of_nat ii)%Z fj + co * u (comput + 2 * Z.of_nat ii + 1)%Z fj)%Q))
    by (intros; apply add_at_spec).
  apply Qplus_comp; [reflexivity|]. rewrite sum_pairs. apply sum_ext. intros j _.
  replace (2 * j / 2)%nat with j by (rewrite Nat.mul_comm, Nat.div_mul; lia).
  replace ((2 * j + 1) / 2)%nat with j by (rewrite Nat.mul_comm, Nat.div_add_l by lia; cbn; lia).
  rewrite <- hit_plus. apply hit_comp. rewrite <- only_plus. apply only_comp.
  replace (comput + Z.of_nat (2 * j)) with (comput + 2 * Z.of_nat j) by lia. replace (comput + Z.of_nat (2 * j + 1)) with (comput + 2 * Z.of_nat j + 1) by lia. reflexivity.
Qed.

(** How far the two cells of a run have moved at its interface number [ii]. *)
Definition lpos (l r : scell) (ii : nat) : nat := if Nat.ltb (sc_level l) (sc_level r) then (ii / 2)%nat else ii.
Definition rpos (l r : scell) (ii : nat) : nat := if Nat.ltb (sc_level r) (sc_level l) then (ii / 2)%nat else ii.
Definition paired (l r : scell) (size : nat) : Prop := sc_level l = sc_level r \/ size = 1%nat \/ Nat.even size = true.

Lemma apply_coeff_spec : forall debug u l r size comput fi fj lc rc out, paired l r size ->
  exists out', apply_coeff debug u l r size comput fi fj lc rc out = Some out' /\ forall i k,
    (out' i k == out i k + sum_over (fun ii => hit i (sc_index l + Z.of_nat (lpos l r ii)) (only k fi (lc * u (comput + Z.of_nat ii)%Z fj)) +
                                               hit i (sc_index r + Z.of_nat (rpos l r ii)) (only k fi (rc * u (comput + Z.of_nat ii)%Z fj))) (seq 0 size))%Q.
Proof.
  intros debug u l r size comput fi fj lc rc out P. unfold apply_coeff, lpos, rpos.
  assert (Small : forall ii, size = 1%nat -> In ii (seq 0 size) -> ii = 0%nat) by (intros ii -> [<-|[]]; reflexivity).
  destruct (Nat.eqb_spec (sc_level l) (sc_level r)) as [El|El]; cbn [orb].
  - eexists. split; [reflexivity|]. intros i k. rewrite !add_run_spec, sum_plus. rewrite El, Nat.ltb_irrefl. ring.
  - destruct (Nat.eqb_spec size 1) as [E1|E1].
    + eexists. split; [reflexivity|]. intros i k. rewrite !add_run_spec, sum_plus, <- Qplus_assoc. apply Qplus_comp; [reflexivity|].
      apply Qplus_comp; apply sum_ext; intros ii Hi; rewrite (Small ii E1 Hi); destruct (Nat.ltb _ _); reflexivity.
    + destruct P as [P|[P|P]]; try contradiction. rewrite P, orb_true_r. cbn [checked].
      destruct (Nat.ltb_spec (sc_level l) (sc_level r)) as [C|C]; (eexists; split; [reflexivity|]; intros i k; rewrite sum_plus).
      * destruct (Nat.ltb_spec (sc_level r) (sc_level l)); [lia|]. rewrite add_run_spec, add_pairs_spec by auto. ring.
      * destruct (Nat.ltb_spec (sc_level r) (sc_level l)); [|lia]. rewrite add_pairs_spec, add_run_spec by auto. ring.
Qed.

(** ** One run *)

(** The value of a linear flux: [cs] are the coefficients, [es] the cells of the stencil. *)
Definition lin_value (fs : nat) (u : output) (cs : coeffs) (es : list scell) (k : nat) : Q :=
  sum_over (fun j => sum_over (fun '(m, e) => m k j * u (sc_index e) j)%Q (combine cs es)) (seq 0 fs).

Lemma combine_seq : forall (A B : Type) (xs : list A) (ys : list B) x0 y0, length xs = length ys ->
  combine xs ys = map (fun c => (nth c xs x0, nth c ys y0)) (seq 0 (length ys)).
Proof.
  intros A B xs. induction xs as [|x xs IH]; intros [|y ys] x0 y0 H; try discriminate; [reflexivity|]. injection H as H. cbn [combine length seq map nth]. f_equal.
  rewrite <- seq_shift, map_map. apply IH. auto.
Qed.
Definition m0 : nat -> nat -> Q := fun _ _ => 0%Q.
Definition e0 : scell := mkSC 0 [] 0.

Lemma sc_move : forall dx di e, sc_index (move_cell dx di e) = sc_index e + di.
Proof. reflexivity. Qed.
Lemma lin_value_nth : forall fs u cs es di k, length cs = length es ->
  (lin_value fs u cs (map (move_cell di di) es) k ==
   sum_over (fun j => sum_over (fun c => nth c cs m0 k j * u (sc_index (nth c es e0) + di)%Z j) (seq 0 (length es))) (seq 0 fs))%Q.
Proof.
  intros fs u cs es di k L. unfold lin_value. apply sum_ext. intros j _. rewrite (combine_seq _ _ cs (map (move_cell di di) es) m0 (move_cell di di e0)) by (rewrite map_length; auto).
  rewrite sum_map, map_length. apply sum_ext. intros c Hc. rewrite map_nth, sc_move. reflexivity.
Qed.

Lemma sum_only : forall (k os : nat) (f : nat -> Q), (k < os)%nat -> (sum_over (fun fi => only k fi (f fi)) (seq 0 os) == f k)%Q.
Proof.
  intros k os f H. rewrite <- (sum_pick _ Nat.eqb f (seq 0 os) k Nat.eqb_eq (seq_NoDup _ _)) by (apply in_seq; lia). apply sum_ext. intros fi _.
  unfold only. rewrite Nat.eqb_sym. reflexivity.
Qed.
Lemma sum_only_none : forall (k os : nat) (f : nat -> Q), (os <= k)%nat -> (sum_over (fun fi => only k fi (f fi)) (seq 0 os) == 0)%Q.
Proof.
  intros k os f H. apply sum_zero. intros fi Hf. apply in_seq in Hf. unfold only. destruct (Nat.eqb_spec k fi); [lia|reflexivity].
Qed.
Lemma hit_sum : forall (A : Type) i j (f : A -> Q) xs, (hit i j (sum_over f xs) == sum_over (fun x => hit i j (f x)) xs)%Q.
Proof. intros. unfold hit. destruct (i =? j); [reflexivity|]. symmetry. apply sum_zero. reflexivity. Qed.

(** A triple loop whose body adds. *)
Lemma triple_loop_add : forall os fs ss body (g : nat -> nat -> nat -> Z -> nat -> Q),
  (forall fi fj c o, (c < ss)%nat -> exists o', body fi fj c o = Some o' /\ forall i k, (o' i k == o i k + g fi fj c i k)%Q) ->
  forall o, exists o', triple_loop os fs ss body o = Some o' /\
    forall i k, (o' i k == o i k + sum_over (fun fi => sum_over (fun fj => sum_over (fun c => g fi fj c i k) (seq 0 ss)) (seq 0 fs)) (seq 0 os))%Q.
Proof.
  intros os fs ss body g H o. unfold triple_loop.
  apply (fold_add _ _ (fun fi i k => sum_over (fun fj => sum_over (fun c => g fi fj c i k) (seq 0 ss)) (seq 0 fs))). intros fi o1 _.
  apply (fold_add _ _ (fun fj i k => sum_over (fun c => g fi fj c i k) (seq 0 ss))). intros fj o2 _.
  apply (fold_add _ _ (fun c i k => g fi fj c i k)). intros c o3 Hc. apply H. apply in_seq in Hc. lia.
Qed.

(** What a run adds at an index. *)
Definition run_effect (os fs : nat) (u : output) (e : run * (coeffs * coeffs)) (i : Z) (k : nat) : Q :=
  let '(r, (lcs, rcs)) := e in
  match r_cells r with
  | [a; b] =>
      if Nat.ltb k os then
        sum_over (fun ii => hit i (sc_index a + Z.of_nat (lpos a b ii)) (lin_value fs u lcs (map (move_cell (Z.of_nat ii) (Z.of_nat ii)) (r_stencil r)) k) +
                            hit i (sc_index b + Z.of_nat (rpos a b ii)) (lin_value fs u rcs (map (move_cell (Z.of_nat ii) (Z.of_nat ii)) (r_stencil r)) k))%Q
                 (seq 0 (Z.to_nat (r_size r)))
      else 0%Q
  | _ => 0%Q
  end.
Definition run_ok (e : run * (coeffs * coeffs)) : Prop :=
  let '(r, (lcs, rcs)) := e in
  exists a b, r_cells r = [a; b] /\ paired a b (Z.to_nat (r_size r)) /\ length lcs = length (r_stencil r) /\ length rcs = length (r_stencil r).

Lemma nth_error_nth2 : forall (A : Type) (l : list A) c d, (c < length l)%nat -> nth_error l c = Some (nth c l d).
Proof. intros. apply nth_error_nth'. auto. Qed.

(** The order of the sums: over the components and the stencil first. *)
Lemma effect_order : forall os fs u cs es size cell (pos : nat -> nat) i k, length cs = length es ->
  (sum_over (fun fi => sum_over (fun fj => sum_over (fun c => sum_over (fun ii =>
      hit i (cell + Z.of_nat (pos ii)) (only k fi (nth c cs m0 fi fj * u (sc_index (nth c es e0) + Z.of_nat ii)%Z fj))) (seq 0 size)) (seq 0 (length es))) (seq 0 fs)) (seq 0 os) ==
   if Nat.ltb k os then sum_over (fun ii => hit i (cell + Z.of_nat (pos ii)) (lin_value fs u cs (map (move_cell (Z.of_nat ii) (Z.of_nat ii)) es) k)) (seq 0 size) else 0)%Q.
Proof.
  intros os fs u cs es size cell pos i k L.
  set (T := fun fi => sum_over (fun ii => hit i (cell + Z.of_nat (pos ii)) (lin_value fs u cs (map (move_cell (Z.of_nat ii) (Z.of_nat ii)) es) fi)) (seq 0 size)).
  transitivity (sum_over (fun fi => only k fi (T fi)) (seq 0 os)).
  - apply sum_ext. intros fi _. unfold only. destruct (Nat.eqb_spec k fi) as [<-|Hk].
    + unfold T. symmetry. rewrite (sum_ext _ _ (fun ii => sum_over (fun j => sum_over (fun c => hit i (cell + Z.of_nat (pos ii)) (nth c cs m0 k j * u (sc_index (nth c es e0) + Z.of_nat ii)%Z j)) (seq 0 (length es))) (seq 0 fs))%Q).
      2:{ intros ii _. etransitivity; [apply hit_comp; apply lin_value_nth; auto|]. rewrite hit_sum. apply sum_ext. intros j _. apply hit_sum. }
      rewrite sum_swap. apply sum_ext. intros fj _. rewrite sum_swap. reflexivity.
    + apply sum_zero. intros fj _. apply sum_zero. intros c _. apply sum_zero. intros ii _. unfold hit. destruct (i =? _); reflexivity.
  - destruct (Nat.ltb_spec k os); [apply sum_only; auto|apply sum_only_none; auto].
Qed.

Lemma apply_run_spec : forall debug os fs u e out, run_ok e -> exists out', apply_run debug os fs u e out = Some out' /\
  forall i k, (out' i k == out i k + run_effect os fs u e i k)%Q.
Proof.
  intros debug os fs u [r [lcs rcs]] out (a & b & E & P & L1 & L2). unfold apply_run, run_effect. rewrite E. cbn [nth_error].
  destruct (triple_loop_add os fs (length (r_stencil r)) (fun fi fj c out =>
      let* sc := nth_error (r_stencil r) c in let* lc := nth_error lcs c in let* rc := nth_error rcs c in
      apply_coeff debug u a b (Z.to_nat (r_size r)) (sc_index sc) fi fj (lc fi fj) (rc fi fj) out)
    (fun fi fj c i k => sum_over (fun ii => hit i (sc_index a + Z.of_nat (lpos a b ii)) (only k fi (nth c lcs m0 fi fj * u (sc_index (nth c (r_stencil r) e0) + Z.of_nat ii)%Z fj)) +
                                            hit i (sc_index b + Z.of_nat (rpos a b ii)) (only k fi (nth c rcs m0 fi fj * u (sc_index (nth c (r_stencil r) e0) + Z.of_nat ii)%Z fj)))%Q
                             (seq 0 (Z.to_nat (r_size r))))) with (o := out) as (o' & E' & S').
  { intros fi fj c o Hc. rewrite (nth_error_nth2 _ _ _ e0 Hc), (nth_error_nth2 _ lcs c m0) by lia. rewrite (nth_error_nth2 _ rcs c m0) by lia. apply apply_coeff_spec. auto. }
  exists o'. split; [exact E'|]. intros i k. rewrite S'. apply Qplus_comp; [reflexivity|].
  set (S1 := fun (x : list (nat -> nat -> Q)) cell (pos : nat -> nat) fi fj c => sum_over (fun ii => hit i (cell + Z.of_nat (pos ii)) (only k fi (nth c x m0 fi fj * u (sc_index (nth c (r_stencil r) e0) + Z.of_nat ii)%Z fj))) (seq 0 (Z.to_nat (r_size r)))).
  rewrite (sum_ext _ _ (fun fi => sum_over (fun fj => sum_over (fun c => S1 lcs (sc_index a) (lpos a b) fi fj c) (seq 0 (length (r_stencil r)))) (seq 0 fs) +
                                  sum_over (fun fj => sum_over (fun c => S1 rcs (sc_index b) (rpos a b) fi fj c) (seq 0 (length (r_stencil r)))) (seq 0 fs))%Q).
  2:{ intros fi _. rewrite <- sum_plus. apply sum_ext. intros fj _. rewrite <- sum_plus. apply sum_ext. intros c _. apply sum_plus. }
  rewrite sum_plus. unfold S1. rewrite !effect_order by auto. destruct (Nat.ltb k os); [symmetry; apply sum_plus|ring].
Qed.

(** A run of boundary interfaces. *)
Definition brun_effect (os fs : nat) (u : output) (e : run * coeffs) (i : Z) (k : nat) : Q :=
  let '(r, cs) := e in
  match r_cells r with
  | [a] => if Nat.ltb k os then
        sum_over (fun ii => hit i (sc_index a + Z.of_nat ii) (lin_value fs u cs (map (move_cell (Z.of_nat ii) (Z.of_nat ii)) (r_stencil r)) k)) (seq 0 (Z.to_nat (r_size r)))
      else 0%Q
  | _ => 0%Q
  end.
Definition brun_ok (e : run * coeffs) : Prop := let '(r, cs) := e in exists a, r_cells r = [a] /\ length cs = length (r_stencil r).
Lemma apply_boundary_run_spec : forall os fs u e out, brun_ok e -> exists out', apply_boundary_run os fs u e out = Some out' /\
  forall i k, (out' i k == out i k + brun_effect os fs u e i k)%Q.
Proof.
  intros os fs u [r cs] out (a & E & L). unfold apply_boundary_run, brun_effect. rewrite E. cbn [nth_error].
  destruct (triple_loop_add os fs (length (r_stencil r)) (fun fi fj c out =>
      let* sc := nth_error (r_stencil r) c in let* co := nth_error cs c in
      Some (add_run u (sc_index a) (sc_index sc) fi fj (co fi fj) (Z.to_nat (r_size r)) out))
    (fun fi fj c i k => sum_over (fun ii => hit i (sc_index a + Z.of_nat ii) (only k fi (nth c cs m0 fi fj * u (sc_index (nth c (r_stencil r) e0) + Z.of_nat ii)%Z fj)%Q))
                             (seq 0 (Z.to_nat (r_size r))))) with (o := out) as (o' & E' & S').
  { intros fi fj c o Hc. rewrite (nth_error_nth2 _ _ _ e0 Hc), (nth_error_nth2 _ cs c m0) by lia. eexists. split; [reflexivity|]. intros. apply add_run_spec. }
  exists o'. split; [exact E'|]. intros i k. rewrite S'. apply Qplus_comp; [reflexivity|].
  apply (effect_order os fs u cs (r_stencil r) (Z.to_nat (r_size r)) (sc_index a) (fun ii => ii) i k L).
Qed.

(** ** The parallel context *)
Lemma vec_add_spec : forall i q v, (i < length v)%nat -> exists v', vec_add i q v = Some v' /\ length v' = length v /\
  forall j, (nth j v' 0 == nth j v 0 + (if Nat.eqb j i then q else 0))%Q.
Proof.
  induction i as [|i IH]; intros q [|x v] H; cbn [length] in H; try lia; cbn [vec_add].
  - eexists. split; [reflexivity|]. split; [reflexivity|]. intros [|j]; cbn [nth Nat.eqb]; ring.
  - destruct (IH q v ltac:(lia)) as (v' & -> & L & S1). eexists. split; [reflexivity|]. split; [cbn [length]; lia|]. intros [|j]; cbn [nth Nat.eqb]; [ring|apply S1].
Qed.
Lemma vec_fold_spec : forall (A : Type) (f : A -> nat) (q : A -> Q) xs v, (forall x, In x xs -> (f x < length v)%nat) ->
  exists v', fold_opt (fun v x => vec_add (f x) (q x) v) xs v = Some v' /\ length v' = length v /\
  forall j, (nth j v' 0 == nth j v 0 + sum_over (fun x => if Nat.eqb j (f x) then q x else 0) xs)%Q.
Proof.
  intros A f q. induction xs as [|x xs IH]; intros v H.
  - exists v. split; [reflexivity|]. split; [reflexivity|]. intros j. rewrite sum_nil. ring.
  - cbn [fold_opt]. destruct (vec_add_spec (f x) (q x) v (H x (or_introl eq_refl))) as (v1 & -> & L1 & S1).
    destruct (IH v1) as (v' & E & L & S2); [intros y Hy; rewrite L1; apply H; right; auto|]. exists v'. split; [exact E|]. split; [lia|].
    intros j. rewrite S2, S1, sum_cons. ring.
Qed.

(** The additions of a vector to a field. *)
Lemma updates_spec : forall start fi v out i k,
  (run_atomics (vec_updates start fi v) out i k == out i k + sum_over (fun ii => hit i (start + Z.of_nat ii) (only k fi (nth ii v 0%Q))) (seq 0 (length v)))%Q.
Proof.
  intros start fi v out i k. unfold run_atomics, vec_updates.
  rewrite (fold_left_add _ _ (fun '(idx, f, q) i k => hit i idx (only k f q))) by (intros [[idx f] q]; intros; apply add_at_spec).
  apply Qplus_comp; [reflexivity|]. rewrite sum_map. rewrite (combine_seq _ _ (seq 0 (length v)) v 0%nat 0%Q) by apply seq_length. rewrite sum_map.
  apply sum_ext. intros ii Hi. apply in_seq in Hi. rewrite seq_nth by lia. reflexivity.
Qed.
Definition atomics_effect (us : list atomic_add) (i : Z) (k : nat) : Q := sum_over (fun '(idx, fi, q) => hit i idx (only k fi q)) us.
Lemma run_atomics_spec : forall us out i k, (run_atomics us out i k == out i k + atomics_effect us i k)%Q.
Proof. intros. unfold run_atomics, atomics_effect. rewrite (fold_left_add _ _ (fun '(idx, f, q) i k => hit i idx (only k f q))) by (intros [[idx f] q]; intros; apply add_at_spec).
  apply Qplus_comp; [reflexivity|]. apply sum_ext. intros [[idx f] q] _. reflexivity. Qed.
Lemma vec_updates_effect : forall start fi v i k,
  (atomics_effect (vec_updates start fi v) i k == sum_over (fun ii => hit i (start + Z.of_nat ii) (only k fi (nth ii v 0%Q))) (seq 0 (length v)))%Q.
Proof.
  intros. pose proof (updates_spec start fi v (fun _ _ => 0%Q) i k) as A. rewrite run_atomics_spec in A. rewrite !Qplus_0_l in A. exact A.
Qed.

Lemma vec_run_spec : forall u comput fj co size v, length v = size -> exists v', vec_run u comput fj co size v = Some v' /\ length v' = length v /\
  forall j, (nth j v' 0 == nth j v 0 + sum_over (fun ii => if Nat.eqb j ii then co * u (comput + Z.of_nat ii)%Z fj else 0) (seq 0 size))%Q.
Proof. intros u comput fj co size v L. unfold vec_run. apply (vec_fold_spec _ (fun ii => ii)). intros x Hx. apply in_seq in Hx. lia. Qed.
Lemma vec_pairs_spec : forall u comput fj co size v, length v = (size / 2)%nat -> Nat.even size = true ->
  exists v', vec_pairs u comput fj co size v = Some v' /\ length v' = length v /\
  forall j, (nth j v' 0 == nth j v 0 + sum_over (fun ii => if Nat.eqb j (ii / 2) then co * u (comput + Z.of_nat ii)%Z fj else 0) (seq 0 size))%Q.
Proof.
  intros u comput fj co size v L He. unfold vec_pairs.
  destruct (vec_fold_spec _ (fun ii => ii) (fun ii => (co * u (comput + 2 * Z.of_nat ii)%Z fj + co * u (comput + 2 * Z.of_nat ii + 1)%Z fj)%Q) (seq 0 (size / 2)) v) as (v' & E & L' & S').
  { intros x Hx. apply in_seq in Hx. lia. }
  exists v'. split; [exact E|]. split; [exact L'|]. intros j. rewrite S'. apply Qplus_comp; [reflexivity|].
  apply Nat.even_spec in He as [m ->]. rewrite sum_pairs. replace (2 * m / 2)%nat with m by (rewrite Nat.mul_comm, Nat.div_mul; lia).
  apply sum_ext. intros x _. replace (2 * x / 2)%nat with x by (rewrite Nat.mul_comm, Nat.div_mul; lia).
  replace ((2 * x + 1) / 2)%nat with x by (rewrite Nat.mul_comm, Nat.div_add_l by lia; cbn; lia).
  replace (comput + Z.of_nat (2 * x)) with (comput + 2 * Z.of_nat x) by lia. replace (comput + Z.of_nat (2 * x + 1)) with (comput + 2 * Z.of_nat x + 1) by lia.
  destruct (Nat.eqb j x); ring.
Qed.

Definition n_left (a b : scell) (size : nat) : nat := if Nat.eqb size 1 || Nat.leb (sc_level b) (sc_level a) then size else (size / 2)%nat.
Definition n_right (a b : scell) (size : nat) : nat := if Nat.eqb size 1 || Nat.leb (sc_level a) (sc_level b) then size else (size / 2)%nat.
Lemma vec_coeff_spec : forall debug u a b size comput fj lc rc lv rv, paired a b size -> length lv = n_left a b size -> length rv = n_right a b size ->
  exists lv' rv', vec_coeff debug u a b size comput fj lc rc (lv, rv) = Some (lv', rv') /\ length lv' = length lv /\ length rv' = length rv /\ forall j,
    (nth j lv' 0 == nth j lv 0 + sum_over (fun ii => if Nat.eqb j (lpos a b ii) then lc * u (comput + Z.of_nat ii)%Z fj else 0) (seq 0 size))%Q /\
    (nth j rv' 0 == nth j rv 0 + sum_over (fun ii => if Nat.eqb j (rpos a b ii) then rc * u (comput + Z.of_nat ii)%Z fj else 0) (seq 0 size))%Q.
Proof.
  intros debug u a b size comput fj lc rc lv rv P Ll Lr. unfold vec_coeff, n_left, n_right, lpos, rpos in *.
  assert (Small : forall ii, size = 1%nat -> In ii (seq 0 size) -> ii = 0%nat) by (intros ii -> [<-|[]]; reflexivity).
  destruct (Nat.eqb_spec (sc_level a) (sc_level b)) as [El|El]; cbn [orb].
  - rewrite El, Nat.leb_refl, orb_true_r in *.
    destruct (vec_run_spec u comput fj lc size lv Ll) as (lv' & -> & L1 & S1). destruct (vec_run_spec u comput fj rc size rv Lr) as (rv' & -> & L2 & S2).
    exists lv', rv'. split; [reflexivity|]. split; [auto|]. split; [auto|]. intros j. rewrite Nat.ltb_irrefl. auto.
  - destruct (Nat.eqb_spec size 1) as [E1|E1].
    + cbn [orb] in *. destruct (vec_run_spec u comput fj lc size lv Ll) as (lv' & -> & L1 & S1). destruct (vec_run_spec u comput fj rc size rv Lr) as (rv' & -> & L2 & S2).
      exists lv', rv'. split; [reflexivity|]. split; [auto|]. split; [auto|].
      intros j. rewrite S1, S2. split; apply Qplus_comp; try reflexivity; apply sum_ext; intros ii Hi; rewrite (Small ii E1 Hi); destruct (Nat.ltb _ _); reflexivity.
    + destruct P as [P|[P|P]]; try contradiction. rewrite P, orb_true_r. cbn [checked orb] in *.
      destruct (Nat.ltb_spec (sc_level a) (sc_level b)) as [C|C].
      * destruct (Nat.leb_spec (sc_level b) (sc_level a)); [lia|]. destruct (Nat.leb_spec (sc_level a) (sc_level b)); [|lia].
        destruct (vec_pairs_spec u comput fj lc size lv Ll P) as (lv' & -> & L1 & S1). destruct (vec_run_spec u comput fj rc size rv Lr) as (rv' & -> & L2 & S2).
        exists lv', rv'. split; [reflexivity|]. split; [auto|]. split; [auto|]. intros j. destruct (Nat.ltb_spec (sc_level b) (sc_level a)); [lia|]. auto.
      * destruct (Nat.leb_spec (sc_level b) (sc_level a)); [|lia]. destruct (Nat.leb_spec (sc_level a) (sc_level b)); [lia|].
        destruct (vec_run_spec u comput fj lc size lv Ll) as (lv' & -> & L1 & S1). destruct (vec_pairs_spec u comput fj rc size rv Lr P) as (rv' & -> & L2 & S2).
        exists lv', rv'. split; [reflexivity|]. split; [auto|]. split; [auto|]. intros j. destruct (Nat.ltb_spec (sc_level b) (sc_level a)); [|lia]. auto.
Qed.

(** A fold over pairs of vectors. *)
Lemma vecs_fold : forall (A : Type) (f : vec * vec -> A -> option (vec * vec)) (g1 g2 : A -> nat -> Q) nl nr xs,
  (forall x lv rv, In x xs -> length lv = nl -> length rv = nr -> exists lv' rv', f (lv, rv) x = Some (lv', rv') /\ length lv' = nl /\ length rv' = nr /\
     forall j, (nth j lv' 0 == nth j lv 0 + g1 x j)%Q /\ (nth j rv' 0 == nth j rv 0 + g2 x j)%Q) ->
  forall lv rv, length lv = nl -> length rv = nr -> exists lv' rv', fold_opt f xs (lv, rv) = Some (lv', rv') /\ length lv' = nl /\ length rv' = nr /\
     forall j, (nth j lv' 0 == nth j lv 0 + sum_over (fun x => g1 x j) xs)%Q /\ (nth j rv' 0 == nth j rv 0 + sum_over (fun x => g2 x j) xs)%Q.
Proof.
  intros A f g1 g2 nl nr. induction xs as [|x xs IH]; intros H lv rv L1 L2.
  - exists lv, rv. split; [reflexivity|]. split; [auto|]. split; [auto|]. intros j. rewrite !sum_nil. split; ring.
  - cbn [fold_opt]. destruct (H x lv rv (or_introl eq_refl) L1 L2) as (l1 & r1 & -> & A1 & A2 & A3).
    destruct (IH (fun y lv rv Hy => H y lv rv (or_intror Hy)) l1 r1 A1 A2) as (lv' & rv' & E & B1 & B2 & B3). exists lv', rv'. split; [exact E|]. split; [auto|]. split; [auto|].
    intros j. destruct (A3 j) as [C1 C2], (B3 j) as [D1 D2]. rewrite D1, D2, C1, C2, !sum_cons. split; ring.
Qed.

(** A sum over positions: [pos] maps the interfaces into the vector. *)
Lemma sum_positions : forall start nv (pos : nat -> nat) (q : nat -> Q) size i, (forall ii, (ii < size)%nat -> (pos ii < nv)%nat) ->
  (sum_over (fun jj => hit i (start + Z.of_nat jj) (sum_over (fun ii => if Nat.eqb jj (pos ii) then q ii else 0) (seq 0 size))) (seq 0 nv) ==
   sum_over (fun ii => hit i (start + Z.of_nat (pos ii)) (q ii)) (seq 0 size))%Q.
Proof.
  intros start nv pos q size i H.
  rewrite (sum_ext _ _ (fun jj => sum_over (fun ii => hit i (start + Z.of_nat jj) (if Nat.eqb jj (pos ii) then q ii else 0%Q)) (seq 0 size))) by (intros; apply hit_sum).
  rewrite sum_swap. apply sum_ext. intros ii Hi. apply in_seq in Hi.
  rewrite (sum_ext _ _ (fun jj => if Nat.eqb jj (pos ii) then hit i (start + Z.of_nat jj) (q ii) else 0%Q)).
  - apply (sum_pick _ Nat.eqb (fun jj => hit i (start + Z.of_nat jj) (q ii))); [apply Nat.eqb_eq|apply seq_NoDup|apply in_seq; specialize (H ii); lia].
  - intros jj _. destruct (Nat.eqb jj (pos ii)); [reflexivity|]. unfold hit. destruct (i =? _); reflexivity.
Qed.

Lemma half_lt : forall ii size, (ii < size)%nat -> Nat.even size = true -> (ii / 2 < size / 2)%nat.
Proof. intros ii size H He. apply Nat.even_spec in He as [m ->]. rewrite Nat.mul_comm, Nat.div_mul by lia. apply Nat.div_lt_upper_bound; lia. Qed.
Lemma lpos_lt : forall a b size ii, paired a b size -> (ii < size)%nat -> (lpos a b ii < n_left a b size)%nat.
Proof.
  intros a b size ii P H. unfold lpos, n_left. destruct (Nat.eqb_spec size 1) as [E|E]; cbn [orb].
  - assert (ii = 0%nat) by lia. subst. destruct (Nat.ltb _ _); cbn; lia.
  - destruct (Nat.ltb_spec (sc_level a) (sc_level b)), (Nat.leb_spec (sc_level b) (sc_level a)); try lia. destruct P as [P|[P|P]]; try lia. apply half_lt; auto.
Qed.
Lemma rpos_lt : forall a b size ii, paired a b size -> (ii < size)%nat -> (rpos a b ii < n_right a b size)%nat.
Proof.
  intros a b size ii P H. unfold rpos, n_right. destruct (Nat.eqb_spec size 1) as [E|E]; cbn [orb].
  - assert (ii = 0%nat) by lia. subst. destruct (Nat.ltb _ _); cbn; lia.
  - destruct (Nat.ltb_spec (sc_level b) (sc_level a)), (Nat.leb_spec (sc_level a) (sc_level b)); try lia. destruct P as [P|[P|P]]; try lia. apply half_lt; auto.
Qed.
Lemma only_hit : forall k f i j q, (hit i j (only k f q) == only k f (hit i j q))%Q.
Proof. intros. unfold hit, only. destruct (i =? j), (Nat.eqb k f); reflexivity. Qed.
Lemma only_sum : forall (A : Type) k f (g : A -> Q) xs, (sum_over (fun x => only k f (g x)) xs == only k f (sum_over g xs))%Q.
Proof. intros. unfold only. destruct (Nat.eqb k f); [reflexivity|]. apply sum_zero. reflexivity. Qed.

Lemma run_updates_spec : forall debug os fs u e, run_ok e -> exists us, run_updates debug os fs u e = Some us /\
  forall i k, (atomics_effect us i k == run_effect os fs u e i k)%Q.
Proof.
  intros debug os fs u [r [lcs rcs]] (a & b & E & P & L1 & L2). unfold run_updates, run_effect. rewrite E. cbn [nth_error].
  fold (n_left a b (Z.to_nat (r_size r))) (n_right a b (Z.to_nat (r_size r))). set (size := Z.to_nat (r_size r)) in *.
  set (es := r_stencil r) in *.
  set (Q1 := fun (cs : coeffs) fi ii => sum_over (fun fj => sum_over (fun c => (nth c cs m0 fi fj * u (sc_index (nth c es e0) + Z.of_nat ii)%Z fj)%Q) (seq 0 (length es))) (seq 0 fs)).
  set (body := fun acc fi => let* vs := fold_opt (fun vs fj => fold_opt (fun vs c =>
        let* sc := nth_error es c in let* lc := nth_error lcs c in let* rc := nth_error rcs c in
        vec_coeff debug u a b size (sc_index sc) fj (lc fi fj) (rc fi fj) vs) (seq 0 (length es)) vs)
      (seq 0 fs) (repeat 0%Q (n_left a b size), repeat 0%Q (n_right a b size)) in
    Some (acc ++ vec_updates (sc_index a) fi (fst vs) ++ vec_updates (sc_index b) fi (snd vs))).
  assert (B : forall fi acc, exists us, body acc fi = Some (acc ++ us) /\ forall i k,
    (atomics_effect us i k == only k fi (sum_over (fun ii => hit i (sc_index a + Z.of_nat (lpos a b ii)) (Q1 lcs fi ii) + hit i (sc_index b + Z.of_nat (rpos a b ii)) (Q1 rcs fi ii)) (seq 0 size)))%Q).
  { intros fi acc. unfold body.
    set (G := fun (pos : nat -> nat) (cs : coeffs) fj c j => sum_over (fun ii => if Nat.eqb j (pos ii) then (nth c cs m0 fi fj * u (sc_index (nth c es e0) + Z.of_nat ii)%Z fj)%Q else 0%Q) (seq 0 size)).
    destruct (vecs_fold _ (fun vs fj => fold_opt (fun vs c =>
        let* sc := nth_error es c in let* lc := nth_error lcs c in let* rc := nth_error rcs c in
        vec_coeff debug u a b size (sc_index sc) fj (lc fi fj) (rc fi fj) vs) (seq 0 (length es)) vs)
      (fun fj j => sum_over (fun c => G (lpos a b) lcs fj c j) (seq 0 (length es))) (fun fj j => sum_over (fun c => G (rpos a b) rcs fj c j) (seq 0 (length es)))
      (n_left a b size) (n_right a b size) (seq 0 fs)) with (lv := repeat 0%Q (n_left a b size)) (rv := repeat 0%Q (n_right a b size)) as (lv & rv & -> & A1 & A2 & A3).
    - intros fj lv rv _ Hl Hr. apply (vecs_fold _ _ (G (lpos a b) lcs fj) (G (rpos a b) rcs fj)); auto. intros c lv' rv' Hc Hl' Hr'. apply in_seq in Hc.
      rewrite (nth_error_nth2 _ es c e0), (nth_error_nth2 _ lcs c m0), (nth_error_nth2 _ rcs c m0) by lia.
      destruct (vec_coeff_spec debug u a b size (sc_index (nth c es e0)) fj (nth c lcs m0 fi fj) (nth c rcs m0 fi fj) lv' rv' P Hl' Hr') as (l2 & r2 & E2 & B1 & B2 & B3).
      exists l2, r2. split; [exact E2|]. split; [lia|]. split; [lia|]. exact B3.
    - apply repeat_length.
    - apply repeat_length.
    - eexists. split; [reflexivity|]. cbn [fst snd]. intros i k. unfold atomics_effect. rewrite sum_app. fold (atomics_effect (vec_updates (sc_index a) fi lv) i k) (atomics_effect (vec_updates (sc_index b) fi rv) i k).
      rewrite !vec_updates_effect, A1, A2.
      assert (R : forall m j, (nth j (repeat 0 m) 0 == 0)%Q) by (intros; rewrite nth_repeat; reflexivity).
      assert (X : forall v pos cs start nv, (forall j, (nth j v 0 == sum_over (fun fj => sum_over (fun c => G pos cs fj c j) (seq 0 (length es))) (seq 0 fs))%Q) -> (forall ii, (ii < size)%nat -> (pos ii < nv)%nat) ->
        (sum_over (fun ii => hit i (start + Z.of_nat ii) (only k fi (nth ii v 0))) (seq 0 nv) == only k fi (sum_over (fun ii => hit i (start + Z.of_nat (pos ii)) (Q1 cs fi ii)) (seq 0 size)))%Q).
      { intros v pos cs start nv Hv Hp. rewrite (sum_ext _ _ (fun ii => only k fi (hit i (start + Z.of_nat ii) (nth ii v 0%Q)))) by (intros; apply only_hit).
        rewrite only_sum. apply only_comp. rewrite <- (sum_positions start nv pos (Q1 cs fi) size i Hp). apply sum_ext. intros jj _. apply hit_comp. rewrite Hv. unfold G, Q1.
        rewrite (sum_ext _ _ (fun fj => sum_over (fun ii => sum_over (fun c => if Nat.eqb jj (pos ii) then (nth c cs m0 fi fj * u (sc_index (nth c es e0) + Z.of_nat ii)%Z fj)%Q else 0%Q) (seq 0 (length es))) (seq 0 size))) by (intros; apply sum_swap).
        rewrite sum_swap. apply sum_ext. intros ii _. destruct (Nat.eqb jj (pos ii)); [reflexivity|]. apply sum_zero. intros fj _. apply sum_zero. reflexivity. }
      rewrite (X lv (lpos a b) lcs), (X rv (rpos a b) rcs).
      + rewrite <- only_plus. apply only_comp. symmetry. apply sum_plus.
      + intros j. rewrite (proj2 (A3 j)), R. ring.
      + intros ii Hi. apply rpos_lt; auto.
      + intros j. rewrite (proj1 (A3 j)), R. ring.
      + intros ii Hi. apply lpos_lt; auto. }
  assert (F : forall xs acc, exists us, fold_opt body xs acc = Some (acc ++ us) /\ forall i k,
    (atomics_effect us i k == sum_over (fun fi => only k fi (sum_over (fun ii => hit i (sc_index a + Z.of_nat (lpos a b ii)) (Q1 lcs fi ii) + hit i (sc_index b + Z.of_nat (rpos a b ii)) (Q1 rcs fi ii)) (seq 0 size))) xs)%Q).
  { induction xs as [|fi xs IH]; intros acc.
    - exists []. split; [rewrite app_nil_r; reflexivity|]. intros i k. reflexivity.
    - cbn [fold_opt]. destruct (B fi acc) as (u1 & -> & S1). destruct (IH (acc ++ u1)) as (u2 & E2 & S2). exists (u1 ++ u2). split; [rewrite app_assoc; exact E2|].
      intros i k. unfold atomics_effect. rewrite sum_app, sum_cons. apply Qplus_comp; [apply S1|apply S2]. }
  destruct (F (seq 0 os) []) as (us & E' & S'). exists us. split; [exact E'|]. intros i k. rewrite S'.
  assert (V : forall cs fi ii, length cs = length es -> (lin_value fs u cs (map (move_cell (Z.of_nat ii) (Z.of_nat ii)) es) fi == Q1 cs fi ii)%Q) by (intros; apply lin_value_nth; auto).
  destruct (Nat.ltb_spec k os) as [Hk|Hk]; [|apply sum_only_none; auto]. 
  rewrite (sum_only k os (fun fi => sum_over (fun ii => (hit i (sc_index a + Z.of_nat (lpos a b ii)) (Q1 lcs fi ii) + hit i (sc_index b + Z.of_nat (rpos a b ii)) (Q1 rcs fi ii))%Q) (seq 0 size)) Hk).
  apply sum_ext. intros ii _. apply Qplus_comp; apply hit_comp; symmetry; apply V; auto.
Qed.
