(** Properties C01-C05: Interval and ListOfIntervals. *)
From Verif Require Import Base IntervalModel LoiModel Spec LoiProofs IntervalProofs.
Open Scope Z_scope.

(** The integers a call asks for. *)
Definition requested (c : loi_call) (x : Z) : Prop :=
  match c with
  | AddInterval i => in_i i x
  | AddPoint p => x = p
  end.

Lemma loi_run_from : forall cs l, normal l ->
  normal (fold_left loi_step cs l) /\
  (forall x, covers (fold_left loi_step cs l) x <-> covers l x \/ exists c, In c cs /\ requested c x).
Proof.
  induction cs as [|c cs IH]; intros l Hn; simpl.
  - split; auto. intros x. split; auto. intros [H|(c & [] & _)]; auto.
  - assert (N : normal (loi_step l c)) by (destruct c; simpl; apply add_interval_normal; auto).
    destruct (IH _ N) as (N' & C). split; auto. intros x. rewrite C.
    assert (E : covers (loi_step l c) x <-> covers l x \/ requested c x).
    { destruct c; simpl; unfold add_point; rewrite add_interval_covers by auto; [tauto|].
      unfold in_i; simpl. split; (intros [?|?]; [auto|right; lia]). }
    rewrite E. split.
    + intros [[H|H]|(c' & H & K)]; eauto.
    + intros [H|(c' & [<-|H] & K)]; eauto.
Qed.

(** C01 *)
Theorem C01_loi_union_and_normal : forall calls : list loi_call,
  normal (loi_run calls) /\
  forall x, covers (loi_run calls) x <-> exists c, In c calls /\ requested c x.
Proof.
  intros cs. destruct (loi_run_from cs [] normal_nil) as (N & C). split; auto.
  intros x. unfold loi_run. rewrite C, covers_nil. tauto.
Qed.

Example C01_example :
  loi_run [AddInterval (mk 0 3); AddPoint 7; AddInterval (mk 5 5); AddInterval (mk 3 5); AddInterval (mk (-4) (-2)); AddPoint 6]
  = [mk (-4) (-2); mk 0 5; mk 6 8].
Proof. reflexivity. Qed.

(** C02 *)
Theorem C02_loi_canonical : forall calls1 calls2 : list loi_call,
  (forall x, (exists c, In c calls1 /\ requested c x) <-> (exists c, In c calls2 /\ requested c x)) ->
  bounds (loi_run calls1) = bounds (loi_run calls2).
Proof.
  intros c1 c2 H. destruct (C01_loi_union_and_normal c1) as (N1 & C1).
  destruct (C01_loi_union_and_normal c2) as (N2 & C2).
  apply normal_canonical; auto. intros x. rewrite C1, C2. apply H.
Qed.

(** In particular permuting or repeating calls is irrelevant. *)
Theorem C02_loi_permutation : forall calls1 calls2,
  Permutation calls1 calls2 -> bounds (loi_run (calls1 ++ calls2)) = bounds (loi_run calls1).
Proof.
  intros c1 c2 P. apply C02_loi_canonical. intros x. split; intros (c & H & K); exists c; split; auto.
  - apply in_app_or in H as [H|H]; auto. eapply Permutation_in; [symmetry|]; eauto.
  - apply in_or_app; auto.
Qed.

Example C02_example :
  bounds (loi_run [AddInterval (mk 0 4); AddPoint 9; AddInterval (mk 4 6)])
  = bounds (loi_run [AddPoint 9; AddInterval (mk 2 6); AddPoint 0; AddPoint 1; AddPoint 9]).
Proof. reflexivity. Qed.

(** C03 *)
Theorem C03_shift_right_is_projection : forall i s c, 0 <= s -> istart i < iend i ->
  (in_i (ishr i s) c <-> exists f, in_i i f /\ f / 2 ^ s = c).
Proof. exact ishr_spec. Qed.

Theorem C03_shift_right_smallest : forall i s, 0 <= s -> istart i < iend i ->
  istart (ishr i s) * 2 ^ s <= istart i /\ iend i <= iend (ishr i s) * 2 ^ s /\
  forall a b, a * 2 ^ s <= istart i -> iend i <= b * 2 ^ s ->
    a <= istart (ishr i s) /\ iend (ishr i s) <= b.
Proof. exact ishr_smallest. Qed.

Theorem C03_shift_left_is_refinement : forall i s f, 0 <= s ->
  (in_i (ishl i s) f <-> in_i i (f / 2 ^ s)).
Proof. exact ishl_spec. Qed.

Theorem C03_shift_round_trip : forall i s, 0 <= s -> istart i < iend i -> istep i = 1 ->
  ishr (ishl i s) s = i.
Proof. exact ishl_ishr. Qed.

Example C03_example : ishr (mk (-5) 3) 1 = mk (-3) 2 /\ ishl (mk (-3) 2) 2 = mk (-12) 8.
Proof. split; reflexivity. Qed.

(** C04 *)
Theorem C04_even_odd_split : forall i, istart i < iend i ->
  (forall y, In y (strided (even_elements i)) <-> in_i i y /\ Z.even y = true) /\
  (forall y, In y (strided (odd_elements i)) <-> in_i i y /\ Z.odd y = true) /\
  StronglySorted Z.lt (strided (even_elements i)) /\
  StronglySorted Z.lt (strided (odd_elements i)) /\
  (is_valid (even_elements i) = true <-> exists y, in_i i y /\ Z.even y = true) /\
  (is_valid (odd_elements i) = true <-> exists y, in_i i y /\ Z.odd y = true).
Proof.
  intros i H. split; [|split; [|split; [|split; [|split]]]].
  - intros; apply even_elements_in; auto.
  - intros; apply odd_elements_in; auto.
  - apply strided_sorted; simpl; lia.
  - apply strided_sorted; simpl; lia.
  - apply even_elements_valid; auto.
  - apply odd_elements_valid; auto.
Qed.

Theorem C04_even_odd_coarse : forall i, istart i < iend i ->
  (is_valid (even_elements i) = true ->
     strided (ishr (even_elements i) 1) = map (fun y => y / 2) (strided (even_elements i))) /\
  (is_valid (odd_elements i) = true ->
     strided (ishr (odd_elements i) 1) = map (fun y => y / 2) (strided (odd_elements i))).
Proof.
  intros i H. split; intros; [apply even_elements_coarse | apply odd_elements_coarse]; auto.
Qed.

Example C04_example :
  strided (even_elements (mk (-3) 4)) = [-2; 0; 2] /\
  strided (odd_elements (mk (-3) 4)) = [-3; -1; 1; 3] /\
  strided (ishr (odd_elements (mk (-3) 4)) 1) = [-2; -1; 0; 1] /\
  is_valid (odd_elements (mk 2 3)) = false.
Proof. repeat split; reflexivity. Qed.

(** C05: the full claim is false ... *)
Theorem C05_division_refuted :
  exists i k, 0 < k /\ istart i < iend i /\
    ~ (forall c, in_i (idiv i k) c <-> exists x, in_i i x /\ x / k = c).
Proof.
  exists (mk 0 3), 2. split; [lia|]. split; [simpl; lia|].
  rewrite idiv_exact_iff by (simpl; lia). simpl. intros [[q H]|H].
  - lia.
  - vm_compute in H. discriminate.
Qed.

(** ... and this is exactly when it holds: the end is a multiple of [k], or both
    ends have the same quotient. *)
Theorem C05_division_partial : forall i k, 0 < k -> istart i < iend i ->
  ((forall c, in_i (idiv i k) c <-> exists x, in_i i x /\ x / k = c) <->
   ((k | iend i) \/ istart i / k = iend i / k)).
Proof. exact idiv_exact_iff. Qed.

Example C05_example : idiv (mk (-3) 4) 2 = mk (-2) 2 /\ idiv (mk 0 3) 2 = mk 0 1.
Proof. split; reflexivity. Qed.

Print Assumptions C01_loi_union_and_normal.
Print Assumptions C02_loi_canonical.
Print Assumptions C02_loi_permutation.
Print Assumptions C03_shift_right_is_projection.
Print Assumptions C03_shift_right_smallest.
Print Assumptions C03_shift_left_is_refinement.
Print Assumptions C03_shift_round_trip.
Print Assumptions C04_even_odd_split.
Print Assumptions C04_even_odd_coarse.
Print Assumptions C05_division_refuted.
Print Assumptions C05_division_partial.
