(** Properties C36-C39: prediction and projection. *)
From Coq Require Import QArith Qfield.
From Verif Require Import Base IntervalModel Spec IntervalProofs SubsetModel NumModel NumProofs NumSpec PolyProofs.
Open Scope Z_scope.
Ltac Zify.zify_post_hook ::= Z.div_mod_to_equations.

(** ** C39 *)

Lemma signs_agree : forall par, signs_false par = signs_true par.
Proof. intros [|[] [|[] [|[] [|]]]]; reflexivity. Qed.

Lemma pred_agree : forall order u par x yz, pred_cell signs_false order u par x yz = pred_cell signs_true order u par x yz.
Proof. intros. unfold pred_cell. pattern (signs_false par). rewrite signs_agree. reflexivity. Qed.

Lemma half_div : forall yz, half yz = map (fun y => y / 2) yz.
Proof. intros. unfold half. apply map_ext. intros y. rewrite Z.shiftr_div_pow2 by lia. auto. Qed.

Lemma fine_row_odd : forall yz, fine_row (half yz) (map odd_bit yz) = yz.
Proof.
  unfold fine_row, half. induction yz as [|y yz IH]; auto. cbn [map combine]. rewrite IH. f_equal.
  rewrite odd_bit_mod. unfold bz. rewrite Z.shiftr_div_pow2 by lia. change (2 ^ 1) with 2. destruct (Z.eqb_spec (y mod 2) 1); lia.
Qed.

Lemma single : forall x, strided (mk x (x + 1)) = [x].
Proof. intros. unfold mk. rewrite strided_plain. replace (Z.to_nat (x + 1 - x)) with 1%nat by lia. auto. Qed.

Lemma even_mem : forall i x, istep i = 1 -> (In x (strided (ishr (even_elements i) 1)) <-> in_i i (2 * x)).
Proof.
  intros i x H. rewrite strided_In by auto. unfold in_i. parity i.
  destruct (Z.eqb_spec (s mod 2) 1), (Z.eqb_spec (e mod 2) 1); lia.
Qed.

Lemma odd_mem : forall i x, istep i = 1 -> (In x (strided (ishr (odd_elements i) 1)) <-> in_i i (2 * x + 1)).
Proof.
  intros i x H. rewrite strided_In by auto. unfold in_i. parity i.
  destruct (Z.eqb_spec (s mod 2) 1), (Z.eqb_spec (e mod 2) 1); lia.
Qed.

Lemma Some_inv : forall A (a b : A), Some a = Some b -> a = b.
Proof. intros. injection H. auto. Qed.
Lemma triple_inv : forall A B C (a a' : A) (b b' : B) (c c' : C), (a, b, c) = (a', b', c') -> a = a' /\ b = b' /\ c = c'.
Proof. intros. injection H. auto. Qed.

(** The level-based prediction (dest_on_level = false) on any interval of the
    destination level, whatever the parities of its bounds: no shape mismatch;
    every cell of the interval is written exactly once and no other; and what it
    receives is what the cellwise operator (dest_on_level = true), run on the
    single parent cell, writes there. *)
Theorem C39_level_based_is_cellwise : forall order u i yz, istep i = 1 -> (length yz <= 2)%nat ->
  exists ws, prediction_false order u i yz = Some ws /\
    NoDup (map fst ws) /\
    (forall x y, In (x, y) (map fst ws) <-> y = yz /\ istart i <= x < iend i) /\
    forall x y q, In (x, y, q) ws ->
      exists ws', prediction_true order u (mk (x / 2) (x / 2 + 1)) (map (fun y => y / 2) yz) = Some ws' /\ In (x, y, q) ws'.
Proof.
  intros order u i yz Hst Hl. rewrite prediction_false_spec by auto. eexists. split; [reflexivity|].
  rewrite map_app, !map_map. cbn [fst]. spl.
  - apply NoDup_app2.
    + apply FinFun.Injective_map_NoDup; [intros a b E; apply (f_equal fst) in E; cbn [fst] in E; lia|]. apply strided_NoDup. simpl. lia.
    + apply FinFun.Injective_map_NoDup; [intros a b E; apply (f_equal fst) in E; cbn [fst] in E; lia|]. apply strided_NoDup. simpl. lia.
    + intros [x y] H1 H2. apply in_map_iff in H1 as (a & E1 & _). apply in_map_iff in H2 as (b & E2 & _). apply (f_equal fst) in E1, E2; cbn [fst] in *; lia.
  - intros x y. rewrite in_app_iff, !in_map_iff. split.
    + intros [(a & E & H)|(a & E & H)]; injection E as <- <-; split; auto; [apply even_mem in H|apply odd_mem in H]; auto.
    + intros [-> H]. destruct (Z.eq_dec (x mod 2) 1) as [E|E]; [right|left]; exists (x / 2); (split; [f_equal; lia|]).
      * apply odd_mem; auto. unfold in_i. replace (2 * (x / 2) + 1) with x by lia. auto.
      * apply even_mem; auto. unfold in_i. replace (2 * (x / 2)) with x by lia. auto.
  - intros x y q H. rewrite prediction_true_spec by auto. eexists. split; [reflexivity|].
    rewrite map_length. apply in_flat_map. apply in_app_iff in H. rewrite !in_map_iff in H.
    destruct H as [(a & E & _)|(a & E & _)]; apply triple_inv in E as (<- & <- & <-).
    + exists (false :: map odd_bit yz). split; [apply parities_In; simpl; rewrite map_length; auto|].
      replace (2 * a / 2) with a by lia. rewrite single. left. cbn [tl]. rewrite <- half_div, fine_row_odd.
      apply pair_equal_spec. split; [f_equal; unfold finer, bz, hd; lia|symmetry; apply pred_agree].
    + exists (true :: map odd_bit yz). split; [apply parities_In; simpl; rewrite map_length; auto|].
      replace ((2 * a + 1) / 2) with a by lia. rewrite single. left. cbn [tl]. rewrite <- half_div, fine_row_odd.
      apply pair_equal_spec. split; [reflexivity|symmetry; apply pred_agree].
Qed.

(** The finer-destination prediction on an interval writes exactly the children of
    its cells, each once, with the value it has when the interval is that cell. *)
Theorem C39_finer_is_cellwise : forall order u i yz, istep i = 1 ->
  exists ws, prediction_true order u i yz = Some ws /\
    NoDup (map fst ws) /\
    (forall x y, In (x, y) (map fst ws) <-> istart i <= x / 2 < iend i /\ map (fun y => y / 2) y = yz) /\
    forall x y q, In (x, y, q) ws ->
      exists ws', prediction_true order u (mk (x / 2) (x / 2 + 1)) yz = Some ws' /\ In (x, y, q) ws'.
Proof.
  intros order u i yz Hst. rewrite prediction_true_spec by auto. eexists. split; [reflexivity|].
  assert (RD : forall par x, finer par x / 2 = x). { intros par x. unfold finer, bz. destruct (hd false par); lia. }
  assert (RM : forall par x, finer par x mod 2 = bz (hd false par)). { intros par x. unfold finer, bz. destruct (hd false par); lia. }
  assert (FD : forall l p, length p = length l -> map (fun y => y / 2) (fine_row l p) = l /\ map (fun y => Z.eqb (y mod 2) 1) (fine_row l p) = p).
  { unfold fine_row. induction l as [|y l IH]; intros [|b p] H; try discriminate; auto. cbn [map combine length] in *. destruct (IH p ltac:(lia)) as [A B].
    rewrite A, B. split; f_equal; unfold bz; destruct b; lia. }
  assert (FI : forall y, fine_row (map (fun y => y / 2) y) (map (fun y => Z.eqb (y mod 2) 1) y) = y).
  { unfold fine_row. induction y as [|a y IH]; auto. cbn [map combine]. rewrite IH. f_equal. unfold bz. destruct (Z.eqb_spec (a mod 2) 1); lia. }
  set (W := fun par => map (fun x => (finer par x, fine_row yz (tl par), pred_cell signs_true order u par x yz)) (strided i)).
  assert (HW : forall par x y q, In (x, y, q) (W par) <-> exists a, in_i i a /\ x = finer par a /\ y = fine_row yz (tl par) /\ q = pred_cell signs_true order u par a yz).
  { intros. unfold W. rewrite in_map_iff. split.
    - intros (a & E & H). injection E as <- <- <-. exists a. apply strided_In in H; auto.
    - intros (a & H & -> & -> & ->). exists a. split; auto. apply strided_In; auto. }
  spl.
  - assert (G : forall ps, NoDup ps -> (forall p, In p ps -> length p = S (length yz)) -> NoDup (map fst (flat_map W ps))).
    { induction ps as [|p ps IH]; intros ND HL; simpl; [constructor|]. inv ND. rewrite map_app. apply NoDup_app2.
      - unfold W. rewrite map_map. cbn [fst]. apply FinFun.Injective_map_NoDup; [|apply strided_NoDup; lia].
        intros a b E. apply (f_equal fst) in E; cbn [fst] in E. unfold finer in E. lia.
      - apply IH; auto. intros; apply HL; simpl; auto.
      - intros [x y] K1 K2. apply in_map_iff in K1 as ([[x1 y1] q1] & E1 & K1). apply in_map_iff in K2 as ([[x2 y2] q2] & E2 & K2).
        simpl in E1, E2. injection E1 as -> ->. injection E2 as -> ->. apply in_flat_map in K2 as (p' & Hp' & K2).
        apply HW in K1 as (a & _ & Ex & Ey & _). apply HW in K2 as (a' & _ & Ex' & Ey' & _).
        assert (p = p'); [|subst; tauto].
        pose proof (HL p (or_introl eq_refl)) as L1. pose proof (HL p' (or_intror Hp')) as L2.
        destruct p as [|b p]; [discriminate|]. destruct p' as [|b' p']; [discriminate|]. simpl in *. f_equal.
        + pose proof (RM (b :: p) a) as Q1. pose proof (RM (b' :: p') a') as Q2. rewrite <- Ex in Q1. rewrite <- Ex' in Q2.
          simpl in Q1, Q2. unfold bz in *. destruct b, b'; auto; lia.
        + destruct (FD yz p ltac:(lia)) as [_ A]. destruct (FD yz p' ltac:(lia)) as [_ B]. rewrite <- A, <- B. congruence. }
    apply G; [apply parities_NoDup|]. intros p Hp. apply parities_In in Hp. auto.
  - intros x y. rewrite in_map_iff. split.
    + intros ([[x1 y1] q1] & E & H). simpl in E. injection E as -> ->. apply in_flat_map in H as (p & Hp & H).
      apply parities_In in Hp. apply HW in H as (a & Ha & -> & -> & _). rewrite RD. split; auto.
      apply FD. destruct p; simpl in *; lia.
    + intros [Hx <-]. set (p := Z.eqb (x mod 2) 1 :: map (fun y => Z.eqb (y mod 2) 1) y).
      exists (x, y, pred_cell signs_true order u p (x / 2) (map (fun y => y / 2) y)). split; auto. apply in_flat_map.
      exists p. split; [apply parities_In; unfold p; simpl; rewrite !map_length; auto|]. apply HW. exists (x / 2). spl; auto.
      * unfold finer, p, bz, hd. destruct (Z.eqb_spec (x mod 2) 1); lia.
      * unfold p; simpl. symmetry. apply FI.
  - intros x y q H. apply in_flat_map in H as (p & Hp & H). apply HW in H as (a & Ha & -> & -> & ->).
    rewrite prediction_true_spec by auto. eexists. split; [reflexivity|]. apply in_flat_map. exists p. split; auto.
    rewrite RD, single. left. auto.
Qed.

(** The interval [1, 6) has an odd start and an even end: order 1, u x = x^2. *)
Definition red (ws : list write) : list write := map (fun '(x, y, q) => (x, y, Qred q)) ws.
Example C39_example : option_map red (prediction_false 1 (fun x _ => inject_Z (x * x)) (mk 1 6) []) =
  Some [(2, [], 1 # 2); (4, [], 3 # 1); (1, [], 0 # 1); (3, [], 3 # 2); (5, [], 5 # 1)].
Proof. vm_compute. auto. Qed.

(** The same operator in dimension 1 on a field with several components stored by
    component slices the component axis instead of the cell axis: with an odd
    bound the shapes do not match. (Same code path in dimension 3.) *)
Theorem C39_soa_refuted :
  let u : field := fun x _ => inject_Z x in
  prediction_false_soa 1 [u; u] (mk 2 6) <> None /\ prediction_false_soa 1 [u; u] (mk 1 6) = None /\
  prediction_false_soa 1 [u; u] (mk 2 7) = None.
Proof. vm_compute. spl; congruence. Qed.

(** ** C36 *)

Definition qsum (l : list Q) : Q := fold_right Qplus 0%Q l.

Lemma csum_qsum : forall l a, (csum a (map (fun q => (true, q)) l) == a + qsum l)%Q.
Proof. induction l as [|q l IH]; intros a; simpl; [ring|]. rewrite IH. ring. Qed.

Lemma sum_views_cells : forall A (l : list A) g gs,
  sum_views (map g l :: map (fun h => map h l) gs) = Some (map (fun x => csum (g x) (map (fun h => (true, h x)) gs)) l).
Proof.
  intros. unfold sum_views. rewrite map_map.
  pose proof (add_terms_cells A l g (map (fun h => (true, h)) gs)) as H. rewrite map_map in H. etransitivity; [exact H|].
  f_equal. apply map_ext. intros x. rewrite map_map. auto.
Qed.

Lemma strided_double : forall i, istep i = 1 -> strided (imul i 2) = map (fun x => 2 * x + 0) (strided i) /\
  strided (iadd (imul i 2) 1) = map (fun x => 2 * x + 1) (strided i).
Proof.
  intros [s e st idx] H. simpl in H. subst st. unfold imul; cbn [istart iend istep iindex]. rewrite strided_iadd.
  pose proof (strided_scale s e 1 idx 2 0 ltac:(lia) ltac:(lia)) as E.
  replace (mkI (s * 2) (e * 2) (1 * 2) idx) with (mkI (2 * s + 0) (2 * e + 0) (2 * 1) idx) by (f_equal; lia).
  rewrite E. split; auto. rewrite map_map. apply map_ext. intros; lia.
Qed.

Lemma projection_spec : forall w i yz, istep i = 1 -> (length yz <= 2)%nat ->
  exists ps, projection_op_ w i yz = Some ps /\ map fst ps = map (fun x => (x, yz)) (strided i) /\
    forall x y q, In (x, y, q) ps ->
      (q == qsum (map (fun par => w (finer par x) (fine_row yz (tl par))) (parities (S (length yz)))) / inject_Z (2 ^ Z.of_nat (S (length yz))))%Q.
Proof.
  intros w i yz Hst Hl. destruct (strided_double i Hst) as [E0 E1]. unfold projection_op_, view.
  assert (G : forall c g gs,
    sum_views (map g (strided i) :: map (fun h => map h (strided i)) gs) = Some (map (fun x => csum (g x) (map (fun h => (true, h x)) gs)) (strided i)) ->
    exists ps, (let* s := sum_views (map g (strided i) :: map (fun h => map h (strided i)) gs) in assign i yz (vscale c s)) = Some ps /\
    map fst ps = map (fun x => (x, yz)) (strided i) /\
    forall x y q, In (x, y, q) ps -> (q == c * (g x + qsum (map (fun h => h x) gs)))%Q).
  { intros c g gs ->. rewrite vscale_map. rewrite (assign_map _ i yz (fun x => x)) by (symmetry; apply map_id).
    eexists. split; [reflexivity|]. split; [rewrite map_map; auto|]. intros x y q H. apply in_map_iff in H as (a & E & _).
    injection E as <- <- <-. rewrite <- csum_qsum. rewrite map_map. reflexivity. }
  destruct yz as [|y [|z [|]]]; [| | |simpl in Hl; lia]; cbn [length parities map app]; rewrite ?E0, ?E1, ?map_map.
  - lazymatch goal with |- context [sum_views [map ?g1 _; map ?g2 _]] =>
      destruct (G (1 # 2)%Q g1 [g2] (sum_views_cells _ _ _ _)) as (ps & H1 & H2 & H3) end.
    exists ps. split; [exact H1|]. split; auto. intros x y q H. apply H3 in H. rewrite H. cbn [map qsum fold_right tl fine_row combine finer hd bz].
    change (finer [false] x) with (2 * x + 0). change (finer [true] x) with (2 * x + 1). change (inject_Z _) with 2%Q. field.
  - lazymatch goal with |- context [sum_views [map ?g1 _; map ?g2 _; map ?g3 _; map ?g4 _]] =>
      destruct (G (1 # 4)%Q g1 [g2; g3; g4] (sum_views_cells _ _ _ _)) as (ps & H1 & H2 & H3) end.
    exists ps. split; [exact H1|]. split; auto. intros x y' q H. apply H3 in H. rewrite H. cbn [map qsum fold_right tl].
    unfold finer; cbn [hd bz]. change (inject_Z _) with 4%Q. field.
  - lazymatch goal with |- context [sum_views [map ?g1 _; map ?g2 _; map ?g3 _; map ?g4 _; map ?g5 _; map ?g6 _; map ?g7 _; map ?g8 _]] =>
      destruct (G (1 # 8)%Q g1 [g2; g3; g4; g5; g6; g7; g8] (sum_views_cells _ _ _ _)) as (ps & H1 & H2 & H3) end.
    exists ps. split; [exact H1|]. split; auto. intros x y' q H. apply H3 in H. rewrite H. cbn [map qsum fold_right tl].
    unfold finer; cbn [hd bz]. change (inject_Z _) with 8%Q. field.
Qed.

(** projection writes into every cell of the interval the mean of its children. *)
Theorem C36_projection_is_mean : forall w i yz, istep i = 1 -> (length yz <= 2)%nat ->
  exists ps, projection_op_ w i yz = Some ps /\ map fst ps = map (fun x => (x, yz)) (strided i) /\
    forall x y q, In (x, y, q) ps ->
      (q * inject_Z (2 ^ Z.of_nat (S (length yz))) ==
       qsum (map (fun par => w (2 * x + bz (hd false par))%Z (fine_row yz (tl par))) (parities (S (length yz)))))%Q.
Proof.
  intros w i yz Hst Hl. destruct (projection_spec w i yz Hst Hl) as (ps & H1 & H2 & H3). exists ps. spl; auto.
  intros x y q H. rewrite (H3 x y q H). unfold finer.
  set (Q := qsum _). destruct yz as [|a [|b [|]]]; [| | |simpl in Hl; lia]; simpl length.
  - change (inject_Z (2 ^ Z.of_nat 1)) with 2%Q. field.
  - change (inject_Z (2 ^ Z.of_nat 2)) with 4%Q. field.
  - change (inject_Z (2 ^ Z.of_nat 3)) with 8%Q. field.
Qed.

Example C36_mean_example : option_map red (projection_op_ (fun x yz => inject_Z (x + 10 * nth 0 yz 0)) (mk 1 3) [4]) =
  Some [(1, [4], 175 # 2); (2, [4], 179 # 2)].
Proof. vm_compute. auto. Qed.

(** The children predicted from a cell average to its value: projecting a predicted
    field gives back the coarse field, for every order. *)
Theorem C36_projection_of_prediction : forall order u w i yz ws, istep i = 1 -> (length yz <= 2)%nat ->
  prediction_true order u i yz = Some ws ->
  (forall x y q, In (x, y, q) ws -> w x y = q) ->
  exists ps, projection_op_ w i yz = Some ps /\ map fst ps = map (fun x => (x, yz)) (strided i) /\
    forall x y q, In (x, y, q) ps -> (q == u x y)%Q.
Proof.
  intros order u w i yz ws Hst Hl Hp Hw. destruct (projection_spec w i yz Hst Hl) as (ps & H1 & H2 & H3). exists ps. spl; auto.
  intros x y q H. rewrite (H3 x y q H).
  assert (Hin : In (x, y) (map fst ps)) by (apply in_map_iff; exists (x, y, q); auto).
  rewrite H2 in Hin. apply in_map_iff in Hin as (x' & E & Hin). injection E as -> <-.
  rewrite prediction_true_spec in Hp by auto. apply Some_inv in Hp as <-.
  rewrite (map_ext_in _ (fun par => pred_cell signs_true order u par x yz)).
  2:{ intros par Hpar. apply Hw. apply in_flat_map. exists par. split; auto. apply in_map_iff. exists x. auto. }
  clear - Hl. destruct yz as [|b [|c [|d yz]]].
  - change (inject_Z _) with 2%Q. cbn [length parities map app qsum fold_right]. unfold pred_cell.
    destruct order as [|order]; cbn [terms length signs_true map combine csum].
    + field.
    + generalize (Qc_of (S order) [0%nat] u 1%nat x []). intros. field.
  - change (inject_Z _) with 4%Q. cbn [length parities map app qsum fold_right]. unfold pred_cell.
    destruct order as [|order]; cbn [terms length signs_true map combine csum]; [field|].
    generalize (Qc_of (S order) [0%nat] u 1%nat x [b]) (Qc_of (S order) [1%nat] u 1%nat x [b]) (Qc_of (S order) [0; 1]%nat u 1%nat x [b]). intros. field.
  - change (inject_Z _) with 8%Q. cbn [length parities map app qsum fold_right]. unfold pred_cell.
    destruct order as [|order]; cbn [terms length signs_true map combine csum]; [field|].
    generalize (Qc_of (S order) [0%nat] u 1%nat x [b; c]) (Qc_of (S order) [1%nat] u 1%nat x [b; c]) (Qc_of (S order) [2%nat] u 1%nat x [b; c])
      (Qc_of (S order) [0; 1]%nat u 1%nat x [b; c]) (Qc_of (S order) [0; 2]%nat u 1%nat x [b; c]) (Qc_of (S order) [1; 2]%nat u 1%nat x [b; c])
      (Qc_of (S order) [0; 1; 2]%nat u 1%nat x [b; c]). intros. field.
  - simpl in Hl. lia.
Qed.

Example C36_example : exists ws,
  prediction_true 2 (fun x yz => inject_Z (x * x + nth 0 yz 0 * x)) (mk 3 5) [7] = Some ws /\ length ws = 8%nat.
Proof. eexists. split; [vm_compute; reflexivity|reflexivity]. Qed.

(** ** C37 *)

Lemma child1_of : forall s u odd a, (s <= 5)%nat -> pred_cell signs_true s u [odd] a [] = child1 s (fun x => u x []) odd a.
Proof. intros s u odd a Hs. do 6 (destruct s as [|s]; [destruct odd; reflexivity|]). exfalso; lia. Qed.

(** Prediction of order s from the exact averages of a polynomial of degree at
    most 2 s on a grid of step h gives its exact averages on the grid of step h/2. *)
Theorem C37_exact_on_polynomials : forall s p h u i ws, (s <= 5)%nat -> (length p <= 2 * s + 1)%nat -> ~ (h == 0)%Q -> istep i = 1 ->
  (forall x, u x [] == cell_avg p h x)%Q ->
  prediction_true s u i [] = Some ws ->
  forall x y q, In (x, y, q) ws -> (q == cell_avg p (h / 2) x)%Q.
Proof.
  intros s p h u i ws Hs Hl Hh Hst Hu Hp x y q H. rewrite prediction_true_spec in Hp by auto. apply Some_inv in Hp as <-.
  apply in_flat_map in H as (par & Hpar & H). apply in_map_iff in H as (a & E & _). apply triple_inv in E as (<- & <- & <-).
  assert (C : forall odd, (pred_cell signs_true s u [odd] a [] == cell_avg p (h / 2) (2 * a + bz odd))%Q).
  { intros odd. rewrite child1_of by auto.
    rewrite (child1_ext s _ (cell_avg p h)) by auto. apply poly_child; auto. lia. }
  simpl in Hpar. destruct Hpar as [<-|[<-|[]]]; [apply (C false)|apply (C true)].
Qed.

(** A cubic, order 2, step 1/2. *)
Example C37_example : let p := [1; -3; 0; 2]%Q in let u : field := fun x _ => cell_avg p (1 # 2) x in
  (length p <= 2 * 2 + 1)%nat /\ option_map red (prediction_true 2 u (mk (-1) 1) []) =
  Some [(-2, [], Qred (cell_avg p (1 # 4) (-2))); (0, [], Qred (cell_avg p (1 # 4) 0));
        (-1, [], Qred (cell_avg p (1 # 4) (-1))); (1, [], Qred (cell_avg p (1 # 4) 1))].
Proof. split; [simpl; lia|vm_compute; auto]. Qed.

(** It is not exact one degree higher: the order is sharp. *)
Theorem C37_degree_is_sharp : forall s, (s <= 5)%nat ->
  let p := (repeat 0 (2 * s + 1) ++ [1])%Q in let u : field := fun x _ => cell_avg p 1 x in
  exists ws q, prediction_true s u (mk 0 1) [] = Some ws /\ In (0, [], q) ws /\ ~ (q == cell_avg p (1 # 2) 0)%Q.
Proof.
  intros s Hs. cbv zeta. do 6 (destruct s as [|s]; [do 2 eexists; split; [vm_compute; reflexivity|split; [left; reflexivity|vm_compute; congruence]]|]).
  exfalso; lia.
Qed.

(** interp_coeffs(1) and interp_coeffs(-1) are the same two formulas written as
    one stencil from -s to s. *)
Theorem C37_interp_coeffs_agree : forall s (u : field) x (odd : bool) ws, (s <= 5)%nat ->
  prediction_true s u (mk x (x + 1)) [] = Some ws ->
  forall q, In (2 * x + bz odd, [], q) ws ->
    (q == qsum (map (fun '(k, c) => c * u (x + (Z.of_nat k - Z.of_nat s))%Z []) (combine (seq 0 (2 * s + 1)) (interp_coeffs s (if odd then -1 else 1)))))%Q.
Proof.
  intros s u x odd ws Hs Hp q H. rewrite prediction_true_spec in Hp by auto. apply Some_inv in Hp as <-.
  rewrite single in H. cbn [length parities map app flat_map finer hd tl fine_row combine In] in H. unfold finer, bz in H. cbn [hd] in H.
  assert (E : q = pred_cell signs_true s u [odd] x []).
  { destruct H as [H|[H|[]]]; apply triple_inv in H as (H1 & _ & H2); destruct odd; try lia; auto. }
  subst q. clear - Hs.
  do 6 (destruct s as [|s]; [destruct odd; cbn -[Qplus Qmult Qminus Qopp Qeq Z.add];
    repeat match goal with |- context [Z.sub ?a ?b] => let v := eval compute in (Z.sub a b) in change (Z.sub a b) with v end;
    rewrite ?Z.add_0_r; ring|]). exfalso; lia.
Qed.

Example C37_interp_example : exists ws, prediction_true 3 (fun x _ => inject_Z (x * x * x)) (mk 4 5) [] = Some ws /\
  exists q, In (9, [], q) ws.
Proof. eexists. split; [vm_compute; reflexivity|]. eexists. right. left. reflexivity. Qed.

(** ** C38 *)

(** The value the tensor product gives: the 1D operator in direction x applied to
    the values of the 1D operator in direction y. *)
Definition tensor (order : nat) (u : field) (ox oy : bool) (x y : Z) : Q :=
  child1 order (fun x' => child1 order (fun y' => u x' [y']) oy y) ox x.

(** Order 1 in 2D: what is written differs from the tensor product by twice the
    cross term (1/64 times a difference of differences): its sign is wrong. *)
Theorem C38_order1_deviation : forall u x y ws, prediction_true 1 u (mk x (x + 1)) [y] = Some ws ->
  forall ox oy q, In (2 * x + bz ox, [2 * y + bz oy], q) ws ->
  (q == tensor 1 u ox oy x y - 2 * (if xorb ox oy then -1 else 1) *
        ((1 # 64) * (u (x + 1)%Z [y + 1]%Z - u (x + -1)%Z [y + 1]%Z - u (x + 1)%Z [y + -1]%Z + u (x + -1)%Z [y + -1]%Z)))%Q.
Proof.
  intros u x y ws Hp ox oy q H. rewrite prediction_true_spec in Hp by auto. apply Some_inv in Hp as <-.
  rewrite single in H. apply in_flat_map in H as (par & Hpar & H). destruct H as [H|[]]. apply triple_inv in H as (H1 & H2 & <-).
  assert (par = [ox; oy]) as ->.
  { apply parities_In in Hpar. destruct par as [|a [|b [|]]]; try discriminate. unfold finer, fine_row in *. cbn [hd tl combine map] in *.
    injection H2 as H2. f_equal; [|f_equal]; unfold bz in *; destruct a, ox, b, oy; auto; lia. }
  unfold tensor, child1. destruct ox, oy; cbn -[Qplus Qmult Qminus Qopp Qeq Z.add]; ring.
Qed.

(** Hence no exactness on products: on the averages of x y (cells of size 1, degree
    1 in each variable) every order from 1 to 5 gives a wrong value in the first
    child; in 3D likewise. *)
Theorem C38_tensor_exactness_refuted : forall order, (1 <= order <= 5)%nat ->
  let u : field := fun x yz => (cell_avg [0; 1] 1 x * cell_avg [0; 1] 1 (nth 0 yz 0%Z))%Q in
  (exists ws q, prediction_true order u (mk 0 1) [0] = Some ws /\ In (0, [0], q) ws /\
     ~ (q == cell_avg [0; 1] (1 # 2) 0 * cell_avg [0; 1] (1 # 2) 0)%Q) /\
  (exists ws q, prediction_true order u (mk 0 1) [0; 0] = Some ws /\ In (0, [0; 0], q) ws /\
     ~ (q == cell_avg [0; 1] (1 # 2) 0 * cell_avg [0; 1] (1 # 2) 0)%Q).
Proof.
  intros order Ho. cbv zeta. destruct order as [|order]; [lia|].
  split; rewrite prediction_true_spec by auto; do 2 eexists; (split; [reflexivity|]);
    (split; [rewrite (single 0 : strided (mk 0 1) = [0]); left; reflexivity|]); intros H; apply Qeq_bool_iff in H;
    (do 5 (destruct order as [|order]; [vm_compute in H; discriminate|])); lia.
Qed.

(** In the cross terms of order 2 and more the inner sum starts one index later for
    every index of the outer one (integral_constant s + 1 is passed down): order 2,
    the only y offsets that appear in Qs_ij are +-2. *)
Theorem C38_cross_term_inner_start : forall u x y,
  exists a, Qs_of 2 [0; 1]%nat u 1%nat (mk x (x + 1)) [y] = Some [a] /\
    (a == - (22 # 128) * (3 # 128) * (u (x + 1)%Z [y + 2]%Z - u (x + 1)%Z [y + -2]%Z - (u (x + -1)%Z [y + 2]%Z - u (x + -1)%Z [y + -2]%Z))
          + (3 # 128) * (3 # 128) * (u (x + 2)%Z [y + 2]%Z - u (x + 2)%Z [y + -2]%Z - (u (x + -2)%Z [y + 2]%Z - u (x + -2)%Z [y + -2]%Z)))%Q.
Proof.
  intros u x y. rewrite Qs_of_cells, single. eexists. split; [reflexivity|]. cbn -[Qplus Qmult Qminus Qopp Qeq Z.add]. ring.
Qed.

(** What does hold: on sums of functions of one variable the prediction is the sum of
    the 1D predictions; so it is exact on sums of polynomials of degree at most 2 s
    in each variable (no products). *)
Theorem C38_sums_partial : forall s p1 p2 p3 h u i yz ws, (s <= 5)%nat ->
  (length p1 <= 2 * s + 1)%nat -> (length p2 <= 2 * s + 1)%nat -> (length p3 <= 2 * s + 1)%nat -> ~ (h == 0)%Q -> istep i = 1 ->
  (length yz = 1 \/ length yz = 2)%nat ->
  (forall x y, u x [y] == cell_avg p1 h x + cell_avg p2 h y)%Q ->
  (forall x y z, u x [y; z] == cell_avg p1 h x + cell_avg p2 h y + cell_avg p3 h z)%Q ->
  prediction_true s u i yz = Some ws ->
  (forall x y q, In (x, [y], q) ws -> (q == cell_avg p1 (h / 2) x + cell_avg p2 (h / 2) y)%Q) /\
  (forall x y z q, In (x, [y; z], q) ws -> (q == cell_avg p1 (h / 2) x + cell_avg p2 (h / 2) y + cell_avg p3 (h / 2) z)%Q).
Proof.
  intros s p1 p2 p3 h u i yz ws Hs L1 L2 L3 Hh Hst Hyz U2 U3 Hp.
  rewrite prediction_true_spec in Hp by auto. apply Some_inv in Hp as <-.
  split.
  - intros x y q H. apply in_flat_map in H as (par & Hpar & H). apply in_map_iff in H as (a & E & _). apply triple_inv in E as (E1 & E2 & <-).
    apply parities_In in Hpar. destruct yz as [|b [|? ?]]; simpl in Hyz; try lia; destruct par as [|ox [|oy [|? ?]]]; try discriminate.
    unfold finer, fine_row in *; cbn [hd tl combine map] in *. injection E2 as E2.
    rewrite (sum2 _ _ _ _ _ _ _ _ U2). rewrite !poly_child by (auto; lia). rewrite E1. rewrite <- E2. reflexivity.
  - intros x y z q H. apply in_flat_map in H as (par & Hpar & H). apply in_map_iff in H as (a & E & _). apply triple_inv in E as (E1 & E2 & <-).
    apply parities_In in Hpar. destruct yz as [|b [|c [|? ?]]]; simpl in Hyz; try lia; destruct par as [|ox [|oy [|oz [|? ?]]]]; try discriminate.
    unfold finer, fine_row in *; cbn [hd tl combine map] in *. injection E2 as E2 E3.
    rewrite (sum3 _ _ _ _ _ _ _ _ _ _ _ U3). rewrite !poly_child by (auto; lia). rewrite E1. rewrite <- E2, <- E3. reflexivity.
Qed.

(** Order 1 on the averages of x^2 + 3 y - y^2 with step 1. *)
Example C38_example : let p1 := [0; 0; 1]%Q in let p2 := [0; 3; -1]%Q in
  let u : field := fun x yz => (cell_avg p1 1 x + cell_avg p2 1 (nth 0 yz 0%Z) + cell_avg [] 1 (nth 1 yz 0%Z))%Q in
  (forall x y, u x [y] == cell_avg p1 1 x + cell_avg p2 1 y)%Q /\
  (forall x y z, u x [y; z] == cell_avg p1 1 x + cell_avg p2 1 y + cell_avg [] 1 z)%Q /\
  let e x y := Qred (cell_avg p1 (1 # 2) x + cell_avg p2 (1 # 2) y) in
  option_map red (prediction_true 1 u (mk 2 3) [1]) = Some [(4, [2], e 4 2); (5, [2], e 5 2); (4, [3], e 4 3); (5, [3], e 5 3)].
Proof.
  cbv zeta. spl; [intros; cbn [nth]; change (cell_avg [] 1 0) with 0%Q; ring|intros; reflexivity|vm_compute; auto].
Qed.

Print Assumptions C36_projection_is_mean.
Print Assumptions C36_projection_of_prediction.
Print Assumptions C37_exact_on_polynomials.
Print Assumptions C37_degree_is_sharp.
Print Assumptions C37_interp_coeffs_agree.
Print Assumptions C38_order1_deviation.
Print Assumptions C38_tensor_exactness_refuted.
Print Assumptions C38_cross_term_inner_start.
Print Assumptions C38_sums_partial.
Print Assumptions C39_level_based_is_cellwise.
Print Assumptions C39_finer_is_cellwise.
Print Assumptions C39_soa_refuted.
