(** Lemmas on the prediction and projection operators. *)
From Coq Require Import QArith Qfield.
From Verif Require Import Base IntervalModel Spec IntervalProofs SubsetModel NumModel.
Open Scope Z_scope.
Ltac Zify.zify_post_hook ::= Z.div_mod_to_equations.

(** ** Strided ranges *)

Lemma range_from_map : forall n x st k a, range_from n (a * x + k) (a * st) = map (fun y => a * y + k) (range_from n x st).
Proof.
  induction n; intros; simpl; auto. f_equal. rewrite <- IHn. f_equal. lia.
Qed.

Lemma strided_iadd : forall i k, strided (iadd i k) = map (fun x => x + k) (strided i).
Proof.
  intros [s e st idx] k. unfold strided, iadd, range_count; simpl.
  replace (e + k - (s + k)) with (e - s) by lia.
  rewrite (map_ext _ (fun x => 1 * x + k)) by (intros; lia). rewrite <- range_from_map. f_equal; lia.
Qed.

Lemma map_combine_map : forall A B C D (f : A -> B) (g : A -> C) (h : B * C -> D) l,
  map h (combine (map f l) (map g l)) = map (fun x => h (f x, g x)) l.
Proof. induction l; simpl; auto. f_equal. auto. Qed.

Lemma vzip_map : forall A f (g h : A -> Q) l, vzip f (map g l) (map h l) = Some (map (fun x => f (g x) (h x)) l).
Proof. intros. unfold vzip. rewrite !map_length, Nat.eqb_refl. rewrite map_combine_map. auto. Qed.

Lemma vscale_map : forall A c (g : A -> Q) l, vscale c (map g l) = map (fun x => (c * g x)%Q) l.
Proof. intros. unfold vscale. rewrite map_map. auto. Qed.

(** ** Cell by cell *)

(** The value of Qs at one cell. *)
Definition cmove (d : nat) (t x : Z) (yz : list Z) : Z * list Z := match d with O => (x + t, yz) | S d => (x, bump d t yz) end.
Definition cexpr := nat -> Z -> list Z -> Q.
Fixpoint Qc (c : list Q) (d k s : nat) (e : cexpr) (x : Z) (yz : list Z) : Q :=
  let t := Z.of_nat s in
  match k with
  | O => (nth (s - 1) c 0 * (e s (fst (cmove d t x yz)) (snd (cmove d t x yz)) - e s (fst (cmove d (- t) x yz)) (snd (cmove d (- t) x yz))))%Q
  | S k => (nth (s - 1) c 0 * (e (S s) (fst (cmove d t x yz)) (snd (cmove d t x yz)) - e (S s) (fst (cmove d (- t) x yz)) (snd (cmove d (- t) x yz)))
            + Qc c d k (S s) e x yz)%Q
  end.
Definition Qc_of (order : nat) (ds : list nat) (u : field) : cexpr :=
  fold_right (fun d e s x yz => Qc (prediction_coeffs order) d (order - s) s e x yz) (fun _ x yz => u x yz) ds.

Lemma move_eq : forall (e : expr) (ce : cexpr) s,
  (forall i yz, e s i yz = Some (map (fun x => ce s x yz) (strided i))) ->
  forall d t i yz, e s (fst (move d t i yz)) (snd (move d t i yz)) =
    Some (map (fun x => ce s (fst (cmove d t x yz)) (snd (cmove d t x yz))) (strided i)).
Proof.
  intros e ce s H d t i yz. destruct d; simpl; rewrite H; auto. f_equal. rewrite strided_iadd, map_map. auto.
Qed.

Lemma Qs_cells : forall c d (e : expr) (ce : cexpr),
  (forall s i yz, e s i yz = Some (map (fun x => ce s x yz) (strided i))) ->
  forall k s i yz, Qs c d k s e i yz = Some (map (fun x => Qc c d k s ce x yz) (strided i)).
Proof.
  intros c d e ce H. induction k as [|k IH]; intros s i yz; cbn [Qs Qc].
  - rewrite !(move_eq e ce s (H s)). rewrite vzip_map. rewrite vscale_map. auto.
  - rewrite !(move_eq e ce (S s) (H (S s))). rewrite vzip_map. rewrite IH. rewrite vscale_map. rewrite vzip_map. auto.
Qed.

Lemma Qs_of_cells : forall order ds u s i yz, Qs_of order ds u s i yz = Some (map (fun x => Qc_of order ds u s x yz) (strided i)).
Proof.
  intros order ds u. induction ds as [|d ds IH]; intros s i yz; simpl; auto.
  unfold Qs_impl at 1. apply Qs_cells. intros. apply IH.
Qed.

Lemma sequence_Some : forall A (l : list (option A)) l', l = map Some l' -> sequence l = Some l'.
Proof. intros A l l' ->. induction l'; simpl; auto. rewrite IHl'. auto. Qed.

Lemma sequence_map : forall A B (f : A -> option B) g l, (forall x, In x l -> f x = Some (g x)) -> sequence (map f l) = Some (map g l).
Proof.
  intros A B f g l H. apply sequence_Some. rewrite map_map. apply map_ext_in. auto.
Qed.

(** src and the signed terms, at a cell. *)
Fixpoint csum (acc : Q) (l : list (bool * Q)) : Q :=
  match l with [] => acc | (sg, q) :: l => csum (if sg : bool then acc + q else acc - q)%Q l end.

Lemma add_terms_cells : forall A (l : list A) (g : A -> Q) (ts : list (bool * (A -> Q))),
  add_terms (map g l) (map (fun '(sg, q) => (sg, map q l)) ts) =
  Some (map (fun x => csum (g x) (map (fun '(sg, q) => (sg, q x)) ts)) l).
Proof.
  intros A l g ts. revert g. induction ts as [|[sg q] ts IH]; intros g; simpl.
  - f_equal. 
  - destruct sg; rewrite vzip_map; rewrite IH; auto.
Qed.

Lemma combine_map_r : forall A B C (f : B -> C) (l : list A) (l' : list B),
  combine l (map f l') = map (fun '(a, b) => (a, f b)) (combine l l').
Proof. induction l; destruct l'; simpl; auto. f_equal. auto. Qed.

Lemma combine_map_l : forall A B C (f : A -> C) (l : list A) (l' : list B),
  combine (map f l) l' = map (fun '(a, b) => (f a, b)) (combine l l').
Proof. induction l; destruct l'; simpl; auto. f_equal. auto. Qed.

(** The formula at the coarse cell (x, yz) for the child of parity [par]. *)
Definition pred_cell (sgs : list bool -> list bool) (order : nat) (u : field) (par : list bool) (x : Z) (yz : list Z) : Q :=
  csum (u x yz) (combine (sgs par) (map (fun ds => Qc_of order ds u 1%nat x yz) (terms (S (length yz)) order))).

Lemma add_terms_pred : forall order u sgs par yz l,
  add_terms (map (fun x => u x yz) l)
    (combine (sgs par) (map (fun ds => map (fun x => Qc_of order ds u 1%nat x yz) l) (terms (S (length yz)) order))) =
  Some (map (fun x => pred_cell sgs order u par x yz) l).
Proof.
  intros order u sgs par yz l.
  pose proof (add_terms_cells Z l (fun x => u x yz)
    (map (fun '(a, ds) => (a, fun x => Qc_of order ds u 1%nat x yz)) (combine (sgs par) (terms (S (length yz)) order)))) as H.
  rewrite map_map in H. rewrite combine_map_r.
  replace (map (fun '(a, b) => (a, map (fun x => Qc_of order b u 1%nat x yz) l)) (combine (sgs par) (terms (S (length yz)) order)))
    with (map (fun x => let '(sg, q) := (let '(a, ds) := x in (a, fun x0 : Z => Qc_of order ds u 1%nat x0 yz)) in (sg, map q l))
           (combine (sgs par) (terms (S (length yz)) order))) by (apply map_ext; intros [a b]; reflexivity).
  rewrite H. f_equal. apply map_ext. intros x.
  unfold pred_cell. rewrite combine_map_r, map_map. f_equal. apply map_ext. intros [a b]. auto.
Qed.

Lemma assign_map : forall A i yz (f : A -> Z) g l, strided i = map f l -> assign i yz (map g l) = Some (map (fun x => (f x, yz, g x)) l).
Proof.
  intros A i yz f g l H. unfold assign. rewrite H, !map_length, Nat.eqb_refl. rewrite map_combine_map. auto.
Qed.

Lemma strided_scale : forall s e st idx a k, 0 < a -> 0 < st ->
  strided (mkI (a * s + k) (a * e + k) (a * st) idx) = map (fun x => a * x + k) (strided (mkI s e st idx)).
Proof.
  intros. unfold strided; simpl. rewrite <- range_from_map. f_equal. unfold range_count. f_equal.
  replace (a * e + k - (a * s + k) + a * st - 1) with ((e - s + st - 1) * a + (a - 1)) by ring.
  replace (a * st) with (st * a) by ring. rewrite (Z.mul_comm st a). rewrite <- Z.div_div by lia.
  rewrite Z.div_add_l by lia. rewrite (Z.div_small (a - 1)) by lia. f_equal. lia.
Qed.

Lemma strided_In : forall i x, istep i = 1 -> (In x (strided i) <-> in_i i x).
Proof.
  intros [s e st idx] x H. simpl in H. subst st. unfold strided, in_i, range_count; simpl.
  replace (e - s + 1 - 1) with (e - s) by lia. rewrite Z.div_1_r.
  assert (G : forall n s, In x (range_from n s 1) <-> s <= x < s + Z.of_nat n).
  { induction n; intros s0; [simpl; lia|]. cbn [range_from In]. rewrite IHn. lia. }
  rewrite G. lia.
Qed.

Lemma strided_NoDup : forall i, 0 < istep i -> NoDup (strided i).
Proof.
  intros [s e st idx] H. simpl in H. unfold strided; simpl. generalize (range_count s e st).
  assert (G : forall n s y, In y (range_from n s st) -> s <= y).
  { induction n; simpl; intros s0 y HH; [tauto|]. destruct HH as [->|HH]; [lia|]. apply IHn in HH. lia. }
  intros n. revert s. induction n; intros s; simpl; constructor; auto. intros HH. apply G in HH. lia.
Qed.

Lemma strided_len : forall i, istep i = 1 -> length (strided i) = Z.to_nat (iend i - istart i).
Proof.
  intros [s e st idx] H. simpl in H. subst st. unfold strided; simpl.
  assert (G : forall n s st, length (range_from n s st) = n) by (induction n; simpl; auto). rewrite G.
  unfold range_count. f_equal. replace (e - s + 1 - 1) with (e - s) by lia. apply Z.div_1_r.
Qed.

Lemma parities_In : forall d l, In l (parities d) <-> length l = d.
Proof.
  induction d as [|d IH]; intros l; simpl.
  - split; [intros [<-|[]]; auto|]. destruct l; auto; discriminate.
  - rewrite in_app_iff, !in_map_iff. split.
    + intros [(l' & <- & H)|(l' & <- & H)]; apply IH in H; rewrite app_length; simpl; lia.
    + intros H. destruct (exists_last (l := l)) as (l' & x & ->); [intros ->; discriminate|].
      rewrite app_length in H. simpl in H. assert (In l' (parities d)) by (apply IH; lia).
      destruct x; [right|left]; exists l'; auto.
Qed.

Lemma NoDup_app2 : forall A (l l' : list A), NoDup l -> NoDup l' -> (forall x, In x l -> In x l' -> False) -> NoDup (l ++ l').
Proof.
  induction l as [|a l IH]; intros l' H1 H2 H; simpl; auto. inv H1. constructor.
  - rewrite in_app_iff. intros [K|K]; [tauto|]. apply (H a); simpl; auto.
  - apply IH; auto. intros x Hx. apply H. simpl; auto.
Qed.

Lemma parities_NoDup : forall d, NoDup (parities d).
Proof.
  induction d as [|d IH]; simpl; [repeat constructor; auto|].
  assert (J : forall b, NoDup (map (fun l : list bool => l ++ [b]) (parities d))).
  { intros b. apply FinFun.Injective_map_NoDup; auto. intros x y H. apply app_inj_tail in H. tauto. }
  apply NoDup_app2; auto. intros x H1 H2. apply in_map_iff in H1 as (a & <- & _). apply in_map_iff in H2 as (b & H2 & _).
  apply app_inj_tail in H2. destruct H2. discriminate.
Qed.

(** ** prediction, destination finer *)
Definition finer (par : list bool) (x : Z) : Z := 2 * x + bz (hd false par).

Lemma prediction_true_spec : forall order u i yz, istep i = 1 ->
  prediction_true order u i yz =
  Some (flat_map (fun par => map (fun x => (finer par x, fine_row yz (tl par), pred_cell signs_true order u par x yz)) (strided i))
    (parities (S (length yz)))).
Proof.
  intros order u i yz Hst. unfold prediction_true.
  rewrite (sequence_map _ _ _ (fun ds => map (fun x => Qc_of order ds u 1%nat x yz) (strided i))) by (intros; apply Qs_of_cells).
  rewrite (sequence_map _ _ _ (fun par => map (fun x => (finer par x, fine_row yz (tl par), pred_cell signs_true order u par x yz)) (strided i))).
  - rewrite <- flat_map_concat_map. auto.
  - intros par Hpar. apply parities_In in Hpar. destruct par as [|pi pj]; [discriminate|].
    unfold view. rewrite add_terms_pred. cbn [tl hd].
    rewrite (assign_map _ _ _ (finer (pi :: pj)) _ (strided i)).
    + f_equal. apply map_ext. intros x. f_equal. f_equal. unfold fine_row. rewrite combine_map_l, map_map.
      apply map_ext. intros [y b]. rewrite Z.shiftl_mul_pow2 by lia. lia.
    + destruct i as [s e st idx]. simpl in Hst. subst st. unfold ishl, iadd; cbn [istart iend istep iindex].
      rewrite !Z.shiftl_mul_pow2 by lia. change (2 ^ 1) with 2.
      pose proof (strided_scale s e 1 idx 2 (bz pi) ltac:(lia) ltac:(lia)) as H.
      change (finer (pi :: pj)) with (fun x => 2 * x + bz pi). rewrite <- H. f_equal. f_equal; lia.
Qed.

(** ** prediction on the destination level *)

Lemma range_from_slice : forall n x a b, (a + b <= n)%nat -> firstn b (skipn a (range_from n x 1)) = range_from b (x + Z.of_nat a) 1.
Proof.
  induction n; intros x a b H.
  - assert (a = 0%nat) by lia. assert (b = 0%nat) by lia. subst. auto.
  - destruct a; simpl skipn.
    + destruct b; auto. cbn [range_from firstn]. f_equal; [lia|]. pose proof (IHn (x + 1) 0%nat b ltac:(lia)) as K.
      simpl skipn in K. rewrite K. f_equal. lia.
    + rewrite IHn by lia. f_equal. lia.
Qed.

Lemma strided_plain : forall s e idx, strided (mkI s e 1 idx) = range_from (Z.to_nat (e - s)) s 1.
Proof.
  intros. unfold strided, range_count; simpl. do 2 f_equal. replace (e - s + 1 - 1) with (e - s) by lia. apply Z.div_1_r.
Qed.

Lemma odd_bit_mod : forall x, odd_bit x = (x mod 2 =? 1).
Proof. intros. unfold odd_bit. rewrite Z.bit0_odd, Zmod_odd. destruct (Z.odd x); auto. Qed.

Ltac parity i := destruct i as [s e st idx]; cbn [istart iend istep iindex] in *; subst; unfold even_elements, odd_elements, ishr, is_valid in *;
    cbn [istart iend istep iindex] in *; rewrite ?Z.shiftr_div_pow2 in * by lia; change (2 ^ 1) with 2 in *; rewrite !odd_bit_mod in *.

(** The even cells of an interval are the doubles of the coarse cells looked at, and
    the slice of the coarse values is the right one. *)
Lemma even_strided : forall i, istep i = 1 -> strided (even_elements i) = map (fun x => 2 * x) (strided (ishr (even_elements i) 1)).
Proof.
  intros i H. parity i. rewrite strided_plain. unfold strided, range_count; cbn [istart iend istep].
  rewrite (map_ext _ (fun x => 2 * x + 0)) by (intros; lia). rewrite <- range_from_map. 
  destruct (Z.eqb_spec (s mod 2) 1), (Z.eqb_spec (e mod 2) 1); (f_equal; [f_equal; lia|lia]).
Qed.

Lemma odd_strided : forall i, istep i = 1 -> strided (odd_elements i) = map (fun x => 2 * x + 1) (strided (ishr (odd_elements i) 1)).
Proof.
  intros i H. parity i. rewrite strided_plain. unfold strided, range_count; cbn [istart iend istep].
  rewrite <- range_from_map.
  destruct (Z.eqb_spec (s mod 2) 1), (Z.eqb_spec (e mod 2) 1); (f_equal; [f_equal; lia|lia]).
Qed.

Lemma even_slice : forall i, istep i = 1 -> is_valid (even_elements i) = true ->
  let l := strided (ishr i 1) in
  let dec := if odd_bit (istart i) then 1 else 0 in
  firstn (Z.to_nat (Z.of_nat (length l) - dec)) (skipn (Z.to_nat dec) l) = strided (ishr (even_elements i) 1).
Proof.
  intros i H V. cbv zeta. rewrite strided_len by auto. parity i. rewrite !strided_plain.
  apply Z.ltb_lt in V. destruct (Z.eqb_spec (s mod 2) 1), (Z.eqb_spec (e mod 2) 1); (rewrite range_from_slice by lia; f_equal; lia).
Qed.

Lemma odd_slice : forall i, istep i = 1 -> is_valid (odd_elements i) = true ->
  let l := strided (ishr i 1) in
  let dec := if odd_bit (iend i) then 1 else 0 in
  firstn (Z.to_nat (Z.of_nat (length l) - dec - 0)) (skipn (Z.to_nat 0) l) = strided (ishr (odd_elements i) 1).
Proof.
  intros i H V. cbv zeta. rewrite strided_len by auto. parity i. rewrite !strided_plain.
  apply Z.ltb_lt in V. destruct (Z.eqb_spec (s mod 2) 1), (Z.eqb_spec (e mod 2) 1); (rewrite range_from_slice by lia; f_equal; lia).
Qed.

Lemma invalid_strided_even : forall i, istep i = 1 -> is_valid (even_elements i) = false -> strided (ishr (even_elements i) 1) = [].
Proof.
  intros i H V. parity i. apply Z.ltb_ge in V. rewrite strided_plain.
  replace (Z.to_nat _) with 0%nat; auto. destruct (Z.eqb_spec (s mod 2) 1), (Z.eqb_spec (e mod 2) 1); lia.
Qed.

Lemma invalid_strided_odd : forall i, istep i = 1 -> is_valid (odd_elements i) = false -> strided (ishr (odd_elements i) 1) = [].
Proof.
  intros i H V. parity i. apply Z.ltb_ge in V. rewrite strided_plain.
  replace (Z.to_nat _) with 0%nat; auto. destruct (Z.eqb_spec (s mod 2) 1), (Z.eqb_spec (e mod 2) 1); lia.
Qed.

Definition half (yz : list Z) : list Z := map (fun y => Z.shiftr y 1) yz.

Lemma prediction_false_spec : forall order u i yz, istep i = 1 ->
  prediction_false order u i yz =
  Some (map (fun x => (2 * x, yz, pred_cell signs_false order u (false :: map odd_bit yz) x (half yz))) (strided (ishr (even_elements i) 1)) ++
        map (fun x => (2 * x + 1, yz, pred_cell signs_false order u (true :: map odd_bit yz) x (half yz))) (strided (ishr (odd_elements i) 1))).
Proof.
  intros order u i yz Hst. unfold prediction_false. fold (half yz).
  assert (HL : length (half yz) = length yz) by apply map_length. rewrite <- HL.
  rewrite (sequence_map _ _ _ (fun ds => map (fun x => Qc_of order ds u 1%nat x (half yz)) (strided (ishr i 1)))) by (intros; apply Qs_of_cells).
  cbv zeta. rewrite !map_map. unfold vslice.
  lazymatch goal with |- match ?m with _ => _ end = _ => assert (E : m =
      Some (map (fun x => (2 * x, yz, pred_cell signs_false order u (false :: map odd_bit yz) x (half yz))) (strided (ishr (even_elements i) 1)))) end.
  { destruct (is_valid (even_elements i)) eqn:V; [|rewrite invalid_strided_even by auto; auto].
    rewrite (map_ext _ (fun ds => map (fun x => Qc_of order ds u 1%nat x (half yz)) (strided (ishr (even_elements i) 1)))).
    2:{ intros ds. rewrite map_length, skipn_map, firstn_map. f_equal. apply even_slice; auto. }
    unfold view. rewrite add_terms_pred. apply assign_map. apply even_strided; auto. }
  rewrite E. clear E.
  lazymatch goal with |- match ?m with _ => _ end = _ => assert (E : m =
      Some (map (fun x => (2 * x + 1, yz, pred_cell signs_false order u (true :: map odd_bit yz) x (half yz))) (strided (ishr (odd_elements i) 1)))) end.
  { destruct (is_valid (odd_elements i)) eqn:V; [|rewrite invalid_strided_odd by auto; auto].
    rewrite (map_ext _ (fun ds => map (fun x => Qc_of order ds u 1%nat x (half yz)) (strided (ishr (odd_elements i) 1)))).
    2:{ intros ds. rewrite map_length, skipn_map, firstn_map. f_equal. apply odd_slice; auto. }
    unfold view. rewrite add_terms_pred. apply assign_map. apply odd_strided; auto. }
  rewrite E. auto.
Qed.
