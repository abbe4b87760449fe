(** Properties of the Gauss-Legendre quadrature. *)
From Coq Require Import QArith Qabs Lqa.
From Verif Require Import Base SubsetModel GeomModel GaussModel.
Open Scope Q_scope.

(** The integral of t^k over [-1, 1]: the difference of t^(k+1) / (k+1) at the ends *)
Definition moment (k : nat) : Q := (pw 1 (S k) - pw (-1) (S k)) / inject_Z (Z.of_nat (S k)).
(** Integral of a product of powers over [-1, 1]^dim *)
Fixpoint moments (ks : list nat) : Q := match ks with [] => 1 | k :: ks => moment k * moments ks end.

(** A polynomial in the coordinates t_i = (x_i - c_i) / half_h of a cell: coefficients with
    their exponents *)
Fixpoint monomial (half_h : Q) (center : list Q) (ks : list nat) (x : list Q) : Q :=
  match center, ks, x with c :: center, k :: ks, x :: xs => pw ((x - c) / half_h) k * monomial half_h center ks xs | _, _, _ => 1 end.
Definition polynomial (half_h : Q) (center : list Q) (terms : list (Q * list nat)) (x : list Q) : Q :=
  fold_right (fun '(a, ks) s => a * monomial half_h center ks x + s) 0 terms.
(** Its integral over [-1, 1]^dim, and the sum of its coefficients *)
Definition integral (terms : list (Q * list nat)) : Q := fold_right (fun '(a, ks) s => a * moments ks + s) 0 terms.
Definition size_of (terms : list (Q * list nat)) : Q := fold_right (fun '(a, _) s => Qabs a + s) 0 terms.
(** At most the degree in each coordinate *)
Definition of_degree (degree dim : nat) (terms : list (Q * list nat)) : Prop :=
  forall a ks, In (a, ks) terms -> length ks = dim /\ forall k, In k ks -> (k <= degree)%nat.

(** ** The tables *)
Definition D : positive := 10000000000000000.
Definition zsum (table : list (Z * Z)) (k : nat) : Z := fold_right (fun '(p, w) s => (w * p ^ Z.of_nat k + s)%Z) 0%Z table.
Definition rsum (rule : list (Q * Q)) (k : nat) : Q := fold_right (fun '(p, w) s => w * pw p k + s) 0 rule.
Definition zmoment (k : nat) : Z := if Nat.even k then 2 else 0.
Definition check_value (s : Z) (k : nat) (DD : Z) : bool :=
  (Z.abs (s * Z.of_nat (S k) - zmoment k * DD) * Zpos D <=? 4 * (Z.of_nat (S k) * DD))%Z.
Definition check_moment (table : list (Z * Z)) (k : nat) : bool := check_value (zsum table k) k (Zpos D ^ Z.of_nat (S k)).
(** The same for n successive powers, from the table with the weights times p^k *)
Fixpoint check_from (table : list (Z * Z)) (DD : Z) (k n : nat) : bool :=
  match n with
  | O => true
  | S n => check_value (fold_right (fun '(_, w) s => (w + s)%Z) 0%Z table) k DD && check_from (map (fun '(p, w) => (p, w * p)%Z) table) (DD * Zpos D) (S k) n
  end.
Definition times_pow (k : nat) (table : list (Z * Z)) : list (Z * Z) := map (fun '(p, w) => (p, w * p ^ Z.of_nat k)%Z) table.
Lemma check_from_spec : forall n table k, check_from (times_pow k table) (Zpos D ^ Z.of_nat (S k)) k n = true -> forall j, (k <= j < k + n)%nat -> check_moment table j = true.
Proof.
  induction n as [|n IH]; intros table k H j Hj; [lia|]. cbn [check_from] in H. apply andb_true_iff in H as [H1 H2]. destruct (Nat.eq_dec j k) as [->|N].
  - unfold check_moment. replace (zsum table k) with (fold_right (fun '(_, w) s => (w + s)%Z) 0%Z (times_pow k table)); [exact H1|]. clear. induction table as [|[p w] table IH]; [reflexivity|]. cbn [times_pow map fold_right zsum]. f_equal. exact IH.
  - apply (IH table (S k)); [|lia]. replace (times_pow (S k) table) with (map (fun '(p, w) => (p, w * p)%Z) (times_pow k table)).
    + rewrite (Nat2Z.inj_succ (S k)), Z.pow_succ_r, Z.mul_comm by lia. exact H2.
    + unfold times_pow. rewrite map_map. apply map_ext. intros [p w]. f_equal. rewrite Nat2Z.inj_succ, Z.pow_succ_r by lia. lia.
Qed.
Definition check_table (n : nat) : bool :=
  match gl_table n with Some table => check_from table (Zpos D) 0 (2 * n) | None => false end.
Lemma tables_checked : forallb check_table (seq 1 20) = true.
Proof. vm_compute. reflexivity. Qed.

Lemma pw_one : forall k, pw 1 k == 1.
Proof. induction k as [|k IH]; cbn [pw]; [reflexivity|]. rewrite IH. reflexivity. Qed.
Lemma pw_neg : forall k, pw (-1) k == if Nat.even k then 1 else -1.
Proof.
  induction k as [|k IH]; [reflexivity|]. cbn [pw]. rewrite IH, Nat.even_succ, <- Nat.negb_even. destruct (Nat.even k); reflexivity.
Qed.
Lemma moment_value : forall k, moment k * inject_Z (Z.of_nat (S k)) == inject_Z (zmoment k).
Proof.
  intros k. unfold moment, zmoment. rewrite pw_one, pw_neg, Nat.even_succ, <- Nat.negb_even. assert (~ inject_Z (Z.of_nat (S k)) == 0) by (unfold Qeq; cbn; lia). destruct (Nat.even k); cbn [negb]; field; assumption.
Qed.
Lemma pw_decimal : forall p k, pw (decimal p) k * inject_Z (Zpos D ^ Z.of_nat k) == inject_Z (p ^ Z.of_nat k).
Proof.
  intros p. induction k as [|k IH]; [reflexivity|]. cbn [pw]. rewrite Nat2Z.inj_succ, !Z.pow_succ_r, !inject_Z_mult by lia. rewrite <- IH.
  assert (E : decimal p * inject_Z (Zpos D) == inject_Z p) by (unfold Qeq, decimal, D; cbn; lia). rewrite <- E. generalize (pw (decimal p) k), (inject_Z (Z.pos D ^ Z.of_nat k)), (decimal p), (inject_Z (Z.pos D)). intros. ring.
Qed.
Lemma rsum_decimal : forall table k, rsum (map (fun '(p, w) => (decimal p, decimal w)) table) k * inject_Z (Zpos D ^ Z.of_nat (S k)) == inject_Z (zsum table k).
Proof.
  intros table k. induction table as [|[p w] table IH]; cbn [map rsum zsum fold_right]; [ring|]. fold (rsum (map (fun '(p, w) => (decimal p, decimal w)) table) k). fold (zsum table k). rewrite inject_Z_plus, inject_Z_mult, <- IH, <- (pw_decimal p).
  rewrite Nat2Z.inj_succ, Z.pow_succ_r, inject_Z_mult by lia. assert (E : decimal w * inject_Z (Zpos D) == inject_Z w) by (unfold Qeq, decimal, D; cbn; lia). rewrite <- E. generalize (pw (decimal p) k), (inject_Z (Z.pos D ^ Z.of_nat k)), (decimal w), (inject_Z (Z.pos D)), (rsum (map (fun '(p, w) => (decimal p, decimal w)) table) k). intros. ring.
Qed.
Definition eps : Q := 4 # D.
Lemma moment_checked : forall table k, check_moment table k = true -> Qabs (rsum (map (fun '(p, w) => (decimal p, decimal w)) table) k - moment k) <= eps.
Proof.
  intros table k H. unfold check_moment, check_value in H. apply Z.leb_le in H. pose proof (rsum_decimal table k) as R. pose proof (moment_value k) as M. set (r := rsum _ k) in *. set (m := moment k) in *. clearbody r m.
  set (DD := (Zpos D ^ Z.of_nat (S k))%Z) in *. assert (PD : (0 < DD)%Z) by (apply Z.pow_pos_nonneg; lia). set (K := Z.of_nat (S k)) in *. assert (PK : (0 < K)%Z) by (unfold K; lia). clearbody DD K.
  set (z := zsum table k) in *. clearbody z. set (zm := zmoment k) in *. clearbody zm.
  assert (E : (r - m) * (inject_Z K * inject_Z DD) == inject_Z (z * K - zm * DD)). { unfold Z.sub. rewrite inject_Z_plus, inject_Z_opp, !inject_Z_mult, <- R, <- M. ring. }
  assert (P : 0 < inject_Z K * inject_Z DD) by (rewrite <- inject_Z_mult; change 0 with (inject_Z 0); rewrite <- Zlt_Qlt; nia).
  apply (Qmult_le_r _ _ _ P). rewrite <- (Qabs_pos (inject_Z K * inject_Z DD)) at 1 by (apply Qlt_le_weak; exact P). rewrite <- Qabs_Qmult, E. rewrite <- inject_Z_mult. unfold eps, Qle, Qabs, inject_Z, Qmult. cbn [Qnum Qden]. rewrite Pos.mul_1_r. nia.
Qed.
Lemma table_none : forall n, (20 < n)%nat -> gl_table n = None.
Proof. intros n H. do 21 (destruct n as [|n]; [exfalso; lia|]). reflexivity. Qed.
Lemma gl_rule_moments : forall degree rule k, gl_rule degree = Some rule -> (k <= degree)%nat -> Qabs (rsum rule k - moment k) <= eps.
Proof.
  intros degree rule k H Hk. unfold gl_rule in H. destruct (gl_table (n_required_points degree)) as [table|] eqn:T; [|discriminate H]. injection H as <-. apply moment_checked.
  assert (B : (1 <= n_required_points degree <= 20)%nat /\ (degree < 2 * n_required_points degree)%nat).
  { assert (U : (degree < 2 * n_required_points degree)%nat) by (unfold n_required_points; pose proof (Nat.div_mod (degree + 2) 2 ltac:(discriminate)) as E1; pose proof (Nat.mod_upper_bound (degree + 2) 2 ltac:(discriminate)) as E2; set (q := ((degree + 2) / 2)%nat) in *; set (r := ((degree + 2) mod 2)%nat) in *; clearbody q r; clear - E1 E2; lia).
    split; [split; [lia|]|exact U]. destruct (Nat.le_gt_cases (n_required_points degree) 20) as [L|L]; [exact L|]. rewrite (table_none _ L) in T. discriminate T. }
  pose proof tables_checked as C. rewrite forallb_forall in C. specialize (C (n_required_points degree) ltac:(apply in_seq; lia)). unfold check_table in C. rewrite T in C. apply (check_from_spec (2 * n_required_points degree) table 0); [|lia]. replace (times_pow 0 table) with table; [exact C|]. clear. unfold times_pow. induction table as [|[p w] table IH]; [reflexivity|]. cbn [map]. rewrite <- IH. f_equal. f_equal. cbn. lia.
Qed.

(** ** The nested loops *)
Definition rs (rule : list (Q * Q)) (g : Q -> Q -> Q) : Q := fold_right (fun '(p, w) s => g p w + s) 0 rule.
Lemma rs_ext : forall rule g g', (forall p w, g p w == g' p w) -> rs rule g == rs rule g'.
Proof. intros rule g g' H. induction rule as [|[p w] rule IH]; cbn [rs fold_right]; [reflexivity|]. fold (rs rule g). fold (rs rule g'). rewrite H, IH. reflexivity. Qed.
Lemma gl_cons : forall h rule c cs f w, gl_sum h rule (c :: cs) f w == rs rule (fun p wi => gl_sum h rule cs (fun x => f (h * p + c :: x)) (w * wi)).
Proof.
  intros h rule c cs f w. cbn [gl_sum]. set (g := fun p wi => gl_sum h rule cs (fun x => f (h * p + c :: x)) (w * wi)).
  assert (G : forall l acc, fold_left (fun sum '(p, wi) => sum + gl_sum h rule cs (fun x => f (h * p + c :: x)) (w * wi)) l acc == acc + rs l g).
  { induction l as [|[p wi] l IH]; intros acc; cbn [fold_left rs fold_right]; [ring|]. rewrite IH. fold (rs l g). unfold g at 2. ring. }
  rewrite G. ring.
Qed.
Lemma gl_ext : forall h rule cs f f' w w', (forall x, length x = length cs -> f x == f' x) -> w == w' -> gl_sum h rule cs f w == gl_sum h rule cs f' w'.
Proof.
  intros h rule. induction cs as [|c cs IH]; intros f f' w w' F W; [cbn [gl_sum]; rewrite (F [] eq_refl), W; reflexivity|]. rewrite !gl_cons. apply rs_ext. intros p wi. apply IH; [intros x L; apply F; cbn [length]; congruence|rewrite W; reflexivity].
Qed.
Lemma rs_scale : forall rule a g, rs rule (fun p w => a * g p w) == a * rs rule g.
Proof. intros rule a g. induction rule as [|[p w] rule IH]; cbn [rs fold_right]; [ring|]. fold (rs rule g). fold (rs rule (fun p w => a * g p w)). rewrite IH. ring. Qed.
Lemma rs_plus : forall rule g g', rs rule (fun p w => g p w + g' p w) == rs rule g + rs rule g'.
Proof. intros rule g g'. induction rule as [|[p w] rule IH]; cbn [rs fold_right]; [ring|]. fold (rs rule g). fold (rs rule g'). fold (rs rule (fun p w => g p w + g' p w)). rewrite IH. ring. Qed.
Lemma gl_scale : forall h rule cs a f w, gl_sum h rule cs (fun x => a * f x) w == a * gl_sum h rule cs f w.
Proof.
  intros h rule. induction cs as [|c cs IH]; intros a f w; [cbn [gl_sum]; ring|]. rewrite !gl_cons, <- rs_scale. apply rs_ext. intros p wi. apply (IH a (fun x => f (h * p + c :: x))).
Qed.
Lemma gl_plus : forall h rule cs f g w, gl_sum h rule cs (fun x => f x + g x) w == gl_sum h rule cs f w + gl_sum h rule cs g w.
Proof.
  intros h rule. induction cs as [|c cs IH]; intros f g w; [cbn [gl_sum]; ring|]. rewrite !gl_cons, <- rs_plus. apply rs_ext. intros p wi. apply (IH (fun x => f (h * p + c :: x)) (fun x => g (h * p + c :: x))).
Qed.
Lemma gl_zero : forall h rule cs w, gl_sum h rule cs (fun _ => 0) w == 0.
Proof. intros h rule cs w. rewrite (gl_ext h rule cs (fun _ => 0) (fun _ => 0 * 0) w w) by (intros; ring). rewrite (gl_scale h rule cs 0 (fun _ => 0)). ring. Qed.
Lemma pw_ext : forall x y k, x == y -> pw x k == pw y k.
Proof. intros x y k H. induction k as [|k IH]; [reflexivity|]. cbn [pw]. apply Qmult_comp; assumption. Qed.
Fixpoint products (rule : list (Q * Q)) (ks : list nat) : Q := match ks with [] => 1 | k :: ks => rsum rule k * products rule ks end.
Lemma gl_monomial : forall h rule cs ks w, ~ h == 0 -> length ks = length cs -> gl_sum h rule cs (monomial h cs ks) w == w * products rule ks.
Proof.
  intros h rule. induction cs as [|c cs IH]; intros [|k ks] w Hh L; try discriminate L; [cbn [gl_sum monomial products]; ring|]. rewrite gl_cons.
  rewrite (rs_ext rule _ (fun p wi => (w * products rule ks) * (wi * pw p k))).
  - rewrite rs_scale. cbn [products]. change (rs rule (fun p wi => wi * pw p k)) with (rsum rule k). ring.
  - intros p wi. rewrite (gl_ext h rule cs _ (fun x => pw p k * monomial h cs ks x) (w * wi) (w * wi)); [|intros x _; cbn [monomial]; rewrite (pw_ext ((h * p + c - c) / h) p k) by (field; exact Hh); reflexivity|reflexivity].
    rewrite (gl_scale h rule cs (pw p k) (monomial h cs ks)), IH by (auto; cbn [length] in L; congruence). ring.
Qed.
Lemma gl_polynomial : forall h rule cs terms w, ~ h == 0 -> (forall a ks, In (a, ks) terms -> length ks = length cs) -> gl_sum h rule cs (polynomial h cs terms) w == w * fold_right (fun '(a, ks) s => a * products rule ks + s) 0 terms.
Proof.
  intros h rule cs. induction terms as [|[a ks] terms IH]; intros w Hh L; cbn [fold_right]; [unfold polynomial; cbn [fold_right]; rewrite gl_zero; ring|].
  change (gl_sum h rule cs (polynomial h cs ((a, ks) :: terms)) w) with (gl_sum h rule cs (fun x => a * monomial h cs ks x + polynomial h cs terms x) w). rewrite (gl_plus h rule cs (fun x => a * monomial h cs ks x)), (gl_scale h rule cs a (monomial h cs ks)), gl_monomial by (auto; apply (L a); left; reflexivity). rewrite IH by (auto; intros b js H; apply (L b); right; exact H). ring.
Qed.

(** ** The error *)
Lemma moment_bound : forall k, Qabs (moment k) <= 2.
Proof.
  intros k. pose proof (moment_value k) as M. assert (P : 1 <= inject_Z (Z.of_nat (S k))) by (change 1 with (inject_Z 1); rewrite <- Zle_Qle; lia). set (m := moment k) in *. set (K := inject_Z (Z.of_nat (S k))) in *. clearbody m K. assert (A : Qabs m * K == Qabs (inject_Z (zmoment k))) by (rewrite <- M, Qabs_Qmult, (Qabs_pos K) by lra; reflexivity). assert (B : Qabs (inject_Z (zmoment k)) <= 2) by (unfold zmoment; destruct (Nat.even k); unfold Qle; cbn; lia). pose proof (Qabs_nonneg m) as N. assert (C : 0 <= Qabs m * (K - 1)) by (apply Qmult_le_0_compat; lra). lra.
Qed.
Fixpoint err (d : nat) : Q := match d with O => 0 | S d => eps * pw 3 d + 3 * err d end.
Lemma products_error : forall rule degree ks, gl_rule degree = Some rule -> (forall k, In k ks -> (k <= degree)%nat) -> Qabs (products rule ks) <= pw 3 (length ks) /\ Qabs (products rule ks - moments ks) <= err (length ks).
Proof.
  intros rule degree ks H. induction ks as [|k ks IH]; intros B; cbn [products moments length pw err]; [split; unfold Qle; cbn; lia|].
  destruct IH as [I1 I2]; [intros j Hj; apply B; right; exact Hj|]. pose proof (gl_rule_moments degree rule k H (B k ltac:(left; reflexivity))) as E. pose proof (moment_bound k) as M.
  assert (E1 : 0 <= eps) by (unfold eps; unfold Qle; cbn; lia). assert (E2 : eps <= 1) by (unfold eps, D; unfold Qle; cbn; lia).
  assert (T : Qabs (rsum rule k) <= 3). { rewrite (Qabs_wd _ (moment k + (rsum rule k - moment k))) by ring. eapply Qle_trans; [apply Qabs_triangle|]. lra. }
  set (r := rsum rule k) in *. set (m := moment k) in *. set (pr := products rule ks) in *. set (mo := moments ks) in *. set (e := eps) in *. set (t := pw 3 (length ks)) in *. set (er := err (length ks)) in *. clearbody r m pr mo e t er. pose proof (Qabs_nonneg pr). pose proof (Qabs_nonneg (pr - mo)). pose proof (Qabs_nonneg (r - m)). pose proof (Qabs_nonneg m). pose proof (Qabs_nonneg r). split.
  - rewrite Qabs_Qmult. apply Qmult_le_compat_nonneg; split; assumption.
  - rewrite (Qabs_wd _ ((r - m) * pr + m * (pr - mo))) by ring. eapply Qle_trans; [apply Qabs_triangle|]. rewrite !Qabs_Qmult. apply Qplus_le_compat; apply Qmult_le_compat_nonneg; split; auto. lra.
Qed.
Lemma err_bound : forall d, (d <= 3)%nat -> err d <= 27 * eps.
Proof. intros d H. destruct d as [|[|[|[|d]]]]; [unfold Qle; vm_compute; discriminate..|lia]. Qed.
Lemma polynomial_error : forall rule degree dim terms, gl_rule degree = Some rule -> (dim <= 3)%nat -> of_degree degree dim terms ->
  Qabs (fold_right (fun '(a, ks) s => a * products rule ks + s) 0 terms - integral terms) <= 27 * eps * size_of terms.
Proof.
  intros rule degree dim terms H Hd. induction terms as [|[a ks] terms IH]; intros B; [unfold Qle; vm_compute; discriminate|]. unfold integral, size_of in *. cbn [fold_right]. set (s1 := fold_right (fun '(a, ks) s => a * products rule ks + s) 0 terms) in *. set (s2 := fold_right (fun '(a, ks) s => a * moments ks + s) 0 terms) in *. set (s3 := fold_right (fun '(a, _) s => Qabs a + s) 0 terms) in *.
  specialize (IH (fun b js Hb => B b js (or_intror Hb))). destruct (B a ks (or_introl eq_refl)) as [L K]. destruct (products_error rule degree ks H K) as [_ E]. rewrite L in E. pose proof (err_bound dim Hd) as EB.
  clearbody s1 s2 s3. apply (Qle_trans _ (Qabs (a * (products rule ks - moments ks) + (s1 - s2)))); [apply Qle_lteq; right; apply Qabs_wd; ring|]. eapply Qle_trans; [apply Qabs_triangle|]. rewrite Qabs_Qmult. rewrite Qmult_plus_distr_r. apply Qplus_le_compat; [|exact IH].
  rewrite (Qmult_comm (27 * eps)). apply Qmult_le_compat_nonneg; split; try apply Qabs_nonneg; [apply Qle_refl|]. eapply Qle_trans; [exact E|exact EB].
Qed.

(** ** The properties *)

(** For all degrees up to 39 the quadrature of a polynomial of this degree in each coordinate over
    a cell is its integral, up to an error of 1.08 10^-14 times the coefficients: the polynomial
    is written in the coordinates of the cell, which go from -1 to 1. *)
Theorem C84_quadrature : forall degree c f terms, (degree <= 39)%nat -> (1 <= length (center c) <= 3)%nat -> 0 < cl_length c -> of_degree degree (length (center c)) terms ->
  (forall x, length x = length (center c) -> f x == polynomial (cl_length c / 2) (center c) terms x) ->
  exists v, quadrature degree c f = Some v /\
    Qabs (v - pw (cl_length c / 2) (length (center c)) * integral terms) <= (108 # 10000000000000000) * pw (cl_length c / 2) (length (center c)) * size_of terms.
Proof.
  intros degree c f terms Hd Hdim Hl B F. unfold quadrature. assert (exists rule, gl_rule degree = Some rule) as [rule R].
  { unfold gl_rule. assert (T : exists t, gl_table (n_required_points degree) = Some t) by (do 40 (destruct degree as [|degree]; [eexists; reflexivity|]); exfalso; lia). destruct T as [t ->]. eexists. reflexivity. }
  rewrite R. rewrite (proj2 (Nat.leb_le _ _) (proj1 Hdim)), (proj2 (Nat.leb_le _ _) (proj2 Hdim)). cbn [andb]. eexists. split; [reflexivity|].
  assert (Hh : 0 < cl_length c / 2) by (apply Qlt_shift_div_l; lra). set (h := cl_length c / 2) in *. clearbody h.
  assert (P : 0 <= pw h (length (center c))) by (generalize (length (center c)); induction n as [|n IH]; cbn [pw]; [lra|]; apply Qmult_le_0_compat; lra).
  assert (G : gl_sum h rule (center c) f 1 == fold_right (fun '(a, ks) s => a * products rule ks + s) 0 terms).
  { rewrite (gl_ext h rule (center c) f (polynomial h (center c) terms) 1 1 F (Qeq_refl 1)). rewrite gl_polynomial; [ring|lra|]. intros a ks H. apply (B a ks H). }
  pose proof (polynomial_error rule degree (length (center c)) terms R (proj2 Hdim) B) as E. set (s := fold_right _ 0 terms) in *. set (g := gl_sum h rule (center c) f 1) in *. set (t := pw h (length (center c))) in *. clearbody s g t.
  apply (Qle_trans _ (t * Qabs (s - integral terms))).
  - apply Qle_lteq. right. transitivity (Qabs (t * (s - integral terms))); [apply Qabs_wd; rewrite G; ring|]. rewrite Qabs_Qmult, (Qabs_pos t P). reflexivity.
  - apply (Qle_trans _ (t * (27 * eps * size_of terms))); [apply Qmult_le_compat_nonneg; split; auto; [apply Qle_refl|apply Qabs_nonneg]|]. apply Qle_lteq. right. change (27 * eps) with (108 # 10000000000000000). ring.
Qed.

(** make_field gives the mean value of such a polynomial, up to the same error. *)
Theorem C84_make_field : forall degree c f terms, (degree <= 39)%nat -> (1 <= length (center c) <= 3)%nat -> 0 < cl_length c -> of_degree degree (length (center c)) terms ->
  (forall x, length x = length (center c) -> f x == polynomial (cl_length c / 2) (center c) terms x) ->
  exists v, make_field_value degree c f = Some v /\
    Qabs (v - integral terms / pw 2 (length (center c))) <= (108 # 10000000000000000) * size_of terms / pw 2 (length (center c)).
Proof.
  intros degree c f terms Hd Hdim Hl B F. destruct (C84_quadrature degree c f terms Hd Hdim Hl B F) as (v & E & H). unfold make_field_value. rewrite E. eexists. split; [reflexivity|].
  assert (PP : forall x n, 0 < x -> 0 < pw x n) by (intros x n Hx; induction n as [|n IH]; cbn [pw]; [lra|]; apply Qmult_lt_0_compat; assumption).
  assert (PD : forall x n, 0 < x -> pw (x / 2) n * pw 2 n == pw x n). { intros x n Hx. induction n as [|n IH]; [reflexivity|]. cbn [pw]. transitivity ((x / 2) * 2 * (pw (x / 2) n * pw 2 n)); [ring|]. rewrite IH. field. }
  pose proof (PP (cl_length c) (length (center c)) Hl) as P1. pose proof (PP 2 (length (center c)) ltac:(lra)) as P2. pose proof (PP (cl_length c / 2) (length (center c)) ltac:(apply Qlt_shift_div_l; lra)) as P3. pose proof (PD (cl_length c) (length (center c)) Hl) as P4.
  set (a := pw (cl_length c) (length (center c))) in *. set (b := pw 2 (length (center c))) in *. set (d := pw (cl_length c / 2) (length (center c))) in *. clearbody a b d. set (I := integral terms) in *. set (S := size_of terms) in *. clearbody I S. set (e := 108 # 10000000000000000) in *. clearbody e.
  apply (Qmult_le_r _ _ _ P1).
  apply (Qle_trans _ (Qabs (v - d * I))); [apply Qle_lteq; right; transitivity (Qabs ((v / a - I / b) * a)); [rewrite Qabs_Qmult, (Qabs_pos a) by lra; reflexivity|]; apply Qabs_wd; rewrite <- P4; field; split; lra|]. apply (Qle_trans _ (e * d * S)); [exact H|]. apply Qle_lteq. right. rewrite <- P4. field. lra.
Qed.

(** The rule of L2_error: the value at the centre times the volume of the cell, for all functions. *)
Theorem C84_midpoint : forall c f, (1 <= length (center c) <= 3)%nat -> (forall x y, Forall2 Qeq x y -> f x == f y) ->
  exists v, quadrature 0 c f = Some v /\ v == f (center c) * pw (cl_length c) (length (center c)).
Proof.
  intros c f Hdim F. unfold quadrature. change (gl_rule 0) with (Some [(decimal 0, decimal 20000000000000000)]). cbv iota beta. rewrite (proj2 (Nat.leb_le _ _) (proj1 Hdim)), (proj2 (Nat.leb_le _ _) (proj2 Hdim)). cbn [andb]. eexists. split; [reflexivity|]. clear Hdim.
  assert (Z0 : decimal 0 == 0) by reflexivity. assert (Z2 : decimal 20000000000000000 == 2) by reflexivity. generalize dependent (decimal 0). intros z Z0. generalize dependent (decimal 20000000000000000). intros t Z2.
  generalize (cl_length c) as l. intros l. revert f F. generalize (center c) as cs.
  assert (G : forall cs f w, (forall x y, Forall2 Qeq x y -> f x == f y) -> gl_sum (l / 2) [(z, t)] cs f w == w * f cs * pw 2 (length cs)).
  { induction cs as [|x cs IH]; intros f w F; [cbn [gl_sum length pw]; ring|]. rewrite gl_cons. cbn [rs fold_right]. rewrite IH by (intros a b H; apply F; constructor; [reflexivity|exact H]). rewrite (F (l / 2 * z + x :: cs) (x :: cs)).
    - cbn [length pw]. rewrite Z2. ring.
    - constructor; [rewrite Z0; ring|]. clear. induction cs; constructor; [reflexivity|assumption]. }
  intros cs f F. rewrite (G cs f 1 F). assert (PD : forall n, pw (l / 2) n * pw 2 n == pw l n). { induction n as [|n IH]; [reflexivity|]. cbn [pw]. transitivity ((l / 2) * 2 * (pw (l / 2) n * pw 2 n)); [ring|]. rewrite IH. field. }
  rewrite <- PD. ring.
Qed.

(** "The quadrature is defined for all degrees" is false: from degree 40 on there is no rule, and
    no assertion. *)
Theorem C84_degree_refuted : forall degree c f, (40 <= degree)%nat -> quadrature degree c f = None.
Proof.
  intros degree c f H. unfold quadrature, gl_rule. rewrite table_none; [reflexivity|]. unfold n_required_points. apply (Nat.lt_le_trans _ 21); [lia|]. apply Nat.div_le_lower_bound; lia.
Qed.

(** A cell of dimension 2, and 3 + 2 t0^3 t1^2 + t1^2 with t0, t1 the coordinates of the cell *)
Definition gl_cell : cell := make_cell [0; 1] 1 2 [3; 5]%Z 0.
Definition gl_terms : list (Q * list nat) := [(3, [0; 0]%nat); (2, [3; 2]%nat); (1, [0; 2]%nat)].
Example C84_hypotheses : (1 <= length (center gl_cell) <= 3)%nat /\ 0 < cl_length gl_cell /\ of_degree 3 (length (center gl_cell)) gl_terms /\ integral gl_terms == 40 # 3.
Proof.
  split; [cbn; lia|]. split; [reflexivity|]. split; [|vm_compute; reflexivity]. intros a ks [H | [H | [H | []]]]; injection H as <- <-; (split; [reflexivity|]); intros k Hk; cbn in Hk; intuition lia.
Qed.

Print Assumptions C84_quadrature.
Print Assumptions C84_make_field.
Print Assumptions C84_midpoint.
Print Assumptions C84_degree_refuted.
