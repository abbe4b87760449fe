(** Exactness of the prediction on averages of polynomials. *)
From Coq Require Import QArith Qfield.
From Verif Require Import Base IntervalModel SubsetModel NumModel NumProofs NumSpec.
Open Scope Q_scope.

(** The identities behind the coefficients, for F(y) = y^(m+1), with integer
    coefficients [D] and [n_k], the children having width [g]. *)
Fixpoint stencil_sum (F : Q -> Q) (ns : list Z) (k : Z) (x g : Q) : Q :=
  match ns with
  | [] => 0
  | n :: ns => inject_Z n * (F (x + inject_Z (2 * (k + 1)) * g) - F (x + inject_Z (2 * k) * g)
                             - F (x + inject_Z (- (2 * (k - 1))) * g) + F (x + inject_Z (- (2 * k)) * g))
               + stencil_sum F ns (k + 1) x g
  end.

Definition int_coeffs (s : nat) : Z * list Z :=
  match s with
  | 1%nat => (8, [-1])
  | 2%nat => (128, [-22; 3])
  | 3%nat => (1024, [-201; 44; -5])
  | 4%nat => (32768, [-6922; 1898; -370; 35])
  | 5%nat => (262144, [-58022; 18208; -4661; 784; -63])
  | _ => (1, [])
  end%Z.

Lemma core : forall s m x g, (s <= 5)%nat -> (m <= 2 * s)%nat ->
  let F y := qpow y (S m) in
  let D := inject_Z (fst (int_coeffs s)) in
  D * 2 * (F (x + g) - F x) == D * (F (x + 2 * g) - F x) + stencil_sum F (snd (int_coeffs s)) 1 x g.
Proof.
  intros s m x g Hs Hm. cbv zeta.
  do 6 (destruct s as [|s]; [do 11 (destruct m as [|m]; [first [exfalso; lia | cbn -[Qplus Qmult Qminus Qopp Qeq]; ring]|]); exfalso; lia|]). exfalso; lia.
Qed.

Global Instance qpow_proper : Proper (Qeq ==> eq ==> Qeq) qpow.
Proof. intros x y H n m <-. induction n; simpl; [reflexivity|]. rewrite IHn, H. reflexivity. Qed.

(** ** The 1D formula *)

(** Value of the child of the cell x, even or odd, of a 1D field [v]. *)
Definition child1 (s : nat) (v : Z -> Q) (odd : bool) (x : Z) : Q := pred_cell signs_true s (fun x _ => v x) [odd] x [].

Lemma child1_ext : forall s v w odd x, (s <= 5)%nat -> (forall y, v y == w y) -> child1 s v odd x == child1 s w odd x.
Proof.
  intros s v w odd x Hs H.
  do 6 (destruct s as [|s]; [destruct odd; cbn -[Qplus Qmult Qminus Qopp Qeq]; rewrite !H; reflexivity|]). exfalso; lia.
Qed.

Lemma child1_lin : forall s a v w odd x, (s <= 5)%nat ->
  child1 s (fun y => a * v y + w y) odd x == a * child1 s v odd x + child1 s w odd x.
Proof.
  intros s a v w odd x Hs.
  do 6 (destruct s as [|s]; [destruct odd; cbn -[Qplus Qmult Qminus Qopp Qeq]; ring|]). exfalso; lia.
Qed.

Lemma child1_zero : forall s odd x, (s <= 5)%nat -> child1 s (fun _ => 0) odd x == 0.
Proof.
  intros s odd x Hs.
  do 6 (destruct s as [|s]; [destruct odd; cbn -[Qplus Qmult Qminus Qopp Qeq]; ring|]). exfalso; lia.
Qed.

Lemma child1_sum : forall s v x, (s <= 5)%nat -> child1 s v true x == 2 * v x - child1 s v false x.
Proof.
  intros s v x Hs.
  do 6 (destruct s as [|s]; [cbn -[Qplus Qmult Qminus Qopp Qeq]; ring|]). exfalso; lia.
Qed.

Lemma Sm_nz : forall m, ~ inject_Z (Z.of_nat (S m)) == 0.
Proof. intros m. unfold inject_Z, Qeq. cbn [Qnum Qden]. lia. Qed.

Section Mono.
  Variables (m : nat) (g : Q) (x : Z).
  Hypothesis Hg : ~ g == 0.
  Let F y := qpow y (S m).
  Let X := inject_Z x * (2 * g).
  Let K := / (inject_Z (Z.of_nat (S m)) * (2 * g)).
  Let v y := mono_avg m (inject_Z y * (2 * g)) ((inject_Z y + 1) * (2 * g)).

  Lemma v_at : forall y k, y = (x + k)%Z -> v y == (F (X + inject_Z (2 * (k + 1)) * g) - F (X + inject_Z (2 * k) * g)) * K.
  Proof.
    intros y k ->. unfold v, mono_avg, F.
    assert (E1 : (inject_Z (x + k) + 1) * (2 * g) == X + inject_Z (2 * (k + 1)) * g).
    { unfold X. rewrite !inject_Z_plus, !inject_Z_mult, inject_Z_plus. simpl (inject_Z 2). simpl (inject_Z 1). ring. }
    assert (E2 : inject_Z (x + k) * (2 * g) == X + inject_Z (2 * k) * g).
    { unfold X. rewrite !inject_Z_plus, !inject_Z_mult. simpl (inject_Z 2). ring. }
    rewrite E1, E2. unfold K.
    assert (E3 : X + inject_Z (2 * (k + 1)) * g - (X + inject_Z (2 * k) * g) == 2 * g).
    { rewrite !inject_Z_mult, inject_Z_plus. simpl (inject_Z 2). simpl (inject_Z 1). ring. }
    rewrite E3. unfold Qdiv. reflexivity.
  Qed.

  Lemma child_even_at : mono_avg m X (X + g) == 2 * K * (F (X + g) - F X).
  Proof.
    unfold mono_avg, K, F. pose proof (Sm_nz m). assert (E : X + g - X == g) by ring. rewrite E. field. auto.
  Qed.

  Lemma mono_even : forall s, (s <= 5)%nat -> (m <= 2 * s)%nat -> child1 s v false x == mono_avg m X (X + g).
  Proof.
    intros s Hs Hm. rewrite child_even_at. pose proof (core s m X g Hs Hm) as H. cbv zeta in H. fold F in H.
    change (fun y : Q => qpow y (S m)) with F in H.
    assert (G : forall D S V, ~ D == 0 -> D * 2 * (F (X + g) - F X) == D * (F (X + 2 * g) - F X) + S ->
              V == K * (F (X + 2 * g) - F X) + (K / D) * S -> V == 2 * K * (F (X + g) - F X)).
    { intros D S V HD H1 H2. rewrite H2.
      assert (HS : S == D * 2 * (F (X + g) - F X) - D * (F (X + 2 * g) - F X)) by (rewrite H1; ring).
      rewrite HS. field. auto. }
    refine (G _ _ _ _ H _).
    { destruct s as [|[|[|[|[|[|]]]]]]; simpl; try lia; discriminate. }
    clear G H.
    assert (V0 : v x == (F (X + 2 * g) - F X) * K).
    { rewrite (v_at x 0) by lia. cbn -[Qplus Qmult Qminus Qopp Qeq]. unfold F.
      assert (E : X + 0 * g == X) by ring. change (inject_Z 0) with 0. rewrite E. reflexivity. }
    pose proof (v_at (x + 1) 1 ltac:(lia)) as P1. pose proof (v_at (x + -1) (-1) ltac:(lia)) as M1.
    pose proof (v_at (x + 2) 2 ltac:(lia)) as P2. pose proof (v_at (x + -2) (-2) ltac:(lia)) as M2.
    pose proof (v_at (x + 3) 3 ltac:(lia)) as P3. pose proof (v_at (x + -3) (-3) ltac:(lia)) as M3.
    pose proof (v_at (x + 4) 4 ltac:(lia)) as P4. pose proof (v_at (x + -4) (-4) ltac:(lia)) as M4.
    pose proof (v_at (x + 5) 5 ltac:(lia)) as P5. pose proof (v_at (x + -5) (-5) ltac:(lia)) as M5.
    cbn -[Qplus Qmult Qminus Qopp Qeq F v X] in P1, M1, P2, M2, P3, M3, P4, M4, P5, M5.
    do 6 (destruct s as [|s];
      [cbn -[Qplus Qmult Qminus Qopp Qeq Qdiv F v X]; rewrite ?V0, ?P1, ?M1, ?P2, ?M2, ?P3, ?M3, ?P4, ?M4, ?P5, ?M5; field|]).
    exfalso; lia.
  Qed.
End Mono.

Lemma avg_from_even : forall s p m h x, (s <= 5)%nat -> (m + length p <= S (2 * s))%nat -> ~ h == 0 ->
  child1 s (fun y => avg_from m p (inject_Z y * h) ((inject_Z y + 1) * h)) false x ==
  avg_from m p (inject_Z x * h) (inject_Z x * h + h / 2).
Proof.
  intros s p. induction p as [|c p IH]; intros m h x Hs Hl Hh; simpl avg_from.
  - apply child1_zero; auto.
  - rewrite child1_lin by auto. simpl in Hl. rewrite IH by (auto; lia).
    assert (Hg : ~ h / 2 == 0). { intros E. apply Hh. assert (h == h / 2 * 2) by field. rewrite H, E. ring. }
    pose proof (mono_even m (h / 2) x Hg s Hs ltac:(lia)) as H.
    assert (E : 2 * (h / 2) == h) by field.
    apply Qplus_comp; [|reflexivity]. apply Qmult_comp; [reflexivity|].
    rewrite <- child1_ext in H; [rewrite H|auto|].
    + unfold mono_avg. rewrite E. reflexivity.
    + intros y. unfold mono_avg. rewrite E. reflexivity.
Qed.

(** Averages over two halves add up. *)
Lemma avg_from_halves : forall p m a h, ~ h == 0 ->
  avg_from m p a (a + h) * 2 == avg_from m p a (a + h / 2) + avg_from m p (a + h / 2) (a + h).
Proof.
  induction p as [|c p IH]; intros m a h Hh; simpl avg_from; [ring|].
  rewrite Qmult_plus_distr_l. rewrite IH by auto. unfold mono_avg.
  pose proof (Sm_nz m) as HS.
  assert (E1 : a + h - a == h) by ring. assert (E2 : a + h / 2 - a == h / 2) by ring.
  assert (E3 : a + h - (a + h / 2) == h / 2) by field. rewrite E1, E2, E3. field. split; auto.
Qed.

Global Instance avg_from_proper : Proper (eq ==> eq ==> Qeq ==> Qeq ==> Qeq) avg_from.
Proof.
  intros m m' <- p p' <- a a' Ha b b' Hb. revert m. induction p; intros m; simpl; [reflexivity|].
  rewrite IHp. unfold mono_avg. rewrite Ha, Hb. reflexivity.
Qed.

Lemma poly_child : forall s p h x odd, (s <= 5)%nat -> (length p <= S (2 * s))%nat -> ~ h == 0 ->
  child1 s (cell_avg p h) odd x == cell_avg p (h / 2) (2 * x + bz odd).
Proof.
  intros s p h x odd Hs Hl Hh. pose proof (avg_from_even s p 0 h x Hs Hl Hh) as H.
  change (fun y => avg_from 0 p (inject_Z y * h) ((inject_Z y + 1) * h)) with (cell_avg p h) in H.
  destruct odd; unfold bz.
  - rewrite child1_sum by auto. rewrite H. unfold cell_avg, poly_avg. rewrite inject_Z_plus, inject_Z_mult.
    change (inject_Z 2) with 2. change (inject_Z 1) with 1.
    assert (E1 : (inject_Z x + 1) * h == inject_Z x * h + h) by ring.
    assert (E2 : (2 * inject_Z x + 1) * (h / 2) == inject_Z x * h + h / 2) by field.
    assert (E3 : (2 * inject_Z x + 1 + 1) * (h / 2) == inject_Z x * h + h) by field.
    rewrite E1, E2, E3. rewrite (Qmult_comm 2). rewrite avg_from_halves by auto. ring.
  - rewrite H. unfold cell_avg, poly_avg. rewrite inject_Z_plus, inject_Z_mult. change (inject_Z 2) with 2. change (inject_Z 0) with 0.
    assert (E2 : (2 * inject_Z x + 0) * (h / 2) == inject_Z x * h) by field.
    assert (E3 : (2 * inject_Z x + 0 + 1) * (h / 2) == inject_Z x * h + h / 2) by field.
    rewrite E2, E3. reflexivity.
Qed.

(** ** Several directions *)

(** The contribution of a direction along which the inner expression is constant. *)
Lemma Qc_const : forall c d k s e x yz,
  (forall s' t, e s' (fst (cmove d t x yz)) (snd (cmove d t x yz)) == e s' (fst (cmove d (- t) x yz)) (snd (cmove d (- t) x yz))) ->
  Qc c d k s e x yz == 0.
Proof.
  intros c d. induction k as [|k IH]; intros s e x yz H; cbn [Qc]; rewrite H; [|rewrite IH by auto]; ring.
Qed.

Lemma Qc_ext : forall c d k s e e' x yz, (forall s x yz, e s x yz == e' s x yz) -> Qc c d k s e x yz == Qc c d k s e' x yz.
Proof. intros c d. induction k as [|k IH]; intros s e e' x yz H; cbn [Qc]; rewrite !H; [|rewrite (IH (S s) e e') by auto]; reflexivity. Qed.

(** Sums of functions of one coordinate. *)
Fixpoint usum (F : nat -> Z -> Q) (j : nat) (l : list Z) : Q :=
  match l with [] => 0 | a :: l => F j a + usum F (S j) l end.

Fixpoint Q1 (c : list Q) (k s : nat) (f : Z -> Q) (a : Z) : Q :=
  let t := Z.of_nat s in
  match k with
  | O => nth (s - 1) c 0 * (f (a + t)%Z - f (a + - t)%Z)
  | S k => nth (s - 1) c 0 * (f (a + t)%Z - f (a + - t)%Z) + Q1 c k (S s) f a
  end.

Lemma cmove_bump : forall d t x yz, fst (cmove d t x yz) :: snd (cmove d t x yz) = bump d t (x :: yz).
Proof. destruct d; intros; auto. Qed.

Lemma usum_bump : forall F l j d t, (d < length l)%nat ->
  usum F j (bump d t l) == usum F j l - F (j + d)%nat (nth d l 0%Z) + F (j + d)%nat (nth d l 0%Z + t)%Z.
Proof.
  induction l as [|a l IH]; intros j d t H; simpl in H; [lia|]. destruct d; cbn [bump usum nth].
  - rewrite Nat.add_0_r. ring.
  - rewrite IH by lia. replace (S j + d)%nat with (j + S d)%nat by lia. ring.
Qed.

Lemma nth_bump : forall l d d' t, d <> d' -> nth d' (bump d t l) 0%Z = nth d' l 0%Z.
Proof. induction l as [|a l IH]; intros [|d] [|d'] t H; simpl; auto; lia. Qed.

Lemma bump_length : forall l d t, length (bump d t l) = length l.
Proof. induction l; destruct d; intros; simpl; auto. Qed.

Section Sums.
  Variables (F : nat -> Z -> Q) (u : field) (n : nat).
  Hypothesis HU : forall x yz, length yz = n -> u x yz == usum F 0 (x :: yz).

  Lemma cmove_len : forall d t x yz, length (snd (cmove d t x yz)) = length yz.
  Proof. intros. pose proof (f_equal (@length Z) (cmove_bump d t x yz)) as H. rewrite bump_length in H. simpl in H. lia. Qed.

  Lemma single_dir : forall c d k s x yz, length yz = n -> (d <= n)%nat ->
    Qc c d k s (fun _ x yz => u x yz) x yz == Q1 c k s (F d) (nth d (x :: yz) 0%Z).
  Proof.
    intros c d k. induction k as [|k IH]; intros s x yz Hl Hd; cbn [Qc Q1]; rewrite !HU by (rewrite cmove_len; auto);
      rewrite !cmove_bump, !usum_bump by (simpl; lia); rewrite !Nat.add_0_l.
    - ring.
    - rewrite IH by auto. ring.
  Qed.

  Lemma pair_dir : forall order d d' s x yz, length yz = n -> (d' <= n)%nat -> d <> d' -> Qc_of order [d; d'] u s x yz == 0.
  Proof.
    intros order d d' s x yz Hl Hd Hne. cbn [Qc_of fold_right]. apply Qc_const. intros s' t.
    rewrite !single_dir by (auto; rewrite cmove_len; auto). rewrite !cmove_bump, !nth_bump by auto. reflexivity.
  Qed.

  Lemma triple_dir : forall order d d' d'' s x yz, length yz = n -> (d'' <= n)%nat -> d' <> d'' -> Qc_of order [d; d'; d''] u s x yz == 0.
  Proof.
    intros order d d' d'' s x yz Hl Hd Hne.
    change (Qc_of order [d; d'; d''] u s x yz) with (Qc (prediction_coeffs order) d (order - s) s (Qc_of order [d'; d''] u) x yz).
    apply Qc_const. intros s' t. rewrite !pair_dir by (auto; rewrite cmove_len; auto). reflexivity.
  Qed.
End Sums.

Lemma child1_Q1 : forall s f (odd : bool) a,
  child1 s f odd a == (if odd then f a - (match s with O => 0 | _ => Q1 (prediction_coeffs s) (s - 1) 1 f a end)
                       else f a + (match s with O => 0 | _ => Q1 (prediction_coeffs s) (s - 1) 1 f a end)).
Proof.
  intros s f odd a. unfold child1, pred_cell.
  pose proof (single_dir (fun _ => f) (fun x _ => f x) 0) as H.
  assert (HU : forall x yz, length yz = 0%nat -> f x == usum (fun _ => f) 0 (x :: yz)).
  { intros x [|] E; [simpl; ring|discriminate]. }
  specialize (H HU (prediction_coeffs s) 0%nat (s - 1)%nat 1%nat a [] eq_refl (le_n _)).
  destruct s as [|s]; [destruct odd; cbn; ring|].
  cbn [terms length map combine]. destruct odd; cbn [signs_true combine csum]; cbn [Qc_of fold_right]; rewrite H; reflexivity.
Qed.

Lemma sum2 : forall s u f g a b ox oy, (forall x y, u x [y] == f x + g y) ->
  pred_cell signs_true s u [ox; oy] a [b] == child1 s f ox a + child1 s g oy b.
Proof.
  intros s u f g a b ox oy U. set (F := fun j => match j with O => f | _ => g end).
  assert (HU : forall x yz, length yz = 1%nat -> u x yz == usum F 0 (x :: yz)).
  { intros x [|y [|]] E; try discriminate. rewrite U. simpl. ring. }
  rewrite !child1_Q1. unfold pred_cell. destruct s as [|s].
  - destruct ox, oy; cbn; rewrite U; ring.
  - cbn [terms length map].
    pose proof (single_dir F u 1 HU (prediction_coeffs (S s)) 0 (S s - 1) 1 a [b] eq_refl ltac:(lia)) as H0.
    pose proof (single_dir F u 1 HU (prediction_coeffs (S s)) 1 (S s - 1) 1 a [b] eq_refl ltac:(lia)) as H1.
    pose proof (pair_dir F u 1 HU (S s) 0 1 1 a [b] eq_refl ltac:(lia) ltac:(lia)) as H01.
    cbn [Qc_of fold_right] in *. cbn [F nth] in H0, H1.
    destruct ox, oy; cbn [signs_true combine csum]; rewrite U, H01, H0, H1; ring.
Qed.

Lemma sum3 : forall s u f g h a b c ox oy oz, (forall x y z, u x [y; z] == f x + g y + h z) ->
  pred_cell signs_true s u [ox; oy; oz] a [b; c] == child1 s f ox a + child1 s g oy b + child1 s h oz c.
Proof.
  intros s u f g h a b c ox oy oz U. set (F := fun j => match j with O => f | 1%nat => g | _ => h end).
  assert (HU : forall x yz, length yz = 2%nat -> u x yz == usum F 0 (x :: yz)).
  { intros x [|y [|z [|]]] E; try discriminate. rewrite U. simpl. ring. }
  rewrite !child1_Q1. unfold pred_cell. destruct s as [|s].
  - destruct ox, oy, oz; cbn; rewrite U; ring.
  - cbn [terms length map].
    pose proof (single_dir F u 2 HU (prediction_coeffs (S s)) 0 (S s - 1) 1 a [b; c] eq_refl ltac:(lia)) as H0.
    pose proof (single_dir F u 2 HU (prediction_coeffs (S s)) 1 (S s - 1) 1 a [b; c] eq_refl ltac:(lia)) as H1.
    pose proof (single_dir F u 2 HU (prediction_coeffs (S s)) 2 (S s - 1) 1 a [b; c] eq_refl ltac:(lia)) as H2.
    pose proof (pair_dir F u 2 HU (S s) 0 1 1 a [b; c] eq_refl ltac:(lia) ltac:(lia)) as H01.
    pose proof (pair_dir F u 2 HU (S s) 0 2 1 a [b; c] eq_refl ltac:(lia) ltac:(lia)) as H02.
    pose proof (pair_dir F u 2 HU (S s) 1 2 1 a [b; c] eq_refl ltac:(lia) ltac:(lia)) as H12.
    pose proof (triple_dir F u 2 HU (S s) 0 1 2 1 a [b; c] eq_refl ltac:(lia) ltac:(lia)) as H012.
    cbn [Qc_of fold_right] in *. cbn [F nth] in H0, H1, H2.
    destruct ox, oy, oz; cbn [signs_true combine csum]; rewrite U, H012, H01, H02, H12, H0, H1, H2; ring.
Qed.
