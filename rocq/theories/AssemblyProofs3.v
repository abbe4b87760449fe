(** Proofs about the assembly of the matrix: rows and columns, and what the loops add (C78). *)
From Coq Require Import QArith.
From Verif Require Import Base IntervalModel Spec LoiModel LcaModel LcaSpec LcaProofs LcaProofs3 RowsProofs CellArrayModel CellArrayProofs
  PropsLca PropsCellArray SubsetModel TreeProofs SubsetSpec SubsetProofs2 PropsSubset StencilModel NumberingProofs StencilProofs PropsStencil
  MeshModel MeshProofs PropsMesh AdaptModel AdaptProofs TagProofs PropsAdapt InterfaceModel InterfaceProofs PropsInterface GeomModel FluxModel FluxProofs NumModel NumProofs GhostModel
  ReconModel ReconProofs LinFluxModel LinFluxProofs AssemblyModel AssemblyProofs.
Open Scope Z_scope.

(** ** Rows and columns *)
Lemma data_range : forall size soa N shift cell f, 0 <= cell < N -> (f < size)%nat -> shift <= data_index size soa N shift cell f < shift + N * Z.of_nat size.
Proof.
  intros size soa N shift cell f Hc Hf. unfold data_index. destruct (Nat.eqb_spec size 1) as [->|Hs]; [lia|].
  assert (A : (Z.of_nat f + 1) * N <= Z.of_nat size * N) by (apply Z.mul_le_mono_nonneg_r; lia). assert (B : (cell + 1) * Z.of_nat size <= N * Z.of_nat size) by (apply Z.mul_le_mono_nonneg_r; lia).
  assert (C : 0 <= Z.of_nat f * N) by (apply Z.mul_nonneg_nonneg; lia). assert (D : 0 <= cell * Z.of_nat size) by (apply Z.mul_nonneg_nonneg; lia). destruct soa; lia.
Qed.
Lemma data_inj : forall size soa N shift c f c' f', 0 <= c < N -> 0 <= c' < N -> (f < size)%nat -> (f' < size)%nat ->
  data_index size soa N shift c f = data_index size soa N shift c' f' -> c = c' /\ f = f'.
Proof.
  intros size soa N shift c f c' f' Hc Hc' Hf Hf'. unfold data_index. destruct (Nat.eqb_spec size 1) as [->|Hs]; [lia|]. destruct soa; intros E.
  - assert (Z.of_nat f = Z.of_nat f' /\ c = c'); [|lia]. apply (Z.div_mod_unique N); lia.
  - assert (c = c' /\ Z.of_nat f = Z.of_nat f'); [|lia]. apply (Z.div_mod_unique (Z.of_nat size)); lia.
Qed.
Lemma data_onto : forall size soa N shift i, shift <= i < shift + N * Z.of_nat size -> exists c f, 0 <= c < N /\ (f < size)%nat /\ i = data_index size soa N shift c f.
Proof.
  intros size soa N shift i Hi. unfold data_index. destruct (Nat.eqb_spec size 1) as [->|Hs]; [exists (i - shift), 0%nat; lia|].
  assert (size <> 0)%nat by (intros ->; lia). assert (0 < N). { destruct (Z.le_gt_cases N 0); [|auto]. assert (N * Z.of_nat size <= 0) by (apply Z.mul_nonpos_nonneg; lia). lia. } destruct soa.
  - exists ((i - shift) mod N), (Z.to_nat ((i - shift) / N)). pose proof (Z.mod_pos_bound (i - shift) N ltac:(lia)). pose proof (Z.div_mod (i - shift) N ltac:(lia)).
    assert (0 <= (i - shift) / N) by (apply Z.div_pos; lia). assert ((i - shift) / N < Z.of_nat size) by (apply Z.div_lt_upper_bound; lia). rewrite !Z2Nat.id by lia. split; [auto|]. split; lia.
  - exists ((i - shift) / Z.of_nat size), (Z.to_nat ((i - shift) mod Z.of_nat size)). pose proof (Z.mod_pos_bound (i - shift) (Z.of_nat size) ltac:(lia)). pose proof (Z.div_mod (i - shift) (Z.of_nat size) ltac:(lia)).
    assert (0 <= (i - shift) / Z.of_nat size) by (apply Z.div_pos; lia). assert ((i - shift) / Z.of_nat size < N) by (apply Z.div_lt_upper_bound; lia). rewrite !Z2Nat.id by lia. split; [auto|]. split; lia.
Qed.

(** ** What a step adds to the product of the matrix with a vector *)
Definition ap (y : layout) (m : matrix) (x : Z -> Q) (r : Z) : Q := sum_over (fun c => m r c * x c)%Q (zrange (ly_col_shift y) (ly_col_shift y + matrix_cols y)).
(** [W]: the rows which may change; [T]: those which are marked as not empty. *)
Definition acts (y : layout) (f : asm -> option asm) (eff : (Z -> Q) -> Z -> Q) (W T : Z -> Prop) : Prop :=
  forall s, exists s', f s = Some s' /\ (forall x r, ap y (as_mat s') x r == ap y (as_mat s) x r + eff x r)%Q /\
    (forall r c, ~ W r -> as_mat s' r c = as_mat s r c) /\ (forall i, as_empty s' i = true <-> as_empty s i = true /\ ~ T (ly_row_shift y + i)).

Lemma zrange_NoDup : forall a b, NoDup (zrange a b).
Proof. intros a b. unfold zrange. apply FinFun.Injective_map_NoDup; [intros i j H; lia|apply seq_NoDup]. Qed.

Section Acts.
  Context (y : layout).
  Lemma acts_skip : acts y Some (fun _ _ => 0%Q) (fun _ => False) (fun _ => False).
  Proof. intros s. exists s. split; [reflexivity|]. split; [intros; ring|]. split; [reflexivity|]. intros i. tauto. Qed.
  Lemma acts_seq : forall f g e1 W1 T1 e2 W2 T2, acts y f e1 W1 T1 -> acts y g e2 W2 T2 ->
    acts y (fun s => let* s := f s in g s) (fun x r => e1 x r + e2 x r)%Q (fun r => W1 r \/ W2 r) (fun r => T1 r \/ T2 r).
  Proof.
    intros f g e1 W1 T1 e2 W2 T2 A B s. destruct (A s) as (s1 & -> & A1 & A2 & A3). destruct (B s1) as (s2 & -> & B1 & B2 & B3). exists s2. split; [reflexivity|].
    split; [intros; rewrite B1, A1; ring|]. split; [intros r c H; rewrite B2, A2; tauto|]. intros i. rewrite B3, A3. tauto.
  Qed.
  Lemma acts_weaken : forall f e (W T : Z -> Prop) e' (W' T' : Z -> Prop), acts y f e W T -> (forall x r, (e x r == e' x r)%Q) -> (forall r, W r -> W' r) -> (forall r, T r <-> T' r) -> acts y f e' W' T'.
  Proof.
    intros f e W T e' W' T' A E HW HT s. destruct (A s) as (s1 & E1 & A1 & A2 & A3). exists s1. split; [exact E1|]. split; [intros; rewrite A1, E; reflexivity|].
    split; [intros r c H; apply A2; intros H'; apply H; auto|]. intros i. rewrite A3, HT. tauto.
  Qed.
  Lemma acts_fold : forall (A : Type) (F : asm -> A -> option asm) eff W T l, (forall a, In a l -> acts y (fun s => F s a) (eff a) (W a) (T a)) ->
    acts y (fold_opt F l) (fun x r => sum_over (fun a => eff a x r) l) (fun r => exists a, In a l /\ W a r) (fun r => exists a, In a l /\ T a r).
  Proof.
    intros A F eff W T. induction l as [|a l IH]; intros H.
    - intros s. exists s. split; [reflexivity|]. split; [intros; rewrite sum_nil; ring|]. split; [reflexivity|]. intros i. split; [intros E; split; [exact E|intros (? & [] & _)]|tauto].
    - eapply acts_weaken; [exact (acts_seq _ _ _ _ _ _ _ _ (H a (or_introl eq_refl)) (IH (fun b Hb => H b (or_intror Hb))))|..].
      + intros. rewrite sum_cons. reflexivity.
      + intros r [Hr|(b & Hb & Hr)]; [exists a|exists b]; auto with datatypes.
      + intros r. split; [intros [Hr|(b & Hb & Hr)]; [exists a|exists b]; auto with datatypes|]. intros (b & [<-|Hb] & Hr); [auto|right; eauto].
  Qed.
  Lemma acts_add : forall r c q, in_matrix y r c = true -> acts y (mat_add y r c q) (fun x r' => if r' =? r then q * x c else 0)%Q (fun r' => r' = r) (fun _ => False).
  Proof.
    intros r c q H s. unfold mat_add. rewrite H. cbn [checked]. eexists. split; [reflexivity|]. cbn [as_mat as_empty]. split; [|split].
    - intros x r'. unfold ap. unfold in_matrix in H. apply andb_prop in H as [H C2]. apply andb_prop in H as [_ C1].
      rewrite <- (sum_pick _ Z.eqb (fun c' => if r' =? r then (q * x c')%Q else 0%Q) (zrange (ly_col_shift y) (ly_col_shift y + matrix_cols y)) c Z.eqb_eq (zrange_NoDup _ _)) by (apply zrange_In; lia).
      rewrite <- sum_plus. apply sum_ext. intros c' _. destruct (r' =? r), (c' =? c); cbn [andb]; ring.
    - intros r' c' Hr. destruct (Z.eqb_spec r' r); [contradiction|reflexivity].
    - intros i. tauto.
  Qed.
  Lemma acts_row : forall r, ly_row_shift y <= r < ly_row_shift y + matrix_rows y -> acts y (set_row_not_empty y r) (fun _ _ => 0%Q) (fun _ => False) (fun r' => r' = r).
  Proof.
    intros r H s. unfold set_row_not_empty. destruct (Z.leb_spec 0 (r - ly_row_shift y)); [|lia]. destruct (Z.ltb_spec (r - ly_row_shift y) (matrix_rows y)); [|lia]. cbn [andb checked]. eexists. split; [reflexivity|].
    cbn [as_mat as_empty]. split; [intros; ring|]. split; [reflexivity|]. intros i. destruct (Z.eqb_spec i (r - ly_row_shift y)) as [->|D]; split; [discriminate|intros [_ Hn]; exfalso; apply Hn; lia|intros E; split; [exact E|lia]|tauto].
  Qed.

  Definition cellok (c : Z) : Prop := 0 <= c < ly_cells y.
  Lemma row_range : forall c f, cellok c -> (f < ly_os y)%nat -> ly_row_shift y <= row_index y c f < ly_row_shift y + matrix_rows y.
  Proof. intros. apply data_range; auto. Qed.
  Lemma col_range : forall c f, cellok c -> (f < ly_fs y)%nat -> ly_col_shift y <= col_index y c f < ly_col_shift y + matrix_cols y.
  Proof. intros. apply data_range; auto. Qed.
  Lemma in_block : forall r c, ly_row_shift y <= r < ly_row_shift y + matrix_rows y -> ly_col_shift y <= c < ly_col_shift y + matrix_cols y -> in_matrix y r c = true.
  Proof. intros r c Hr Hc. unfold in_matrix. rewrite !andb_true_iff, !Z.leb_le, !Z.ltb_lt. lia. Qed.
  Lemma in_cells : forall r rf c cf, cellok r -> (rf < ly_os y)%nat -> cellok c -> (cf < ly_fs y)%nat -> in_matrix y (row_index y r rf) (col_index y c cf) = true.
  Proof. intros. apply in_block; [apply row_range|apply col_range]; auto. Qed.
End Acts.

(** ** One interface *)
Section Interface.
  Context (y : layout) (rec : recursion).
  Context (RR : forall k lc j q, rec_find k rec = Some lc -> In (j, q) lc -> cellok y j).

  (** The vector seen by the scheme: ghosts are replaced. *)
  Definition xv (x : Z -> Q) (cell : Z) (fj : nat) : Q :=
    match rec_find cell rec with None => x (col_index y cell fj) | Some lc => sum_over (fun '(c, q) => q * x (col_index y c fj))%Q lc end.
  Definition at_row (r row : Z) (q : Q) : Q := if r =? row then q else 0%Q.

  Lemma at_row_scale : forall r row a b, (at_row r row (a * b) == a * at_row r row b)%Q.
  Proof. intros. unfold at_row. destruct (r =? row); ring. Qed.
  Lemma at_row_sum : forall (A : Type) r row (f : A -> Q) l, (at_row r row (sum_over f l) == sum_over (fun a => at_row r row (f a)) l)%Q.
  Proof. intros A r row f l. unfold at_row. destruct (r =? row); [reflexivity|]. rewrite sum_zero; [reflexivity|reflexivity]. Qed.
  Lemma at_row_comp : forall r row a b, (a == b)%Q -> (at_row r row a == at_row r row b)%Q.
  Proof. intros r row a b E. unfold at_row. destruct (r =? row); [exact E|reflexivity]. Qed.

  Instance at_row_proper : forall r row, Morphisms.Proper (Morphisms.respectful Qeq Qeq) (at_row r row).
  Proof. intros r row a b E. apply at_row_comp. exact E. Qed.

  Lemma add_column_acts : forall l r fi cell fj lc rc, cellok y l -> cellok y r -> (fi < ly_os y)%nat -> cellok y cell -> (fj < ly_fs y)%nat ->
    let lrow := row_index y l fi in let rrow := row_index y r fi in
    acts y (add_column y rec lrow rrow cell fj lc rc) (fun x r' => at_row r' lrow (lc * xv x cell fj) + at_row r' rrow (rc * xv x cell fj))%Q (fun r' => r' = lrow \/ r' = rrow) (fun _ => False).
  Proof.
    intros l r fi cell fj lc rc Hl Hr Hfi Hc Hfj lrow rrow. unfold add_column, xv. destruct (rec_find cell rec) as [comb0|] eqn:E.
    - eapply acts_weaken.
      + apply (acts_fold y _ _ (fun '(c, q) x r' => at_row r' lrow (lc * q * x (col_index y c fj)) + at_row r' rrow (rc * q * x (col_index y c fj)))%Q (fun _ r' => r' = lrow \/ r' = rrow) (fun _ _ => False)).
        intros [c q] Hin. assert (Hc' := RR cell comb0 c q E Hin). eapply acts_weaken; [apply acts_seq; apply acts_add; apply in_cells; auto|..].
        * intros x r'. unfold at_row. cbv beta. fold lrow rrow. reflexivity.
        * intros r' H. exact H.
        * intros r'. tauto.
      + intros x r'. cbv beta.
        rewrite <- (at_row_comp r' lrow (sum_over (fun '(c, q) => lc * q * x (col_index y c fj))%Q comb0)) by (rewrite <- sum_scale; apply sum_ext; intros [c q] _; ring).
        rewrite <- (at_row_comp r' rrow (sum_over (fun '(c, q) => rc * q * x (col_index y c fj))%Q comb0)) by (rewrite <- sum_scale; apply sum_ext; intros [c q] _; ring).
        rewrite !at_row_sum, <- sum_plus. apply sum_ext. intros [c q] _. reflexivity.
      + intros r' (a & _ & H). exact H.
      + intros r'. split; [intros (a & _ & [])|intros []].
    - eapply acts_weaken; [apply acts_seq; apply acts_add; apply in_cells; auto|..].
      + intros x r'. unfold at_row. cbv beta. fold lrow rrow. reflexivity.
      + intros r' H. exact H.
      + intros r'. tauto.
  Qed.

  Lemma lin_value_cells : forall u cs es k, length cs = length es ->
    (lin_value (ly_fs y) u cs es k == sum_over (fun j => sum_over (fun c => nth c cs m0 k j * u (sc_index (nth c es e0)) j)%Q (seq 0 (length es))) (seq 0 (ly_fs y)))%Q.
  Proof. intros u cs es k L. unfold lin_value. apply sum_ext. intros j _. rewrite (combine_seq _ _ cs es m0 e0 L), sum_map. reflexivity. Qed.

  Definition rows_of (cs : list scell) (r : Z) : Prop := exists fi c, (fi < ly_os y)%nat /\ In c cs /\ r = row_index y (sc_index c) fi.

  Lemma interface_acts : forall a b es lcs rcs, cellok y (sc_index a) -> cellok y (sc_index b) -> Forall (fun e => cellok y (sc_index e)) es -> length lcs = length es -> length rcs = length es ->
    acts y (fun s => assemble_interface y rec s (([a; b], es), (lcs, rcs)))
      (fun x r => sum_over (fun fi => at_row r (row_index y (sc_index a) fi) (lin_value (ly_fs y) (xv x) lcs es fi) + at_row r (row_index y (sc_index b) fi) (lin_value (ly_fs y) (xv x) rcs es fi))%Q (seq 0 (ly_os y)))
      (rows_of [a; b]) (rows_of [a; b]).
  Proof.
    intros a b es lcs rcs Ha Hb He Ll Lr. unfold assemble_interface. cbn [nth_error]. eapply acts_weaken.
    - apply (acts_fold y _ _ (fun fi x r => at_row r (row_index y (sc_index a) fi) (lin_value (ly_fs y) (xv x) lcs es fi) + at_row r (row_index y (sc_index b) fi) (lin_value (ly_fs y) (xv x) rcs es fi))%Q
        (fun fi r => r = row_index y (sc_index a) fi \/ r = row_index y (sc_index b) fi) (fun fi r => r = row_index y (sc_index a) fi \/ r = row_index y (sc_index b) fi)).
      intros fi Hfi. apply in_seq in Hfi. set (lrow := row_index y (sc_index a) fi). set (rrow := row_index y (sc_index b) fi). eapply acts_weaken.
      + eapply acts_seq.
        * apply (acts_fold y _ _ (fun fj x r => sum_over (fun c => at_row r lrow (nth c lcs m0 fi fj * xv x (sc_index (nth c es e0)) fj) + at_row r rrow (nth c rcs m0 fi fj * xv x (sc_index (nth c es e0)) fj))%Q (seq 0 (length es)))
            (fun _ r => r = lrow \/ r = rrow) (fun _ _ => False)).
          intros fj Hfj. apply in_seq in Hfj. eapply acts_weaken.
          -- apply (acts_fold y _ _ (fun c x r => at_row r lrow (nth c lcs m0 fi fj * xv x (sc_index (nth c es e0)) fj) + at_row r rrow (nth c rcs m0 fi fj * xv x (sc_index (nth c es e0)) fj))%Q
               (fun _ r => r = lrow \/ r = rrow) (fun _ _ => False)).
             intros c Hc. apply in_seq in Hc. rewrite (nth_error_nth' es e0), (nth_error_nth' lcs m0), (nth_error_nth' rcs m0) by lia. apply add_column_acts; auto; try lia.
             rewrite Forall_forall in He. apply He. apply nth_In. lia.
          -- intros. reflexivity.
          -- intros r (c & _ & H). exact H.
          -- intros r. split; [intros (c & _ & [])|intros []].
        * apply acts_seq; apply acts_row; apply row_range; auto; lia.
      + intros x r. cbv beta. rewrite !lin_value_cells, !at_row_sum, Qplus_0_r, Qplus_0_r, <- sum_plus by auto. apply sum_ext. intros j _. rewrite !at_row_sum, <- sum_plus. apply sum_ext. reflexivity.
      + intros r [(c & _ & H)|[[]|[]]]. exact H.
      + intros r. split; [intros [(c & _ & [])|H]; exact H|tauto].
    - intros. reflexivity.
    - intros r (fi & Hfi & H). apply in_seq in Hfi. destruct H as [->| ->]; [exists fi, a|exists fi, b]; (split; [lia|split; [cbn; auto|reflexivity]]).
    - intros r. split.
      + intros (fi & Hfi & H). apply in_seq in Hfi. destruct H as [->| ->]; [exists fi, a|exists fi, b]; (split; [lia|split; [cbn; auto|reflexivity]]).
      + intros (fi & c & Hfi & Hc & ->). exists fi. split; [apply in_seq; lia|]. destruct Hc as [<-|[<-|[]]]; auto.
  Qed.
  Lemma boundary_acts : forall a es co, cellok y (sc_index a) -> Forall (fun e => cellok y (sc_index e)) es -> length co = length es ->
    acts y (fun s => assemble_boundary_interface y s (([a], es), co))
      (fun x r => sum_over (fun fi => at_row r (row_index y (sc_index a) fi) (lin_value (ly_fs y) (fun c j => x (col_index y c j)) co es fi))%Q (seq 0 (ly_os y))) (rows_of [a]) (rows_of [a]).
  Proof.
    intros a es co Ha He Ll. unfold assemble_boundary_interface. cbn [nth_error]. eapply acts_weaken.
    - apply (acts_fold y _ _ (fun fi x r => at_row r (row_index y (sc_index a) fi) (lin_value (ly_fs y) (fun c j => x (col_index y c j)) co es fi))%Q
        (fun fi r => r = row_index y (sc_index a) fi) (fun fi r => r = row_index y (sc_index a) fi)).
      intros fi Hfi. apply in_seq in Hfi. set (lrow := row_index y (sc_index a) fi). eapply acts_weaken.
      + eapply acts_seq.
        * apply (acts_fold y _ _ (fun fj x r => sum_over (fun c => at_row r lrow (nth c co m0 fi fj * x (col_index y (sc_index (nth c es e0)) fj)))%Q (seq 0 (length es))) (fun _ r => r = lrow) (fun _ _ => False)).
          intros fj Hfj. apply in_seq in Hfj. eapply acts_weaken.
          -- apply (acts_fold y _ _ (fun c x r => at_row r lrow (nth c co m0 fi fj * x (col_index y (sc_index (nth c es e0)) fj)))%Q (fun _ r => r = lrow) (fun _ _ => False)).
             intros c Hc. apply in_seq in Hc. rewrite (nth_error_nth' es e0), (nth_error_nth' co m0) by lia. apply acts_add. apply in_cells; auto; try lia.
             rewrite Forall_forall in He. apply He. apply nth_In. lia.
          -- intros. reflexivity.
          -- intros r (c & _ & H). exact H.
          -- intros r. split; [intros (c & _ & [])|intros []].
        * apply acts_row; apply row_range; auto; lia.
      + intros x r. cbv beta. rewrite !lin_value_cells, !at_row_sum, Qplus_0_r by auto. apply sum_ext. intros j _. rewrite !at_row_sum. apply sum_ext. reflexivity.
      + intros r [(c & _ & H)|[]]. exact H.
      + intros r. split; [intros [(c & _ & [])|H]; exact H|tauto].
    - intros. reflexivity.
    - intros r (fi & Hfi & ->). apply in_seq in Hfi. exists fi, a. split; [lia|split; [cbn; auto|reflexivity]].
    - intros r. split.
      + intros (fi & Hfi & ->). apply in_seq in Hfi. exists fi, a. split; [lia|split; [cbn; auto|reflexivity]].
      + intros (fi & c & Hfi & Hc & ->). exists fi. split; [apply in_seq; lia|]. destruct Hc as [<-|[]]; auto.
  Qed.

  (** In the row of a cell. *)
  Lemma at_cell : forall k fi c (v : nat -> Q), cellok y k -> cellok y c -> (fi < ly_os y)%nat -> (sum_over (fun f => at_row (row_index y k fi) (row_index y c f) (v f)) (seq 0 (ly_os y)) == hit k c (v fi))%Q.
  Proof.
    intros k fi c v Hk Hc Hf. rewrite <- (hit_comp k c _ _ (sum_only fi (ly_os y) v Hf)). unfold hit. destruct (Z.eqb_spec k c) as [->|D].
    - apply sum_ext. intros f Hin. apply in_seq in Hin. unfold at_row, only. destruct (Z.eqb_spec (row_index y c fi) (row_index y c f)) as [E|E], (Nat.eqb_spec fi f) as [E'|E']; try reflexivity; exfalso.
      + apply data_inj in E as [_ E]; auto; lia.
      + apply E. congruence.
    - apply sum_zero. intros f Hin. apply in_seq in Hin. unfold at_row. destruct (Z.eqb_spec (row_index y k fi) (row_index y c f)) as [E|E]; [|reflexivity]. exfalso. apply data_inj in E as [E _]; auto; lia.
  Qed.
End Interface.
