(** Properties of the sizes and the positions of the blocks of a monolithic block matrix. *)
From Coq Require Import QArith.
From Verif Require Import Base LcaModel SubsetModel NumModel GhostModel FluxModel ReconModel LinFluxModel AssemblyModel BlockModel BlockProofs.
Open Scope Z_scope.

(** The fixed blocks (all but those which adapt) fit in a grid whose rows have heights [H] and
    whose columns have widths [W]. *)
Definition fits (C : nat) (H W : nat -> Z) (bs : list block) : Prop :=
  forall i b, nth_error bs i = Some b -> b_fit b = false -> b_rows b = H (i / C)%nat /\ b_cols b = W (i mod C)%nat.
(** f 0 + ... + f (k - 1) *)
Definition sum_below (f : nat -> Z) (k : nat) : Z := fold_right Z.add 0 (map f (seq 0 k)).
(** The coefficient at row [r] and column [c] of the matrix is in the block [b] placed at [s]. *)
Definition in_block (r c : Z) (b : block) (s : Z * Z) : Prop :=
  fst s <= r < fst s + b_rows b /\ snd s <= c < snd s + b_cols b.

Lemma sum_below_pre : forall f k, sum_below f k = pre f k.
Proof.
  intros f. unfold sum_below. induction k as [|k IH]; [reflexivity|]. rewrite seq_S, map_app, fold_right_app. cbn [map fold_right pre Nat.add]. rewrite <- IH.
  generalize (f k) as x. generalize (map f (seq 0 k)) as l. induction l as [|y l IHl]; intros x; cbn [fold_right]; [lia|]. rewrite IHl. lia.
Qed.
Lemma nth_combine : forall (A B : Type) (xs : list A) (ys : list B) i, nth_error (combine xs ys) i = match nth_error xs i, nth_error ys i with Some x, Some y => Some (x, y) | _, _ => None end.
Proof. intros A B. induction xs as [|x xs IH]; intros [|y ys] [|i]; cbn; try reflexivity; [destruct (nth_error xs i); reflexivity|apply IH]. Qed.
Lemma rows_nonneg : forall C r bs, (forall b, In b bs -> b_fit b = false -> 0 <= b_rows b) -> 0 <= block_rows C r bs.
Proof.
  intros C r bs. induction bs as [|b bs IH] using rev_ind; intros N; [cbn; lia|]. unfold block_rows in *. rewrite blocks_app, fold_left_app. cbn [fold_left].
  assert (P : 0 <= fold_left (fun block_rows '(b, (row, _)) => if Nat.eqb row r && ((block_rows =? 0) && negb (b_fit b)) then b_rows b else block_rows) (for_each_block C bs) 0) by (apply IH; intros x Hx; apply N; apply in_or_app; left; exact Hx).
  destruct (Nat.eqb (length bs / C) r && _)%bool eqn:E; [|exact P]. apply andb_true_iff in E as [_ E]. apply andb_true_iff in E as [_ E]. apply N; [apply in_or_app; right; left; reflexivity|]. destruct (b_fit b); [discriminate E|reflexivity].
Qed.
Lemma cols_nonneg : forall C c bs, (forall b, In b bs -> b_fit b = false -> 0 <= b_cols b) -> 0 <= block_cols C c bs.
Proof.
  intros C r bs. induction bs as [|b bs IH] using rev_ind; intros N; [cbn; lia|]. unfold block_cols in *. rewrite blocks_app, fold_left_app. cbn [fold_left].
  assert (P : 0 <= fold_left (fun block_cols '(b, (_, col)) => if Nat.eqb col r && ((block_cols =? 0) && negb (b_fit b)) then b_cols b else block_cols) (for_each_block C bs) 0) by (apply IH; intros x Hx; apply N; apply in_or_app; left; exact Hx).
  destruct (Nat.eqb (length bs mod C) r && _)%bool eqn:E; [|exact P]. apply andb_true_iff in E as [_ E]. apply andb_true_iff in E as [_ E]. apply N; [apply in_or_app; right; left; reflexivity|]. destruct (b_fit b); [discriminate E|reflexivity].
Qed.

(** The sizes are accepted exactly when the fixed blocks fit in a grid. *)
Theorem C82_sizes : forall R C bs, length bs = (R * C)%nat -> ((exists out, check_and_set_sizes R C bs = Some out) <-> exists H W, fits C H W bs).
Proof.
  intros R C bs L. split.
  - intros [out E]. destruct (sizes_some R C bs out L E) as (_ & _ & U). exists (fun r => block_rows C r bs), (fun c => block_cols C c bs). exact U.
  - intros (H & W & K). pose proof (sizes_ok R C H W bs L K) as O. destruct (check_and_set_sizes R C bs) as [out|]; [exists out; reflexivity|contradiction].
Qed.

Lemma reset_spec : forall R C bs out, length bs = (R * C)%nat -> reset R C bs = Some out ->
  length out = (R * C)%nat /\ map fst out = map fst (combine (map fst out) (shifts C (map fst out))) /\ same bs (map fst out) /\ sized C (fun r => block_rows C r bs) (fun c => block_cols C c bs) (map fst out) /\ fits C (fun r => block_rows C r bs) (fun c => block_cols C c bs) bs /\
  forall i, (i < R * C)%nat -> exists b, nth_error bs i = Some b /\ exists b', nth_error out i = Some (b', (pre (fun r => block_rows C r bs) (i / C), pre (fun c => block_cols C c bs) (i mod C))).
Proof.
  intros R C bs out L E. unfold reset in E. destruct (check_and_set_sizes R C bs) as [cs|] eqn:Ec; [|discriminate E]. injection E as <-. destruct (sizes_some R C bs cs L Ec) as (S & Z & U). pose proof (proj1 S) as Ls.
  assert (Ln : length (shifts C cs) = length cs /\ forall i, (i < length cs)%nat -> nth_error (shifts C cs) i = Some (pre (fun r => block_rows C r bs) (i / C), pre (fun c => block_cols C c bs) (i mod C))).
  { destruct C as [|C]; [|apply shifts_nth; [lia|exact Z]]. rewrite Nat.mul_0_r in L. destruct bs; [|discriminate L]. destruct cs; [|discriminate Ls]. split; [reflexivity|cbn; lia]. }
  destruct Ln as [Ln N].
  assert (F : map fst (combine cs (shifts C cs)) = cs).
  { clear - Ln. revert Ln. generalize (shifts C cs). induction cs as [|c cs IH]; intros [|s l] L; try discriminate L; [reflexivity|]. cbn [combine map fst]. rewrite IH by (cbn [length] in L; lia). reflexivity. }
  rewrite F. split; [rewrite combine_length; lia|]. split; [symmetry; exact F|]. split; [exact S|]. split; [exact Z|]. split; [exact U|].
  intros i Hi. destruct (nth_error bs i) as [b|] eqn:Hb; [|apply nth_error_None in Hb; lia]. exists b. split; [reflexivity|]. destruct (nth_error cs i) as [b'|] eqn:Hc; [|apply nth_error_None in Hc; lia]. exists b'. rewrite nth_combine, Hc, N by lia. reflexivity.
Qed.

(** After [reset] all the blocks of a row have the same height and all the blocks of a column the
    same width, the fixed blocks are as before, and each block is placed below the rows of blocks
    above it and to the right of the columns of blocks on its left. *)
Theorem C82_positions : forall R C bs out, length bs = (R * C)%nat -> reset R C bs = Some out ->
  length out = (R * C)%nat /\ exists H W, forall i, (i < R * C)%nat -> exists b b', nth_error bs i = Some b /\
    nth_error out i = Some (b', (sum_below H (i / C), sum_below W (i mod C))) /\
    b_rows b' = H (i / C)%nat /\ b_cols b' = W (i mod C)%nat /\ b_fit b' = b_fit b /\ (b_fit b = false -> b' = b).
Proof.
  intros R C bs out L E. destruct (reset_spec R C bs out L E) as (Lo & _ & S & Z & _ & N). split; [exact Lo|]. exists (fun r => block_rows C r bs), (fun c => block_cols C c bs). intros i Hi. destruct (N i Hi) as (b & Hb & b' & Hb'). exists b, b'. split; [exact Hb|]. rewrite !sum_below_pre. split; [exact Hb'|].
  assert (Hm : nth_error (map fst out) i = Some b') by (rewrite nth_error_map, Hb'; reflexivity). destruct (Z i b' Hm) as [Z1 Z2]. destruct S as [_ S]. destruct (S i b b' Hb Hm) as [S1 S2]. auto.
Qed.

(** Square block matrices: the blocks tile the matrix. Each coefficient of the matrix is in
    exactly one block, and nothing of a block is outside of the matrix. *)
Theorem C82_tiling : forall C bs out, length bs = (C * C)%nat -> reset C C bs = Some out -> (forall b, In b bs -> b_fit b = false -> 0 <= b_rows b /\ 0 <= b_cols b) ->
  forall r c, 0 <= r < total_rows C (map fst out) /\ 0 <= c < total_cols C (map fst out) <-> exists! i, exists b s, nth_error out i = Some (b, s) /\ in_block r c b s.
Proof.
  intros C bs out L E P r c. destruct (reset_spec C C bs out L E) as (Lo & _ & S & Z & _ & N).
  set (H := fun r => block_rows C r bs) in *. set (W := fun c => block_cols C c bs) in *.
  assert (PH : forall i, (i < C)%nat -> 0 <= H i) by (intros i _; apply rows_nonneg; intros b Hb F; apply (P b Hb F)).
  assert (PW : forall i, (i < C)%nat -> 0 <= W i) by (intros i _; apply cols_nonneg; intros b Hb F; apply (P b Hb F)).
  assert (T : total_rows C (map fst out) = pre H C /\ total_cols C (map fst out) = pre W C).
  { destruct (Nat.eq_dec C 0) as [->|NC]; [destruct out; [split; reflexivity|discriminate Lo]|]. destruct (totals C H W (map fst out) ltac:(lia) Z) as [T1 T2]. rewrite T1, T2, map_length, Lo, diagonals_full, Nat.min_id by lia. split; reflexivity. }
  destruct T as [-> ->].
  assert (K : forall i b s, nth_error out i = Some (b, s) -> (i / C < C)%nat /\ (i mod C < C)%nat /\ s = (pre H (i / C), pre W (i mod C)) /\ b_rows b = H (i / C)%nat /\ b_cols b = W (i mod C)%nat).
  { intros i b s Hi. assert (i < C * C)%nat as Li by (rewrite <- Lo; apply nth_error_Some; congruence). destruct (block_row C C i Li) as [B1 B2]. destruct (N i Li) as (x & _ & y & Hy). rewrite Hi in Hy. injection Hy as <- ->. destruct (Z i b) as [Z1 Z2]; [rewrite nth_error_map, Hi; reflexivity|]. auto. }
  split.
  - intros [Hr Hc]. destruct (pre_locate H C r Hr) as (j & Hj & Pj). destruct (pre_locate W C c Hc) as (k & Hk & Pk). destruct (block_number C C j k Hj Hk) as (Bn & Bd & Bm). exists (j * C + k)%nat. split.
    + destruct (N _ Bn) as (x & _ & y & Hy). exists y, (pre H ((j * C + k) / C), pre W ((j * C + k) mod C)). split; [exact Hy|]. destruct (K _ _ _ Hy) as (_ & _ & _ & Z1 & Z2). unfold in_block. cbn [fst snd]. rewrite Z1, Z2, Bd, Bm. split; assumption.
    + intros i (b & s & Hi & Q1 & Q2). destruct (K i b s Hi) as (B1 & B2 & -> & Z1 & Z2). cbn [fst snd] in Q1, Q2. rewrite Z1 in Q1. rewrite Z2 in Q2. pose proof (pre_unique H C r j (i / C) PH Hj B1 Pj Q1) as E1. pose proof (pre_unique W C c k (i mod C) PW Hk B2 Pk Q2) as E2. rewrite (Nat.div_mod i C) by lia. rewrite <- E1, <- E2. lia.
  - intros (i & (b & s & Hi & Q1 & Q2) & _). destruct (K i b s Hi) as (B1 & B2 & -> & Z1 & Z2). cbn [fst snd] in Q1, Q2. rewrite Z1 in Q1. rewrite Z2 in Q2.
    pose proof (pre_mono H C 0 (i / C) PH (conj (Nat.le_0_l _) (Nat.lt_le_incl _ _ B1))) as M1. pose proof (pre_mono H C (Datatypes.S (i / C)) C PH (conj B1 (Nat.le_refl C))) as M2. pose proof (pre_mono W C 0 (i mod C) PW (conj (Nat.le_0_l _) (Nat.lt_le_incl _ _ B2))) as M3. pose proof (pre_mono W C (Datatypes.S (i mod C)) C PW (conj B2 (Nat.le_refl C))) as M4. cbn [pre] in M1, M2, M3, M4. lia.
Qed.

(** Square diagonal blocks are placed on the diagonal: row_shift = col_shift. *)
Theorem C82_diagonal : forall C bs out, length bs = (C * C)%nat -> reset C C bs = Some out ->
  (forall k b s, (k < C)%nat -> nth_error out (k * C + k) = Some (b, s) -> b_rows b = b_cols b) ->
  forall k b s, (k < C)%nat -> nth_error out (k * C + k) = Some (b, s) -> fst s = snd s.
Proof.
  intros C bs out L E Q k b s Hk Hb. destruct (reset_spec C C bs out L E) as (Lo & _ & S & Z & _ & N).
  set (H := fun r => block_rows C r bs) in *. set (W := fun c => block_cols C c bs) in *.
  assert (HW : forall j, (j < C)%nat -> H j = W j).
  { intros j Hj. destruct (block_number C C j j Hj Hj) as (Bn & Bd & Bm). destruct (N _ Bn) as (x & _ & y & Hy). destruct (Z (j * C + j)%nat y) as [Z1 Z2]; [rewrite nth_error_map, Hy; reflexivity|]. rewrite Bd in Z1. rewrite Bm in Z2. rewrite <- Z1, <- Z2. exact (Q j y _ Hj Hy). }
  destruct (block_number C C k k Hk Hk) as (Bn & Bd & Bm). destruct (N _ Bn) as (x & _ & y & Hy). rewrite Hb in Hy. injection Hy as <- ->. cbn [fst snd]. rewrite Bd, Bm.
  assert (G : forall j, (j <= C)%nat -> pre H j = pre W j) by (induction j as [|j IH]; intros Hj; [reflexivity|]; cbn [pre]; rewrite IH, HW by lia; reflexivity). apply G. lia.
Qed.

(** A zero block, which adapts *)
Definition zero_block := mkBlock true 0 0.

(** The Stokes problem: velocity (8 unknowns) and pressure (4 unknowns), with a zero block. *)
Definition stokes := [mkBlock false 8 8; mkBlock false 8 4; mkBlock false 4 8; zero_block].
Example C82_hypotheses : length stokes = (2 * 2)%nat /\ (forall b, In b stokes -> b_fit b = false -> 0 <= b_rows b /\ 0 <= b_cols b) /\
  reset 2 2 stokes = Some [(mkBlock false 8 8, (0, 0)); (mkBlock false 8 4, (0, 8)); (mkBlock false 4 8, (8, 0)); (mkBlock true 4 4, (8, 8))] /\
  total_rows 2 [mkBlock false 8 8; mkBlock false 8 4; mkBlock false 4 8; mkBlock true 4 4] = 12.
Proof.
  split; [reflexivity|]. split; [|split; vm_compute; reflexivity]. intros b Hb _. cbn in Hb. repeat destruct Hb as [<- | Hb]; cbn; try lia; contradiction.
Qed.
(** Blocks of which the heights differ in a row of blocks are refused. *)
Example C82_refused : check_and_set_sizes 2 2 [mkBlock false 8 8; mkBlock false 7 4; mkBlock false 4 8; zero_block] = None.
Proof. vm_compute. reflexivity. Qed.

(** "The matrix has the size of its blocks" is false for block matrices which are not square:
    matrix_rows() and matrix_cols() add the diagonal blocks only. Here the second of two blocks,
    one below the other, is outside of the matrix. *)
Theorem C82_rectangular_refuted : exists R C bs out b s, length bs = (R * C)%nat /\ reset R C bs = Some out /\ (forall b, In b bs -> b_fit b = false /\ 0 < b_rows b /\ 0 < b_cols b) /\
  In (b, s) out /\ forall r c, in_block r c b s -> ~ (0 <= r < total_rows C (map fst out)).
Proof.
  exists 2%nat, 1%nat, [mkBlock false 3 4; mkBlock false 2 4], [(mkBlock false 3 4, (0, 0)); (mkBlock false 2 4, (3, 0))], (mkBlock false 2 4), (3, 0). split; [reflexivity|]. split; [vm_compute; reflexivity|]. split.
  - intros b [<- | [<- | []]]; cbn; lia.
  - split; [right; left; reflexivity|]. intros r c [Q1 _]. cbn in Q1 |- *. lia.
Qed.

Print Assumptions C82_sizes.
Print Assumptions C82_positions.
Print Assumptions C82_tiling.
Print Assumptions C82_diagonal.
Print Assumptions C82_rectangular_refuted.
