(** Proofs about the sizes and positions of the blocks of a block matrix. *)
From Coq Require Import QArith.
From Verif Require Import Base LcaModel SubsetModel NumModel GhostModel FluxModel ReconModel LinFluxModel AssemblyModel BlockModel.
Open Scope Z_scope.

(** [pre f k]: f 0 + ... + f (k - 1) *)
Fixpoint pre (f : nat -> Z) (k : nat) : Z := match k with O => 0 | S k => pre f k + f k end.

Lemma pre_mono : forall f K j k, (forall i, (i < K)%nat -> 0 <= f i) -> (j <= k <= K)%nat -> pre f j <= pre f k.
Proof. intros f K j k F [H1 H2]. induction H1 as [|k H1 IH]; [lia|]. cbn [pre]. specialize (F k ltac:(lia)). specialize (IH ltac:(lia)). lia. Qed.
Lemma pre_locate : forall f K x, 0 <= x < pre f K -> exists k, (k < K)%nat /\ pre f k <= x < pre f k + f k.
Proof.
  intros f. induction K as [|K IH]; intros x Hx; cbn [pre] in Hx; [lia|]. destruct (Z.lt_ge_cases x (pre f K)) as [H|H].
  - destruct (IH x ltac:(lia)) as (k & Hk & P). exists k. split; [lia|exact P].
  - exists K. split; lia.
Qed.
Lemma pre_unique : forall f K x j k, (forall i, (i < K)%nat -> 0 <= f i) -> (j < K)%nat -> (k < K)%nat -> pre f j <= x < pre f j + f j -> pre f k <= x < pre f k + f k -> j = k.
Proof.
  intros f K x j k F Hj Hk Pj Pk. destruct (Nat.lt_trichotomy j k) as [H|[H|H]]; [|exact H|].
  - pose proof (pre_mono f K (S j) k F ltac:(lia)) as M. cbn [pre] in M. lia.
  - pose proof (pre_mono f K (S k) j F ltac:(lia)) as M. cbn [pre] in M. lia.
Qed.

(** ** Rows and columns of blocks *)
Lemma next_block : forall C i, (0 < C)%nat -> (i mod C = C - 1 /\ S i / C = S (i / C) /\ S i mod C = 0 \/ i mod C < C - 1 /\ S i / C = i / C /\ S i mod C = S (i mod C))%nat.
Proof.
  intros C i HC. pose proof (Nat.div_mod i C ltac:(lia)) as E. pose proof (Nat.mod_upper_bound i C ltac:(lia)) as U. set (q := (i / C)%nat) in *. set (r := (i mod C)%nat) in *.
  destruct (Nat.eq_dec r (C - 1)) as [R|R]; [left|right]; (split; [lia|]).
  - split; [symmetry; apply (Nat.div_unique _ _ _ 0); nia|symmetry; apply (Nat.mod_unique _ _ (S q)); nia].
  - split; [symmetry; apply (Nat.div_unique _ _ _ (S r)); lia|symmetry; apply (Nat.mod_unique _ _ q); lia].
Qed.
Lemma block_row : forall R C i, (i < R * C)%nat -> (i / C < R)%nat /\ (i mod C < C)%nat.
Proof. intros R C i H. assert (0 < C)%nat by nia. split; [apply Nat.div_lt_upper_bound; nia|apply Nat.mod_upper_bound; lia]. Qed.
Lemma block_number : forall R C r c, (r < R)%nat -> (c < C)%nat -> (r * C + c < R * C)%nat /\ ((r * C + c) / C = r)%nat /\ ((r * C + c) mod C = c)%nat.
Proof. intros R C r c Hr Hc. split; [nia|]. split; [symmetry; apply (Nat.div_unique _ _ _ c); lia|symmetry; apply (Nat.mod_unique _ _ r); lia]. Qed.

Lemma blocks_app : forall C bs b, for_each_block C (bs ++ [b]) = for_each_block C bs ++ [(b, (length bs / C, length bs mod C)%nat)].
Proof.
  intros C bs b. unfold for_each_block. rewrite app_length. cbn [length]. rewrite Nat.add_1_r, seq_S. rewrite (Nat.add_0_l (length bs)).
  assert (G : forall (xs : list nat) (ys : list block) x y, length xs = length ys -> combine (xs ++ [x]) (ys ++ [y]) = combine xs ys ++ [(x, y)]).
  { induction xs as [|x0 xs IH]; intros [|y0 ys] x y L; try discriminate L; [reflexivity|]. cbn [app combine]. rewrite IH by (cbn [length] in L; lia). reflexivity. }
  rewrite G by apply seq_length. rewrite map_app. reflexivity.
Qed.
Lemma blocks_nth : forall C bs i, nth_error (for_each_block C bs) i = option_map (fun b => (b, (i / C, i mod C)%nat)) (nth_error bs i).
Proof.
  intros C bs. induction bs as [|b bs IH] using rev_ind; intros i; [destruct i; reflexivity|]. rewrite blocks_app. assert (L : length (for_each_block C bs) = length bs) by (unfold for_each_block; rewrite map_length, combine_length, seq_length; lia).
  destruct (Nat.lt_trichotomy i (length bs)) as [H|[H|H]].
  - rewrite !nth_error_app1 by lia. apply IH.
  - rewrite !nth_error_app2 by lia. rewrite L, H, Nat.sub_diag. reflexivity.
  - rewrite !nth_error_app2 by lia. rewrite L. destruct (i - length bs)%nat as [|k] eqn:E; [lia|]. cbn. destruct k; reflexivity.
Qed.
Lemma blocks_length : forall C bs, length (for_each_block C bs) = length bs.
Proof. intros C bs. unfold for_each_block. rewrite map_length, combine_length, seq_length. lia. Qed.

Lemma all_opt_some : forall (A B : Type) (f : A -> option B) l l', all_opt f l = Some l' -> length l' = length l /\ forall i a, nth_error l i = Some a -> exists b, nth_error l' i = Some b /\ f a = Some b.
Proof.
  intros A B f. induction l as [|a l IH]; intros l' H; cbn [all_opt] in H; [injection H as <-; split; [reflexivity|]; intros [|i] a Ha; discriminate Ha|].
  destruct (f a) as [b|] eqn:E; [|discriminate H]. destruct (all_opt f l) as [bs|] eqn:El; [|discriminate H]. injection H as <-. destruct (IH bs eq_refl) as [L N]. split; [cbn [length]; congruence|].
  intros [|i] a0 Ha; cbn [nth_error] in *; [injection Ha as <-; exists b; auto|apply N; exact Ha].
Qed.
Lemma all_opt_ok : forall (A B : Type) (f : A -> option B) l, (forall i a, nth_error l i = Some a -> f a <> None) -> all_opt f l <> None.
Proof.
  intros A B f. induction l as [|a l IH]; intros H; cbn [all_opt]; [discriminate|]. pose proof (H 0%nat a eq_refl) as Ha. destruct (f a); [|contradiction]. pose proof (IH (fun i x => H (S i) x)) as Hl. destruct (all_opt f l); [discriminate|contradiction].
Qed.

(** ** The sizes *)

(** The blocks which do not adapt are not changed. *)
Definition same (bs bs' : list block) : Prop := length bs' = length bs /\ forall i b b', nth_error bs i = Some b -> nth_error bs' i = Some b' -> b_fit b' = b_fit b /\ (b_fit b = false -> b' = b).
Lemma same_refl : forall bs, same bs bs.
Proof. intros bs. split; [reflexivity|]. intros i b b' H H'. rewrite H in H'. injection H' as <-. auto. Qed.
Lemma same_trans : forall a b c, same a b -> same b c -> same a c.
Proof.
  intros a b c [L1 S1] [L2 S2]. split; [congruence|]. intros i x z Hx Hz. destruct (nth_error b i) as [y|] eqn:Hy.
  - destruct (S1 i x y Hx Hy) as [A1 A2]. destruct (S2 i y z Hy Hz) as [B1 B2]. split; [congruence|]. intros F. rewrite <- (A2 F). apply B2. congruence.
  - apply nth_error_None in Hy. assert (i < length a)%nat by (apply nth_error_Some; congruence). lia.
Qed.
Lemma same_snoc : forall bs b bs', same (bs ++ [b]) bs' -> exists cs c, bs' = cs ++ [c] /\ same bs cs /\ b_fit c = b_fit b /\ (b_fit b = false -> c = b).
Proof.
  intros bs b bs' [L S]. destruct (exists_last (l := bs')) as (cs & c & ->); [intros ->; rewrite app_length in L; cbn in L; lia|]. rewrite !app_length in L. cbn [length] in L. exists cs, c. split; [reflexivity|]. split.
  - split; [lia|]. intros i x y Hx Hy. apply (S i); rewrite nth_error_app1; auto; apply nth_error_Some; congruence.
  - apply (S (length bs)); [rewrite nth_error_app2, Nat.sub_diag by lia; reflexivity|]. rewrite nth_error_app2 by lia. replace (length bs - length cs)%nat with 0%nat by lia. reflexivity.
Qed.
Lemma rows_same : forall C r bs bs', same bs bs' -> block_rows C r bs' = block_rows C r bs.
Proof.
  intros C r bs. induction bs as [|b bs IH] using rev_ind; intros bs' S; [destruct S as [L _]; destruct bs'; [reflexivity|discriminate L]|]. destruct (same_snoc bs b bs' S) as (cs & c & -> & S' & F1 & F2). pose proof (IH cs S') as E. destruct S' as [L _].
  unfold block_rows in *. rewrite !blocks_app, !fold_left_app. cbn [fold_left]. rewrite E, L, F1. destruct (b_fit b); [rewrite !andb_false_r; reflexivity|]. rewrite (F2 eq_refl). reflexivity.
Qed.
(** The size is that of the blocks which do not adapt, if they agree. *)
Lemma rows_value : forall C r h bs, (forall i b, nth_error bs i = Some b -> (i / C = r)%nat -> b_fit b = false -> b_rows b = h) ->
  (block_rows C r bs = 0 \/ block_rows C r bs = h) /\ forall i b, nth_error bs i = Some b -> (i / C = r)%nat -> b_fit b = false -> block_rows C r bs = h.
Proof.
  intros C r h bs. induction bs as [|b bs IH] using rev_ind; intros H; [split; [left; reflexivity|]; intros [|i] b Hb; discriminate Hb|].
  destruct IH as [I1 I2]. { intros i x Hx. apply (H i). rewrite nth_error_app1; auto. apply nth_error_Some. congruence. }
  pose proof (H (length bs) b ltac:(rewrite nth_error_app2, Nat.sub_diag by lia; reflexivity)) as Hb.
  unfold block_rows in *. rewrite blocks_app, fold_left_app. cbn [fold_left]. set (acc := fold_left _ (for_each_block C bs) 0) in *. destruct (Nat.eqb_spec (length bs / C) r) as [Er|Er]; cbn [andb].
  - destruct (b_fit b) eqn:Ef; [rewrite andb_false_r|rewrite andb_true_r].
    + split; [exact I1|]. intros i x Hx Hr Fx. apply (I2 i x); auto. destruct (Nat.lt_ge_cases i (length bs)) as [Hi|Hi]; [rewrite nth_error_app1 in Hx by exact Hi; exact Hx|]. rewrite nth_error_app2 in Hx by exact Hi. destruct (i - length bs)%nat as [|k]; [cbn in Hx; congruence|cbn in Hx; destruct k; discriminate Hx].
    + specialize (Hb Er eq_refl). destruct (Z.eqb_spec acc 0) as [Z0|Z0]; [split; auto|]. destruct I1 as [I1|I1]; [contradiction|]. split; auto.
  - split; [exact I1|]. intros i x Hx Hr Fx. destruct (Nat.lt_ge_cases i (length bs)) as [Hi|Hi]; [rewrite nth_error_app1 in Hx by exact Hi; eauto|]. rewrite nth_error_app2 in Hx by exact Hi. destruct (i - length bs)%nat as [|k] eqn:Ek; [exfalso; apply Er; rewrite <- Hr; f_equal; lia|cbn in Hx; destruct k; discriminate Hx].
Qed.
Lemma set_row_some : forall C r bs bs', set_row C r bs = Some bs' -> same bs bs' /\ (forall i b b', nth_error bs i = Some b -> nth_error bs' i = Some b' -> b_cols b' = b_cols b /\ b_rows b' = if Nat.eqb (i / C) r then block_rows C r bs else b_rows b) /\
  forall i b, nth_error bs i = Some b -> (i / C = r)%nat -> b_fit b = false -> b_rows b = block_rows C r bs.
Proof.
  intros C r bs bs' H. unfold set_row in H. apply all_opt_some in H as [L N]. rewrite blocks_length in L.
  assert (K : forall i b, nth_error bs i = Some b -> exists b', nth_error bs' i = Some b' /\ (if Nat.eqb (i / C) r then if b_fit b then Some (mkBlock true (block_rows C r bs) (b_cols b)) else if b_rows b =? block_rows C r bs then Some b else None else Some b) = Some b').
  { intros i b Hb. destruct (N i (b, (i / C, i mod C)%nat)) as (b' & Hb' & E); [rewrite blocks_nth, Hb; reflexivity|]. exists b'. auto. }
  split; [split; [exact L|]|split].
  - intros i b b' Hb Hb'. destruct (K i b Hb) as (x & Hx & E). rewrite Hb' in Hx. injection Hx as <-. destruct (Nat.eqb (i / C) r); [|injection E as <-; auto]. destruct (b_fit b) eqn:F; [injection E as <-; cbn; auto; split; [auto|discriminate]|]. destruct (b_rows b =? block_rows C r bs); [|discriminate E]. injection E as <-. auto.
  - intros i b b' Hb Hb'. destruct (K i b Hb) as (x & Hx & E). rewrite Hb' in Hx. injection Hx as <-. destruct (Nat.eqb (i / C) r); [|injection E as <-; auto]. destruct (b_fit b); [injection E as <-; auto|]. destruct (Z.eqb_spec (b_rows b) (block_rows C r bs)); [|discriminate E]. injection E as <-. auto.
  - intros i b Hb Hr F. destruct (K i b Hb) as (x & Hx & E). rewrite (proj2 (Nat.eqb_eq _ _) Hr), F in E. destruct (Z.eqb_spec (b_rows b) (block_rows C r bs)); [assumption|discriminate E].
Qed.
Lemma set_row_ok : forall C r h bs, (forall i b, nth_error bs i = Some b -> (i / C = r)%nat -> b_fit b = false -> b_rows b = h) -> set_row C r bs <> None.
Proof.
  intros C r h bs H. destruct (rows_value C r h bs H) as [_ V]. unfold set_row. apply all_opt_ok. intros i [b [row col]] E. rewrite blocks_nth in E. destruct (nth_error bs i) as [x|] eqn:Ex; [|discriminate E]. injection E as <- <- <-.
  destruct (Nat.eqb_spec (i / C) r) as [Er|Er]; [|discriminate]. destruct (b_fit x) eqn:F; [discriminate|]. rewrite (H i x Ex Er F), (V i x Ex Er F), Z.eqb_refl. discriminate.
Qed.
Lemma rows_loop : forall C bs ds cs, same bs cs -> 
  (forall out, fold_opt (fun bs r => set_row C r bs) ds cs = Some out -> same bs out /\ (forall i b b', nth_error cs i = Some b -> nth_error out i = Some b' -> b_cols b' = b_cols b /\ b_rows b' = if existsb (Nat.eqb (i / C)) ds then block_rows C (i / C) bs else b_rows b) /\
    forall i b, nth_error bs i = Some b -> In (i / C)%nat ds -> b_fit b = false -> b_rows b = block_rows C (i / C) bs) /\
  forall H, (forall i b, nth_error bs i = Some b -> In (i / C)%nat ds -> b_fit b = false -> b_rows b = H (i / C)%nat) -> fold_opt (fun bs r => set_row C r bs) ds cs <> None.
Proof.
  intros C bs. induction ds as [|r ds IH]; intros cs S; cbn [fold_opt].
  - split; [|discriminate]. intros out E. injection E as <-. split; [exact S|]. split; [|intros i b _ []]. intros i b b' Hb Hb'. rewrite Hb in Hb'. injection Hb' as <-. auto.
  - destruct (set_row C r cs) as [c1|] eqn:E1.
    + destruct (set_row_some C r cs c1 E1) as (S1 & V1 & U1). rewrite (rows_same C r bs cs S) in V1, U1. pose proof (same_trans _ _ _ S S1) as S2. destruct (IH c1 S2) as [I1 I2]. split.
      * intros out E. destruct (I1 out E) as (A1 & A2 & A3). split; [exact A1|]. split.
        -- intros i b b' Hb Hb'. destruct (nth_error c1 i) as [x|] eqn:Hx.
           ++ destruct (V1 i b x Hb Hx) as [B1 B2]. destruct (A2 i x b' Hx Hb') as [D1 D2]. split; [congruence|]. rewrite D2, B2. cbn [existsb]. destruct (Nat.eqb_spec (i / C) r) as [Er|Er]; cbn [orb]; [|reflexivity]. rewrite Er. destruct (existsb (Nat.eqb r) ds); reflexivity.
           ++ apply nth_error_None in Hx. assert (i < length cs)%nat by (apply nth_error_Some; congruence). destruct S1 as [L1 _]. lia.
        -- intros i b Hb [Hr|Hr] F; [|apply A3; auto]. destruct (nth_error cs i) as [x|] eqn:Hx.
           ++ destruct S as [_ S]. destruct (S i b x Hb Hx) as [_ Q]. rewrite <- (Q F) in F |- *. rewrite <- Hr. apply (U1 i x Hx); auto.
           ++ apply nth_error_None in Hx. assert (i < length bs)%nat by (apply nth_error_Some; congruence). destruct S as [L1 _]. lia.
      * intros H HH. apply (I2 H). intros i b Hb Hi F. apply HH; auto. right. exact Hi.
    + split; [discriminate|]. intros H HH _. apply (set_row_ok C r (H r) cs); [|exact E1]. intros i b Hb Hr F. destruct (nth_error bs i) as [x|] eqn:Hx.
      * destruct S as [_ S]. destruct (S i x b Hx Hb) as [Q1 Q]. rewrite F in Q1. rewrite (Q (eq_sym Q1)), <- Hr. apply (HH i x Hx); [left; auto|auto].
      * apply nth_error_None in Hx. assert (i < length cs)%nat by (apply nth_error_Some; congruence). destruct S as [L1 _]. lia.
Qed.

(** The same for the columns. *)
Lemma cols_same : forall C r bs bs', same bs bs' -> block_cols C r bs' = block_cols C r bs.
Proof.
  intros C r bs. induction bs as [|b bs IH] using rev_ind; intros bs' S; [destruct S as [L _]; destruct bs'; [reflexivity|discriminate L]|]. destruct (same_snoc bs b bs' S) as (cs & c & -> & S' & F1 & F2). pose proof (IH cs S') as E. destruct S' as [L _].
  unfold block_cols in *. rewrite !blocks_app, !fold_left_app. cbn [fold_left]. rewrite E, L, F1. destruct (b_fit b); [rewrite !andb_false_r; reflexivity|]. rewrite (F2 eq_refl). reflexivity.
Qed.
(** The size is that of the blocks which do not adapt, if they agree. *)
Lemma cols_value : forall C r h bs, (forall i b, nth_error bs i = Some b -> (i mod C = r)%nat -> b_fit b = false -> b_cols b = h) ->
  (block_cols C r bs = 0 \/ block_cols C r bs = h) /\ forall i b, nth_error bs i = Some b -> (i mod C = r)%nat -> b_fit b = false -> block_cols C r bs = h.
Proof.
  intros C r h bs. induction bs as [|b bs IH] using rev_ind; intros H; [split; [left; reflexivity|]; intros [|i] b Hb; discriminate Hb|].
  destruct IH as [I1 I2]. { intros i x Hx. apply (H i). rewrite nth_error_app1; auto. apply nth_error_Some. congruence. }
  pose proof (H (length bs) b ltac:(rewrite nth_error_app2, Nat.sub_diag by lia; reflexivity)) as Hb.
  unfold block_cols in *. rewrite blocks_app, fold_left_app. cbn [fold_left]. set (acc := fold_left _ (for_each_block C bs) 0) in *. destruct (Nat.eqb_spec (length bs mod C) r) as [Er|Er]; cbn [andb].
  - destruct (b_fit b) eqn:Ef; [rewrite andb_false_r|rewrite andb_true_r].
    + split; [exact I1|]. intros i x Hx Hr Fx. apply (I2 i x); auto. destruct (Nat.lt_ge_cases i (length bs)) as [Hi|Hi]; [rewrite nth_error_app1 in Hx by exact Hi; exact Hx|]. rewrite nth_error_app2 in Hx by exact Hi. destruct (i - length bs)%nat as [|k]; [cbn in Hx; congruence|cbn in Hx; destruct k; discriminate Hx].
    + specialize (Hb Er eq_refl). destruct (Z.eqb_spec acc 0) as [Z0|Z0]; [split; auto|]. destruct I1 as [I1|I1]; [contradiction|]. split; auto.
  - split; [exact I1|]. intros i x Hx Hr Fx. destruct (Nat.lt_ge_cases i (length bs)) as [Hi|Hi]; [rewrite nth_error_app1 in Hx by exact Hi; eauto|]. rewrite nth_error_app2 in Hx by exact Hi. destruct (i - length bs)%nat as [|k] eqn:Ek; [exfalso; apply Er; rewrite <- Hr; f_equal; lia|cbn in Hx; destruct k; discriminate Hx].
Qed.
Lemma set_col_some : forall C r bs bs', set_col C r bs = Some bs' -> same bs bs' /\ (forall i b b', nth_error bs i = Some b -> nth_error bs' i = Some b' -> b_rows b' = b_rows b /\ b_cols b' = if Nat.eqb (i mod C) r then block_cols C r bs else b_cols b) /\
  forall i b, nth_error bs i = Some b -> (i mod C = r)%nat -> b_fit b = false -> b_cols b = block_cols C r bs.
Proof.
  intros C r bs bs' H. unfold set_col in H. apply all_opt_some in H as [L N]. rewrite blocks_length in L.
  assert (K : forall i b, nth_error bs i = Some b -> exists b', nth_error bs' i = Some b' /\ (if Nat.eqb (i mod C) r then if b_fit b then Some (mkBlock true (b_rows b) (block_cols C r bs)) else if b_cols b =? block_cols C r bs then Some b else None else Some b) = Some b').
  { intros i b Hb. destruct (N i (b, (i / C, i mod C)%nat)) as (b' & Hb' & E); [rewrite blocks_nth, Hb; reflexivity|]. exists b'. auto. }
  split; [split; [exact L|]|split].
  - intros i b b' Hb Hb'. destruct (K i b Hb) as (x & Hx & E). rewrite Hb' in Hx. injection Hx as <-. destruct (Nat.eqb (i mod C) r); [|injection E as <-; auto]. destruct (b_fit b) eqn:F; [injection E as <-; cbn; auto; split; [auto|discriminate]|]. destruct (b_cols b =? block_cols C r bs); [|discriminate E]. injection E as <-. auto.
  - intros i b b' Hb Hb'. destruct (K i b Hb) as (x & Hx & E). rewrite Hb' in Hx. injection Hx as <-. destruct (Nat.eqb (i mod C) r); [|injection E as <-; auto]. destruct (b_fit b); [injection E as <-; auto|]. destruct (Z.eqb_spec (b_cols b) (block_cols C r bs)); [|discriminate E]. injection E as <-. auto.
  - intros i b Hb Hr F. destruct (K i b Hb) as (x & Hx & E). rewrite (proj2 (Nat.eqb_eq _ _) Hr), F in E. destruct (Z.eqb_spec (b_cols b) (block_cols C r bs)); [assumption|discriminate E].
Qed.
Lemma set_col_ok : forall C r h bs, (forall i b, nth_error bs i = Some b -> (i mod C = r)%nat -> b_fit b = false -> b_cols b = h) -> set_col C r bs <> None.
Proof.
  intros C r h bs H. destruct (cols_value C r h bs H) as [_ V]. unfold set_col. apply all_opt_ok. intros i [b [row col]] E. rewrite blocks_nth in E. destruct (nth_error bs i) as [x|] eqn:Ex; [|discriminate E]. injection E as <- <- <-.
  destruct (Nat.eqb_spec (i mod C) r) as [Er|Er]; [|discriminate]. destruct (b_fit x) eqn:F; [discriminate|]. rewrite (H i x Ex Er F), (V i x Ex Er F), Z.eqb_refl. discriminate.
Qed.
Lemma cols_loop : forall C bs ds cs, same bs cs -> 
  (forall out, fold_opt (fun bs r => set_col C r bs) ds cs = Some out -> same bs out /\ (forall i b b', nth_error cs i = Some b -> nth_error out i = Some b' -> b_rows b' = b_rows b /\ b_cols b' = if existsb (Nat.eqb (i mod C)) ds then block_cols C (i mod C) bs else b_cols b) /\
    forall i b, nth_error bs i = Some b -> In (i mod C)%nat ds -> b_fit b = false -> b_cols b = block_cols C (i mod C) bs) /\
  forall H, (forall i b, nth_error bs i = Some b -> In (i mod C)%nat ds -> b_fit b = false -> b_cols b = H (i mod C)%nat) -> fold_opt (fun bs r => set_col C r bs) ds cs <> None.
Proof.
  intros C bs. induction ds as [|r ds IH]; intros cs S; cbn [fold_opt].
  - split; [|discriminate]. intros out E. injection E as <-. split; [exact S|]. split; [|intros i b _ []]. intros i b b' Hb Hb'. rewrite Hb in Hb'. injection Hb' as <-. auto.
  - destruct (set_col C r cs) as [c1|] eqn:E1.
    + destruct (set_col_some C r cs c1 E1) as (S1 & V1 & U1). rewrite (cols_same C r bs cs S) in V1, U1. pose proof (same_trans _ _ _ S S1) as S2. destruct (IH c1 S2) as [I1 I2]. split.
      * intros out E. destruct (I1 out E) as (A1 & A2 & A3). split; [exact A1|]. split.
        -- intros i b b' Hb Hb'. destruct (nth_error c1 i) as [x|] eqn:Hx.
           ++ destruct (V1 i b x Hb Hx) as [B1 B2]. destruct (A2 i x b' Hx Hb') as [D1 D2]. split; [congruence|]. rewrite D2, B2. cbn [existsb]. destruct (Nat.eqb_spec (i mod C) r) as [Er|Er]; cbn [orb]; [|reflexivity]. rewrite Er. destruct (existsb (Nat.eqb r) ds); reflexivity.
           ++ apply nth_error_None in Hx. assert (i < length cs)%nat by (apply nth_error_Some; congruence). destruct S1 as [L1 _]. lia.
        -- intros i b Hb [Hr|Hr] F; [|apply A3; auto]. destruct (nth_error cs i) as [x|] eqn:Hx.
           ++ destruct S as [_ S]. destruct (S i b x Hb Hx) as [_ Q]. rewrite <- (Q F) in F |- *. rewrite <- Hr. apply (U1 i x Hx); auto.
           ++ apply nth_error_None in Hx. assert (i < length bs)%nat by (apply nth_error_Some; congruence). destruct S as [L1 _]. lia.
      * intros H HH. apply (I2 H). intros i b Hb Hi F. apply HH; auto. right. exact Hi.
    + split; [discriminate|]. intros H HH _. apply (set_col_ok C r (H r) cs); [|exact E1]. intros i b Hb Hr F. destruct (nth_error bs i) as [x|] eqn:Hx.
      * destruct S as [_ S]. destruct (S i x b Hx Hb) as [Q1 Q]. rewrite F in Q1. rewrite (Q (eq_sym Q1)), <- Hr. apply (HH i x Hx); [left; auto|auto].
      * apply nth_error_None in Hx. assert (i < length cs)%nat by (apply nth_error_Some; congruence). destruct S as [L1 _]. lia.
Qed.

(** ** The positions *)
Definition sized (C : nat) (H W : nat -> Z) (bs : list block) : Prop := forall i b, nth_error bs i = Some b -> b_rows b = H (i / C)%nat /\ b_cols b = W (i mod C)%nat.
Lemma sized_snoc : forall C H W bs b, sized C H W (bs ++ [b]) -> sized C H W bs /\ b_rows b = H (length bs / C)%nat /\ b_cols b = W (length bs mod C)%nat.
Proof.
  intros C H W bs b S. split; [|apply S; rewrite nth_error_app2, Nat.sub_diag by lia; reflexivity]. intros i x Hx. apply S. rewrite nth_error_app1; auto. apply nth_error_Some. congruence.
Qed.
Lemma shifts_state : forall C H W bs, (0 < C)%nat -> sized C H W bs -> forall st,
  fold_left (fun '(out, (row_shift, col_shift)) '(b, (_, col)) =>
    (out ++ [(row_shift, col_shift)], if Nat.eqb col (C - 1) then (row_shift + b_rows b, 0) else (row_shift, col_shift + b_cols b)))
    (for_each_block C bs) ([], (0, 0)) = st ->
  length (fst st) = length bs /\ snd st = (pre H (length bs / C), pre W (length bs mod C)) /\ forall i, (i < length bs)%nat -> nth_error (fst st) i = Some (pre H (i / C), pre W (i mod C)).
Proof.
  intros C H W bs HC. induction bs as [|b bs IH] using rev_ind; intros S st E.
  - cbn in E. subst st. cbn [fst snd length]. split; [reflexivity|]. split; [rewrite Nat.div_small, Nat.mod_small by lia; reflexivity|lia].
  - destruct (sized_snoc _ _ _ _ _ S) as (S' & Eb & Ec). rewrite blocks_app, fold_left_app in E. cbn [fold_left] in E. specialize (IH S' _ eq_refl). destruct (fold_left _ (for_each_block C bs) _) as [out [rs cs]]. destruct IH as (L & P & N). cbn [fst snd] in *. injection P as -> ->. subst st. cbn [fst snd]. rewrite !app_length. cbn [length]. rewrite !Nat.add_1_r. split; [lia|]. split.
    + destruct (next_block C (length bs) HC) as [(A & B & D)|(A & B & D)]; rewrite B, D.
      * rewrite A, Nat.eqb_refl, Eb. reflexivity.
      * rewrite (proj2 (Nat.eqb_neq _ _)) by lia. rewrite Ec. reflexivity.
    + intros i Hi. destruct (Nat.eq_dec i (length bs)) as [->|Ni]; [rewrite nth_error_app2, L, Nat.sub_diag by lia; reflexivity|]. rewrite nth_error_app1 by lia. apply N. lia.
Qed.
Lemma shifts_nth : forall C H W bs, (0 < C)%nat -> sized C H W bs -> length (shifts C bs) = length bs /\ forall i, (i < length bs)%nat -> nth_error (shifts C bs) i = Some (pre H (i / C), pre W (i mod C)).
Proof. intros C H W bs HC S. destruct (shifts_state C H W bs HC S _ eq_refl) as (A & _ & B). split; assumption. Qed.

(** ** The size of the matrix *)
Definition diagonals (C len : nat) : nat := Nat.min C (len / C + (if Nat.ltb (len / C) (len mod C) then 1 else 0)).
Lemma next_diagonal : forall C len, (0 < C)%nat -> (len / C = len mod C /\ diagonals C len = len / C /\ diagonals C (S len) = S (len / C) \/ len / C <> len mod C /\ diagonals C (S len) = diagonals C len)%nat.
Proof.
  intros C len HC. unfold diagonals. pose proof (Nat.mod_upper_bound len C ltac:(lia)) as U. destruct (next_block C len HC) as [(A & B & D)|(A & B & D)]; rewrite B, D; set (q := (len / C)%nat) in *; set (r := (len mod C)%nat) in *; clearbody q r.
  - destruct (Nat.eq_dec q r); [left|right]; (split; [assumption|]); destruct (Nat.ltb_spec q r); destruct (Nat.ltb_spec (S q) 0); lia.
  - destruct (Nat.eq_dec q r); [left|right]; (split; [assumption|]); destruct (Nat.ltb_spec q r); destruct (Nat.ltb_spec q (S r)); lia.
Qed.
Lemma totals : forall C H W bs, (0 < C)%nat -> sized C H W bs -> total_rows C bs = pre H (diagonals C (length bs)) /\ total_cols C bs = pre W (diagonals C (length bs)).
Proof.
  intros C H W bs HC. induction bs as [|b bs IH] using rev_ind; intros S.
  - cbn [length]. unfold diagonals. rewrite Nat.div_small, Nat.mod_small by lia. cbn [Nat.ltb Nat.leb Nat.add]. rewrite Nat.min_0_r. split; reflexivity.
  - destruct (sized_snoc _ _ _ _ _ S) as (S' & Eb & Ec). destruct (IH S') as [I1 I2]. unfold total_rows, total_cols in *. rewrite !blocks_app, !fold_left_app. cbn [fold_left]. rewrite I1, I2, app_length. cbn [length]. rewrite Nat.add_1_r. destruct (next_diagonal C (length bs) HC) as [(A & B & D)|(A & B)].
    + rewrite (proj2 (Nat.eqb_eq _ _) A), B, D, Eb, Ec, <- A. split; reflexivity.
    + rewrite (proj2 (Nat.eqb_neq _ _) A), B. split; reflexivity.
Qed.
Lemma diagonals_full : forall R C, (0 < C)%nat -> diagonals C (R * C) = Nat.min C R.
Proof. intros R C HC. unfold diagonals. rewrite Nat.div_mul, Nat.mod_mul by lia. cbn [Nat.ltb Nat.leb]. destruct (Nat.ltb_spec R 0); [lia|]. rewrite Nat.add_0_r. reflexivity. Qed.

(** ** The whole of check_and_set_sizes *)
Lemma in_seq0 : forall i n, existsb (Nat.eqb i) (seq 0 n) = Nat.ltb i n.
Proof.
  intros i n. destruct (Nat.ltb_spec i n) as [H|H].
  - apply existsb_exists. exists i. split; [apply in_seq; lia|apply Nat.eqb_refl].
  - apply Bool.not_true_iff_false. intros E. apply existsb_exists in E as (x & Hx & E). apply Nat.eqb_eq in E. apply in_seq in Hx. lia.
Qed.
Lemma sizes_some : forall R C bs out, length bs = (R * C)%nat -> check_and_set_sizes R C bs = Some out ->
  same bs out /\ sized C (fun r => block_rows C r bs) (fun c => block_cols C c bs) out /\
  forall i b, nth_error bs i = Some b -> b_fit b = false -> b_rows b = block_rows C (i / C) bs /\ b_cols b = block_cols C (i mod C) bs.
Proof.
  intros R C bs out L E. unfold check_and_set_sizes in E. destruct (fold_opt (fun bs r => set_row C r bs) (seq 0 R) bs) as [cs|] eqn:E1; [|discriminate E].
  destruct (rows_loop C bs (seq 0 R) bs (same_refl bs)) as [RL _]. destruct (RL cs E1) as (S1 & V1 & U1). destruct (cols_loop C bs (seq 0 C) cs S1) as [CL _]. destruct (CL out E) as (S2 & V2 & U2).
  assert (B : forall i b, nth_error bs i = Some b -> (i / C < R)%nat /\ (i mod C < C)%nat) by (intros i b Hb; apply block_row; rewrite <- L; apply nth_error_Some; congruence).
  split; [exact S2|]. split.
  - intros i b' Hb'. assert (i < length out)%nat as Hi by (apply nth_error_Some; congruence). destruct S1 as [L1 _]. destruct S2 as [L2 _].
    destruct (nth_error bs i) as [b|] eqn:Hb; [|apply nth_error_None in Hb; lia]. destruct (nth_error cs i) as [c|] eqn:Hc; [|apply nth_error_None in Hc; lia].
    destruct (V1 i b c Hb Hc) as [_ P1]. destruct (V2 i c b' Hc Hb') as [P2 P3]. destruct (B i b Hb) as [B1 B2]. rewrite in_seq0 in P1, P3. rewrite (proj2 (Nat.ltb_lt _ _) B1) in P1. rewrite (proj2 (Nat.ltb_lt _ _) B2) in P3. split; congruence.
  - intros i b Hb F. destruct (B i b Hb) as [B1 B2]. split; [apply (U1 i b Hb); [apply in_seq; split; [apply Nat.le_0_l|exact B1]|exact F]|apply (U2 i b Hb); [apply in_seq; split; [apply Nat.le_0_l|exact B2]|exact F]].
Qed.
Lemma sizes_ok : forall R C H W bs, length bs = (R * C)%nat -> (forall i b, nth_error bs i = Some b -> b_fit b = false -> b_rows b = H (i / C)%nat /\ b_cols b = W (i mod C)%nat) -> check_and_set_sizes R C bs <> None.
Proof.
  intros R C H W bs L K. unfold check_and_set_sizes. destruct (rows_loop C bs (seq 0 R) bs (same_refl bs)) as [RL RO]. specialize (RO H (fun i b Hb _ F => proj1 (K i b Hb F))).
  destruct (fold_opt (fun bs r => set_row C r bs) (seq 0 R) bs) as [cs|]; [|contradiction]. destruct (RL cs eq_refl) as (S1 & _ & _). destruct (cols_loop C bs (seq 0 C) cs S1) as [_ CO]. apply (CO W). intros i b Hb _ F. apply (K i b Hb F).
Qed.
