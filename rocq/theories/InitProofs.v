(** LevelCellList -> LevelCellArray: the construction preserves the cells and
    yields a well-formed array. *)
From Verif Require Import Base IntervalModel Spec LoiModel LoiProofs LcaModel LcaSpec GridProofs.
Open Scope Z_scope.

(** ** Slices *)

Definition slice {A} (lo hi : nat) (l : list A) : list A := firstn (hi - lo) (skipn lo l).

Lemma slice_app1 : forall A (l l' : list A) lo hi, (hi <= length l)%nat ->
  slice lo hi (l ++ l') = slice lo hi l.
Proof.
  intros. unfold slice. destruct (Nat.le_gt_cases lo hi).
  - rewrite skipn_app, firstn_app.
    rewrite skipn_length.
    replace (hi - lo - (length l - lo))%nat with 0%nat by lia. simpl. rewrite app_nil_r. reflexivity.
  - replace (hi - lo)%nat with 0%nat by lia. reflexivity.
Qed.

Lemma slice_app2 : forall A (l l' : list A),
  slice (length l) (length l + length l') (l ++ l') = l'.
Proof.
  intros. unfold slice. rewrite skipn_app, skipn_all, Nat.sub_diag. simpl.
  replace (length l + length l' - length l)%nat with (length l') by lia. apply firstn_all.
Qed.

Lemma slice_In : forall A (l : list A) lo hi x, In x (slice lo hi l) -> In x l.
Proof.
  unfold slice; intros. rewrite <- (firstn_skipn lo l). apply in_or_app. right.
  rewrite <- (firstn_skipn (hi - lo) (skipn lo l)). apply in_or_app. auto.
Qed.

(** ** Membership through a row-access function *)

Fixpoint memL (rw : nat -> nat -> list interval) (d : nat) (l : list interval) (p : list Z) : Prop :=
  exists i, In i l /\ in_i i (nth d p 0) /\
    match d with
    | O => True
    | S m => memL rw m (rw m (Z.to_nat (iindex i + nth d p 0))) p
    end.

Lemma mem_row_memL : forall n a d r p,
  mem_row n a d r p <-> memL (row n a) d (row n a d r) p.
Proof.
  intros n a. induction d as [|d IH]; intros r p; simpl; [tauto|].
  split; intros (i & H1 & H2 & H3); exists i; spl; auto; apply IH; auto.
Qed.

Lemma chained_app : forall l1 l2 p q,
  chained p (l1 ++ l2) q <-> exists r, chained p l1 r /\ chained r l2 q.
Proof.
  induction l1 as [|i l1 IH]; intros l2 p q; simpl.
  - split; [intros H; exists p; auto|]. intros (r & -> & H); auto.
  - rewrite IH. split.
    + intros (A & B & r & C & D). exists r. auto.
    + intros (r & (A & B & C) & D). eauto.
Qed.

Lemma chained_le : forall l p q, chained p l q -> p <= q.
Proof.
  induction l; simpl; intros p q H; [lia|]. destruct H as (A & B & C). apply IHl in C. lia.
Qed.

Lemma chained_In : forall l p q i, chained p l q -> In i l ->
  p <= iindex i + istart i /\ istart i < iend i /\ iindex i + iend i <= q.
Proof.
  induction l; simpl; intros p q i H Hi; [tauto|]. destruct H as (A & B & C).
  destruct Hi as [->|Hi].
  - apply chained_le in C. lia.
  - specialize (IHl _ _ _ C Hi). lia.
Qed.

(** ** The array under construction *)

(** Offsets completed by the current size. *)
Definition E (a : lca) (d : nat) : list nat := a_offsets a d ++ [length (a_cells a d)].

Definition rowE (a : lca) (d r : nat) : list interval :=
  slice (nth r (E a d) 0%nat) (nth (S r) (E a d) 0%nat) (a_cells a d).

Record InvE (b : bool) (a : lca) (d : nat) : Prop := mkInvE {
  e_first : nth_error (E a d) 0 = Some 0%nat;
  e_bound : forall r o, nth_error (E a d) r = Some o -> (o <= length (a_cells a d))%nat;
  e_mono : forall r lo hi, nth_error (E a d) r = Some lo -> nth_error (E a d) (S r) = Some hi ->
    (lo <= hi)%nat /\ (b = true -> (lo < hi)%nat);
  e_normal : forall r, (r < length (a_offsets a d))%nat -> normal (rowE a d r) }.

Definition Inv (b : bool) (n : nat) (a : lca) : Prop :=
  (forall d, (d < n)%nat -> InvE b a d) /\
  (forall d, (d < n)%nat -> chained 0 (a_cells a (S d)) (Z.of_nat (length (a_offsets a d)))).

Lemma E_len : forall a d, length (E a d) = S (length (a_offsets a d)).
Proof. intros. unfold E. rewrite app_length. simpl. lia. Qed.

Lemma InvE_congr : forall b a a' d,
  a_cells a d = a_cells a' d -> a_offsets a d = a_offsets a' d -> InvE b a d -> InvE b a' d.
Proof.
  intros b a a' d Hc Ho [A B C D].
  assert (HE : E a' d = E a d) by (unfold E; rewrite Hc, Ho; reflexivity).
  constructor.
  - rewrite HE; auto.
  - rewrite HE, <- Hc; auto.
  - rewrite HE; auto.
  - rewrite <- Ho. intros r Hr. specialize (D r Hr). unfold rowE in *. rewrite HE, <- Hc. auto.
Qed.

(** [a'] extends [a] in the dimensions below [n]. *)
Definition Ext (n : nat) (a a' : lca) : Prop :=
  forall d, (d < n)%nat ->
    (exists l, a_cells a' d = a_cells a d ++ l) /\ (exists l, E a' d = E a d ++ l).

Lemma Ext_refl : forall n a, Ext n a a.
Proof. intros n a d _. split; exists []; rewrite app_nil_r; auto. Qed.

Lemma Ext_trans : forall n a b c, Ext n a b -> Ext n b c -> Ext n a c.
Proof.
  intros n a b c H1 H2 d Hd. destruct (H1 d Hd) as ((l1 & A1) & (m1 & B1)).
  destruct (H2 d Hd) as ((l2 & A2) & (m2 & B2)). split.
  - exists (l1 ++ l2). rewrite A2, A1, app_assoc. auto.
  - exists (m1 ++ m2). rewrite B2, B1, app_assoc. auto.
Qed.

Lemma rowE_ext : forall b n a a' d r, Ext n a a' -> (d < n)%nat -> InvE b a d ->
  (r < length (a_offsets a d))%nat -> rowE a' d r = rowE a d r.
Proof.
  intros b n a a' d r Hx Hd HI Hr. destruct (Hx d Hd) as ((l & Hl) & (m & Hm)).
  unfold rowE. rewrite Hm, Hl.
  pose proof (E_len a d).
  rewrite !app_nth1 by lia. apply slice_app1.
  destruct (nth_error (E a d) (S r)) eqn:En.
  - erewrite nth_error_nth by eauto. eapply e_bound; eauto.
  - apply nth_error_None in En. lia.
Qed.

Lemma memL_ext : forall b n a a' d l p,
  (forall k, (k < d)%nat -> InvE b a k) ->
  (forall k, (k < d)%nat -> chained 0 (a_cells a (S k)) (Z.of_nat (length (a_offsets a k)))) ->
  Ext n a a' -> (d <= n)%nat ->
  (forall m, d = S m -> incl l (a_cells a d)) ->
  (memL (rowE a) d l p <-> memL (rowE a') d l p).
Proof.
  intros b n a a'. induction d as [|d IH]; intros l p HI HC Hx Hd Hl; [simpl; tauto|].
  assert (Hrow : forall i, In i l -> in_i i (nth (S d) p 0) ->
    rowE a' d (Z.to_nat (iindex i + nth (S d) p 0)) = rowE a d (Z.to_nat (iindex i + nth (S d) p 0))).
  { intros i Hi Hin. apply (rowE_ext b n); auto.
    specialize (HC d ltac:(lia)). eapply chained_In in HC; [|eapply (Hl d); eauto].
    unfold in_i in Hin. lia. }
  assert (Hsub : forall r q, memL (rowE a) d (rowE a d r) q <-> memL (rowE a') d (rowE a d r) q).
  { intros. apply IH; auto; try lia. intros m _ i Hi. eapply slice_In; eauto. }
  simpl. split; intros (i & H1 & H2 & H3); exists i; spl; auto.
  - rewrite (Hrow i H1 H2). apply Hsub. auto.
  - rewrite (Hrow i H1 H2) in H3. apply Hsub in H3. auto.
Qed.

(** Only the rows of the dimensions below [d] matter. *)
Lemma memL_congr : forall rw rw' d l p,
  (forall k r, (k < d)%nat -> rw k r = rw' k r) -> (memL rw d l p <-> memL rw' d l p).
Proof.
  intros rw rw'. induction d as [|d IH]; intros l p H; simpl; [tauto|].
  split; intros (i & H1 & H2 & H3); exists i; spl; auto.
  - rewrite <- H by lia. apply IH; auto.
  - rewrite <- H in H3 by lia. apply IH; auto.
Qed.

Lemma memL_app : forall rw d l1 l2 p, memL rw d (l1 ++ l2) p <-> memL rw d l1 p \/ memL rw d l2 p.
Proof.
  intros. destruct d; simpl; split.
  - intros (i & H1 & H2). apply in_app_or in H1 as [H1|H1]; [left|right]; eauto.
  - intros [(i & H1 & H2)|(i & H1 & H2)]; exists i; split; auto; apply in_or_app; auto.
  - intros (i & H1 & H2). apply in_app_or in H1 as [H1|H1]; [left|right]; eauto.
  - intros [(i & H1 & H2)|(i & H1 & H2)]; exists i; split; auto; apply in_or_app; auto.
Qed.

Definition working (curr : interval) : list interval := if is_valid curr then [curr] else [].

(** Invariant of the loop over the keys of one map (dimension [S m]); [g1] is the
    part already processed. *)
Record LoopInv (b : bool) (m : nat) (a0 a : lca) (curr : interval) (l : list interval)
       (g1 : list (Z * grid m)) : Prop := mkLI {
  li_invE : forall d, (d <= m)%nat -> InvE b a d;
  li_chain : forall d, (d < m)%nat -> chained 0 (a_cells a (S d)) (Z.of_nat (length (a_offsets a d)));
  li_top : chained 0 (a_cells a (S m) ++ working curr) (Z.of_nat (length (a_offsets a m)));
  li_cells : a_cells a (S m) = a_cells a0 (S m) ++ l;
  li_normal : normal (l ++ working curr);
  li_first : is_valid curr = false -> l = [];
  li_last : g1 <> [] -> is_valid curr = true;
  li_key : forall k v, In (k, v) g1 -> k < iend curr;
  li_last_key : is_valid curr = true -> exists v, In (iend curr - 1, v) g1;
  li_ext : Ext (S m) a0 a;
  li_mem : forall p, memL (rowE a) (S m) (l ++ working curr) p <->
                     exists sub, In (nth (S m) p 0, sub) g1 /\ grid_mem m sub p;
  li_highc : forall d, (S m < d)%nat -> a_cells a d = a_cells a0 d;
  li_higho : forall d, (S m <= d)%nat -> a_offsets a d = a_offsets a0 d;
  li_level : a_level a = a_level a0 }.

Record InitSpec (b : bool) (n : nat) (g : grid n) (a a' : lca) (l : list interval) : Prop := mkIS {
  is_cells : a_cells a' n = a_cells a n ++ l;
  is_normal : normal l;
  is_nonempty : grid_is_empty n g = false -> l <> [];
  is_inv : Inv b n a';
  is_ext : Ext n a a';
  is_mem : forall p, memL (rowE a') n l p <-> grid_mem n g p;
  is_highc : forall d, (n < d)%nat -> a_cells a' d = a_cells a d;
  is_higho : forall d, (n <= d)%nat -> a_offsets a' d = a_offsets a d;
  is_level : a_level a' = a_level a }.

Lemma upd_same : forall A (f : nat -> A) d v, upd f d v d = v.
Proof. intros. unfold upd. rewrite Nat.eqb_refl. auto. Qed.
Lemma upd_other : forall A (f : nat -> A) d v k, k <> d -> upd f d v k = f k.
Proof. intros. unfold upd. destruct (Nat.eqb_spec k d); congruence. Qed.

Lemma init_curr_spec : forall N a curr i a' curr',
  init_curr N a curr i = (a', curr') ->
  a_offsets a' = a_offsets a /\ a_level a' = a_level a /\
  (forall d, d <> N -> a_cells a' d = a_cells a d) /\
  ((is_valid curr = true /\ iend curr < i /\ a_cells a' N = a_cells a N ++ [curr] /\
    curr' = mkidx i (i + 1) (Z.of_nat (length (a_offsets a (pred N))) - i)) \/
   (is_valid curr = true /\ i <= iend curr /\ a_cells a' N = a_cells a N /\
    curr' = mkI (istart curr) (iend curr + 1) (istep curr) (iindex curr)) \/
   (is_valid curr = false /\ a_cells a' N = a_cells a N /\
    curr' = mkidx i (i + 1) (Z.of_nat (length (a_offsets a (pred N))) - i))).
Proof.
  intros N a curr i a' curr' H. unfold init_curr in H.
  destruct (is_valid curr) eqn:V.
  - destruct (Z.ltb_spec (iend curr) i).
    + inv H. simpl. spl; auto.
      * intros. apply upd_other; auto.
      * left. rewrite upd_same. auto.
    + inv H. spl; auto. right; left. spl; auto.
  - inv H. spl; auto.
Qed.

Lemma valid_working : forall c, is_valid c = true -> working c = [c].
Proof. intros c H. unfold working. rewrite H. auto. Qed.
Lemma invalid_working : forall c, is_valid c = false -> working c = [].
Proof. intros c H. unfold working. rewrite H. auto. Qed.

Lemma InvE_push : forall b a a2 d l1,
  InvE b a d ->
  a_cells a2 d = a_cells a d ++ l1 ->
  a_offsets a2 d = a_offsets a d ++ [length (a_cells a d)] ->
  normal l1 -> (b = true -> l1 <> []) ->
  InvE b a2 d /\ E a2 d = E a d ++ [(length (a_cells a d) + length l1)%nat] /\
  rowE a2 d (length (a_offsets a d)) = l1.
Proof.
  intros b a a2 d l1 HI Hc Ho Hn Hb.
  assert (HE : E a2 d = E a d ++ [(length (a_cells a d) + length l1)%nat]).
  { unfold E at 1. rewrite Ho, Hc, app_length. reflexivity. }
  assert (Hlen : length (E a d) = S (length (a_offsets a d))) by apply E_len.
  assert (Hlast : nth_error (E a d) (length (a_offsets a d)) = Some (length (a_cells a d))).
  { unfold E. apply nth_error_app_mid. }
  assert (Hrow : rowE a2 d (length (a_offsets a d)) = l1).
  { unfold rowE. rewrite HE. rewrite app_nth1 by lia. rewrite app_nth2 by lia.
    rewrite Hlen, Nat.sub_diag. simpl.
    erewrite nth_error_nth by eauto. rewrite Hc. apply slice_app2. }
  split; [|auto]. constructor.
  - rewrite HE, nth_error_app1 by lia. apply (e_first _ _ _ HI).
  - clear Hrow. intros r o Hr. rewrite HE in Hr. rewrite Hc, app_length.
    destruct (Nat.lt_ge_cases r (length (E a d))).
    + rewrite nth_error_app1 in Hr by lia. apply (e_bound _ _ _ HI) in Hr. lia.
    + rewrite nth_error_app2 in Hr by lia. destruct (r - length (E a d))%nat as [|k]; simpl in Hr.
      * inv Hr. lia. * destruct k; discriminate.
  - clear Hrow. intros r lo hi Hlo Hhi. rewrite HE in *.
    destruct (Nat.lt_ge_cases (S r) (length (E a d))).
    + rewrite nth_error_app1 in * by lia. apply (e_mono _ _ _ HI r); auto.
    + rewrite nth_error_app2 in Hhi by lia. destruct (S r - length (E a d))%nat as [|k] eqn:K; simpl in Hhi.
      * inv Hhi. assert (r = length (a_offsets a d)) by lia. subst r.
        rewrite nth_error_app1 in Hlo by lia. rewrite Hlast in Hlo. inv Hlo. split; [lia|].
        intros Hbt. specialize (Hb Hbt). destruct l1; [congruence|simpl; lia].
      * destruct k; discriminate.
  - intros r Hr. rewrite Ho, app_length in Hr. simpl in Hr.
    destruct (Nat.eq_dec r (length (a_offsets a d))) as [->|Hne].
    + rewrite Hrow. auto.
    + replace (rowE a2 d r) with (rowE a d r); [apply (e_normal _ _ _ HI); lia|].
      unfold rowE. rewrite HE, Hc. rewrite !app_nth1 by lia. symmetry. apply slice_app1.
      destruct (nth_error (E a d) (S r)) eqn:En.
      * erewrite nth_error_nth by eauto. eapply e_bound; eauto.
      * apply nth_error_None in En. lia.
Qed.

Definition init_body (m : nat) (s : lca * interval) (point : Z * grid m) : lca * interval :=
  let '(a, curr) := s in
  let i := fst point in
  let previous_offset := length (a_cells a m) in
  let a := init_lcl m (snd point) a in
  let '(a, curr) := init_curr (S m) a curr i in
  (push_offset a m previous_offset, curr).

Lemma init_lcl_S : forall m g a,
  init_lcl (S m) g a =
  let '(a, curr) := fold_left (init_body m) g (a, mkidx 0 0 0) in
  if is_valid curr then push_cell a (S m) curr else a.
Proof. reflexivity. Qed.

Lemma loop_step : forall b m
  (IH : forall g a, grid_ok m g -> (b = true -> grid_full m g) -> Inv b m a ->
        exists l, InitSpec b m g a (init_lcl m g a) l)
  a0 a curr l g1 i sub a2 curr',
  LoopInv b m a0 a curr l g1 ->
  (forall k v, In (k, v) g1 -> k < i) ->
  grid_ok m sub ->
  (b = true -> grid_is_empty m sub = false /\ grid_full m sub) ->
  init_body m (a, curr) (i, sub) = (a2, curr') ->
  exists l', LoopInv b m a0 a2 curr' l' (g1 ++ [(i, sub)]).
Proof.
  intros b m IH a0 a curr l g1 i sub a2 curr' L Hlt Hok Hb Hbody.
  unfold init_body in Hbody. cbn [fst snd] in Hbody.
  destruct (IH sub a Hok) as (l1 & S1).
  { intros H; apply Hb; auto. }
  { split. - intros; apply (li_invE _ _ _ _ _ _ _ L); lia. - apply (li_chain _ _ _ _ _ _ _ L). }
  set (a1 := init_lcl m sub a) in *.
  destruct (init_curr (S m) a1 curr i) as [a1' c'] eqn:HC. inv Hbody.
  apply init_curr_spec in HC as (Co & Cl & Cc & Ccase). simpl pred in Ccase.
  assert (Hom : a_offsets a1 m = a_offsets a m) by (apply (is_higho _ _ _ _ _ _ S1); lia).
  assert (Hcs : a_cells a1 (S m) = a_cells a (S m)) by (apply (is_highc _ _ _ _ _ _ S1); lia).
  set (a2 := push_offset a1' m (length (a_cells a m))) in *.
  assert (A2c : forall d, a_cells a2 d = a_cells a1' d) by reflexivity.
  assert (A2o : a_offsets a2 m = a_offsets a m ++ [length (a_cells a m)]).
  { simpl. rewrite upd_same, Co, Hom. auto. }
  assert (A2o' : forall d, d <> m -> a_offsets a2 d = a_offsets a1 d).
  { intros. simpl. rewrite upd_other, Co by auto. auto. }
  assert (A2m : a_cells a2 m = a_cells a m ++ l1).
  { rewrite A2c, Cc by lia. apply (is_cells _ _ _ _ _ _ S1). }
  assert (Hne : b = true -> l1 <> []).
  { intros H. apply (is_nonempty _ _ _ _ _ _ S1). apply Hb; auto. }
  destruct (InvE_push b a a2 m l1 (li_invE _ _ _ _ _ _ _ L m (le_n m)) A2m A2o
              (is_normal _ _ _ _ _ _ S1) Hne) as (Em & HEm & Hrowm).
  (* invariants of the rows *)
  assert (IE : forall d, (d <= m)%nat -> InvE b a2 d).
  { intros d Hd. destruct (Nat.eq_dec d m) as [->|]; auto.
    apply (InvE_congr b a1); [rewrite A2c, Cc by lia; auto|symmetry; apply A2o'; lia|].
    apply (is_inv _ _ _ _ _ _ S1); lia. }
  assert (CH : forall d, (d < m)%nat -> chained 0 (a_cells a2 (S d)) (Z.of_nat (length (a_offsets a2 d)))).
  { intros d Hd. rewrite A2c, Cc, A2o' by lia. apply (is_inv _ _ _ _ _ _ S1); lia. }
  assert (EXT : Ext (S m) a a2).
  { intros d Hd. destruct (Nat.eq_dec d m) as [->|].
    - split; eexists; eauto.
    - assert (Hc2 : a_cells a2 d = a_cells a1 d) by (rewrite A2c, Cc by lia; auto).
      assert (Ho2 : a_offsets a2 d = a_offsets a1 d) by (apply A2o'; lia).
      destruct (is_ext _ _ _ _ _ _ S1 d ltac:(lia)) as ((k & Hk) & (k' & Hk')).
      split; [exists k; congruence|]. exists k'. unfold E in *. rewrite Hc2, Ho2. auto. }
  pose proof (li_top _ _ _ _ _ _ _ L) as Htop.
  (* position of the new row *)
  assert (Hpos : forall c, In c (a_cells a (S m) ++ working curr) ->
            istart c < iend c /\ 0 <= iindex c + istart c /\
            iindex c + iend c <= Z.of_nat (length (a_offsets a m))).
  { intros c Hin. apply chained_In with (i := c) in Htop; auto. lia. }
  (* membership of the old intervals is unchanged *)
  assert (Hold : forall p, memL (rowE a2) (S m) (l ++ working curr) p <->
                           memL (rowE a) (S m) (l ++ working curr) p).
  { intros p.
    assert (Hrow : forall c, In c (l ++ working curr) -> in_i c (nth (S m) p 0) ->
      rowE a2 m (Z.to_nat (iindex c + nth (S m) p 0)) = rowE a m (Z.to_nat (iindex c + nth (S m) p 0))).
    { intros c Hin Hx. apply (rowE_ext b (S m)); auto; [apply (li_invE _ _ _ _ _ _ _ L); lia|].
      unfold in_i in Hx. assert (K := Hpos c). rewrite (li_cells _ _ _ _ _ _ _ L) in K.
      rewrite <- app_assoc in K. specialize (K ltac:(apply in_or_app; auto)). lia. }
    assert (Hsub : forall r, memL (rowE a) m (rowE a m r) p <-> memL (rowE a2) m (rowE a m r) p).
    { intros r. apply (memL_ext b (S m)); auto.
      - intros; apply (li_invE _ _ _ _ _ _ _ L); lia.
      - apply (li_chain _ _ _ _ _ _ _ L).
      - intros k Hk c Hin. eapply slice_In; eauto. }
    simpl. split; intros (c & H1 & H2 & H3); exists c; spl; auto.
    - rewrite (Hrow c H1 H2) in H3. apply Hsub; auto.
    - rewrite (Hrow c H1 H2). apply Hsub; auto. }
  (* membership in the new row *)
  assert (Hnew : forall p, memL (rowE a2) m (rowE a2 m (length (a_offsets a m))) p <-> grid_mem m sub p).
  { intros p. rewrite Hrowm. rewrite <- (is_mem _ _ _ _ _ _ S1 p). apply memL_congr.
    intros k r Hk. unfold rowE, E. rewrite A2c, Cc, A2o' by lia. auto. }
  assert (Hi_end : is_valid curr = true -> iend curr <= i).
  { intros V. destruct (li_last_key _ _ _ _ _ _ _ L V) as (v & Hv). apply Hlt in Hv. lia. }
  assert (Hend_pos : is_valid curr = true -> iindex curr + iend curr = Z.of_nat (length (a_offsets a m))).
  { intros V. rewrite (valid_working _ V) in Htop. apply chained_app in Htop as (r & _ & Hr).
    simpl in Hr. lia. }
  assert (Hlen2 : Z.of_nat (length (a_offsets a2 m)) = Z.of_nat (length (a_offsets a m)) + 1).
  { rewrite A2o, app_length. simpl. lia. }
  (* common part *)
  assert (Common : forall l', a_cells a2 (S m) = a_cells a0 (S m) ++ l' ->
     is_valid curr' = true -> iend curr' = i + 1 ->
     normal (l' ++ [curr']) ->
     chained 0 (a_cells a2 (S m) ++ [curr']) (Z.of_nat (length (a_offsets a2 m))) ->
     (forall p, memL (rowE a2) (S m) (l' ++ [curr']) p <->
        memL (rowE a2) (S m) (l ++ working curr) p \/
        (nth (S m) p 0 = i /\ memL (rowE a2) m (rowE a2 m (length (a_offsets a m))) p)) ->
     LoopInv b m a0 a2 curr' l' (g1 ++ [(i, sub)])).
  { intros l' Hc' V' He' Hn' Hch' Hm'. constructor; auto.
    - rewrite (valid_working _ V'). auto.
    - rewrite (valid_working _ V'). auto.
    - congruence.
    - intros k v Hin. rewrite He'. apply in_app_or in Hin as [Hin|[Hin|[]]].
      + apply Hlt in Hin. lia. + inv Hin. lia.
    - intros _. exists sub. apply in_or_app. right. left. f_equal. lia.
    - eapply Ext_trans; [apply (li_ext _ _ _ _ _ _ _ L)|auto].
    - intros p. rewrite (valid_working _ V'). rewrite Hm', Hold, (li_mem _ _ _ _ _ _ _ L), Hnew. split.
      + intros [(s & Hs & Hs')|(Hs & Hs')].
        * exists s. split; auto. apply in_or_app; auto.
        * exists sub. split; auto. apply in_or_app. right. left. congruence.
      + intros (s & Hs & Hs'). apply in_app_or in Hs as [Hs|[Hs|[]]]; [left; eauto|].
        inv Hs. right. auto.
    - intros d Hd. rewrite A2c, Cc by lia. rewrite (is_highc _ _ _ _ _ _ S1) by lia.
      apply (li_highc _ _ _ _ _ _ _ L); lia.
    - intros d Hd. rewrite A2o' by lia. rewrite (is_higho _ _ _ _ _ _ S1) by lia.
      apply (li_higho _ _ _ _ _ _ _ L); lia.
    - change (a_level a2) with (a_level a1'). rewrite Cl, (is_level _ _ _ _ _ _ S1).
      apply (li_level _ _ _ _ _ _ _ L). }
  rewrite Hom in Ccase.
  destruct Ccase as [(V & Hgt & Hcc & ->)|[(V & Hle & Hcc & ->)|(V & Hcc & ->)]].
  - (* jump: close the working interval *)
    exists (l ++ [curr]). pose proof (li_normal _ _ _ _ _ _ _ L) as Hn.
    rewrite (valid_working _ V) in *. apply Common.
    + rewrite A2c, Hcc, Hcs, (li_cells _ _ _ _ _ _ _ L), app_assoc. auto.
    + unfold is_valid; simpl. apply Z.ltb_lt. lia.
    + reflexivity.
    + destruct Hn as [N1 N2]. split.
      * apply Forall_app. split; auto. constructor; simpl; auto. lia.
      * apply StronglySorted_app; auto; [repeat constructor|].
        intros x y Hx [<-|[]]. simpl.
        apply in_app_or in Hx as [Hx|[<-|[]]]; [|lia].
        apply StronglySorted_app_inv in N2 as (_ & _ & N2). specialize (N2 x curr Hx (or_introl eq_refl)).
        rewrite Forall_forall in N1. assert (istart curr < iend curr) by (apply N1; apply in_or_app; simpl; auto).
        simpl in N2. lia.
    + apply chained_app. exists (Z.of_nat (length (a_offsets a m))). split.
      * rewrite A2c, Hcc, Hcs. auto.
      * rewrite Hlen2. simpl. lia.
    + intros p. rewrite memL_app. apply or_iff_compat_l. simpl. split.
      * intros (c & [<-|[]] & Hx & Hm). unfold in_i in Hx; simpl in Hx, Hm.
        assert (nth (S m) p 0 = i) by lia. split; auto.
        replace (length (a_offsets a m)) with (Z.to_nat (Z.of_nat (length (a_offsets a m)) - i + nth (S m) p 0)) by lia.
        auto.
      * intros [Hx Hm]. eexists. split; [left; reflexivity|]. unfold in_i; simpl. split; [lia|].
        replace (Z.to_nat (Z.of_nat (length (a_offsets a m)) - i + nth (S m) p 0)) with (length (a_offsets a m)) by lia.
        auto.
  - (* the key extends the working interval *)
    assert (i = iend curr) by (specialize (Hi_end V); lia). subst i.
    exists l. pose proof (li_normal _ _ _ _ _ _ _ L) as Hn.
    specialize (Hend_pos V). unfold is_valid in V. apply Z.ltb_lt in V.
    assert (V' : is_valid curr = true) by (apply Z.ltb_lt; auto).
    rewrite (valid_working _ V') in *. apply Common.
    + rewrite A2c, Hcc, Hcs, (li_cells _ _ _ _ _ _ _ L). auto.
    + unfold is_valid; simpl. apply Z.ltb_lt. lia.
    + reflexivity.
    + destruct Hn as [N1 N2]. apply Forall_app in N1 as [N1 _].
      apply StronglySorted_app_inv in N2 as (N2 & _ & N3). split.
      * apply Forall_app. split; auto. constructor; simpl; auto. lia.
      * apply StronglySorted_app; auto; [repeat constructor|].
        intros x y Hx [<-|[]]. simpl. apply (N3 x curr); simpl; auto.
    + apply chained_app in Htop as (r & Hr1 & Hr2). apply chained_app.
      exists r. split; [rewrite A2c, Hcc, Hcs; auto|]. rewrite Hlen2. simpl in *. lia.
    + intros p. rewrite !memL_app.
      assert (Hcur : memL (rowE a2) (S m) [mkI (istart curr) (iend curr + 1) (istep curr) (iindex curr)] p <->
                memL (rowE a2) (S m) [curr] p \/
                (nth (S m) p 0 = iend curr /\ memL (rowE a2) m (rowE a2 m (length (a_offsets a m))) p)).
      { simpl. split.
        - intros (c & [<-|[]] & Hx & Hm). unfold in_i in Hx; simpl in Hx, Hm.
          destruct (Z.eq_dec (nth (S m) p 0) (iend curr)) as [e|e].
          + right. split; auto.
            replace (length (a_offsets a m)) with (Z.to_nat (iindex curr + nth (S m) p 0)) by lia. auto.
          + left. exists curr. split; auto. unfold in_i. split; [lia|auto].
        - intros [(c & [<-|[]] & Hx & Hm)|[Hx Hm]].
          + eexists. split; [left; reflexivity|]. unfold in_i in *; simpl. split; [lia|auto].
          + eexists. split; [left; reflexivity|]. unfold in_i in *; simpl. split; [lia|].
            replace (Z.to_nat (iindex curr + nth (S m) p 0)) with (length (a_offsets a m)) by lia. auto. }
      rewrite Hcur. tauto.
  - (* first key *)
    exists l. pose proof (li_normal _ _ _ _ _ _ _ L) as Hn.
    rewrite (invalid_working _ V) in *. rewrite app_nil_r in *.
    rewrite (li_first _ _ _ _ _ _ _ L V) in *. apply Common.
    + rewrite A2c, Hcc, Hcs, (li_cells _ _ _ _ _ _ _ L), (li_first _ _ _ _ _ _ _ L V). auto.
    + unfold is_valid; simpl. apply Z.ltb_lt. lia.
    + reflexivity.
    + simpl. apply normal_cons. simpl. spl; auto. lia.
    + apply chained_app. exists (Z.of_nat (length (a_offsets a m))). split.
      * rewrite A2c, Hcc, Hcs. auto.
      * rewrite Hlen2. simpl. lia.
    + intros p. simpl. split.
      * intros (c & [<-|[]] & Hx & Hm). right. unfold in_i in Hx; simpl in Hx, Hm.
        assert (nth (S m) p 0 = i) by lia. split; auto.
        replace (length (a_offsets a m)) with (Z.to_nat (Z.of_nat (length (a_offsets a m)) - i + nth (S m) p 0)) by lia.
        auto.
      * intros [(c & [] & _)|[Hx Hm]]. eexists. split; [left; reflexivity|]. unfold in_i; simpl. split; [lia|].
        replace (Z.to_nat (Z.of_nat (length (a_offsets a m)) - i + nth (S m) p 0)) with (length (a_offsets a m)) by lia.
        auto.
Qed.

Lemma loop_spec : forall b m
  (IH : forall g a, grid_ok m g -> (b = true -> grid_full m g) -> Inv b m a ->
        exists l, InitSpec b m g a (init_lcl m g a) l)
  a0 g2 g1 a curr l a2 curr',
  LoopInv b m a0 a curr l g1 ->
  keys_sorted (g1 ++ g2) ->
  Forall (fun kv => grid_ok m (snd kv)) g2 ->
  (b = true -> Forall (fun kv => grid_is_empty m (snd kv) = false /\ grid_full m (snd kv)) g2) ->
  fold_left (init_body m) g2 (a, curr) = (a2, curr') ->
  exists l', LoopInv b m a0 a2 curr' l' (g1 ++ g2).
Proof.
  intros b m IH a0. induction g2 as [|[i sub] g2 IHg]; intros g1 a curr l a2 curr' L Hs Hok Hb H.
  - simpl in H. inv H. rewrite app_nil_r. eauto.
  - cbn [fold_left] in H. destruct (init_body m (a, curr) (i, sub)) as [a1 c1] eqn:HB.
    inv Hok.
    eapply loop_step in HB as (l1 & L1); eauto.
    + replace (g1 ++ (i, sub) :: g2) with ((g1 ++ [(i, sub)]) ++ g2) in * by (rewrite <- app_assoc; auto).
      eapply IHg; eauto. intros Hbt. specialize (Hb Hbt). inv Hb. auto.
    + intros k v Hin. apply StronglySorted_app_inv in Hs as (_ & _ & Hs).
      specialize (Hs (k, v) (i, sub) Hin (or_introl eq_refl)). auto.
    + intros Hbt. specialize (Hb Hbt). inv Hb. auto.
Qed.

Lemma init_spec : forall b n g a, grid_ok n g -> (b = true -> grid_full n g) -> Inv b n a ->
  exists l, InitSpec b n g a (init_lcl n g a) l.
Proof.
  intros b. induction n as [|m IH]; intros g a Hok Hb HI.
  - exists g. constructor; simpl.
    + apply upd_same.
    + auto.
    + simpl. intros H E0. rewrite E0 in H. discriminate.
    + split; intros; lia.
    + intros d Hd. lia.
    + intros p. unfold covers. split.
      * intros (i & H1 & H2 & _). eauto.
      * intros (i & H1 & H2). eauto.
    + intros. apply upd_other. lia.
    + auto.
    + auto.
  - rewrite init_lcl_S. destruct (fold_left (init_body m) g (a, mkidx 0 0 0)) as [a2 curr] eqn:HF.
    destruct Hok as [Hs Hok]. destruct HI as [HI1 HI2].
    assert (L0 : LoopInv b m a a (mkidx 0 0 0) [] []).
    { constructor.
      - intros d Hd. apply HI1. lia.
      - intros d Hd. apply HI2. lia.
      - simpl. rewrite app_nil_r. apply HI2. lia.
      - rewrite app_nil_r. auto.
      - apply normal_nil.
      - auto.
      - intros H; congruence.
      - intros k v [].
      - discriminate.
      - apply Ext_refl.
      - intros p. split; [intros (i & [] & _)|intros (s & [] & _)].
      - auto.
      - auto.
      - auto. }
    destruct (loop_spec b m IH a g [] a _ [] a2 curr L0 Hs Hok Hb HF) as (l & L).
    simpl in L. exists (l ++ working curr).
    destruct (is_valid curr) eqn:V.
    + pose proof (li_normal _ _ _ _ _ _ _ L) as N. rewrite (valid_working _ V) in *.
      assert (Hcc : forall d, d <> S m -> a_cells (push_cell a2 (S m) curr) d = a_cells a2 d).
      { intros. simpl. apply upd_other; auto. }
      assert (Hrow : forall k r, (k < S m)%nat -> rowE (push_cell a2 (S m) curr) k r = rowE a2 k r).
      { intros k r Hk. unfold rowE, E. rewrite Hcc by lia. auto. }
      constructor.
      * simpl. rewrite upd_same, (li_cells _ _ _ _ _ _ _ L), app_assoc. auto.
      * auto.
      * intros _ H. apply app_eq_nil in H as [_ H]. discriminate.
      * split.
        -- intros d Hd. apply (InvE_congr b a2); [rewrite Hcc by lia; auto|auto|].
           apply (li_invE _ _ _ _ _ _ _ L). lia.
        -- intros d Hd. destruct (Nat.eq_dec d m) as [->|].
           ++ simpl. rewrite upd_same. pose proof (li_top _ _ _ _ _ _ _ L) as T.
              rewrite (valid_working _ V) in T. auto.
           ++ rewrite Hcc by lia. apply (li_chain _ _ _ _ _ _ _ L). lia.
      * intros d Hd. destruct (li_ext _ _ _ _ _ _ _ L d Hd) as ((k & Hk) & (k' & Hk')).
        split; [exists k; rewrite Hcc by lia; auto|]. exists k'. unfold E in *. rewrite Hcc by lia. auto.
      * intros p. rewrite (memL_congr _ (rowE a2)) by auto.
        pose proof (li_mem _ _ _ _ _ _ _ L p) as M. rewrite (valid_working _ V) in M. auto.
      * intros d Hd. rewrite Hcc by lia. apply (li_highc _ _ _ _ _ _ _ L). auto.
      * apply (li_higho _ _ _ _ _ _ _ L).
      * apply (li_level _ _ _ _ _ _ _ L).
    + pose proof (li_first _ _ _ _ _ _ _ L V) as Hl. subst l.
      rewrite (invalid_working _ V). simpl app.
      assert (Hg : g = []). { destruct g; auto. rewrite (li_last _ _ _ _ _ _ _ L) in V; discriminate. }
      constructor.
      * rewrite app_nil_r. rewrite <- (app_nil_r (a_cells a (S m))). apply (li_cells _ _ _ _ _ _ _ L).
      * apply normal_nil.
      * rewrite Hg. discriminate.
      * split.
        -- intros d Hd. apply (li_invE _ _ _ _ _ _ _ L). lia.
        -- intros d Hd. destruct (Nat.eq_dec d m) as [->|].
           ++ pose proof (li_top _ _ _ _ _ _ _ L) as T.
              rewrite (invalid_working _ V), app_nil_r in T. auto.
           ++ apply (li_chain _ _ _ _ _ _ _ L). lia.
      * apply (li_ext _ _ _ _ _ _ _ L).
      * intros p. pose proof (li_mem _ _ _ _ _ _ _ L p) as M.
        rewrite (invalid_working _ V) in M. auto.
      * apply (li_highc _ _ _ _ _ _ _ L).
      * apply (li_higho _ _ _ _ _ _ _ L).
      * apply (li_level _ _ _ _ _ _ _ L).
Qed.

(** ** The whole constructor *)

Lemma close_offsets_spec : forall n a,
  a_level (close_offsets n a) = a_level a /\
  (forall d, a_cells (close_offsets n a) d = a_cells a d) /\
  (forall d, (d < n)%nat -> a_offsets (close_offsets n a) d = E a d) /\
  (forall d, (n <= d)%nat -> a_offsets (close_offsets n a) d = a_offsets a d).
Proof.
  induction n as [|n IH]; intros a; simpl.
  - spl; auto. intros; lia.
  - destruct (IH a) as (A & B & C & D). spl; auto.
    + intros d Hd. destruct (Nat.eq_dec d n) as [->|].
      * rewrite upd_same, B, D by lia. reflexivity.
      * rewrite upd_other by auto. apply C; lia.
    + intros d Hd. rewrite upd_other by lia. apply D; lia.
Qed.

Lemma grid_is_empty_true : forall n (g : grid n), grid_is_empty n g = true -> g = grid_empty n.
Proof. destruct n; simpl; intros [|? ?]; simpl; intros; auto; discriminate. Qed.

Lemma InvE_empty : forall b level d, InvE b (lca_empty level) d.
Proof.
  intros. constructor; simpl; auto.
  - intros [|[|r]] o H; simpl in H; inv H; auto.
  - intros r lo hi H1 H2; simpl in *; destruct r; discriminate.
  - intros; lia.
Qed.

Lemma lca_of_lcl_spec : forall b n (L : lcl n),
  grid_ok n (l_grid L) -> (b = true -> grid_full n (l_grid L)) ->
  a_level (lca_of_lcl L) = l_level L /\
  (if grid_is_empty n (l_grid L) then lca_no_cells n (lca_of_lcl L)
   else wf_gen b n (lca_of_lcl L) /\ a_cells (lca_of_lcl L) n <> []) /\
  forall p, length p = S n -> (lca_mem n (lca_of_lcl L) p <-> grid_mem n (l_grid L) p).
Proof.
  intros b n L Hok Hb. unfold lca_of_lcl. destruct (grid_is_empty n (l_grid L)) eqn:He.
  - spl; auto.
    + split; auto.
    + intros p Hp. apply grid_is_empty_true in He. rewrite He. split.
      * intros [_ H]. destruct n; destruct H as (i & Hi & _);
          unfold row in Hi; simpl a_cells in Hi; rewrite skipn_nil, firstn_nil in Hi; destruct Hi.
      * intros H. exfalso. eapply grid_empty_mem; eauto.
  - set (a0 := lca_empty (l_level L)).
    destruct (init_spec b n (l_grid L) a0 Hok Hb) as (l & S1).
    { split; intros; [apply InvE_empty|]. simpl. auto. }
    set (a1 := init_lcl n (l_grid L) a0) in *.
    destruct (close_offsets_spec n a1) as (Cl & Cc & Co & Ch).
    set (a2 := close_offsets n a1) in *.
    assert (Hcn : a_cells a1 n = l) by (rewrite (is_cells _ _ _ _ _ _ S1); auto).
    assert (Hoffs : forall d, (d < n)%nat -> offs n a2 d = E a1 d).
    { intros d Hd. unfold offs. destruct (Nat.eqb_spec d n); [lia|]. auto. }
    assert (Hoffn : offs n a2 n = [0%nat; length l]).
    { unfold offs. rewrite Nat.eqb_refl, Cc, Hcn. auto. }
    assert (Hrow : forall d r, (d < n)%nat -> row n a2 d r = rowE a1 d r).
    { intros d r Hd. unfold row, rowE, slice. rewrite Hoffs, Cc by auto. auto. }
    assert (Hrown : row n a2 n 0 = l).
    { unfold row. rewrite Hoffn, Cc, Hcn. simpl. rewrite Nat.sub_0_r. apply firstn_all. }
    assert (Hl : l <> []) by (apply (is_nonempty _ _ _ _ _ _ S1); auto).
    destruct (is_inv _ _ _ _ _ _ S1) as [I1 I2].
    spl.
    + rewrite Cl. apply (is_level _ _ _ _ _ _ S1).
    + constructor.
      * intros d Hd. destruct (Nat.eq_dec d n) as [->|]; [rewrite Hoffn; auto|].
        rewrite Hoffs by lia. apply (e_first b). apply I1; lia.
      * intros d Hd. destruct (Nat.eq_dec d n) as [->|].
        -- rewrite Hoffn. simpl. rewrite Cc, Hcn. auto.
        -- rewrite Hoffs by lia. rewrite E_len. simpl. rewrite Nat.sub_0_r, Cc.
           unfold E. apply nth_error_app_mid.
      * intros d r lo hi Hd H1 H2. destruct (Nat.eq_dec d n) as [->|].
        -- rewrite Hoffn in *. destruct r as [|[|r]]; simpl in *; try discriminate.
           assert (lo = 0%nat) by congruence. assert (hi = length l) by congruence. subst lo hi.
              split; [lia|]. destruct l; [congruence|simpl; lia].
        -- rewrite Hoffs in * by lia. apply (e_mono b a1 d (I1 d ltac:(lia)) r); auto.
      * intros d r Hd Hr. destruct (Nat.eq_dec d n) as [->|].
        -- rewrite Hoffn in Hr. simpl in Hr. replace r with 0%nat by lia.
           rewrite Hrown. apply (is_normal _ _ _ _ _ _ S1).
        -- rewrite Hoffs in Hr by lia. rewrite E_len in Hr. rewrite Hrow by lia.
           apply (e_normal b); [apply I1|]; lia.
      * intros d Hd. rewrite Hoffs, E_len, Cc by lia. simpl. rewrite Nat.sub_0_r. apply I2; auto.
    + rewrite Cc, Hcn. auto.
    + intros p Hp. unfold lca_mem. rewrite mem_row_memL, Hrown.
      rewrite (memL_congr _ (rowE a1)) by auto. rewrite (is_mem _ _ _ _ _ _ S1). tauto.
Qed.
