(** CellArray: level bounds, numbering across levels, iteration. *)
From Verif Require Import Base IntervalModel Spec LoiModel LoiProofs LcaModel LcaSpec GridProofs
  InitProofs SearchProofs IterProofs LcaProofs LcaProofs2 LcaProofs3 CellArrayModel.
Open Scope Z_scope.

(** Cell arrays whose levels are all well formed. *)
Definition ca_wf (n : nat) (c : ca) : Prop := forall level, (level <= c_max c)%nat -> wf n (c_at c level).

Definition ca_mem (n : nat) (c : ca) (level : nat) (p : list Z) : Prop :=
  (level <= c_max c)%nat /\ lca_mem n (c_at c level) p.

Lemma empty_iff : forall n a, wf n a -> (lca_is_empty a = true <-> lca_no_cells n a).
Proof.
  intros n a W. unfold lca_is_empty. split.
  - intros H. destruct W as [N|W]; auto. exfalso.
    destruct (a_cells a 0) eqn:E; [|discriminate].
    destruct (row_inhabited n a W n 0 (repeat 0 (S n))) as (p & Hp & _ & Hm);
      [lia|rewrite offs_n; simpl; lia|apply repeat_length|].
    destruct (lca_mem_interval n a W 0 p ltac:(lia)) as (c & Hc & _); [split; auto|].
    rewrite E in Hc. destruct Hc.
  - intros [N _]. rewrite N by lia. auto.
Qed.

Lemma nonempty_full : forall n a, wf n a -> lca_is_empty a = false -> wf_full n a.
Proof.
  intros n a W H. destruct W as [N|W]; auto. apply (empty_iff n a (or_introl N)) in N. congruence.
Qed.

Lemma nonempty_mem : forall n a, wf n a -> (lca_is_empty a = false <-> exists p, lca_mem n a p).
Proof.
  intros n a W. split.
  - intros H. pose proof (nonempty_full n a W H) as WF.
    destruct (row_inhabited n a WF n 0 (repeat 0 (S n))) as (p & Hp & _ & Hm);
      [lia|rewrite offs_n; simpl; lia|apply repeat_length|]. exists p. split; auto.
  - intros (p & Hp). destruct (lca_is_empty a) eqn:E; auto. exfalso.
    apply (empty_iff n a W) in E. eapply no_cells_mem; eauto.
Qed.

(** ** Level bounds (C49) *)

Lemma min_level_spec : forall c,
  (forall l, (l <= c_max c)%nat -> lca_is_empty (c_at c l) = false -> (min_level c <= l)%nat) /\
  (forall l, (l <= c_max c)%nat -> lca_is_empty (c_at c l) = false ->
     (min_level c <= c_max c)%nat /\ lca_is_empty (c_at c (min_level c)) = false) /\
  ((forall l, (l <= c_max c)%nat -> lca_is_empty (c_at c l) = true) -> min_level c = S (c_max c)).
Proof.
  intros c. unfold min_level.
  assert (G : forall fuel level, (level + fuel = S (c_max c))%nat ->
    (forall l, (level <= l <= c_max c)%nat -> lca_is_empty (c_at c l) = false ->
       (min_level_from level fuel c <= l)%nat /\ (min_level_from level fuel c <= c_max c)%nat /\
       lca_is_empty (c_at c (min_level_from level fuel c)) = false) /\
    ((forall l, (level <= l <= c_max c)%nat -> lca_is_empty (c_at c l) = true) ->
       min_level_from level fuel c = S (c_max c))).
  { induction fuel as [|fuel IH]; intros level Hf; simpl; split; intros; try lia; auto.
    - destruct (lca_is_empty (c_at c level)) eqn:E; simpl.
      + apply (IH (S level)); auto; try lia. assert (l <> level) by congruence. lia.
      + spl; auto; lia.
    - rewrite H by lia. simpl. apply IH; auto; try lia. intros. apply H. lia. }
  destruct (G (S (c_max c)) 0%nat ltac:(lia)) as [G1 G2]. spl.
  - intros l Hl E. apply (G1 l); auto. lia.
  - intros l Hl E. destruct (G1 l ltac:(lia) E) as (_ & A & B). auto.
  - intros H. apply G2. intros. apply H. lia.
Qed.

Lemma max_level_spec : forall c,
  (forall l, (l <= c_max c)%nat -> lca_is_empty (c_at c l) = false ->
     (l <= max_level c <= c_max c)%nat /\ lca_is_empty (c_at c (max_level c)) = false) /\
  ((forall l, (l <= c_max c)%nat -> lca_is_empty (c_at c l) = true) -> max_level c = 0%nat).
Proof.
  intros c. unfold max_level.
  assert (G : forall level,
    (forall l, (l <= level)%nat -> lca_is_empty (c_at c l) = false ->
       (l <= max_level_from level c <= level)%nat /\ lca_is_empty (c_at c (max_level_from level c)) = false) /\
    ((forall l, (l <= level)%nat -> lca_is_empty (c_at c l) = true) -> max_level_from level c = 0%nat)).
  { induction level as [|level IH]; simpl; split; intros.
    - assert (l = 0)%nat by lia. subst. rewrite H0. simpl. auto.
    - rewrite H by lia. auto.
    - destruct (lca_is_empty (c_at c (S level))) eqn:E; simpl; [|split; auto; lia].
      assert (l <> S level) by congruence. destruct IH as [IH _]. specialize (IH l ltac:(lia) H0). split; try tauto. lia.
    - rewrite H by lia. simpl. apply IH. intros. apply H. lia. }
  apply (G (c_max c)).
Qed.

(** The visited levels: increasing, and containing every non-empty level. *)
Lemma levels_spec : forall c,
  StronglySorted lt (levels c) /\
  (forall l, In l (levels c) -> (l <= c_max c)%nat) /\
  (forall l, (l <= c_max c)%nat -> lca_is_empty (c_at c l) = false -> In l (levels c)).
Proof.
  intros c. unfold levels. spl.
  - apply seq_sorted.
  - intros l Hl. apply in_seq in Hl.
    destruct (min_level_spec c) as (_ & _ & M3). destruct (max_level_spec c) as (X1 & X2).
    destruct (Nat.le_gt_cases l (c_max c)); auto. exfalso.
    (* max_level <= c_max in all cases *)
    assert (max_level c <= c_max c)%nat.
    { clear. unfold max_level. generalize (c_max c). induction n; simpl;
        destruct (negb _); auto. }
    lia.
  - intros l Hl E. apply in_seq. destruct (min_level_spec c) as (M1 & _).
    destruct (max_level_spec c) as (X1 & _). specialize (M1 l Hl E). specialize (X1 l Hl E). lia.
Qed.

(** ** Numbering across levels (C12) *)

(** Order on (level, cell): by level, then by position of the cell. *)
Definition lc_lt (x y : nat * list Z) : Prop :=
  (fst x < fst y)%nat \/ (fst x = fst y /\ lex_lt (snd x) (snd y)).

Lemma lc_lt_irrefl : forall x, ~ lc_lt x x.
Proof. intros [l p] [H|[_ H]]; simpl in *; [lia|]. eapply lex_lt_irrefl; eauto. Qed.
Lemma lc_lt_trans : forall x y z, lc_lt x y -> lc_lt y z -> lc_lt x z.
Proof.
  intros [l p] [l' p'] [l'' p''] [H|[E H]] [H'|[E' H']]; unfold lc_lt; simpl in *; try (left; lia).
  right. split; [lia|]. eapply lex_lt_trans; eauto.
Qed.

(** The cells of all levels, in traversal order. *)
Definition ca_enumeration (n : nat) (c : ca) (cs : list (nat * list Z)) : Prop :=
  StronglySorted lc_lt cs /\ forall l p, In (l, p) cs <-> ca_mem n c l p.

Lemma ca_enumeration_unique : forall n c cs cs', ca_enumeration n c cs -> ca_enumeration n c cs' -> cs = cs'.
Proof.
  intros n c cs cs' [H1 H2] [H3 H4]. apply (sorted_ext _ lc_lt); auto.
  - apply lc_lt_irrefl.
  - apply lc_lt_trans.
  - intros [l p]. rewrite H2, H4. tauto.
Qed.

Lemma wf_enumeration : forall n a, wf n a -> exists cs, enumeration n a cs.
Proof.
  intros n a W. destruct (for_each_interval_correct n a W) as (calls & H1 & H2 & H3 & _).
  exists (cells_of_calls calls). split; auto.
Qed.

(** Enumeration of the levels [ls] from an enumeration of each. *)
Lemma levels_enumeration : forall n c ls, StronglySorted lt ls ->
  (forall l, In l ls -> wf n (c_at c l)) ->
  exists f : nat -> list (list Z), (forall l, In l ls -> enumeration n (c_at c l) (f l)) /\
    StronglySorted lc_lt (flat_map (fun l => map (pair l) (f l)) ls) /\
    forall l p, In (l, p) (flat_map (fun l => map (pair l) (f l)) ls) <-> In l ls /\ lca_mem n (c_at c l) p.
Proof.
  intros n c ls Hs Hw.
  assert (Hf : exists f : nat -> list (list Z), forall l, In l ls -> enumeration n (c_at c l) (f l)).
  { clear Hs. induction ls as [|l ls IH].
    - exists (fun _ => []). intros l [].
    - destruct IH as (f & Hf); [intros; apply Hw; simpl; auto|].
      destruct (wf_enumeration n (c_at c l)) as (cs & Hcs); [apply Hw; simpl; auto|].
      exists (upd f l cs). intros l' Hl'. unfold upd. destruct (Nat.eqb_spec l' l) as [->|]; auto.
      destruct Hl' as [E|Hl']; [congruence|auto]. }
  destruct Hf as (f & Hf). exists f. spl; auto.
  - apply sorted_flat_map.
    + intros l Hl. apply StronglySorted_map. eapply StronglySorted_impl; [|apply (Hf l Hl)].
      intros x y _ _ H. right. simpl. auto.
    + intros j k l l' Hjk Hj Hk x y Hx Hy. apply in_map_iff in Hx as (p & <- & _). apply in_map_iff in Hy as (q & <- & _).
      left. simpl. eapply sorted_nth; eauto.
  - intros l p. rewrite in_flat_map. split.
    + intros (l' & Hl' & Hin). apply in_map_iff in Hin as (q & E & Hq). inv E. split; auto. apply (Hf l Hl'). auto.
    + intros [Hl Hm]. exists l. split; auto. apply in_map_iff. exists p. split; auto. apply (Hf l Hl). auto.
Qed.

Lemma ca_enum_exists : forall n c, ca_wf n c -> exists f : nat -> list (list Z),
  (forall l, In l (levels c) -> enumeration n (c_at c l) (f l)) /\
  ca_enumeration n c (flat_map (fun l => map (pair l) (f l)) (levels c)).
Proof.
  intros n c W. destruct (levels_spec c) as (S1 & S2 & S3).
  destruct (levels_enumeration n c (levels c) S1) as (f & F1 & F2 & F3).
  { intros l Hl. apply W. auto. }
  exists f. split; auto. split; auto. intros l p. rewrite F3. unfold ca_mem. split.
  - intros [A B]. auto.
  - intros [A B]. split; auto. apply S3; auto. apply (nonempty_mem n); eauto.
Qed.

Lemma update_levels_spec : forall n ls acc at_ (f : nat -> list (list Z)),
  StronglySorted lt ls -> (forall l, In l ls -> wf n (at_ l) /\ enumeration n (at_ l) (f l)) ->
  let '(at', acc') := update_levels ls acc at_ in
  (forall l, same_shape (at_ l) (at' l)) /\ (forall l, a_level (at' l) = a_level (at_ l)) /\
  (forall l, ~ In l ls -> at' l = at_ l) /\
  acc' = acc + Z.of_nat (length (flat_map (fun l => map (pair l) (f l)) ls)) /\
  forall j l p, nth_error (flat_map (fun l => map (pair l) (f l)) ls) j = Some (l, p) ->
    get_index n (at' l) p = Some (acc + Z.of_nat j).
Proof.
  intros n. induction ls as [|l0 ls IH]; intros acc at_ f Hs Hw.
  - simpl. spl; auto; try lia.
    + intros l. unfold same_shape. auto.
    + intros [|j] l p H; discriminate.
  - inv Hs. rename H1 into Hs, H2 into Hlt. rewrite Forall_forall in Hlt.
    assert (Hnot : ~ In l0 ls) by (intros Hin; apply Hlt in Hin; lia).
    cbn [update_levels]. destruct (lca_is_empty (at_ l0)) eqn:E.
    + destruct (Hw l0 (or_introl eq_refl)) as [W0 E0].
      assert (f l0 = []).
      { apply (empty_iff n _ W0) in E. destruct (f l0) as [|p ps]; auto. exfalso.
        apply (no_cells_mem n (at_ l0) p E). apply E0. left; auto. }
      specialize (IH acc at_ f Hs ltac:(intros; apply Hw; right; auto)).
      destruct (update_levels ls acc at_) as [at' acc']. destruct IH as (I1 & I2 & I3 & I4 & I5).
      simpl flat_map. rewrite H. simpl. spl; auto.
    + destruct (Hw l0 (or_introl eq_refl)) as [W0 E0].
      destruct (update_index_spec acc n (at_ l0) (f l0) W0 E0) as (W1 & E1 & G1 & A1).
      pose proof (update_index_shape acc (at_ l0)) as Sh.
      assert (LV : a_level (fst (update_index_from acc (at_ l0))) = a_level (at_ l0)).
      { unfold update_index_from. destruct (renumber acc (a_cells (at_ l0) 0)). auto. }
      destruct (update_index_from acc (at_ l0)) as [a1 acc1]. simpl in W1, E1, G1, A1, Sh, LV.
      specialize (IH acc1 (upd at_ l0 a1) f Hs).
      assert (Hw' : forall l, In l ls -> wf n (upd at_ l0 a1 l) /\ enumeration n (upd at_ l0 a1 l) (f l)).
      { intros l Hl. unfold upd. destruct (Nat.eqb_spec l l0) as [->|]; [tauto|]. apply Hw. right; auto. }
      specialize (IH Hw'). destruct (update_levels ls acc1 (upd at_ l0 a1)) as [at' acc'].
      destruct IH as (I1 & I2 & I3 & I4 & I5).
      assert (At0 : at' l0 = a1) by (rewrite I3 by auto; apply upd_same).
      simpl flat_map. rewrite app_length, map_length. spl.
      * intros l. destruct (Nat.eq_dec l l0) as [e|e].
        -- subst l. rewrite At0. auto.
        -- specialize (I1 l). rewrite upd_other in I1 by auto. auto.
      * intros l. rewrite I2. destruct (Nat.eq_dec l l0) as [e|e].
        -- subst l. rewrite upd_same. auto.
        -- rewrite upd_other by auto. auto.
      * intros l Hl. rewrite I3 by (intros Hin; apply Hl; right; auto). apply upd_other.
        intros ->. apply Hl. left; auto.
      * subst. lia.
      * intros j l p Hj. destruct (Nat.lt_ge_cases j (length (f l0))).
        -- rewrite nth_error_app1 in Hj by (rewrite map_length; auto).
           rewrite nth_error_map in Hj. destruct (nth_error (f l0) j) as [q|] eqn:Hq; [|discriminate].
           simpl in Hj. injection Hj as E2 E3. rewrite <- E2, <- E3, At0. apply G1. auto.
        -- rewrite nth_error_app2 in Hj by (rewrite map_length; auto). rewrite map_length in Hj.
           apply I5 in Hj. rewrite Hj, A1. f_equal. lia.
Qed.

Lemma shape_empty : forall a a', same_shape a a' -> lca_is_empty a' = lca_is_empty a.
Proof.
  intros a a' (_ & B & _). unfold lca_is_empty. destruct (a_cells a 0), (a_cells a' 0); auto; discriminate.
Qed.

Lemma levels_ext : forall c c', c_max c' = c_max c ->
  (forall l, lca_is_empty (c_at c' l) = lca_is_empty (c_at c l)) ->
  min_level c' = min_level c /\ max_level c' = max_level c /\ levels c' = levels c.
Proof.
  intros c c' Hm He.
  assert (A : min_level c' = min_level c).
  { unfold min_level. rewrite Hm. generalize 0%nat. generalize (S (c_max c)).
    induction n as [|k IH]; intros l; simpl; [rewrite Hm; auto|]. rewrite He, IH. auto. }
  assert (B : max_level c' = max_level c).
  { unfold max_level. rewrite Hm. generalize (c_max c).
    induction n as [|k IH]; simpl; rewrite He; auto. rewrite IH. auto. }
  spl; auto. unfold levels. rewrite A, B. auto.
Qed.

Theorem ca_update_index_spec : forall n c, ca_wf n c ->
  exists cs, ca_enumeration n c cs /\
    ca_wf n (ca_update_index c) /\ ca_enumeration n (ca_update_index c) cs /\
    (forall j l p, nth_error cs j = Some (l, p) -> ca_get_index n (ca_update_index c) l p = Some (Z.of_nat j)) /\
    (forall l, a_level (c_at (ca_update_index c) l) = a_level (c_at c l)) /\
    (forall l, same_shape (c_at c l) (c_at (ca_update_index c) l)).
Proof.
  intros n c W. destruct (ca_enum_exists n c W) as (f & F1 & F2).
  destruct (levels_spec c) as (S1 & S2 & S3).
  pose proof (update_levels_spec n (levels c) 0 (c_at c) f S1) as H.
  unfold ca_update_index. destruct (update_levels (levels c) 0 (c_at c)) as [at' acc'] eqn:E. simpl fst.
  destruct H as (I1 & I2 & I3 & I4 & I5).
  { intros l Hl. split; auto. }
  exists (flat_map (fun l => map (pair l) (f l)) (levels c)). spl; auto.
  - intros l Hl. simpl in *. destruct (W l Hl) as [N|WF]; [left|right].
    + eapply no_cells_shape; eauto.
    + eapply shape_wf; eauto.
  - destruct F2 as [G1 G2]. split; auto. intros l p. rewrite G2. unfold ca_mem. simpl.
    rewrite (shape_mem n _ _ (I1 l)). tauto.
Qed.

Lemma ca_nb_cells_spec : forall n c cs, ca_wf n c -> ca_enumeration n c cs -> ca_nb_cells c = Z.of_nat (length cs).
Proof.
  intros n c cs W E. destruct (levels_enumeration n c (seq 0 (S (c_max c)))) as (f & F1 & F2 & F3).
  { apply seq_sorted. }
  { intros l Hl. apply in_seq in Hl. apply W. lia. }
  assert (E' : ca_enumeration n c (flat_map (fun l => map (pair l) (f l)) (seq 0 (S (c_max c))))).
  { split; auto. intros l p. rewrite F3, in_seq. unfold ca_mem. split; intros [A B]; split; auto; lia. }
  rewrite (ca_enumeration_unique n c cs _ E E'). unfold ca_nb_cells.
  assert (G : forall ls s, (forall l, In l ls -> wf n (c_at c l) /\ enumeration n (c_at c l) (f l)) ->
    fold_left (fun s level => s + nb_cells (c_at c level)) ls s
    = s + Z.of_nat (length (flat_map (fun l => map (pair l) (f l)) ls))).
  { induction ls as [|l ls IH]; intros s H; simpl; [lia|].
    rewrite IH by (intros; apply H; right; auto). rewrite app_length, map_length.
    destruct (H l (or_introl eq_refl)) as [Wl El]. rewrite (enumeration_len n _ _ Wl El). lia. }
  rewrite G; [lia|]. intros l Hl. split; auto. apply in_seq in Hl. apply W. lia.
Qed.

(** ** Traversals of all levels *)

Definition ca_cells_of_calls (calls : list (nat * (interval * list Z))) : list (nat * list Z) :=
  flat_map (fun '(l, call) => map (pair l) (cells_of_calls [call])) calls.

Lemma cells_of_calls_single : forall calls (l : nat),
  flat_map (fun x => map (pair l) (cells_of_calls [x])) calls = map (pair l) (cells_of_calls calls).
Proof.
  induction calls as [|x calls IH]; intros l; auto. cbn [flat_map]. rewrite IH. unfold cells_of_calls. cbn [flat_map].
  rewrite app_nil_r, map_app. auto.
Qed.

Theorem ca_for_each_interval_spec : forall n c, ca_wf n c ->
  exists calls, ca_for_each_interval n c = Some calls /\ ca_enumeration n c (ca_cells_of_calls calls).
Proof.
  intros n c W. destruct (ca_enum_exists n c W) as (f & F1 & F2). destruct (levels_spec c) as (S1 & S2 & S3).
  unfold ca_for_each_interval.
  assert (G : forall ls, (forall l, In l ls -> wf n (c_at c l) /\ enumeration n (c_at c l) (f l)) ->
    exists calls, concat_opt (map (fun level => option_map (map (pair level)) (for_each_interval n (c_at c level))) ls) = Some calls /\
      ca_cells_of_calls calls = flat_map (fun l => map (pair l) (f l)) ls).
  { induction ls as [|l ls IH]; intros H; simpl.
    - exists []. auto.
    - destruct IH as (calls & H1 & H2); [intros; apply H; right; auto|]. rewrite H1.
      destruct (H l (or_introl eq_refl)) as [Wl El].
      destruct (for_each_interval_correct n _ Wl) as (cl & C1 & C2 & C3 & _). rewrite C1. simpl.
      exists (map (pair l) cl ++ calls). split; auto. unfold ca_cells_of_calls in *. rewrite flat_map_app, H2.
      f_equal. rewrite (enumeration_unique n _ _ _ El (conj C2 C3)), <- cells_of_calls_single.
      clear. induction cl as [|x cl IH]; auto. cbn [map flat_map]. f_equal. apply IH. }
  destruct (G (levels c)) as (calls & H1 & H2).
  { intros l Hl. split; auto. }
  exists calls. split; auto. rewrite H2. auto.
Qed.

(** ** The iterator *)

Lemma ca_traverse_level : forall n c l, wf_full n (c_at c l) -> (l < max_level c)%nat ->
  forall k fuel j fs,
  FInv n (c_at c l) 0 j fs -> (j + k = length (a_cells (c_at c l) 0))%nat -> (k <= fuel)%nat ->
  exists calls, traverse k (c_at c l) (mkIt j fs) = Some calls /\
    forall it1, it_begin n (c_at c (S l)) = Some it1 ->
    ca_traverse n fuel c (mkCaIt l (mkIt j fs))
    = match ca_traverse n (fuel - k) c (mkCaIt (S l) it1) with
      | Some rest => Some (map (pair l) calls ++ rest)
      | None => None
      end.
Proof.
  intros n c l W Hl. induction k as [|k IH]; intros fuel j fs HF Hk Hfuel;
    destruct (FInv_len true n _ W _ _ _ HF) as [_ Hj]; [lia|].
  destruct fuel as [|fuel]; [lia|].
  cbn [traverse ca_traverse]. unfold at_level_end at 1. simpl ci_level. simpl ci_it. simpl it_cur.
  destruct (Nat.eqb_spec l (max_level c)); [lia|]. cbn [andb].
  destruct (Nat.eqb_spec j (length (a_cells (c_at c l) 0))); [lia|].
  unfold it_deref. simpl it_cur.
  destruct (nth_error (a_cells (c_at c l) 0) j) as [i|] eqn:Hi; [|apply nth_error_None in Hi; lia].
  destruct (it_inc_spec true n (c_at c l) W j fs eq_refl HF) as ([j' fs'] & H1 & H2 & H3). simpl in H2, H3. subst j'.
  rewrite H1.
  unfold ca_inc, at_level_end at 1. simpl ci_level. simpl ci_it. simpl it_cur.
  destruct (Nat.eqb_spec l (max_level c)); [lia|]. cbn [andb]. cbv iota. rewrite H1.
  destruct (Nat.ltb_spec l (max_level c)); [|lia]. unfold at_level_end at 1. simpl ci_level. simpl ci_it. simpl it_cur.
  rewrite Nat.eqb_refl. cbn [andb].
  destruct (Nat.eqb_spec (S j) (length (a_cells (c_at c l) 0))) as [e'|e'].
  - assert (k = 0)%nat by lia. subst k.
    exists [(i, it_index (mkIt j fs))]. split.
    + cbn [traverse]. simpl it_cur. rewrite e', Nat.eqb_refl. auto.
    + intros it1 Hb. rewrite Hb. simpl option_map. cbv iota.
      replace (S fuel - 1)%nat with fuel by lia. cbv beta match. destruct (ca_traverse n fuel c (mkCaIt (S l) it1)); reflexivity.
  - destruct (IH fuel (S j) fs' (H3 ltac:(lia)) ltac:(lia) ltac:(lia)) as (calls & C1 & C2).
    exists ((i, it_index (mkIt j fs)) :: calls). rewrite C1. split; auto.
    intros it1 Hb. cbv iota. rewrite (C2 it1 Hb). simpl Nat.sub.
    destruct (ca_traverse n (fuel - k) c (mkCaIt (S l) it1)); reflexivity.
Qed.

Lemma ca_traverse_last : forall n c l, l = max_level c -> wf_full n (c_at c l) ->
  forall k fuel j fs,
  FInv n (c_at c l) 0 j fs -> (j + k = length (a_cells (c_at c l) 0))%nat -> (k <= fuel)%nat ->
  exists calls, traverse k (c_at c l) (mkIt j fs) = Some calls /\
    ca_traverse n fuel c (mkCaIt l (mkIt j fs)) = Some (map (pair l) calls).
Proof.
  intros n c l El W. induction k as [|k IH]; intros fuel j fs HF Hk Hfuel;
    destruct (FInv_len true n _ W _ _ _ HF) as [_ Hj]; [lia|].
  destruct fuel as [|fuel]; [lia|].
  cbn [traverse ca_traverse]. unfold at_level_end at 1. simpl ci_level. simpl ci_it. simpl it_cur.
  rewrite <- ?El. rewrite Nat.eqb_refl. cbn [andb].
  destruct (Nat.eqb_spec j (length (a_cells (c_at c l) 0))) as [e|]; [lia|].
  unfold it_deref. simpl it_cur.
  destruct (nth_error (a_cells (c_at c l) 0) j) as [i|] eqn:Hi; [|apply nth_error_None in Hi; lia].
  destruct (it_inc_spec true n (c_at c l) W j fs eq_refl HF) as ([j' fs'] & H1 & H2 & H3). simpl in H2, H3. subst j'.
  rewrite H1.
  unfold ca_inc, at_level_end at 1. simpl ci_level. simpl ci_it. simpl it_cur. rewrite <- ?El.
  rewrite Nat.eqb_refl. cbn [andb].
  destruct (Nat.eqb_spec j (length (a_cells (c_at c l) 0))) as [e|]; [lia|]. rewrite H1, Nat.ltb_irrefl. cbn [andb].
  cbv iota.
  destruct (Nat.eqb_spec (S j) (length (a_cells (c_at c l) 0))) as [e'|e'].
  - assert (k = 0)%nat by lia. subst k.
    exists [(i, it_index (mkIt j fs))]. split.
    + cbn [traverse]. simpl it_cur. rewrite e', Nat.eqb_refl. auto.
    + assert (X : ca_traverse n fuel c (mkCaIt l (mkIt (S j) fs')) = Some []).
      { destruct fuel; cbn [ca_traverse]; unfold at_level_end; simpl ci_level; simpl ci_it; simpl it_cur;
          rewrite <- ?El; rewrite Nat.eqb_refl, e', Nat.eqb_refl; auto. }
      rewrite X. auto.
  - destruct (IH fuel (S j) fs' (H3 ltac:(lia)) ltac:(lia) ltac:(lia)) as (calls & C1 & C2).
    exists ((i, it_index (mkIt j fs)) :: calls). rewrite C1, C2. auto.
Qed.

Lemma traverse_full : forall n a, wf_full n a ->
  exists fs, it_begin n a = Some (mkIt 0 fs) /\ FInv n a 0 0 fs /\
    traverse (length (a_cells a 0)) a (mkIt 0 fs) = for_each_interval n a.
Proof.
  intros n a W. pose proof (wf_full_cells_n _ _ W) as NE.
  destruct (begin_spec true n a W eq_refl NE) as (fs & H1 & H2). exists fs. spl; auto.
  destruct (for_each_interval_spec true n a W eq_refl NE) as (calls & E1 & E2 & E3 & _).
  rewrite H1 in E3. simpl in E3. congruence.
Qed.

Theorem ca_iterate_spec : forall n c, ca_wf n c ->
  (exists l, (l <= c_max c)%nat /\ lca_is_empty (c_at c l) = false) ->
  (forall l, (min_level c <= l <= max_level c)%nat -> lca_is_empty (c_at c l) = false) ->
  ca_iterate n c = ca_for_each_interval n c.
Proof.
  intros n c W (l1 & Hl1 & NE1) Hall.
  destruct (min_level_spec c) as (M1 & M2 & _). destruct (max_level_spec c) as (X1 & _).
  specialize (M1 l1 Hl1 NE1). specialize (M2 l1 Hl1 NE1). specialize (X1 l1 Hl1 NE1).
  assert (WF : forall l, (min_level c <= l <= max_level c)%nat -> wf_full n (c_at c l)).
  { intros l Hl. apply nonempty_full; auto. apply W. lia. }
  unfold ca_iterate, ca_begin. destruct (Nat.ltb_spec (c_max c) (min_level c)); [lia|].
  destruct (traverse_full n _ (WF (min_level c) ltac:(lia))) as (fs & B1 & B2 & B3). rewrite B1. simpl option_map.
  destruct (end_spec true n _ (WF (max_level c) ltac:(lia)) eq_refl (wf_full_cells_n _ _ (WF (max_level c) ltac:(lia))))
    as (fse & B4 & _). rewrite B4.
  assert (G : forall m l fs, (l + m = max_level c)%nat -> (min_level c <= l)%nat ->
    it_begin n (c_at c l) = Some (mkIt 0 fs) ->
    let ls := seq l (S m) in
    let fuel := fold_right (fun level s => (length (a_cells (c_at c level) 0) + s)%nat) 0%nat ls in
    ca_traverse n fuel c (mkCaIt l (mkIt 0 fs))
    = concat_opt (map (fun level => option_map (map (pair level)) (for_each_interval n (c_at c level))) ls)).
  { induction m as [|m IH]; intros l fs0 Hm Hmin Hb ls fuel.
    - assert (E : l = max_level c) by lia. unfold ls, fuel, ls. simpl seq. simpl fold_right. simpl map.
      destruct (traverse_full n _ (WF l ltac:(lia))) as (fs' & C1 & C2 & C3).
      assert (fs' = fs0) by congruence. subst fs'. 
      destruct (ca_traverse_last n c l E ltac:(apply WF; lia) (length (a_cells (c_at c l) 0)) (length (a_cells (c_at c l) 0) + 0) 0 fs0)
        as (calls & D1 & D2); auto; [lia|].
      rewrite D2. rewrite <- C3, D1. simpl. rewrite app_nil_r. auto.
    - unfold ls, fuel, ls. change (seq l (S (S m))) with (l :: seq (S l) (S m)). cbn [fold_right map concat_opt].
      destruct (traverse_full n _ (WF l ltac:(lia))) as (fs' & C1 & C2 & C3).
      assert (fs' = fs0) by congruence. subst fs'.
      destruct (traverse_full n _ (WF (S l) ltac:(lia))) as (fs1 & E1 & E2 & E3).
      set (fuel' := fold_right _ 0%nat (seq (S l) (S m))).
      destruct (ca_traverse_level n c l ltac:(apply WF; lia) ltac:(lia) (length (a_cells (c_at c l) 0))
                  (length (a_cells (c_at c l) 0) + fuel') 0 fs0) as (calls & D1 & D2); auto; [lia|].
      rewrite (D2 _ E1). replace (length (a_cells (c_at c l) 0) + fuel' - length (a_cells (c_at c l) 0))%nat with fuel' by lia.
      pose proof (IH (S l) fs1 ltac:(lia) ltac:(lia) E1) as HI. cbv zeta in HI. fold fuel' in HI. rewrite HI. rewrite <- C3, D1. simpl option_map. cbv iota.
      destruct (concat_opt _); auto. }
  unfold ca_nb_intervals, ca_for_each_interval, levels.
  replace (S (max_level c) - min_level c)%nat with (S (max_level c - min_level c)) by lia.
  apply G; auto; lia.
Qed.
