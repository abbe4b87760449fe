(** Properties C12 and C49: CellArray. *)
From Verif Require Import Base IntervalModel Spec LoiModel LoiProofs LcaModel LcaSpec GridProofs
  InitProofs SearchProofs IterProofs LcaProofs LcaProofs2 LcaProofs3 RowsProofs CellArrayModel CellArrayProofs PropsLca.
Open Scope Z_scope.

(** Array built from a CellList filled with the calls [hist level] at each level
    0..m (constructor CellArray(cl, with_update_index)). *)
Definition client_ca (n m : nat) (hist : nat -> list lcl_call) (w : bool) : ca := ca_of_cl n m (cl_run n hist) w.

(** The cells handed over by the client. *)
Definition client_cell (n m : nat) (hist : nat -> list lcl_call) (l : nat) (p : list Z) : Prop :=
  (l <= m)%nat /\ length p = S n /\ exists c, In c (hist l) /\ added c p.

Definition good_hist (n m : nat) (hist : nat -> list lcl_call) : Prop :=
  forall l, (l <= m)%nat -> Forall (call_dim n) (hist l) /\ rows_filled (hist l).

Definition ex_hist (l : nat) : list lcl_call :=
  match l with
  | 1%nat => [AddI [0] (mk 0 2); AddI [1] (mk 0 1)]
  | 2%nat => [AddI [3] (mk 2 4); AddI [2] (mk 2 4); AddP [3] 7]
  | _ => []
  end.
Lemma ex_hist_ok : good_hist 1 3 ex_hist.
Proof.
  intros l Hl. destruct l as [|[|[|l]]]; simpl; (split; [repeat constructor|apply adds_filled; repeat constructor]).
Qed.

Lemma raw_wf : forall n m hist, good_hist n m hist -> ca_wf n (client_ca n m hist false).
Proof.
  intros n m hist H l Hl. simpl in *. destruct (H l Hl). apply (client_lca_wf n l (hist l)); auto.
Qed.

Lemma raw_mem : forall n m hist, good_hist n m hist -> forall l p,
  ca_mem n (client_ca n m hist false) l p <-> client_cell n m hist l p.
Proof.
  intros n m hist H l p. unfold ca_mem, client_cell. simpl. split.
  - intros [A B]. split; auto. destruct (H l A) as [D _]. apply (client_lca_mem n l (hist l) D p). auto.
  - intros (A & B). split; auto. destruct (H l A) as [D _]. apply (client_lca_mem n l (hist l) D p). auto.
Qed.

(** The enumeration of the client's cells given by the numbered array. *)
Lemma client_ca_numbered : forall n m hist, good_hist n m hist -> exists cs,
  StronglySorted lc_lt cs /\ (forall l p, In (l, p) cs <-> client_cell n m hist l p) /\
  ca_wf n (client_ca n m hist true) /\ ca_enumeration n (client_ca n m hist true) cs /\
  (forall j l p, nth_error cs j = Some (l, p) -> ca_get_index n (client_ca n m hist true) l p = Some (Z.of_nat j)).
Proof.
  intros n m hist H. pose proof (raw_wf n m hist H) as W. pose proof (raw_mem n m hist H) as M.
  destruct (ca_update_index_spec n _ W) as (cs & (S1 & S2) & W' & E' & G & _).
  exists cs. spl; auto. intros l p. rewrite S2. apply M.
Qed.

Theorem C12_numbering_bijective : forall n m hist, good_hist n m hist ->
  let c := client_ca n m hist true in
  let is_cell := client_cell n m hist in
  (forall l p, is_cell l p -> exists i, ca_get_index n c l p = Some i /\ 0 <= i < ca_nb_cells c) /\
  (forall l p l' p' i, is_cell l p -> is_cell l' p' ->
     ca_get_index n c l p = Some i -> ca_get_index n c l' p' = Some i -> l = l' /\ p = p') /\
  (forall i, 0 <= i < ca_nb_cells c -> exists l p, is_cell l p /\ ca_get_index n c l p = Some i) /\
  (forall l p l' p' i i', is_cell l p -> is_cell l' p' ->
     ca_get_index n c l p = Some i -> ca_get_index n c l' p' = Some i' ->
     (l < l')%nat \/ (l = l' /\ lex_lt p p') -> i < i').
Proof.
  intros n m hist H c is_cell. destruct (client_ca_numbered n m hist H) as (cs & S1 & S2 & W & E & G).
  fold c in W, E, G. rewrite (ca_nb_cells_spec n c cs W E). fold is_cell in S2.
  assert (IDX : forall l p, is_cell l p -> exists j, nth_error cs j = Some (l, p)).
  { intros l p Hp. apply S2, In_nth_error in Hp. auto. }
  spl.
  - intros l p Hp. destruct (IDX l p Hp) as (j & Hj). exists (Z.of_nat j). split; auto.
    assert (j < length cs)%nat by (apply nth_error_Some; congruence). lia.
  - intros l p l' p' i Hp Hq Ep Eq. destruct (IDX _ _ Hp) as (j & Hj). destruct (IDX _ _ Hq) as (k & Hk).
    rewrite (G _ _ _ Hj) in Ep. rewrite (G _ _ _ Hk) in Eq. assert (j = k) by (injection Ep; injection Eq; lia).
    subst k. rewrite Hj in Hk. injection Hk as -> ->. auto.
  - intros i Hi. destruct (nth_error cs (Z.to_nat i)) as [[l p]|] eqn:En; [|apply nth_error_None in En; lia].
    exists l, p. split; [apply S2; eapply nth_error_In; eauto|]. rewrite (G _ _ _ En). f_equal. lia.
  - intros l p l' p' i i' Hp Hq Ep Eq Hlt. destruct (IDX _ _ Hp) as (j & Hj). destruct (IDX _ _ Hq) as (k & Hk).
    rewrite (G _ _ _ Hj) in Ep. rewrite (G _ _ _ Hk) in Eq. injection Ep as <-. injection Eq as <-.
    destruct (Nat.lt_trichotomy j k) as [L|[L|L]]; [lia| |].
    + exfalso. subst k. rewrite Hj in Hk. injection Hk as <- <-. apply (lc_lt_irrefl (l, p)). exact Hlt.
    + exfalso. apply (lc_lt_irrefl (l, p)). apply (lc_lt_trans _ (l', p')); [exact Hlt|].
      apply (sorted_nth _ _ _ S1 k j); auto.
Qed.

Example C12_example :
  map (fun '(l, p) => ca_get_index 1 (client_ca 1 3 ex_hist true) l p)
    [(1%nat, [0; 0]); (1%nat, [1; 0]); (1%nat, [0; 1]); (2%nat, [2; 2]); (2%nat, [3; 3]); (2%nat, [7; 3])]
  = [Some 0; Some 1; Some 2; Some 3; Some 6; Some 7] /\ ca_nb_cells (client_ca 1 3 ex_hist true) = 8.
Proof. vm_compute. auto. Qed.

(** C49: min_level() and max_level() are the extreme levels that hold a cell; on
    an empty array they are max_size + 1 and 0. *)
Theorem C49_level_range_tight : forall n m hist w, good_hist n m hist ->
  let c := client_ca n m hist w in
  let is_cell := client_cell n m hist in
  (forall l p, is_cell l p -> (min_level c <= l <= max_level c)%nat) /\
  ((exists l p, is_cell l p) -> (exists p, is_cell (min_level c) p) /\ (exists p, is_cell (max_level c) p)) /\
  ((forall l p, ~ is_cell l p) -> min_level c = S m /\ max_level c = 0%nat).
Proof.
  intros n m hist w H c is_cell.
  assert (P : ca_wf n c /\ c_max c = m /\ forall l p, ca_mem n c l p <-> is_cell l p).
  { destruct w.
    - destruct (client_ca_numbered n m hist H) as (cs & S1 & S2 & W & E & G). spl; auto.
      intros l p. split; intros K; [apply S2, (proj2 E); exact K|apply (proj2 E), S2; exact K].
    - spl; [apply raw_wf; auto|auto|]. apply raw_mem. auto. }
  destruct P as (W & Hm & M).
  assert (NE : forall l, (l <= m)%nat -> (lca_is_empty (c_at c l) = false <-> exists p, is_cell l p)).
  { intros l Hl. rewrite (nonempty_mem n) by (apply W; lia). split; intros (p & Hp); exists p.
    - apply M. split; auto. lia.
    - apply M in Hp. apply Hp. }
  destruct (min_level_spec c) as (A1 & A2 & A3). destruct (max_level_spec c) as (B1 & B2). rewrite Hm in *. spl.
  - intros l p Hp. pose proof Hp as (Hl & _).
    assert (E : lca_is_empty (c_at c l) = false) by (apply NE; eauto).
    specialize (A1 l Hl E). specialize (B1 l Hl E). lia.
  - intros (l & p & Hp). pose proof Hp as (Hl & _).
    assert (E : lca_is_empty (c_at c l) = false) by (apply NE; eauto).
    destruct (A2 l Hl E) as [L1 E1]. destruct (B1 l Hl E) as [L2 E2]. split; apply NE; auto; lia.
  - intros N. assert (E : forall l, (l <= m)%nat -> lca_is_empty (c_at c l) = true).
    { intros l Hl. destruct (lca_is_empty (c_at c l)) eqn:E; auto. apply NE in E as (p & Hp); auto. destruct (N _ _ Hp). }
    auto.
Qed.

(** for_each_interval on a CellArray visits the cells of all levels exactly once,
    by increasing level, whatever levels are empty. *)
Theorem C49_for_each_interval_exact : forall n m hist w, good_hist n m hist ->
  exists calls, ca_for_each_interval n (client_ca n m hist w) = Some calls /\
    StronglySorted lc_lt (ca_cells_of_calls calls) /\
    forall l p, In (l, p) (ca_cells_of_calls calls) <-> client_cell n m hist l p.
Proof.
  intros n m hist w H.
  assert (P : ca_wf n (client_ca n m hist w) /\ forall l p, ca_mem n (client_ca n m hist w) l p <-> client_cell n m hist l p).
  { destruct w.
    - destruct (client_ca_numbered n m hist H) as (cs & S1 & S2 & W & E & G). split; auto.
      intros l p. split; intros K; [apply S2, (proj2 E); exact K|apply (proj2 E), S2; exact K].
    - split; [apply raw_wf|apply raw_mem]; auto. }
  destruct P as [W M]. destruct (ca_for_each_interval_spec n _ W) as (calls & H1 & H2 & H3).
  exists calls. spl; auto. intros l p. rewrite H3. apply M.
Qed.

(** begin()..end() visits the same sequence, when there is no level without cells
    between two levels with cells. *)
Theorem C49_iterator_exact_partial : forall n m hist w, good_hist n m hist ->
  (exists l p, client_cell n m hist l p) ->
  (forall l1 l2 l3 p1 p3, client_cell n m hist l1 p1 -> client_cell n m hist l3 p3 -> (l1 <= l2 <= l3)%nat ->
     exists p2, client_cell n m hist l2 p2) ->
  exists calls, ca_iterate n (client_ca n m hist w) = Some calls /\
    StronglySorted lc_lt (ca_cells_of_calls calls) /\
    forall l p, In (l, p) (ca_cells_of_calls calls) <-> client_cell n m hist l p.
Proof.
  intros n m hist w H (l0 & p0 & Hp0) Hgap.
  destruct (C49_for_each_interval_exact n m hist w H) as (calls & E & F1 & F2).
  exists calls. spl; auto.
  assert (P : ca_wf n (client_ca n m hist w) /\ c_max (client_ca n m hist w) = m /\
    forall l p, ca_mem n (client_ca n m hist w) l p <-> client_cell n m hist l p).
  { destruct w.
    - destruct (client_ca_numbered n m hist H) as (cs & S1 & S2 & W & E' & G). spl; auto.
      intros l p. split; intros K; [apply S2, (proj2 E'); exact K|apply (proj2 E'), S2; exact K].
    - spl; [apply raw_wf|auto|apply raw_mem]; auto. }
  destruct P as (W & Hm & M).
  destruct (C49_level_range_tight n m hist w H) as (R1 & R2 & _).
  destruct R2 as ((p1 & Hp1) & (p3 & Hp3)); [eauto|].
  assert (NE : forall l, (l <= m)%nat -> (exists p, client_cell n m hist l p) ->
    lca_is_empty (c_at (client_ca n m hist w) l) = false).
  { intros l Hl (p & Hp). apply (nonempty_mem n); [apply W; lia|]. exists p. apply M in Hp. apply Hp. }
  rewrite <- E. apply ca_iterate_spec; auto.
  - exists l0. split; [rewrite Hm; apply Hp0|]. apply NE; [apply Hp0|eauto].
  - intros l Hl. destruct (Hgap _ l _ _ _ Hp1 Hp3 Hl) as (p2 & Hp2). apply NE; [apply Hp2|eauto].
Qed.

Example C49_example :
  ca_iterate 1 (client_ca 1 3 ex_hist true)
  = Some [(1%nat, (mk 0 2, [0])); (1%nat, (mkidx 0 1 2, [1])); (2%nat, (mkidx 2 4 1, [2])); (2%nat, (mkidx 2 4 3, [3])); (2%nat, (mkidx 7 8 0, [3]))]
  /\ min_level (client_ca 1 3 ex_hist true) = 1%nat /\ max_level (client_ca 1 3 ex_hist true) = 2%nat.
Proof. vm_compute. auto. Qed.

(** With cells at levels 0 and 2 only, the iterator takes begin() of the empty
    level 1, which reads past the end of its vectors. *)
Theorem C49_iterator_with_empty_level_refuted :
  exists n m hist, good_hist n m hist /\ (exists l p, client_cell n m hist l p) /\
    ca_iterate n (client_ca n m hist true) = None /\ ca_for_each_interval n (client_ca n m hist true) <> None.
Proof.
  exists 1%nat, 2%nat, (fun l => if Nat.eqb l 1 then [] else [AddI [0] (mk 0 2)]). spl.
  - intros l Hl. destruct (Nat.eqb l 1); (split; [repeat constructor|apply adds_filled; repeat constructor]).
  - exists 0%nat, [0; 0]. split; [lia|]. split; auto. exists (AddI [0] (mk 0 2)). simpl. split; auto.
    split; auto. unfold in_i; simpl; lia.
  - vm_compute. auto.
  - vm_compute. discriminate.
Qed.

(** operator== on numbered CellArrays: same cells at every level. *)
Lemma renumber_det : forall l l' acc, bounds l = bounds l' -> map istep l = map istep l' ->
  renumber acc l = renumber acc l'.
Proof.
  induction l as [|i l IH]; intros [|i' l'] acc H1 H2; try discriminate; auto.
  cbn [bounds map] in H1, H2. injection H1 as A1 A2 A3. injection H2 as B1 B2.
  cbn [renumber]. replace (isize i') with (isize i) by (unfold isize; lia).
  rewrite (IH l' _ A3 B2), A1, A2, B1. auto.
Qed.

Lemma update_levels_other : forall ls acc at_ l, ~ In l ls -> fst (update_levels ls acc at_) l = at_ l.
Proof.
  induction ls as [|k ls IH]; intros acc at_ l Hl; simpl; auto. simpl in Hl.
  destruct (lca_is_empty (at_ k)); [apply IH; tauto|].
  destruct (update_index_from acc (at_ k)) as [a acc']. rewrite IH by tauto. apply upd_other. intuition.
Qed.

Lemma update_levels_det : forall ls acc at_ at_', NoDup ls ->
  (forall l, In l ls -> bounds (a_cells (at_ l) 0) = bounds (a_cells (at_' l) 0) /\
     map istep (a_cells (at_ l) 0) = map istep (a_cells (at_' l) 0)) ->
  forall l, In l ls ->
    a_cells (fst (update_levels ls acc at_) l) 0 = a_cells (fst (update_levels ls acc at_') l) 0.
Proof.
  induction ls as [|k ls IH]; intros acc at_ at_' ND H l Hl; [destruct Hl|].
  inversion ND as [|? ? Hk ND']; subst.
  destruct (H k (or_introl eq_refl)) as [B S].
  assert (E : lca_is_empty (at_ k) = lca_is_empty (at_' k)).
  { unfold lca_is_empty. destruct (a_cells (at_ k) 0), (a_cells (at_' k) 0); auto; discriminate. }
  cbn [update_levels]. rewrite <- E. destruct (lca_is_empty (at_ k)) eqn:Em.
  - destruct (Nat.eq_dec l k) as [->|Hne].
    + rewrite !update_levels_other by auto. unfold lca_is_empty in *.
      destruct (a_cells (at_ k) 0), (a_cells (at_' k) 0); try discriminate; auto.
    + apply IH; auto; [intros; apply H; simpl; auto|destruct Hl; [congruence|auto]].
  - unfold update_index_from. rewrite (renumber_det _ _ acc B S).
    destruct (renumber acc (a_cells (at_' k) 0)) as [m acc'].
    destruct (Nat.eq_dec l k) as [->|Hne].
    + rewrite !update_levels_other by auto. unfold upd. rewrite !Nat.eqb_refl. reflexivity.
    + apply IH; auto; [|destruct Hl; [congruence|auto]].
      intros l' Hl'. unfold upd. destruct (Nat.eqb_spec l' k); [subst; tauto|]. apply H. simpl. auto.
Qed.

Theorem C15_cell_arrays_equal_iff_same_cells : forall n m hist hist', good_hist n m hist -> good_hist n m hist' ->
  (forall l, (l <= m)%nat -> Forall (call_fields (fun st _ => st = 1)) (hist l)) ->
  (forall l, (l <= m)%nat -> Forall (call_fields (fun st _ => st = 1)) (hist' l)) ->
  (ca_eqb n (client_ca n m hist true) (client_ca n m hist' true) = true <->
   forall l p, client_cell n m hist l p <-> client_cell n m hist' l p).
Proof.
  intros n m hist hist' H H' F F'.
  destruct (client_ca_numbered n m hist H) as (cs & _ & S2 & W & En & _).
  destruct (client_ca_numbered n m hist' H') as (cs' & _ & S2' & W' & En' & _).
  assert (MM : forall l p, ca_mem n (client_ca n m hist true) l p <-> client_cell n m hist l p).
  { intros l p. rewrite <- S2. symmetry. apply (proj2 En). }
  assert (MM' : forall l p, ca_mem n (client_ca n m hist' true) l p <-> client_cell n m hist' l p).
  { intros l p. rewrite <- S2'. symmetry. apply (proj2 En'). }
  split.
  - set (c := client_ca n m hist true) in *. set (c' := client_ca n m hist' true) in *. intros E.
    unfold ca_eqb in E. apply andb_true_iff in E as [E1 E3]. apply andb_true_iff in E1 as [E1 E2].
    apply Nat.eqb_eq in E1, E2. rewrite forallb_forall in E3.
    assert (EL : levels c = levels c') by (unfold levels; congruence).
    assert (IN : forall x, ca_wf n x -> c_max x = m -> forall l p, ca_mem n x l p -> In l (levels x)).
    { intros x Wx Hx l p [Hl Hp]. apply levels_spec; auto. apply (nonempty_mem n); eauto. }
    intros l p. rewrite <- MM, <- MM'. split; intros Hp.
    + assert (I : In l (levels c)) by (eapply IN; eauto). destruct (lca_eqb_mem _ _ _ (E3 l I)) as [_ Q].
      destruct Hp. split; [auto|apply Q; auto].
    + assert (I : In l (levels c)) by (rewrite EL; eapply IN; eauto). destruct (lca_eqb_mem _ _ _ (E3 l I)) as [_ Q].
      destruct Hp. split; [auto|apply Q; auto].
  - intros Hc.
    destruct (ca_update_index_spec n _ (raw_wf n m hist H)) as (_ & _ & _ & _ & _ & LV & SH).
    destruct (ca_update_index_spec n _ (raw_wf n m hist' H')) as (_ & _ & _ & _ & _ & LV' & SH').
    fold (client_ca n m hist true) in LV, SH. fold (client_ca n m hist' true) in LV', SH'.
    assert (RM : forall l p, ca_mem n (client_ca n m hist false) l p <-> ca_mem n (client_ca n m hist' false) l p).
    { intros l p. rewrite (raw_mem n m hist H), (raw_mem n m hist' H'). apply Hc. }
    assert (EMP : forall l, (l <= m)%nat ->
      lca_is_empty (c_at (client_ca n m hist false) l) = lca_is_empty (c_at (client_ca n m hist' false) l)).
    { intros l Hl. destruct (lca_is_empty (c_at (client_ca n m hist' false) l)) eqn:E.
      - destruct (lca_is_empty (c_at (client_ca n m hist false) l)) eqn:E'; auto.
        apply (nonempty_mem n) in E' as (p & Hp); [|apply raw_wf; auto].
        assert (ca_mem n (client_ca n m hist' false) l p) as [_ Hp'] by (apply RM; split; auto).
        enough (lca_is_empty (c_at (client_ca n m hist' false) l) = false) by congruence.
        apply (nonempty_mem n); [apply raw_wf; auto|eauto].
      - apply (nonempty_mem n) in E as (p & Hp); [|apply raw_wf; auto].
        assert (ca_mem n (client_ca n m hist false) l p) as [_ Hp'] by (apply RM; split; auto).
        apply (nonempty_mem n); [apply raw_wf; auto|eauto]. }
    (* raw arrays agree up to the index of the x-intervals *)
    assert (RAW : forall l, (l <= m)%nat ->
      bounds (a_cells (c_at (client_ca n m hist false) l) 0) = bounds (a_cells (c_at (client_ca n m hist' false) l) 0) /\
      map istep (a_cells (c_at (client_ca n m hist false) l) 0) = map istep (a_cells (c_at (client_ca n m hist' false) l) 0)).
    { intros l Hl.
      assert (B : bounds (a_cells (c_at (client_ca n m hist false) l) 0) = bounds (a_cells (c_at (client_ca n m hist' false) l) 0)).
      { specialize (EMP l Hl). destruct (lca_is_empty (c_at (client_ca n m hist false) l)) eqn:E.
        - symmetry in EMP. unfold lca_is_empty in E, EMP.
          destruct (a_cells (c_at (client_ca n m hist false) l) 0), (a_cells (c_at (client_ca n m hist' false) l) 0);
            try discriminate; auto.
        - apply (canon n); [| | |lia].
          + apply nonempty_full; auto. apply raw_wf; auto.
          + apply nonempty_full; auto. apply raw_wf; auto.
          + intros p. split; intros Hp; [apply (RM l p)|apply (RM l p)]; split; auto. }
      split; auto. apply const_map with (c := 1); [apply bounds_len; auto| |].
      - intros i Hi. apply (client_lca_stored (fun st _ => st = 1) n l (hist l) eq_refl (F l Hl) 0%nat i Hi).
      - intros i Hi. apply (client_lca_stored (fun st _ => st = 1) n l (hist' l) eq_refl (F' l Hl) 0%nat i Hi). }
    assert (LEV : forall w, levels (client_ca n m hist w) = levels (client_ca n m hist' w) /\
      min_level (client_ca n m hist w) = min_level (client_ca n m hist' w) /\
      max_level (client_ca n m hist w) = max_level (client_ca n m hist' w)).
    { assert (G : min_level (client_ca n m hist false) = min_level (client_ca n m hist' false) /\
                  max_level (client_ca n m hist false) = max_level (client_ca n m hist' false)).
      { destruct (C49_level_range_tight n m hist false H) as (T1 & T2 & T3).
        destruct (C49_level_range_tight n m hist' false H') as (T1' & T2' & T3').
        set (c := client_ca n m hist false) in *. set (c' := client_ca n m hist' false) in *.
        destruct (lca_is_empty (c_at c (min_level c))) eqn:E0.
        - assert (NO : forall l p, ~ client_cell n m hist l p).
          { intros l p Hp. destruct T2 as [(q & Hq) _]; [eauto|].
            apply (raw_mem n m hist H) in Hq. destruct Hq as [Hl Hq].
            enough (lca_is_empty (c_at c (min_level c)) = false) by congruence.
            apply (nonempty_mem n); [apply (raw_wf n m hist H); auto|eauto]. }
          assert (NO' : forall l p, ~ client_cell n m hist' l p) by (intros l p Hp; apply (NO l p), Hc; auto).
          destruct (T3 NO). destruct (T3' NO'). split; congruence.
        - destruct (le_lt_dec (min_level c) m) as [L|L].
          + apply (nonempty_mem n) in E0 as (p & Hp); [|apply (raw_wf n m hist H); auto].
            assert (X : client_cell n m hist (min_level c) p) by (apply (raw_mem n m hist H); split; auto).
            destruct T2 as [(q1 & Q1) (q2 & Q2)]; [eauto|].
            destruct T2' as [(q1' & Q1') (q2' & Q2')]; [do 2 eexists; apply Hc; eauto|].
            pose proof (proj2 (Hc _ _) Q1') as R1. pose proof (proj2 (Hc _ _) Q2') as R2.
            pose proof (proj1 (Hc _ _) Q1) as R3. pose proof (proj1 (Hc _ _) Q2) as R4.
            pose proof (T1 _ _ R1). pose proof (T1 _ _ R2). pose proof (T1' _ _ R3). pose proof (T1' _ _ R4). lia.
          + assert (NO : forall l p, ~ client_cell n m hist l p).
            { intros l p Hp. destruct T2 as [(q & (Hq & _)) _]; [eauto|]. lia. }
            assert (NO' : forall l p, ~ client_cell n m hist' l p) by (intros l p Hp; apply (NO l p), Hc; auto).
            destruct (T3 NO). destruct (T3' NO'). split; congruence. }
      assert (U : forall h, good_hist n m h -> min_level (client_ca n m h true) = min_level (client_ca n m h false) /\
         max_level (client_ca n m h true) = max_level (client_ca n m h false)).
      { intros h Hh. destruct (ca_update_index_spec n _ (raw_wf n m h Hh)) as (_ & _ & _ & _ & _ & _ & SHh).
        destruct (levels_ext (client_ca n m h false) (client_ca n m h true) eq_refl) as (X & Y & _); auto.
        intros l. apply shape_empty. apply SHh. }
      destruct (U hist H) as [U1 U2]. destruct (U hist' H') as [U3 U4].
      intros w. assert (X : min_level (client_ca n m hist w) = min_level (client_ca n m hist' w) /\
                            max_level (client_ca n m hist w) = max_level (client_ca n m hist' w)).
      { destruct G. destruct w; split; congruence. }
      destruct X. unfold levels. spl; congruence. }
    destruct (LEV true) as (L1 & L2 & L3). destruct (LEV false) as (L4 & _).
    unfold ca_eqb. rewrite L2, L3, !Nat.eqb_refl. cbn [andb]. apply forallb_forall.
    intros l Hl. destruct (levels_spec (client_ca n m hist true)) as (_ & LE & _). specialize (LE l Hl).
    change (c_max (client_ca n m hist true)) with m in LE.
    eapply (canon_eqb n _ _ (fun _ => True)).
    + apply W. auto.
    + apply W'. auto.
    + rewrite LV, LV'. simpl. change (a_level (client_lca n l (hist l)) = a_level (client_lca n l (hist' l))).
      rewrite !client_lca_level; auto; [apply (H' l LE)|apply (H l LE)].
    + intros p. split; intros Hp; [apply (proj2 (MM' l p)), Hc, MM|apply (proj2 (MM l p)), Hc, MM']; split; auto.
    + intros [|d] i Hi; auto. destruct (SH l) as (Q & _). rewrite Q in Hi by lia.
      apply (client_lca_stored (fun st _ => st = 1) n l (hist l) eq_refl (F l LE) (S d) i Hi).
    + intros [|d] i Hi; auto. destruct (SH' l) as (Q & _). rewrite Q in Hi by lia.
      apply (client_lca_stored (fun st _ => st = 1) n l (hist' l) eq_refl (F' l LE) (S d) i Hi).
    + intros _ _ _.
      change (a_cells (fst (update_levels (levels (client_ca n m hist false)) 0 (c_at (client_ca n m hist false))) l) 0
              = a_cells (fst (update_levels (levels (client_ca n m hist' false)) 0 (c_at (client_ca n m hist' false))) l) 0).
      rewrite <- L4. apply update_levels_det.
      * destruct (levels_spec (client_ca n m hist false)) as (S0 & _). eapply sorted_NoDup; [|exact S0]. intros x Hx. lia.
      * intros k Hk. destruct (levels_spec (client_ca n m hist false)) as (_ & LE' & _). specialize (LE' k Hk).
        apply (RAW k LE').
      * destruct (levels_ext (client_ca n m hist false) (client_ca n m hist true) eq_refl) as (_ & _ & X).
        { intros k. apply shape_empty. apply SH. }
        rewrite <- X. exact Hl.
Qed.

Print Assumptions C12_numbering_bijective.
Print Assumptions C49_level_range_tight.
Print Assumptions C49_for_each_interval_exact.
Print Assumptions C49_iterator_exact_partial.
Print Assumptions C49_iterator_with_empty_level_refuted.
Print Assumptions C15_cell_arrays_equal_iff_same_cells.
