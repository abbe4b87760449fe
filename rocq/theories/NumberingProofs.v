(** Consequences of the numbering of a CellArray: cells that follow one another
    in a row have consecutive indices; nb_cells() of a mesh. *)
From Verif Require Import Base IntervalModel Spec LoiModel LoiProofs LcaModel LcaSpec GridProofs
  InitProofs SearchProofs IterProofs LcaProofs LcaProofs2 LcaProofs3 RowsProofs CellArrayModel CellArrayProofs
  PropsLca PropsCellArray SubsetModel StencilModel.
Open Scope Z_scope.

(** Position in the traversal of all the cells. *)
Definition numbered (n : nat) (c : ca) : Prop :=
  ca_wf n c /\ exists cs, ca_enumeration n c cs /\
    forall j l p, nth_error cs j = Some (l, p) -> ca_get_index n c l p = Some (Z.of_nat j).

Lemma numbered_update : forall n c, ca_wf n c -> numbered n (ca_update_index c).
Proof.
  intros n c W. destruct (ca_update_index_spec n c W) as (cs & _ & W' & E & G & _). split; auto. exists cs. auto.
Qed.

Lemma numbered_client : forall n m hist, good_hist n m hist -> numbered n (client_ca n m hist true).
Proof. intros n m hist H. apply numbered_update. apply raw_wf in H. auto. Qed.

Lemma client_mem : forall n m hist w, good_hist n m hist -> forall l p,
  ca_mem n (client_ca n m hist w) l p <-> client_cell n m hist l p.
Proof.
  intros n m hist w H l p. destruct w; [|apply raw_mem; auto].
  destruct (client_ca_numbered n m hist H) as (cs & _ & S2 & _ & (_ & E) & _). rewrite <- E. auto.
Qed.

Lemma lc_sorted_adjacent : forall cs l x yz j k, StronglySorted lc_lt cs ->
  nth_error cs j = Some (l, x :: yz) -> nth_error cs k = Some (l, x + 1 :: yz) -> k = S j.
Proof.
  intros cs l x yz j k Hs Hj Hk.
  assert (Hlt : lc_lt (l, x :: yz) (l, x + 1 :: yz)) by (right; simpl; split; auto; right; split; auto; lia).
  destruct (Nat.lt_trichotomy j k) as [L|[->|L]].
  - destruct (Nat.eq_dec k (S j)); auto. exfalso.
    destruct (nth_error cs (S j)) as [[l' q]|] eqn:E.
    + assert (H1 : lc_lt (l, x :: yz) (l', q)) by (eapply sorted_nth; [exact Hs| |exact Hj|exact E]; lia).
      assert (H2 : lc_lt (l', q) (l, x + 1 :: yz)) by (eapply sorted_nth; [exact Hs| |exact E|exact Hk]; lia).
      destruct H1 as [H1|[E1 H1]], H2 as [H2|[E2 H2]]; cbn [fst snd] in *; try lia.
      destruct q as [|y q]; simpl in *; [tauto|].
      destruct H1 as [H1|[<- H1]], H2 as [H2|[E3 H2]]; try lia.
      * apply (lex_lt_irrefl yz). eapply lex_lt_trans; eauto.
      * subst. eapply lex_lt_irrefl; eauto.
      * eapply lex_lt_irrefl; eauto.
    + apply nth_error_None in E. assert (k < length cs)%nat by (apply nth_error_Some; congruence). lia.
  - exfalso. assert (x :: yz = x + 1 :: yz) by congruence. inv H. lia.
  - exfalso. apply (lc_lt_irrefl (l, x :: yz)). eapply lc_lt_trans; [exact Hlt|].
    eapply sorted_nth; [exact Hs|exact L| |]; auto.
Qed.

Lemma numbered_index : forall n c l p, numbered n c -> ca_mem n c l p ->
  exists i, ca_get_index n c l p = Some i /\ 0 <= i < ca_nb_cells c.
Proof.
  intros n c l p (W & cs & E & G) Hp. rewrite (ca_nb_cells_spec n c cs W E).
  apply E in Hp. apply In_nth_error in Hp as (j & Hj). exists (Z.of_nat j). split; auto.
  assert (j < length cs)%nat by (apply nth_error_Some; congruence). lia.
Qed.

Lemma numbered_inj : forall n c l p l' p' i, numbered n c -> ca_mem n c l p -> ca_mem n c l' p' ->
  ca_get_index n c l p = Some i -> ca_get_index n c l' p' = Some i -> l = l' /\ p = p'.
Proof.
  intros n c l p l' p' i (W & cs & E & G) Hp Hq Ep Eq.
  apply E in Hp. apply In_nth_error in Hp as (j & Hj). apply E in Hq. apply In_nth_error in Hq as (k & Hk).
  rewrite (G _ _ _ Hj) in Ep. rewrite (G _ _ _ Hk) in Eq. assert (j = k) by (inv Ep; inv Eq; lia). subst.
  rewrite Hj in Hk. inv Hk. auto.
Qed.

Lemma numbered_next : forall n c l x yz i, numbered n c ->
  ca_mem n c l (x :: yz) -> ca_mem n c l (x + 1 :: yz) ->
  ca_get_index n c l (x :: yz) = Some i -> ca_get_index n c l (x + 1 :: yz) = Some (i + 1).
Proof.
  intros n c l x yz i (W & cs & E & G) Hp Hq Ei.
  apply E in Hp. apply In_nth_error in Hp as (j & Hj). apply E in Hq. apply In_nth_error in Hq as (k & Hk).
  rewrite (G _ _ _ Hj) in Ei. inv Ei. rewrite (G _ _ _ Hk).
  rewrite (lc_sorted_adjacent cs l x yz j k (proj1 E) Hj Hk). f_equal. lia.
Qed.

Lemma numbered_run : forall n c l yz i x (k : nat), numbered n c ->
  (forall y, x <= y <= x + Z.of_nat k -> ca_mem n c l (y :: yz)) ->
  ca_get_index n c l (x :: yz) = Some i -> ca_get_index n c l (x + Z.of_nat k :: yz) = Some (i + Z.of_nat k).
Proof.
  intros n c l yz i x k N. induction k as [|k IH]; intros H Ei.
  - rewrite !Z.add_0_r. auto.
  - replace (x + Z.of_nat (S k)) with (x + Z.of_nat k + 1) by lia.
    rewrite (numbered_next n c l (x + Z.of_nat k) yz (i + Z.of_nat k)); auto.
    + f_equal. lia.
    + apply H. lia.
    + apply H. lia.
    + apply IH; auto. intros y Hy. apply H. lia.
Qed.

(** Along a contiguous part of a row, indices differ like coordinates. *)
Lemma numbered_shift : forall n c l yz x x' i, numbered n c ->
  (forall y, Z.min x x' <= y <= Z.max x x' -> ca_mem n c l (y :: yz)) ->
  ca_get_index n c l (x :: yz) = Some i -> ca_get_index n c l (x' :: yz) = Some (i + (x' - x)).
Proof.
  intros n c l yz x x' i N H Ei. destruct (Z.le_ge_cases x x') as [L|L].
  - pose proof (numbered_run n c l yz i x (Z.to_nat (x' - x)) N) as R.
    rewrite Z2Nat.id in R by lia. replace (x + (x' - x)) with x' in R by lia. apply R; auto.
    intros y Hy. apply H. lia.
  - destruct (numbered_index n c l (x' :: yz) N) as (i' & Ei' & _); [apply H; lia|].
    pose proof (numbered_run n c l yz i' x' (Z.to_nat (x - x')) N) as R.
    rewrite Z2Nat.id in R by lia. replace (x' + (x - x')) with x in R by lia.
    rewrite R in Ei; auto.
    + inv Ei. rewrite Ei'. f_equal. lia.
    + intros y Hy. apply H. lia.
Qed.

(** ** mesh.nb_cells() *)

Lemma nth_error_last : forall A (l : list A) x, nth_error (rev l) 0 = Some x -> exists l', l = l' ++ [x].
Proof.
  intros A l x H. destruct (rev l) as [|y r] eqn:E; [discriminate|]. inv H.
  exists (rev r). rewrite <- (rev_involutive l), E. reflexivity.
Qed.

Lemma map_last_inv : forall A B (f : A -> B) l l' y, map f l = l' ++ [y] -> exists l0 x, l = l0 ++ [x] /\ f x = y.
Proof.
  intros A B f l l' y H. destruct (exists_last (l := l)) as (l0 & x & ->).
  - intros ->. destruct l'; discriminate.
  - exists l0, x. split; auto. rewrite map_app in H. cbn [map] in H. apply app_inj_tail in H. tauto.
Qed.

Lemma zrange_last : forall a b, a < b -> zrange a b = zrange a (b - 1) ++ [b - 1].
Proof.
  intros a b H. unfold zrange. replace (Z.to_nat (b - a)) with (Z.to_nat (b - 1 - a) + 1)%nat by lia.
  rewrite seq_app, map_app. f_equal. cbn [seq map]. f_equal. lia.
Qed.

Theorem mesh_nb_cells_spec : forall n c, numbered n c -> (exists l p, ca_mem n c l p) ->
  mesh_nb_cells c = Some (ca_nb_cells c).
Proof.
  intros n c (W & cs & E & G) (l0 & p0 & H0). rewrite (ca_nb_cells_spec n c cs W E).
  assert (NE : lca_is_empty (c_at c (max_level c)) = false /\ (max_level c <= c_max c)%nat).
  { destruct (max_level_spec c) as [M _]. destruct H0 as [L0 H0].
    destruct (M l0 L0) as [A B]; [|split; auto; lia]. apply (nonempty_mem n); eauto. }
  destruct NE as [NE LE]. pose proof (nonempty_full n _ (W _ LE) NE) as WF.
  destruct (for_each_interval_correct n _ (W _ LE)) as (calls & C1 & C2 & C3 & C4).
  unfold mesh_nb_cells. destruct (nth_error (rev (a_cells (c_at c (max_level c)) 0)) 0) as [i|] eqn:EL.
  2:{ exfalso. unfold lca_is_empty in NE. destruct (a_cells (c_at c (max_level c)) 0) as [|y r]; [discriminate|].
      apply nth_error_None in EL. rewrite rev_length in EL. simpl in EL. lia. }
  apply nth_error_last in EL as (l' & EL). rewrite EL in C4. apply map_last_inv in C4 as (calls' & [i' yz] & -> & Ei).
  cbn [fst] in Ei. subst i'.
  assert (Hv : istart i < iend i).
  { apply (wf_valid true n (c_at c (max_level c)) 0 i WF eq_refl); [lia|]. rewrite EL. apply in_or_app. right. left. auto. }
  (* the last cell of that level *)
  set (p := iend i - 1 :: yz).
  assert (Ecs : cells_of_calls (calls' ++ [(i, yz)]) =
    (cells_of_calls calls' ++ map (fun x => x :: yz) (zrange (istart i) (iend i - 1))) ++ [p]).
  { unfold cells_of_calls. rewrite flat_map_app. cbn [flat_map]. rewrite app_nil_r, (zrange_last (istart i)) by lia.
    rewrite map_app. rewrite app_assoc. reflexivity. }
  assert (Hp : lca_mem n (c_at c (max_level c)) p).
  { apply C3. rewrite Ecs. apply in_or_app. right. left. auto. }
  assert (Hidx : ca_get_index n c (max_level c) p = Some (iindex i + (iend i - 1))).
  { unfold ca_get_index, get_index, get_interval.
    assert (F : find n (c_at c (max_level c)) p = Some (Some (length calls'))).
    { apply (find_position n _ (calls' ++ [(i, yz)]) p (length calls') WF C1 (proj1 Hp)).
      exists i. cbn [tl p nth]. split; [apply nth_error_app_mid|]. unfold in_i. lia. }
    rewrite F. destruct (for_each_interval_correct n _ (W _ LE)) as (calls2 & C1' & _ & _ & C4').
    rewrite C1 in C1'. inv C1'. rewrite <- C4'. rewrite map_app.
    rewrite nth_error_app2; rewrite map_length; [|lia]. rewrite Nat.sub_diag. cbn. reflexivity. }
  assert (Hm : ca_mem n c (max_level c) p) by (split; auto).
  apply E in Hm. apply In_nth_error in Hm as (j & Hj).
  rewrite (G _ _ _ Hj) in Hidx. inv Hidx.
  assert (Hlast : S j = length cs).
  { assert (j < length cs)%nat by (apply nth_error_Some; congruence).
    destruct (Nat.eq_dec (S j) (length cs)) as [|N]; auto. exfalso.
    destruct (nth_error cs (S j)) as [[l q]|] eqn:Eq.
    - assert (Hlt : lc_lt (max_level c, p) (l, q)) by (eapply sorted_nth; [apply E| |exact Hj|exact Eq]; lia).
      assert (Hq : ca_mem n c l q) by (apply E; eapply nth_error_In; eauto).
      destruct (max_level_spec c) as [M _]. destruct Hq as [Lq Hq].
      assert (Nq : lca_is_empty (c_at c l) = false) by (apply (nonempty_mem n); [apply W; auto|eauto]).
      destruct (M l Lq Nq) as [[M1 _] _]. destruct Hlt as [Hlt|[El Hlt]]; cbn [fst snd] in *; [lia|].
      subst l. apply C3 in Hq. rewrite Ecs in Hq, C2. apply in_app_or in Hq as [Hq|[<-|[]]].
      + apply StronglySorted_app_inv in C2 as (_ & _ & C2). apply (lex_lt_irrefl p). eapply lex_lt_trans; [exact Hlt|].
        apply C2; auto. left. auto.
      + eapply lex_lt_irrefl; eauto.
    - apply nth_error_None in Eq. lia. }
  cbn [option_map]. f_equal. lia.
Qed.
