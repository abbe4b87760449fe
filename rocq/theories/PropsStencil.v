(** Properties C30, C44, C45, C46: nested loops, stencils and stencil iterators. *)
From Verif Require Import Base IntervalModel Spec LoiModel LoiProofs IntervalProofs LcaModel LcaSpec GridProofs
  InitProofs SearchProofs IterProofs LcaProofs LcaProofs2 LcaProofs3 RowsProofs CellArrayModel CellArrayProofs
  PropsLca PropsCellArray SubsetModel TreeProofs SubsetSpec SubsetProofs2 StencilModel NumberingProofs StencilProofs.
Open Scope Z_scope.

(** ** C30: whatever the array holds before, the function is called once for each
    vector of the box, the last component varying slowest. *)
Theorem C30_nested_loop : forall nloops start end_ step uninitialised,
  0 < step -> length uninitialised = nloops ->
  let calls := static_nested_loop nloops start end_ step uninitialised in
  StronglySorted lex_lt calls /\ NoDup calls /\
  (forall v, In v calls <->
     length v = nloops /\ Forall (fun x => exists j, 0 <= j /\ x = start + j * step /\ x < end_) v) /\
  (start <= end_ -> step = 1 -> Z.of_nat (length calls) = (end_ - start) ^ Z.of_nat nloops).
Proof.
  intros k s e st u Hst Hu. cbv zeta.
  assert (E : static_nested_loop k s e st u = box k (loop_values s e st)).
  { unfold static_nested_loop. destruct (impl_box k (loop_values s e st) u []) as [-> _].
    - exists u. rewrite app_nil_r. auto.
    - rewrite <- (map_id (box k _)) at 2. apply map_ext. intros. apply app_nil_r. }
  rewrite E. pose proof (box_sorted k _ (loop_values_sorted s e st Hst)) as Srt. spl; auto.
  - eapply sorted_NoDup; [|exact Srt]. apply lex_lt_irrefl.
  - intros v. rewrite box_In, !Forall_forall. setoid_rewrite (loop_values_In s e st) at 1; auto. tauto.
  - intros Hse ->. rewrite box_count, loop_values_1, Nat2Z.inj_pow. f_equal.
    unfold zrange. rewrite map_length, seq_length. lia.
Qed.

Example C30_case : static_nested_loop 2 (-1) 2 1 [77; -5]
  = [[-1; -1]; [0; -1]; [1; -1]; [-1; 0]; [0; 0]; [1; 0]; [-1; 1]; [0; 1]; [1; 1]] /\
  static_nested_loop 3 0 4 3 [9; 9; 9]
  = [[0; 0; 0]; [3; 0; 0]; [0; 3; 0]; [3; 3; 0]; [0; 0; 3]; [3; 0; 3]; [0; 3; 3]; [3; 3; 3]].
Proof. vm_compute. auto. Qed.

(** The loop with step 1 is the loop used by the subset algorithms (C18). *)
Theorem C30_loop_of_subsets : forall nloops start end_ uninitialised, length uninitialised = nloops ->
  static_nested_loop nloops start end_ 1 uninitialised = nested_loop nloops start end_.
Proof.
  intros k s e u Hu. unfold static_nested_loop. destruct (impl_box k (loop_values s e 1) u []) as [-> _].
  - exists u. rewrite app_nil_r. auto.
  - rewrite <- box_nested_loop, loop_values_1.
    rewrite <- (map_id (box k (zrange s e))) at 2. apply map_ext. intros. apply app_nil_r.
Qed.

(** ** C46 *)

Lemma nth_convert : forall n dir v k, length v = S (S n) -> length dir = S (S n) ->
  let d := if Nat.eqb (find_direction_index dir) 0 then 1%nat else find_direction_index dir in
  (1 <= d <= S n)%nat ->
  nth k (convert_vector (S n) dir v) 0 =
    if Nat.eqb k d then nth d dir 0 * nth 0 v 0 + nth 0 dir 0 * nth d v 0
    else if Nat.eqb k 0 then nth 0 dir 0 * nth 0 v 0 - nth d dir 0 * nth d v 0 else nth k v 0.
Proof.
  intros n dir v k Hv Hdir d Hd. unfold convert_vector. fold d.
  rewrite nth_set_nth by (rewrite set_nth_length; lia). destruct (Nat.eqb k d); auto.
  rewrite nth_set_nth by lia. auto.
Qed.

Lemma convert_length : forall n dir v, length (convert_vector n dir v) = length v.
Proof. intros [|n] dir v; unfold convert_vector; [apply map_length|]. rewrite !set_nth_length. auto. Qed.

(** The rotation plane (0, d) of the code and the values of cos and sin. *)
Lemma plane : forall n dir, length dir = S (S n) -> is_cartesian dir = true ->
  let d := if Nat.eqb (find_direction_index dir) 0 then 1%nat else find_direction_index dir in
  (1 <= d <= S n)%nat /\ nth 0 dir 0 * nth 0 dir 0 + nth d dir 0 * nth d dir 0 = 1 /\
  nth 0 dir 0 * nth d dir 0 = 0 /\ forall k, k <> 0%nat -> k <> d -> nth k dir 0 = 0.
Proof.
  intros n dir Hl Hc d. destruct (cartesian_spec dir Hc) as (e & A & B & C & D).
  unfold d. rewrite D. destruct (Nat.eqb_spec e 0) as [->|He].
  - rewrite (C 1%nat) by lia. spl; try lia. intros k H0 H1. apply C. auto.
  - rewrite (C 0%nat) by lia. spl; try lia. intros k H0 H1. apply C. auto.
Qed.

Theorem C46_rotation : forall n direction, length direction = S n -> is_cartesian direction = true ->
  let R := convert_vector n direction in
  (* the first canonical vector goes to the direction *)
  R (unit_mult n 0 1) = direction /\
  (* lengths and angles are kept *)
  (forall v w, length v = S n -> length w = S n -> dot (R v) (R w) = dot v w) /\
  (* no two stencil points collapse *)
  (forall v w, length v = S n -> length w = S n -> R v = R w -> v = w) /\
  (* the map is linear *)
  (forall v w, length v = S n -> length w = S n -> R (vadd n v w) = vadd n (R v) (R w)) /\
  (* from dimension 2 on it is a rotation of one coordinate plane, not a reflection *)
  ((1 <= n)%nat -> exists d, (1 <= d <= n)%nat /\ forall v w, length v = S n -> length w = S n ->
     nth 0 (R v) 0 * nth d (R w) 0 - nth d (R v) 0 * nth 0 (R w) 0 = nth 0 v 0 * nth d w 0 - nth d v 0 * nth 0 w 0 /\
     forall k, k <> 0%nat -> k <> d -> nth k (R v) 0 = nth k v 0).
Proof.
  intros n dir Hl Hc R.
  assert (P0 : R (unit_mult n 0 1) = dir).
  { unfold R. destruct n as [|n].
    - destruct dir as [|x [|y dir]]; try discriminate. unfold convert_vector. cbn. f_equal. lia.
    - destruct (plane n dir Hl Hc) as (A & B & C & D). apply nth_ext_eq.
      + rewrite convert_length, unit_mult_length. auto.
      + intros k Hk. rewrite convert_length, unit_mult_length in Hk.
        rewrite nth_convert by (auto; apply unit_mult_length).
        rewrite !nth_unit_mult by lia. revert A B C D.
        set (d := if Nat.eqb (find_direction_index dir) 0 then 1%nat else find_direction_index dir). intros A B C D.
        destruct (Nat.eqb_spec k d) as [->|N1].
        * cbn [Nat.eqb]. destruct (Nat.eqb_spec d 0); lia.
        * destruct (Nat.eqb_spec k 0) as [->|N2].
          -- cbn [Nat.eqb]. destruct (Nat.eqb_spec d 0); lia.
          -- rewrite D; auto. }
  assert (P1 : forall v w, length v = S n -> length w = S n -> dot (R v) (R w) = dot v w).
  { intros v w Hv Hw. unfold R. destruct n as [|n].
    - destruct dir as [|x [|y dir]]; try discriminate. destruct v as [|a [|b v]], w as [|a' [|b' w]]; try discriminate.
      unfold convert_vector. cbn [nth map dot]. unfold is_cartesian in Hc. cbn in Hc.
      assert (x = 1 \/ x = -1) as [->| ->] by lia; lia.
    - destruct (plane n dir Hl Hc) as (A & B & C & D). revert A B C D. unfold convert_vector.
      set (d := if Nat.eqb (find_direction_index dir) 0 then 1%nat else find_direction_index dir). intros A B C D.
      rewrite dot_set_nth by (rewrite set_nth_length; lia). rewrite dot_set_nth by lia.
      rewrite !nth_set_nth by lia. destruct (Nat.eqb_spec d 0); [lia|].
      set (c := nth 0 dir 0) in *. set (s := nth d dir 0) in *.
      set (v0 := nth 0 v 0). set (w0 := nth 0 w 0). set (vd := nth d v 0). set (wd := nth d w 0).
      transitivity (dot v w + (c * c + s * s - 1) * (v0 * w0 + vd * wd)); [ring|]. rewrite B. ring. }
  assert (P3 : forall v w, length v = S n -> length w = S n -> R (vadd n v w) = vadd n (R v) (R w)).
  { intros v w Hv Hw. unfold R. destruct n as [|n].
    - destruct v as [|a [|b v]], w as [|a' [|b' w]]; try discriminate.
      unfold convert_vector, vadd. cbn [nth map seq]. f_equal. lia.
    - destruct (plane n dir Hl Hc) as (A & B & C & D). apply nth_ext_eq.
      + rewrite convert_length, !vadd_length. auto.
      + intros k Hk. rewrite convert_length, vadd_length in Hk.
        rewrite nth_convert by (auto; apply vadd_length). rewrite !nth_vadd by lia.
        rewrite !nth_convert by auto. destruct (Nat.eqb k _); [ring|]. destruct (Nat.eqb k 0); ring. }
  spl; auto.
  - intros v w Hv Hw E.
    (* R (v + (-w)) has norm 0 *)
    set (nw := map Z.opp w). assert (Hnw : length nw = S n) by (unfold nw; rewrite map_length; auto).
    assert (Hop : forall k, nth k nw 0 = - nth k w 0).
    { intros k. unfold nw. change 0 with (- 0) at 1. apply map_nth. }
    assert (Z0 : dot (vadd n v nw) (vadd n v nw) = 0).
    { rewrite <- P1 by apply vadd_length. rewrite P3 by auto.
      assert (F : forall k, (k <= n)%nat -> nth k (vadd n (R v) (R nw)) 0 = 0).
      { intros k Hk. rewrite E, <- P3 by auto.
        replace (vadd n w nw) with (repeat 0 (S n)).
        - unfold R. destruct n as [|n]; [unfold convert_vector; cbn; destruct k; cbn; [lia|destruct k; auto]|].
          destruct (plane n dir Hl Hc) as (A & _).
          rewrite nth_convert by (auto; apply repeat_length). rewrite !nth_repeat.
          destruct (Nat.eqb k _); [ring|]. destruct (Nat.eqb k 0); ring.
        - apply nth_ext_eq; rewrite repeat_length; [rewrite vadd_length; auto|]. intros j Hj.
          rewrite nth_repeat, nth_vadd, Hop by lia. lia. }
      assert (G : forall l, (forall k, (k < length l)%nat -> nth k l 0 = 0) -> dot l l = 0).
      { induction l as [|x l IH]; intros H; simpl; auto. pose proof (H 0%nat ltac:(simpl; lia)) as X. simpl in X. subst x.
        rewrite IH; [lia|]. intros k Hk. apply (H (S k)). simpl. lia. }
      apply G. rewrite vadd_length. intros k Hk. apply F. lia. }
    apply nth_ext_eq; [lia|]. intros k Hk.
    pose proof (dot_self_zero _ Z0 k) as X. rewrite nth_vadd, Hop in X by lia. lia.
  - intros Hn. destruct n as [|n]; [lia|]. destruct (plane n dir Hl Hc) as (A & B & C & D). revert A B C D. unfold R.
    set (d := if Nat.eqb (find_direction_index dir) 0 then 1%nat else find_direction_index dir). intros A B C D.
    exists d. split; auto. intros v w Hv Hw. split.
    + rewrite !nth_convert by auto. fold d. destruct (Nat.eqb_spec 0 d); [lia|]. cbn [Nat.eqb]. rewrite !(Nat.eqb_refl d).
      set (c := nth 0 dir 0) in *. set (s := nth d dir 0) in *.
      set (v0 := nth 0 v 0). set (w0 := nth 0 w 0). set (vd := nth d v 0). set (wd := nth d w 0).
      transitivity ((c * c + s * s) * (v0 * wd - vd * w0)); [ring|]. rewrite B. ring.
    + intros k K0 Kd. rewrite nth_convert by auto. fold d.
      apply Nat.eqb_neq in K0. apply Nat.eqb_neq in Kd. rewrite Kd, K0. auto.
Qed.

(** So a stencil without repetition keeps its size. *)
Theorem C46_no_collapse : forall n s direction, length direction = S n -> is_cartesian direction = true ->
  (forall v, In v s -> length v = S n) -> NoDup s -> NoDup (convert_for_direction n s direction).
Proof.
  intros n s dir Hl Hc Hs Hnd. destruct (C46_rotation n dir Hl Hc) as (_ & _ & I & _).
  unfold convert_for_direction. induction Hnd as [|v s Hv Hnd IH]; simpl; constructor.
  - intros H. apply in_map_iff in H as (w & E & Hw). apply I in E; [subst; auto|apply Hs; simpl; auto|apply Hs; simpl; auto].
  - apply IH. intros w Hw. apply Hs. simpl. auto.
Qed.

Example C46_case : is_cartesian [0; 0; -1] = true /\
  convert_for_direction 2 (line_stencil_from 2 0 4 (-1)) [0; 0; -1] = [[0; 0; 1]; [0; 0; 0]; [0; 0; -1]; [0; 0; -2]] /\
  convert_for_direction 1 (star_stencil 1 1) [-1; 0] = [[1; 0]; [0; 0]; [-1; 0]; [0; 1]; [0; -1]].
Proof. vm_compute. auto. Qed.

(** ** C44 *)
Theorem C44_stencil_cells : forall n m hist s mi, good_hist n m hist ->
  let c := client_ca n m hist true in
  let cell := client_cell n m hist (mi_level mi) in
  let x0 := istart (mi_i mi) in
  let x1 := iend (mi_i mi) in
  (* a stencil of dimension n + 1 which contains its origin *)
  (forall v, In v s -> length v = S n) -> In (repeat 0 (S n)) s -> length (mi_index mi) = n -> x0 < x1 ->
  (* the translated intervals are cells of the reference mesh *)
  (forall v x, In v s -> x0 <= x < x1 -> cell (vadd n (x :: mi_index mi) v)) ->
  (* so are the cells between the origin and its neighbours on the same row *)
  (forall v x, In v s -> (forall k, (1 <= k <= n)%nat -> nth k v 0 = 0) ->
     Z.min 0 (nth 0 v 0) <= x <= Z.max 0 (nth 0 v 0) -> cell (x0 + x :: mi_index mi)) ->
  exists steps, for_each_stencil_sliding n c s mi = Some steps /\
    Z.of_nat (length steps) = x1 - x0 /\
    forall k es, nth_error steps k = Some es ->
      length es = length s /\
      forall id v e, nth_error s id = Some v -> nth_error es id = Some e ->
        sc_level e = mi_level mi /\
        sc_coord e = vadd n (x0 + Z.of_nat k :: mi_index mi) v /\
        ca_get_index n c (mi_level mi) (sc_coord e) = Some (sc_index e).
Proof.
  intros n m hist s mi G c cell x0 x1 F1 F2 F3 F4 F5 F6.
  pose proof (numbered_client n m hist G) as N. fold c in N.
  assert (F : stencil_fits n c s mi).
  { unfold stencil_fits. spl; auto.
    - intros v x Hv Hx. apply client_mem; auto. apply F5; auto.
    - intros v x Hv H Hx. apply client_mem; auto. apply (F6 v); auto. }
  destruct (init_spec n c s mi N F) as (es & E & A). unfold for_each_stencil_sliding. rewrite E.
  eexists. split; [reflexivity|]. split; [rewrite slide_length; unfold x0, x1 in *; lia|].
  intros k es' Hk. assert (Hlt : (k < Z.to_nat (x1 - x0))%nat).
  { assert (Hk2 : nth_error (slide (Z.to_nat (x1 - x0)) es) k <> None) by (unfold x0, x1; rewrite Hk; discriminate). apply nth_error_Some in Hk2. rewrite slide_length in Hk2. auto. }
  rewrite slide_nth in Hk by auto. injection Hk as <-. split; [rewrite map_length; clear -A; induction A; simpl; auto|].
  intros id v e Hv He. rewrite nth_error_map in He. destruct (nth_error es id) as [e0|] eqn:E0; [|discriminate].
  cbn in He. injection He as <-.
  apply (moved_entry n c s mi N F v e0 (Z.of_nat k)).
  - eapply nth_error_In; eauto.
  - unfold x0, x1 in *. lia.
  - clear - A Hv E0. revert id v e0 Hv E0. induction A as [|a b sa sb Hab A IH]; intros id v e0 Hv He; [destruct id; discriminate|].
    destruct id; cbn [nth_error] in *; [injection Hv as <-; injection He as <-; exact Hab|exact (IH id v e0 Hv He)].
Qed.

Definition star_hist (l : nat) : list lcl_call :=
  match l with 1%nat => [AddI [0] (mk 0 5); AddI [1] (mk (-1) 6); AddI [2] (mk 0 4)] | _ => [] end.
Lemma star_hist_ok : good_hist 1 1 star_hist.
Proof. intros l Hl. destruct l as [|[|l]]; simpl; (split; [repeat constructor|apply adds_filled; repeat constructor]). Qed.
Lemma box_cell : forall l yz a b p, In (AddI yz (mk a b)) (star_hist l) -> (l <= 1)%nat -> length yz = 1%nat ->
  tl p = yz -> length p = 2%nat -> a <= nth 0 p 0 < b -> client_cell 1 1 star_hist l p.
Proof.
  intros l yz a b p H Hl Hyz E Hp Hx. split; auto. split; auto. exists (AddI yz (mk a b)). split; auto.
  split; auto.
Qed.

(** The hypotheses hold for the star stencil on [1, 4) of row 1. *)
Example C44_case : let mi := mkMI 1 (mk 1 4) [1] in
  (forall v x, In v (star_stencil 1 1) -> 1 <= x < 4 -> client_cell 1 1 star_hist 1 (vadd 1 (x :: mi_index mi) v)) /\
  (forall x, -1 <= x <= 1 -> client_cell 1 1 star_hist 1 (1 + x :: mi_index mi)) /\
  option_map (map (map (fun e => (sc_coord e, sc_index e))))
    (for_each_stencil_sliding 1 (client_ca 1 1 star_hist true) (star_stencil 1 1) (mkMI 1 (mk 1 3) [1]))
  = Some [[([0; 1], 6); ([1; 1], 7); ([2; 1], 8); ([1; 0], 1); ([1; 2], 13)];
          [([1; 1], 7); ([2; 1], 8); ([3; 1], 9); ([2; 0], 2); ([2; 2], 14)]].
Proof.
  cbv zeta. split; [|split; [|vm_compute; auto]].
  - intros v x Hv Hx.
    assert (E : star_stencil 1 1 = [[-1; 0]; [0; 0]; [1; 0]; [0; -1]; [0; 1]]) by (vm_compute; auto). rewrite E in Hv.
    destruct Hv as [<-|[<-|[<-|[<-|[<-|[]]]]]].
    + eapply (box_cell 1 [1] (-1) 6); simpl; auto; cbn; try lia.
    + eapply (box_cell 1 [1] (-1) 6); simpl; auto; cbn; try lia.
    + eapply (box_cell 1 [1] (-1) 6); simpl; auto; cbn; try lia.
    + eapply (box_cell 1 [0] 0 5); simpl; auto; cbn; try lia.
    + eapply (box_cell 1 [2] 0 4); simpl; auto; cbn; try lia.
  - intros x Hx. eapply (box_cell 1 [1] (-1) 6); [simpl; auto|lia|auto|auto|auto|]. cbn [nth mi_index]. lia.
Qed.

(** Without the condition on the cells between origin and neighbour the index is
    wrong: on the row [0, 2) ∪ [3, 5), the neighbour 3 of cell 1 is given index 3,
    which is the index of cell 4 (the index is not looked up on the same row). *)
Definition gap_hist (l : nat) : list lcl_call := match l with 0%nat => [AddI [] (mk 0 2); AddI [] (mk 3 5)] | _ => [] end.
Theorem C44_without_gap_condition_refuted : good_hist 0 0 gap_hist /\
  exists s mi, (forall v, In v s -> length v = 1%nat) /\ In [0] s /\
  (forall v x, In v s -> istart (mi_i mi) <= x < iend (mi_i mi) -> client_cell 0 0 gap_hist 0 (vadd 0 [x] v)) /\
  exists steps es e, for_each_stencil_sliding 0 (client_ca 0 0 gap_hist true) s mi = Some steps /\
    nth_error steps 0 = Some es /\ nth_error es 1 = Some e /\ sc_coord e = [3] /\ sc_index e = 3 /\
    ca_get_index 0 (client_ca 0 0 gap_hist true) 0 [3] = Some 2.
Proof.
  split. { intros l Hl. destruct l as [|l]; simpl; (split; [repeat constructor|apply adds_filled; repeat constructor]). }
  exists [[0]; [2]], (mkMI 0 (mk 1 2) []). spl.
  - intros v [<-|[<-|[]]]; auto.
  - simpl; auto.
  - cbn [mi_i istart iend mk]. intros v x Hv Hx. assert (x = 1) by (simpl in Hx; lia). subst x.
    destruct Hv as [<-|[<-|[]]]; (split; [lia|split; [auto|]]).
    + exists (AddI [] (mk 0 2)). simpl. split; [auto|split; [auto|split; simpl; lia]].
    + exists (AddI [] (mk 3 5)). simpl. split; [auto|split; [auto|split; simpl; lia]].
  - do 3 eexists. split; [vm_compute; reflexivity|]. split; [reflexivity|]. split; [reflexivity|]. vm_compute. auto.
Qed.

(** ** C45 *)

Definition parent (p : list Z) : list Z := map (fun x => x / 2) p.

Lemma ljump_shape : forall k j, lj_fine (ljump_steps k j) = move_cell (Z.of_nat k) (Z.of_nat k) (lj_fine j) /\
  lj_coarse (ljump_steps k j) = (let d := Z.of_nat ((k + lj_ii j mod 2) / 2) in move_cell d d (lj_coarse j)).
Proof.
  assert (M : forall a b e, move_cell a a (move_cell b b e) = move_cell (a + b) (a + b) e).
  { intros a b [l p i]. unfold move_cell. cbn [sc_level sc_coord sc_index]. f_equal; [|lia]. destruct p; auto. f_equal. lia. }
  assert (M0 : forall e, move_cell 0 0 e = e).
  { intros [l p i]. unfold move_cell. cbn [sc_level sc_coord sc_index]. f_equal; [|lia]. destruct p; auto. f_equal. lia. }
  induction k as [|k IH]; intros j; cbn [ljump_steps].
  - change (Z.of_nat 0) with 0. rewrite M0. split; auto. cbv zeta.
    replace ((0 + lj_ii j mod 2) / 2)%nat with 0%nat.
    + change (Z.of_nat 0) with 0. rewrite M0. auto.
    + pose proof (Nat.mod_upper_bound (lj_ii j) 2 ltac:(lia)). symmetry. apply Nat.div_small. lia.
  - destruct (IH (ljump_move_next j)) as [E1 E2]. rewrite E1, E2. cbv zeta. unfold ljump_move_next at 1 2 3 4.
    cbn [lj_fine lj_coarse lj_ii]. rewrite M. split; [f_equal; lia|].
    assert (Hm : (S (lj_ii j) mod 2 = 1 - lj_ii j mod 2)%nat).
    { pose proof (Nat.div_mod (lj_ii j) 2 ltac:(lia)). pose proof (Nat.mod_upper_bound (lj_ii j) 2 ltac:(lia)).
      pose proof (Nat.div_mod (S (lj_ii j)) 2 ltac:(lia)). pose proof (Nat.mod_upper_bound (S (lj_ii j)) 2 ltac:(lia)). lia. }
    rewrite Hm. pose proof (Nat.mod_upper_bound (lj_ii j) 2 ltac:(lia)).
    destruct (Nat.eqb_spec (lj_ii j mod 2) 1) as [E|E]; rewrite M; f_equal;
      (replace (lj_ii j mod 2)%nat with (if Nat.eqb (lj_ii j mod 2) 1 then 1%nat else 0%nat) by (destruct (Nat.eqb_spec (lj_ii j mod 2) 1); lia));
      rewrite ?E; cbn [Nat.eqb].
    all: try (replace (S k + 1)%nat with (k + (1 - 1) + 1 * 2)%nat by lia; rewrite Nat.div_add by lia; lia).
    all: destruct (Nat.eqb_spec (lj_ii j mod 2) 1); [lia|]; f_equal; f_equal; lia.
Qed.

Ltac Zify.zify_post_hook ::= Z.div_mod_to_equations.

Lemma ljump_numbered : forall n c direction_index fine e mi, numbered n c ->
  let x0 := istart (mi_i mi) in
  let x1 := iend (mi_i mi) in
  (1 <= mi_level mi)%nat -> length (mi_index mi) = n -> x0 < x1 ->
  x0 mod 2 = 0 \/ x1 = x0 + 1 ->
  (forall x, x0 <= x < x1 -> ca_mem n c (pred (mi_level mi)) (parent (x :: mi_index mi))) ->
  nth_error fine direction_index = Some e ->
  exists j, ljump_init n c direction_index fine mi = Some j /\
    forall k, Z.of_nat k < x1 - x0 ->
      let coarse := lj_coarse (ljump_steps k j) in
      sc_level coarse = pred (mi_level mi) /\
      sc_coord coarse = parent (x0 + Z.of_nat k :: mi_index mi) /\
      ca_get_index n c (pred (mi_level mi)) (sc_coord coarse) = Some (sc_index coarse) /\
      lj_fine (ljump_steps k j) = move_cell (Z.of_nat k) (Z.of_nat k) e.
Proof.
  intros n c di fine e mi N x0 x1 Hl Hn Hx Hpar Hcell He.
  set (cmi := mkMI (pred (mi_level mi)) (ishr (mi_i mi) 1) (map (fun y => Z.shiftr y 1) (mi_index mi))).
  assert (Epar : forall y, parent (y :: mi_index mi) = y / 2 :: mi_index cmi).
  { intros y. unfold parent, cmi. cbn [map mi_index]. f_equal. apply map_ext. intros z. rewrite Z.shiftr_div_pow2; auto. lia. }
  assert (Hs : istart (mi_i cmi) = x0 / 2).
  { unfold cmi. cbn [mi_i]. unfold ishr. cbn [istart]. rewrite Z.shiftr_div_pow2 by lia. auto. }
  assert (Hsub : forall z, istart (mi_i cmi) <= z < iend (mi_i cmi) -> ca_mem n c (pred (mi_level mi)) (z :: mi_index cmi)).
  { intros z Hz. apply (ishr_spec (mi_i mi) 1 z) in Hz as (f & Hf & Hfz); [|lia|auto]. change (2 ^ 1) with 2 in Hfz. subst z.
    rewrite <- Epar. apply Hcell. exact Hf. }
  assert (Hne : istart (mi_i cmi) < iend (mi_i cmi)) by (apply (ishr_valid (mi_i mi) 1); auto; lia).
  assert (F : stencil_fits n c [repeat 0 (S n)] cmi).
  { assert (Hlc : length (mi_index cmi) = n) by (unfold cmi; cbn; rewrite map_length; auto).
    unfold stencil_fits. spl; auto.
    - intros v [<-|[]]. apply repeat_length.
    - simpl; auto.
    - intros v z [<-|[]] Hz. rewrite vadd_zero; [apply Hsub; auto|simpl; auto|]. intros k _. apply nth_repeat.
    - intros v z [<-|[]] _ Hz. rewrite nth_repeat in Hz. apply Hsub. lia. }
  destruct (init_spec n c _ cmi N F) as (cs & E & A). unfold ljump_init. fold cmi. rewrite E.
  inv A. inv H3. rename y into co. cbn [nth_error]. rewrite He. eexists. split; [reflexivity|].
  intros k Hk. cbv zeta. destruct (ljump_shape k (mkLJ e co 0)) as [-> ->]. cbn [lj_fine lj_coarse lj_ii].
  change (0 mod 2)%nat with 0%nat. rewrite Nat.add_0_r. cbv zeta.
  set (q := Z.of_nat (k / 2)). assert (Hq : q = Z.of_nat k / 2) by (unfold q; rewrite Nat2Z.inj_div; auto).
  destruct H1 as (C1 & C2 & C3). rewrite vadd_zero in C2; [|destruct F as (_ & _ & F3 & _); simpl; auto|intros k0 _; destruct k0; [auto|apply nth_repeat]].
  unfold move_cell. cbn [sc_level sc_coord sc_index]. rewrite C2 in *. spl; auto.
  - rewrite Epar. f_equal. rewrite Hs. lia.
  - replace (sc_index co + q) with (sc_index co + (istart (mi_i cmi) + q - istart (mi_i cmi))) by lia.
    apply (numbered_shift _ c _ _ (istart (mi_i cmi)) _ _ N); auto.
    intros z Hz. rewrite Hs in Hz. assert (Hz' : exists x, x0 <= x < x1 /\ x / 2 = z).
    { destruct Hpar as [P|P].
      - exists (2 * z). lia.
      - exists x0. lia. }
    destruct Hz' as (x & X1 & <-). rewrite <- Epar. apply Hcell. exact X1.
Qed.

(** [fine] are the cells of the fine iterator at the beginning of the interval; the
    interval is either one cell or starts at an even coordinate; the parents of its
    cells are cells of the reference mesh. *)
Theorem C45_coarse_is_parent_partial : forall n m hist direction_index fine e mi, good_hist n m hist ->
  let c := client_ca n m hist true in
  let x0 := istart (mi_i mi) in
  let x1 := iend (mi_i mi) in
  (1 <= mi_level mi)%nat -> length (mi_index mi) = n -> x0 < x1 ->
  x0 mod 2 = 0 \/ x1 = x0 + 1 ->
  (forall x, x0 <= x < x1 -> client_cell n m hist (pred (mi_level mi)) (parent (x :: mi_index mi))) ->
  nth_error fine direction_index = Some e ->
  exists j, ljump_init n c direction_index fine mi = Some j /\
    forall k, Z.of_nat k < x1 - x0 ->
      let coarse := lj_coarse (ljump_steps k j) in
      sc_level coarse = pred (mi_level mi) /\
      sc_coord coarse = parent (x0 + Z.of_nat k :: mi_index mi) /\
      ca_get_index n c (pred (mi_level mi)) (sc_coord coarse) = Some (sc_index coarse) /\
      lj_fine (ljump_steps k j) = move_cell (Z.of_nat k) (Z.of_nat k) e.
Proof.
  intros n m hist di fine e mi G c x0 x1 Hl Hn Hx Hpar Hcell He.
  apply (ljump_numbered n c di fine e mi (numbered_client n m hist G) Hl Hn Hx Hpar); auto.
  intros x Hx'. apply client_mem; auto.
Qed.

Definition jump_hist (l : nat) : list lcl_call :=
  match l with 0%nat => [AddI [0] (mk 0 4)] | 1%nat => [AddI [2] (mk 1 7)] | _ => [] end.
Lemma jump_hist_ok : good_hist 1 1 jump_hist.
Proof. intros l Hl. destruct l as [|[|l]]; simpl; (split; [repeat constructor|apply adds_filled; repeat constructor]). Qed.
Lemma jump_parents : forall x, 0 <= x < 8 -> client_cell 1 1 jump_hist 0 (parent [x; 1]).
Proof.
  intros x Hx. split; [lia|]. split; auto. exists (AddI [0] (mk 0 4)). split; [simpl; auto|].
  split; [reflexivity|]. split; simpl; lia.
Qed.
Definition jump_coarse (x0 x1 : Z) : option (list (list Z * Z)) :=
  let mi := mkMI 1 (mk x0 x1) [1] in
  let e := mkSC 1 [x0; 2] 0 in
  option_map (fun j => map (fun k => let co := lj_coarse (ljump_steps k j) in (sc_coord co, sc_index co))
    (seq 0 (Z.to_nat (x1 - x0)))) (ljump_init 1 (client_ca 1 1 jump_hist true) 1 [e; e] mi).

Example C45_case : jump_coarse 2 6 = Some [([1; 0], 1); ([1; 0], 1); ([2; 0], 2); ([2; 0], 2)].
Proof. vm_compute. auto. Qed.

(** An interval of two cells or more starting at an odd coordinate: the second
    coarse entry is the parent of the first fine cell, not of the second. *)
Theorem C45_odd_start_refuted : good_hist 1 1 jump_hist /\
  (forall x, 1 <= x < 3 -> client_cell 1 1 jump_hist 0 (parent [x; 1])) /\
  exists j e, ljump_init 1 (client_ca 1 1 jump_hist true) 1 [e; e] (mkMI 1 (mk 1 3) [1]) = Some j /\
    sc_coord (lj_coarse (ljump_steps 1 j)) = [0; 0] /\ parent [1 + 1; 1] = [1; 0].
Proof.
  split; [exact jump_hist_ok|]. split; [intros x Hx; apply jump_parents; lia|].
  do 2 eexists. split; [vm_compute; reflexivity|]. vm_compute. auto.
  Unshelve. exact (mkSC 1 [1; 2] 0).
Qed.

Print Assumptions C30_nested_loop.
Print Assumptions C30_loop_of_subsets.
Print Assumptions C46_rotation.
Print Assumptions C46_no_collapse.
Print Assumptions C44_stencil_cells.
Print Assumptions C44_without_gap_condition_refuted.
Print Assumptions C45_coarse_is_parent_partial.
Print Assumptions C45_odd_start_refuted.
