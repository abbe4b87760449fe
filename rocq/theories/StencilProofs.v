(** Lemmas on stencils and stencil iterators. *)
From Verif Require Import Base IntervalModel Spec LoiModel LoiProofs LcaModel LcaSpec GridProofs
  InitProofs SearchProofs IterProofs LcaProofs LcaProofs2 LcaProofs3 RowsProofs CellArrayModel CellArrayProofs
  PropsLca PropsCellArray SubsetModel TreeProofs SubsetSpec SubsetProofs2 StencilModel NumberingProofs.
Open Scope Z_scope.

(** ** Component assignment *)
Lemma set_nth_length : forall d v l, length (set_nth d v l) = length l.
Proof. induction d; destruct l; simpl; auto. Qed.
Lemma nth_set_nth : forall d v l k, (d < length l)%nat -> nth k (set_nth d v l) 0 = if Nat.eqb k d then v else nth k l 0.
Proof.
  induction d as [|d IH]; destruct l as [|x l]; intros k H; simpl in *; try lia.
  - destruct k; auto.
  - destruct k; simpl; auto. apply IH. lia.
Qed.
Lemma set_nth_app : forall l1 x l2 v, set_nth (length l1) v (l1 ++ x :: l2) = l1 ++ v :: l2.
Proof. induction l1; intros; simpl; f_equal; auto. Qed.

(** ** static_nested_loop *)

Lemma fold_calls : forall (g : Z -> list Z -> list (list Z) * list Z) (P : list Z -> Prop) vals calls index res,
  P index ->
  (forall i ix, P ix -> fst (g i ix) = res i /\ P (snd (g i ix))) ->
  fst (fold_left (fun '(calls, index) i => let '(c', index') := g i index in (calls ++ c', index')) vals (calls, index))
    = calls ++ flat_map res vals /\
  P (snd (fold_left (fun '(calls, index) i => let '(c', index') := g i index in (calls ++ c', index')) vals (calls, index))).
Proof.
  intros g P vals. induction vals as [|i vals IH]; intros calls index res HP H; cbn [fold_left flat_map fst snd].
  - rewrite app_nil_r. auto.
  - destruct (H i index HP) as [E1 E2]. destruct (g i index) as [c' ix'] eqn:Eg. cbn [fst snd] in *.
    rewrite app_assoc, <- E1. apply IH; auto.
Qed.

(** The values taken by the first [r] components, then the rest of the array. *)
Fixpoint box (r : nat) (vals : list Z) : list (list Z) :=
  match r with O => [[]] | S r => flat_map (fun i => map (fun l => l ++ [i]) (box r vals)) vals end.

Lemma impl_box : forall r vals index suffix, (exists pre, length pre = r /\ index = pre ++ suffix) ->
  fst (nested_loop_impl r vals index) = map (fun l => l ++ suffix) (box r vals) /\
  exists pre, length pre = r /\ snd (nested_loop_impl r vals index) = pre ++ suffix.
Proof.
  induction r as [|r IH]; intros vals index suffix (pre & Hl & ->).
  - destruct pre; [|discriminate]. simpl. split; auto. exists []. auto.
  - destruct (fold_calls (fun i ix => nested_loop_impl r vals (set_nth r i ix))
      (fun ix => exists pre, length pre = S r /\ ix = pre ++ suffix) vals [] (pre ++ suffix)
      (fun i => map (fun l => l ++ i :: suffix) (box r vals))) as [E1 E2].
    + exists pre. auto.
    + intros i ix (pre' & Hl' & ->).
      destruct (exists_last (l := pre')) as (pre0 & y & ->); [intros ->; discriminate|].
      rewrite app_length in Hl'. cbn in Hl'. rewrite <- app_assoc. cbn [app].
      assert (Er : set_nth r i (pre0 ++ y :: suffix) = pre0 ++ i :: suffix)
        by (replace r with (length pre0) by lia; apply set_nth_app). rewrite Er.
      destruct (IH vals (pre0 ++ i :: suffix) (i :: suffix)) as [F1 (p & F2 & F3)]; [exists pre0; split; auto; lia|].
      split; auto. exists (p ++ [i]). split; [rewrite app_length; simpl; lia|]. rewrite F3, <- app_assoc. auto.
    + cbn [nested_loop_impl]. split; [|exact E2]. rewrite E1. cbn [app box].
      rewrite flat_map_concat_map, flat_map_concat_map, concat_map, map_map. f_equal. apply map_ext. intros i.
      rewrite map_map. apply map_ext. intros l. rewrite <- app_assoc. auto.
Qed.

Lemma box_length : forall k vals l, In l (box k vals) -> length l = k.
Proof.
  induction k as [|k IH]; intros vals l H; simpl in H.
  - destruct H as [<-|[]]. auto.
  - apply in_flat_map in H as (i & _ & H). apply in_map_iff in H as (l' & <- & H).
    rewrite app_length. simpl. rewrite (IH _ _ H). lia.
Qed.

Lemma box_In : forall k vals l, In l (box k vals) <-> length l = k /\ Forall (fun x => In x vals) l.
Proof.
  induction k as [|k IH]; intros vals l; simpl.
  - split; [intros [<-|[]]; auto|]. intros [H _]. destruct l; [auto|discriminate].
  - rewrite in_flat_map. split.
    + intros (i & Hi & H). apply in_map_iff in H as (l' & <- & H). apply IH in H as [A B].
      split; [rewrite app_length; simpl; lia|]. apply Forall_app. auto.
    + intros [A B]. destruct (exists_last (l := l)) as (l' & i & ->); [intros ->; discriminate|].
      rewrite app_length in A. simpl in A. apply Forall_app in B as [B1 B2]. inv B2.
      exists i. split; auto. apply in_map_iff. exists l'. split; auto. apply IH. split; auto. lia.
Qed.

Lemma box_sorted : forall k vals, StronglySorted Z.lt vals -> StronglySorted lex_lt (box k vals).
Proof.
  induction k as [|k IH]; intros vals Hv; simpl.
  - repeat constructor.
  - apply sorted_flat_map.
    + intros i _. apply StronglySorted_map. eapply StronglySorted_impl; [|apply IH; auto].
      intros a b Ha Hb H. apply lex_app; [rewrite (box_length _ _ _ Ha), (box_length _ _ _ Hb); auto|]. auto.
    + intros j l a a' Hjl Hj Hl x y Hx Hy. apply in_map_iff in Hx as (p & <- & Hp). apply in_map_iff in Hy as (q & <- & Hq).
      apply lex_app; [rewrite (box_length _ _ _ Hp), (box_length _ _ _ Hq); auto|]. left.
      eapply sorted_nth; eauto.
Qed.

Lemma box_count : forall k vals, length (box k vals) = (length vals ^ k)%nat.
Proof.
  induction k as [|k IH]; intros vals; auto. cbn [box Nat.pow].
  assert (G : forall l, length (flat_map (fun i => map (fun l => l ++ [i]) (box k vals)) l) = (length l * length vals ^ k)%nat).
  { induction l as [|i l IHl]; cbn [flat_map length]; auto. rewrite app_length, map_length, IH, IHl. lia. }
  apply G.
Qed.

Lemma loop_values_In : forall s e st x, 0 < st -> (In x (loop_values s e st) <-> exists j, 0 <= j /\ x = s + j * st /\ x < e).
Proof.
  intros s e st x H. unfold loop_values. rewrite in_map_iff. split.
  - intros (k & <- & Hk). apply in_seq in Hk. exists (Z.of_nat k). spl; try lia.
    assert (Z.of_nat k < (e - s + st - 1) / st) by lia.
    pose proof (Z.mul_div_le (e - s + st - 1) st H). nia.
  - intros (j & Hj & -> & Hlt). exists (Z.to_nat j). split; [lia|]. apply in_seq. split; [lia|].
    assert (j < (e - s + st - 1) / st); [|lia].
    apply Z.lt_le_trans with (m := (j * st + st) / st).
    + rewrite Z.div_add_l by lia. rewrite Z.div_same by lia. lia.
    + apply Z.div_le_mono; lia.
Qed.

Lemma loop_values_sorted : forall s e st, 0 < st -> StronglySorted Z.lt (loop_values s e st).
Proof.
  intros s e st H. unfold loop_values. apply StronglySorted_map.
  eapply StronglySorted_impl; [|apply seq_sorted]. intros a b _ _ L. simpl in L. nia.
Qed.

Lemma loop_values_1 : forall s e, loop_values s e 1 = zrange s e.
Proof.
  intros. unfold loop_values, zrange. rewrite Z.div_1_r. replace (e - s + 1 - 1) with (e - s) by lia.
  apply map_ext. intros. lia.
Qed.

Lemma box_nested_loop : forall k s e, box k (zrange s e) = nested_loop k s e.
Proof. induction k as [|k IH]; intros; simpl; auto. apply flat_map_ext. intros. rewrite IH. auto. Qed.

(** ** Directions *)

Fixpoint dot (v w : list Z) : Z :=
  match v, w with x :: v, y :: w => x * y + dot v w | _, _ => 0 end.

Lemma dot_set_nth : forall d a b v w, (d < length v)%nat -> (d < length w)%nat ->
  dot (set_nth d a v) (set_nth d b w) = dot v w - nth d v 0 * nth d w 0 + a * b.
Proof.
  induction d as [|d IH]; intros a b v w Hv Hw; destruct v as [|x v], w as [|y w]; simpl in *; try lia.
  rewrite IH by lia. lia.
Qed.

Lemma dot_self_nonneg : forall v, 0 <= dot v v.
Proof. induction v; simpl; nia. Qed.
Lemma dot_self_zero : forall v, dot v v = 0 -> forall k, nth k v 0 = 0.
Proof.
  induction v as [|x v IH]; intros H k; simpl in *.
  - destruct k; auto.
  - pose proof (dot_self_nonneg v). assert (x = 0 /\ dot v v = 0) as [-> E] by nia. destruct k; auto.
Qed.

Lemma abs_sum_nonneg : forall l, 0 <= fold_right (fun x s => Z.abs x + s) 0 l.
Proof. induction l; cbn [fold_right]; lia. Qed.
Lemma abs_sum_zero : forall l, fold_right (fun x s => Z.abs x + s) 0 l = 0 -> forall k, nth k l 0 = 0.
Proof.
  induction l as [|x l IH]; intros H k; cbn [fold_right] in *; [destruct k; auto|].
  pose proof (abs_sum_nonneg l). destruct k; simpl; [lia|]. apply IH. lia.
Qed.

(** A Cartesian vector has one component 1 or -1 and zeros elsewhere. *)
Lemma cartesian_spec : forall dir, is_cartesian dir = true ->
  exists d, (d < length dir)%nat /\ (nth d dir 0 = 1 \/ nth d dir 0 = -1) /\
    (forall k, k <> d -> nth k dir 0 = 0) /\ find_direction_index dir = d.
Proof.
  intros dir H. unfold is_cartesian in H. apply Z.eqb_eq in H. unfold find_direction_index.
  assert (G : forall i, exists d, (d < length dir)%nat /\ (nth d dir 0 = 1 \/ nth d dir 0 = -1) /\
    (forall k, k <> d -> nth k dir 0 = 0) /\ direction_index_from i dir = (i + d)%nat).
  { induction dir as [|x dir IH]; intros i; cbn [fold_right] in H; [discriminate|].
    pose proof (abs_sum_nonneg dir). cbn [direction_index_from length]. destruct (Z.eqb_spec x 0) as [->|N].
    - cbn [negb]. destruct (IH ltac:(lia) (S i)) as (d & A & B & C & D). exists (S d). spl; auto; [lia| |lia].
      intros [|k] Hk; simpl; auto.
    - cbn [negb]. exists 0%nat. spl; try lia; simpl; try lia.
      intros [|k] Hk; [lia|]. simpl. apply abs_sum_zero. lia. }
  destruct (G 0%nat) as (d & A & B & C & D). exists d. auto.
Qed.

Lemma unit_mult_length : forall n d v, length (unit_mult n d v) = S n.
Proof. intros. unfold unit_mult. rewrite map_length, seq_length. auto. Qed.
Lemma nth_unit_mult : forall n d v k, (k <= n)%nat -> nth k (unit_mult n d v) 0 = if Nat.eqb k d then v else 0.
Proof.
  intros n d v k H. unfold unit_mult.
  set (g := fun k => if Nat.eqb k d then v else 0).
  rewrite (nth_indep _ 0 (g 0%nat)) by (rewrite map_length, seq_length; lia).
  rewrite map_nth, seq_nth by lia. auto.
Qed.

(** ** Stencil iterator *)

Lemma add_vec_vadd : forall n p v, length p = S n -> length v = S n -> add_vec p v = vadd n p v.
Proof.
  intros n p v Hp Hv. apply nth_ext_eq.
  - rewrite vadd_length. unfold add_vec. rewrite map_length, combine_length. lia.
  - intros k Hk. unfold add_vec in *. rewrite map_length, combine_length in Hk.
    rewrite nth_vadd by lia.
    set (g := fun '(x, y) => x + y).
    rewrite (nth_indep _ 0 (g (0, 0))) by (rewrite map_length, combine_length; lia).
    rewrite map_nth, combine_nth by lia. auto.
Qed.

Lemma find_from_spec : forall p s id, match find_from p id s with
  | Some o => exists v, (id <= o)%nat /\ nth_error s (o - id) = Some v /\ p v = true
  | None => forall v, In v s -> p v = false end.
Proof.
  induction s as [|v s IH]; intros id; cbn [find_from].
  - intros v [].
  - destruct (p v) eqn:E.
    + exists v. rewrite Nat.sub_diag. auto.
    + specialize (IH (S id)). destruct (find_from p (S id) s) as [o|].
      * destruct IH as (w & A & B & C). exists w. replace (o - id)%nat with (S (o - S id)) by lia. spl; auto. lia.
      * intros w [<-|H]; auto.
Qed.

Lemma zero_forallb : forall v, forallb (Z.eqb 0) v = true <-> forall k, nth k v 0 = 0.
Proof.
  intros v. rewrite forallb_forall. split.
  - intros H k. destruct (Nat.lt_ge_cases k (length v)) as [L|L]; [|apply nth_overflow; auto].
    specialize (H (nth k v 0) (nth_In v 0 L)). lia.
  - intros H x Hx. apply (In_nth v x 0) in Hx as (k & _ & <-). rewrite H. auto.
Qed.

Lemma slide_nth : forall k es j, (j < k)%nat -> nth_error (slide k es) j = Some (map (move_cell (Z.of_nat j) (Z.of_nat j)) es).
Proof.
  assert (M : forall j es, map (move_cell (Z.of_nat j) (Z.of_nat j)) (stencil_move_next es)
    = map (move_cell (Z.of_nat (S j)) (Z.of_nat (S j))) es).
  { intros j es. unfold stencil_move_next. rewrite map_map. apply map_ext. intros [l p i]. unfold move_cell. cbn [sc_level sc_coord sc_index].
    f_equal; [|lia]. destruct p; auto. f_equal. lia. }
  induction k as [|k IH]; intros es j H; [lia|]. cbn [slide]. destruct j.
  - cbn [nth_error]. f_equal. rewrite <- (map_id es) at 1. apply map_ext. intros [l p i]. unfold move_cell. cbn.
    f_equal; [|lia]. destruct p; auto. f_equal. lia.
  - cbn [nth_error]. rewrite IH by lia. f_equal. apply M.
Qed.

Lemma slide_length : forall k es, length (slide k es) = k.
Proof. induction k; intros; simpl; auto. Qed.

(** Hypotheses of C44 on the reference mesh [c]. *)
Definition stencil_fits (n : nat) (c : ca) (s : stencil) (mi : mesh_interval) : Prop :=
  (forall v, In v s -> length v = S n) /\ In (repeat 0 (S n)) s /\ length (mi_index mi) = n /\
  istart (mi_i mi) < iend (mi_i mi) /\
  (forall v x, In v s -> istart (mi_i mi) <= x < iend (mi_i mi) ->
     ca_mem n c (mi_level mi) (vadd n (x :: mi_index mi) v)) /\
  (forall v x, In v s -> (forall k, (1 <= k <= n)%nat -> nth k v 0 = 0) ->
     Z.min 0 (nth 0 v 0) <= x <= Z.max 0 (nth 0 v 0) -> ca_mem n c (mi_level mi) (istart (mi_i mi) + x :: mi_index mi)).

Lemma vadd_zero : forall n p v, length p = S n -> (forall k, (k <= n)%nat -> nth k v 0 = 0) -> vadd n p v = p.
Proof.
  intros n p v Hp Hv. apply nth_ext_eq; rewrite vadd_length; auto. intros k Hk. rewrite nth_vadd, Hv by lia. lia.
Qed.

Lemma vadd_cons_row : forall n x yz v, length yz = n -> (forall k, (1 <= k <= n)%nat -> nth k v 0 = 0) ->
  vadd n (x :: yz) v = x + nth 0 v 0 :: yz.
Proof.
  intros n x yz v Hl Hv. apply nth_ext_eq; rewrite vadd_length; [simpl; lia|]. intros k Hk. rewrite nth_vadd by lia.
  destruct k; simpl; auto. change (nth k yz 0 + nth (S k) v 0 = nth k yz 0). rewrite Hv by lia. lia.
Qed.

Lemma vadd_cons : forall n x yz v, vadd n (x :: yz) v = x + nth 0 v 0 :: tl (vadd n (x :: yz) v).
Proof. intros. reflexivity. Qed.

Lemma vadd_shift : forall n x k yz v, vadd n (x + k :: yz) v = x + nth 0 v 0 + k :: tl (vadd n (x :: yz) v).
Proof. intros. unfold vadd. cbn [seq map tl nth]. f_equal; [lia|]. rewrite <- seq_shift, !map_map. apply map_ext. intros. auto. Qed.

Section Iterator.
  Variables (n : nat) (c : ca) (s : stencil) (mi : mesh_interval).
  Hypothesis N : numbered n c.
  Hypothesis F : stencil_fits n c s mi.

  Let x0 := istart (mi_i mi).
  Let yz := mi_index mi.
  Let l := mi_level mi.

  Definition entry_ok (v : list Z) (e : scell) : Prop :=
    sc_level e = l /\ sc_coord e = vadd n (x0 :: yz) v /\ ca_get_index n c l (sc_coord e) = Some (sc_index e).

  Lemma origin_mem : ca_mem n c l (x0 :: yz).
  Proof.
    destruct F as (F1 & F2 & F3 & F4 & F5 & F6).
    replace (x0 :: yz) with (x0 + 0 :: yz) by (f_equal; lia).
    apply (F6 (repeat 0 (S n))); auto.
    - intros k Hk. apply nth_repeat.
    - rewrite nth_repeat. lia.
  Qed.

  Lemma check_ok : forall p i, ca_mem n c l p -> ca_get_index n c l p = Some i -> check_index (ca_nb_cells c) i = Some i.
  Proof.
    intros p i Hp Hi. destruct (numbered_index n c l p N Hp) as (i' & E & B). rewrite Hi in E. inv E.
    unfold check_index. destruct (Z.ltb_spec (ca_nb_cells c) i'); [lia|]. rewrite andb_false_r. auto.
  Qed.

  Lemma entry_spec : forall i v, In v s -> ca_get_index n c l (x0 :: yz) = Some i ->
    exists e, stencil_entry n c (ca_nb_cells c) mi (mkSC l (x0 :: yz) i) v = Some e /\ entry_ok v e.
  Proof.
    intros i v Hv Hi. pose proof F as (F1 & F2 & F3 & F4 & F5 & F6). specialize (F1 v Hv).
    unfold stencil_entry. cbn [sc_coord sc_index]. rewrite (add_vec_vadd n) by (simpl; auto).
    destruct (forallb (Z.eqb 0) (tl v)) eqn:E.
    - rewrite zero_forallb in E.
      assert (Hrow : forall k, (1 <= k <= n)%nat -> nth k v 0 = 0).
      { intros k Hk. destruct v as [|y v]; [discriminate|]. destruct k; [lia|]. apply E. }
      eexists. split; [reflexivity|]. unfold entry_ok. cbn [sc_level sc_coord sc_index]. spl; auto.
      fold l. rewrite vadd_cons_row by auto.
      rewrite (numbered_shift n c l yz x0 (x0 + nth 0 v 0) i N); auto.
      + f_equal. lia.
      + intros y Hy. replace y with (x0 + (y - x0)) by lia. apply (F6 v); auto. lia.
    - unfold get_index_start_translated. fold x0 yz l. rewrite (add_vec_vadd n) by (simpl; auto).
      assert (Hm : ca_mem n c l (vadd n (x0 :: yz) v)) by (apply F5; auto; unfold x0; lia).
      destruct (numbered_index n c l _ N Hm) as (j & Ej & _). rewrite Ej, (check_ok _ j Hm Ej).
      eexists. split; [reflexivity|]. unfold entry_ok. cbn. auto.
  Qed.

  Lemma entries_spec : forall i o, ca_get_index n c l (x0 :: yz) = Some i ->
    (exists v, nth_error s o = Some v /\ forallb (Z.eqb 0) v = true) ->
    forall s' id, (forall k, nth_error s' k = nth_error s (id + k)) ->
    exists es, stencil_entries n c (ca_nb_cells c) mi (mkSC l (x0 :: yz) i) o id s' = Some es /\ Forall2 entry_ok s' es.
  Proof.
    intros i o Hi (v0 & Ho & Hz) s'. induction s' as [|v s' IH]; intros id Hs'; cbn [stencil_entries].
    - exists []. auto.
    - pose proof (Hs' 0%nat) as Ev. rewrite Nat.add_0_r in Ev. cbn [nth_error] in Ev. symmetry in Ev.
      assert (Hv : In v s) by (eapply nth_error_In; eauto).
      assert (E1 : exists e, (if Nat.eqb id o then Some (mkSC l (x0 :: yz) i)
        else stencil_entry n c (ca_nb_cells c) mi (mkSC l (x0 :: yz) i) v) = Some e /\ entry_ok v e).
      { destruct (Nat.eqb_spec id o) as [->|].
        - rewrite Ho in Ev. inv Ev. eexists. split; [reflexivity|]. unfold entry_ok. cbn [sc_level sc_coord sc_index]. spl; auto.
          symmetry. apply vadd_zero.
          + destruct F as (_ & _ & F3 & _). simpl. auto.
          + intros k _. apply zero_forallb. auto.
        - apply entry_spec; auto. }
      destruct E1 as (e & E1 & E2). rewrite E1.
      destruct (IH (S id)) as (es & E3 & E4).
      { intros k. specialize (Hs' (S k)). cbn [nth_error] in Hs'. rewrite Hs'. f_equal. lia. }
      rewrite E3. exists (e :: es). split; auto.
  Qed.

  Lemma origin_found : exists o, find_stencil_origin s = Some o /\ exists v, nth_error s o = Some v /\ forallb (Z.eqb 0) v = true.
  Proof.
    unfold find_stencil_origin. pose proof (find_from_spec (forallb (Z.eqb 0)) s 0) as H.
    destruct (find_from (forallb (Z.eqb 0)) 0 s) as [o|].
    - exists o. split; auto. destruct H as (v & _ & A & B). rewrite Nat.sub_0_r in A. eauto.
    - exfalso. destruct F as (_ & F2 & _). specialize (H _ F2).
      assert (forallb (Z.eqb 0) (repeat 0 (S n)) = true) by (apply zero_forallb; intros; apply nth_repeat). congruence.
  Qed.

  Lemma init_spec : exists es, stencil_init n c s mi = Some es /\ Forall2 entry_ok s es.
  Proof.
    destruct origin_found as (o & Ho & Hv). unfold stencil_init. rewrite Ho.
    rewrite (mesh_nb_cells_spec n c N) by (exists l, (x0 :: yz); apply origin_mem).
    unfold get_index_start. fold l x0 yz.
    destruct (numbered_index n c l _ N origin_mem) as (i & Ei & _). rewrite Ei.
    rewrite (check_ok _ i origin_mem Ei). apply (entries_spec i o Ei Hv). intros k. auto.
  Qed.

  Lemma moved_entry : forall v e k, In v s -> 0 <= k < iend (mi_i mi) - x0 -> entry_ok v e ->
    let e' := move_cell k k e in
    sc_level e' = l /\ sc_coord e' = vadd n (x0 + k :: yz) v /\ ca_get_index n c l (sc_coord e') = Some (sc_index e').
  Proof.
    intros v e k Hv Hk (E1 & E2 & E3) e'. pose proof F as (F1 & F2 & F3 & F4 & F5 & F6).
    unfold e', move_cell. cbn [sc_level sc_coord sc_index]. rewrite E2 in *. rewrite (vadd_cons n x0) in *.
    rewrite vadd_shift. spl; auto. replace (sc_index e + k) with (sc_index e + (x0 + nth 0 v 0 + k - (x0 + nth 0 v 0))) by lia.
    apply (numbered_shift n c l _ (x0 + nth 0 v 0) _ _ N); auto.
    intros y Hy. replace y with (x0 + nth 0 v 0 + (y - x0 - nth 0 v 0)) by lia. rewrite <- (vadd_shift n).
    apply F5; auto. fold x0. lia.
  Qed.
End Iterator.
