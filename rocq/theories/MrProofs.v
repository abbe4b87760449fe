(** Proofs for the construction of the ghosts of a multiresolution mesh. *)
From Verif Require Import Base IntervalModel Spec LoiModel LoiProofs IntervalProofs LcaModel LcaSpec GridProofs
  InitProofs SearchProofs IterProofs LcaProofs LcaProofs2 LcaProofs3 RowsProofs CellArrayModel CellArrayProofs
  PropsLca PropsCellArray SubsetModel TreeProofs SubsetSpec SubsetProofs2 PropsSubset StencilModel NumberingProofs
  StencilProofs MeshModel MeshProofs AdaptModel AdaptProofs TagProofs MrModel.
Open Scope Z_scope.

(** Cells at most [w] cells apart in every direction. *)
Definition near (n : nat) (w : Z) (p q : list Z) : Prop := forall k, (k <= n)%nat -> Z.abs (nth k p 0 - nth k q 0) <= w.

(** ** Lists of calls *)
Lemma visited_In : forall calls p, In p (cells_of_calls calls) <-> exists i yz x, In (i, yz) calls /\ in_i i x /\ p = x :: yz.
Proof.
  intros calls p. split.
  - intros H. destruct p as [|x yz].
    + unfold cells_of_calls in H. apply in_flat_map in H as ([i yz] & _ & H). apply in_map_iff in H as (x & H & _). discriminate.
    + apply cells_of_calls_In in H as (i & Hin & Hx). exists i, yz, x. auto.
  - intros (i & yz & x & Hin & Hx & ->). apply cells_of_calls_In. exists i. auto.
Qed.

Definition calls_ok (n : nat) (cs : list lcl_call) : Prop := Forall (call_dim n) cs /\ Forall call_adds cs.
Definition adds (cs : list lcl_call) (p : list Z) : Prop := exists c, In c cs /\ added c p.
Definition valid_calls (n : nat) (calls : list call) : Prop := forall i yz, In (i, yz) calls -> length yz = n /\ istart i < iend i.

Lemma calls_ok_nil : forall n, calls_ok n [].
Proof. split; constructor. Qed.
Lemma calls_ok_app : forall n a b, calls_ok n a -> calls_ok n b -> calls_ok n (a ++ b).
Proof. intros n a b [A1 A2] [B1 B2]. split; apply Forall_app; auto. Qed.
Lemma adds_app : forall a b p, adds (a ++ b) p <-> adds a p \/ adds b p.
Proof.
  intros. unfold adds. split.
  - intros (c & Hc & Ha). apply in_app_iff in Hc as [Hc|Hc]; eauto.
  - intros [(c & Hc & Ha)|(c & Hc & Ha)]; exists c; split; auto; apply in_app_iff; auto.
Qed.
Lemma adds_nil : forall p, ~ adds [] p.
Proof. intros p (c & [] & _). Qed.

(** Calls made from the intervals of a traversal: one cell visited gives the cells
    related to it by [R]. *)
Definition spreads (n : nat) (f : interval -> list Z -> list lcl_call) (R : list Z -> list Z -> Prop) : Prop :=
  forall i yz, length yz = n -> istart i < iend i -> calls_ok n (f i yz) /\
    forall p, length p = S n -> (adds (f i yz) p <-> exists x, in_i i x /\ R (x :: yz) p).

Lemma spread_calls : forall n f R calls, spreads n f R -> valid_calls n calls ->
  calls_ok n (flat_map (fun '(i, yz) => f i yz) calls) /\
  forall p, length p = S n -> (adds (flat_map (fun '(i, yz) => f i yz) calls) p <-> exists q, In q (cells_of_calls calls) /\ R q p).
Proof.
  intros n f R calls S V. split.
  - induction calls as [|[i yz] calls IH]; [apply calls_ok_nil|]. cbn [flat_map]. apply calls_ok_app.
    + destruct (V i yz (or_introl eq_refl)). apply S; auto.
    + apply IH. intros j y Hj. apply V. right. auto.
  - intros p Hp. split.
    + intros (c & Hc & Ha). apply in_flat_map in Hc as ([i yz] & Hin & Hc). destruct (V i yz Hin) as [V1 V2].
      destruct (proj1 (proj2 (S i yz V1 V2) p Hp)) as (x & Hx & HR); [exists c; auto|].
      exists (x :: yz). split; auto. apply visited_In. exists i, yz, x. auto.
    + intros (q & Hq & HR). apply visited_In in Hq as (i & yz & x & Hin & Hx & ->). destruct (V i yz Hin) as [V1 V2].
      destruct (proj2 (proj2 (S i yz V1 V2) p Hp)) as (c & Hc & Ha); [exists x; auto|].
      exists c. split; auto. apply in_flat_map. exists (i, yz). auto.
Qed.

Lemma ghost_spreads : forall n w, 0 <= w -> spreads n (ghost_calls n w) (fun q p => near n w p q).
Proof.
  intros n w Hw i yz Hn Hi. split; [split|].
  - apply Forall_forall. intros c Hc. apply in_map_iff in Hc as (st & <- & Hst). cbn [call_dim]. apply nested_loop_length in Hst.
    rewrite add_yz_length; lia.
  - apply Forall_forall. intros c Hc. apply in_map_iff in Hc as (st & <- & Hst). unfold mk. cbn [call_adds istart iend]. lia.
  - intros p Hp. destruct p as [|x yp]; [discriminate|]. unfold adds. rewrite ghost_call_spec by auto. split.
    + intros ((y & Hy & Hxy) & _ & H). exists y. split; auto. intros [|k] Hk; cbn [nth]; [exact Hxy|apply H; lia].
    + intros (y & Hy & H). split; [exists y; split; auto; apply (H 0%nat); lia|].
      split; [injection Hp; auto|]. intros k Hk. apply (H (S k)). lia.
Qed.

Lemma below_spreads : forall n s k, 0 <= s -> spreads n (below_calls n s (Z.of_nat k)) (fun q p => near n s p (ancestor k q)).
Proof.
  intros n s k Hs i yz Hn Hi. unfold below_calls.
  destruct (ghost_spreads n s Hs (ishr i (Z.of_nat k)) (map (fun y => Z.shiftr y (Z.of_nat k)) yz)) as [G1 G2].
  - rewrite map_length. auto.
  - apply ishr_valid; [lia|auto].
  - split; auto. intros p Hp. rewrite G2 by auto.
    assert (E : map (fun y => Z.shiftr y (Z.of_nat k)) yz = ancestor k yz).
    { unfold ancestor. apply map_ext. intros y. apply Z.shiftr_div_pow2. lia. }
    rewrite E. split.
    + intros (x & Hx & H). apply ishr_spec in Hx as (y & Hy & <-); [|lia|auto]. exists y. auto.
    + intros (y & Hy & H). exists (y / 2 ^ Z.of_nat k). split; auto. apply ishr_spec; [lia|auto|]. exists y. auto.
Qed.

Lemma child_spreads : forall n, spreads n (subdomain_calls n 1) (fun q p => ancestor 1 p = q).
Proof.
  intros n i yz Hn Hi. split; [split|].
  - apply Forall_forall. intros c Hc. apply in_map_iff in Hc as (st & <- & Hst). cbn [call_dim]. apply nested_loop_length in Hst.
    rewrite add_yz_length; rewrite map_length; lia.
  - apply Forall_forall. intros c Hc. apply in_map_iff in Hc as (st & <- & Hst).
    cbn [call_adds ishl istart iend]. rewrite !Z.shiftl_mul_pow2 by lia.
    apply Z.mul_lt_mono_pos_r; auto. apply Z.pow_pos_nonneg; lia.
  - intros p Hp. destruct p as [|x yp]; [discriminate|]. unfold adds. rewrite subdomain_call_spec by auto. split.
    + intros [H ->]. exists (x / 2 ^ Z.of_nat 1). split; auto.
    + intros (y & Hy & E). cbn [ancestor map] in E. injection E as <- <-. auto.
Qed.

Lemma self_spreads : forall n, spreads n (fun i yz => [AddI yz i]) (fun q p => p = q).
Proof.
  intros n i yz Hn Hi. split; [split; repeat constructor; auto|].
  intros p Hp. destruct p as [|x yp]; [discriminate|]. split.
  - intros (c & [<-|[]] & Ha). cbn [added tl nth] in Ha. destruct Ha as [-> Hx]. exists x. auto.
  - intros (y & Hy & E). injection E as -> ->. exists (AddI yz i). split; [left; auto|]. cbn [added tl nth]. auto.
Qed.

(** ** Lists of calls by level *)
Definition list_ok (n : nat) (cl : cell_list) : Prop := forall l, calls_ok n (cl l).

Lemma add_calls_ok : forall n cl level cs, list_ok n cl -> calls_ok n cs -> list_ok n (add_calls cl level cs).
Proof.
  intros n cl level cs H Hc l. unfold add_calls. destruct (Nat.eq_dec l level) as [->|]; [rewrite upd_same; apply calls_ok_app; auto|rewrite upd_other; auto].
Qed.
Lemma add_calls_adds : forall cl level cs l p, adds (add_calls cl level cs l) p <-> adds (cl l) p \/ (l = level /\ adds cs p).
Proof.
  intros. unfold add_calls. destruct (Nat.eq_dec l level) as [->|Hne]; [rewrite upd_same, adds_app; tauto|rewrite upd_other by auto; tauto].
Qed.

Lemma list_lca : forall n cl l, list_ok n cl -> wf n (client_lca n l (cl l)) /\ a_level (client_lca n l (cl l)) = l /\
  forall p, lca_mem n (client_lca n l (cl l)) p <-> length p = S n /\ adds (cl l) p.
Proof.
  intros n cl l H. destruct (H l) as [D A]. split; [apply client_lca_wf; auto; apply adds_filled; auto|].
  split; [apply client_lca_level; auto|]. apply client_lca_mem. auto.
Qed.

(** ** The margin of the leaves *)
Lemma add_ghosts_spec : forall n w calls cl, 0 <= w ->
  (forall l i yz, In (l, (i, yz)) calls -> istart i < iend i /\ length yz = n) -> list_ok n cl ->
  list_ok n (add_ghosts n w calls cl) /\
  forall l p, length p = S n -> (adds (add_ghosts n w calls cl l) p <->
    adds (cl l) p \/ exists i yz x, In (l, (i, yz)) calls /\ in_i i x /\ near n w p (x :: yz)).
Proof.
  intros n w calls. induction calls as [|[level [i yz]] calls IH]; intros cl Hw V H; cbn [add_ghosts].
  - split; auto. intros l p Hp. split; auto. intros [A|(i & yz & x & [] & _)]; auto.
  - destruct (V level i yz (or_introl eq_refl)) as [V1 V2]. destruct (ghost_spreads n w Hw i yz V2 V1) as [G1 G2].
    destruct (IH (add_calls cl level (ghost_calls n w i yz)) Hw) as [I1 I2].
    { intros l j y Hj. apply (V l j y). right. auto. }
    { apply add_calls_ok; auto. }
    split; auto. intros l p Hp. rewrite I2, add_calls_adds, G2 by auto. split.
    + intros [[A|(-> & x & Hx & HR)]|(j & y & x & Hin & Hx & HR)]; auto; right.
      * exists i, yz, x. split; [left; auto|auto].
      * exists j, y, x. split; [right; auto|auto].
    + intros [A|(j & y & x & [E|Hin] & Hx & HR)]; auto.
      * injection E as -> -> ->. left. right. split; auto. exists x. auto.
      * right. exists j, y, x. auto.
Qed.

(** ** The subsets *)
Definition below_max (n : nat) (a : lca) : Prop := forall q k, lca_mem n a q -> (k <= n)%nat -> nth k q 0 + 3 < 2 ^ 31 - 1.

Lemma below_fits : forall n a, below_max n a -> fits n (a_level a) a.
Proof.
  intros n a H q k Hq Hk. replace (Z.max 0 (Z.of_nat (a_level a) - Z.of_nat (a_level a))) with 0 by lia.
  pose proof (H q k Hq Hk). lia.
Qed.

Lemma same_denotes : forall n a l p, a_level a = l -> length p = S n -> (denotes n l p (NMesh a) <-> lca_mem n a p).
Proof.
  intros n a l p <- Hp. rewrite denotes_mesh_fine by auto. rewrite Nat.sub_diag, ancestor_0. tauto.
Qed.

Lemma inter_calls : forall n a b l, wf n a -> wf n b -> a_level a = l -> a_level b = l -> below_max n a -> below_max n b ->
  exists calls, subset_calls n (inter a b) = Some calls /\ valid_calls n calls /\
    forall p, In p (cells_of_calls calls) <-> lca_mem n a p /\ lca_mem n b p.
Proof.
  intros n a b l Wa Wb Ea Eb Ba Bb.
  assert (X : inter a b = on (inter a b) l).
  { unfold inter. rewrite on_make_op. unfold make_op. f_equal.
    unfold common_level. cbn. rewrite Ea, Eb. lia. }
  rewrite X. destruct (inter_spec n a b l Wa Wb) as (calls & E & V & _ & _ & C).
  - rewrite Ea, Eb, Nat.max_id, Nat.min_id, <- Ea. apply below_fits. auto.
  - rewrite Ea, Eb, Nat.max_id, Nat.min_id, <- Eb. apply below_fits. auto.
  - exists calls. split; auto. split; [intros i yz Hin; destruct (V i yz Hin) as (? & ? & _); auto|].
    intros p. rewrite C. split.
    + intros (Hp & Ha & Hb). rewrite same_denotes in Ha, Hb by auto. auto.
    + intros [Ha Hb]. assert (Hp : length p = S n) by apply Ha. rewrite !same_denotes by auto. auto.
Qed.

Lemma uncovered_calls : forall n a b l, wf n a -> wf n b -> a_level a = l -> a_level b = l -> below_max n a -> below_max n b ->
  exists calls, subset_calls n (uncovered a b l) = Some calls /\ valid_calls n calls /\
    forall p, In p (cells_of_calls calls) <-> lca_mem n a p /\ ~ lca_mem n b p.
Proof.
  intros n a b l Wa Wb Ea Eb Ba Bb. unfold uncovered. rewrite on_make_op.
  set (t := Nd Difference (More (Lf (leaf_of (NMesh a))) (One (Lf (leaf_of (NMesh b)))))).
  assert (F : finest t = l) by (unfold finest, t; cbn; rewrite Ea, Eb; lia).
  assert (HO : operands_ok n l t).
  { intros lf Hlf. rewrite F, Nat.min_id. unfold t in Hlf. cbn [tin ain] in Hlf.
    assert (X : Z.max 0 (Z.of_nat l - Z.of_nat l) = 0) by lia.
    destruct Hlf as [->| ->]; cbn [l_node leaf_of]; unfold operand_ok; cbn [simple node_mesh node_vect];
      (split; [exact I|]); (split; [auto|]); intros q k Hq Hk; rewrite ?Ea, ?Eb, X, vadd_nil by apply Hq;
      [pose proof (Ba q k Hq Hk)|pose proof (Bb q k Hq Hk)]; lia. }
  destruct (C18_levels n l t HO) as (calls & E & V & _ & _ & C). exists calls. split; auto. split; auto.
  intros p. split.
  - intros Hin. assert (Hp : length p = S n).
    { apply visited_In in Hin as (i & yz & x & Hin & _ & ->). cbn [length]. f_equal. apply (V i yz Hin). }
    apply C in Hin; auto. unfold expr_mem, t in Hin. cbn in Hin. rewrite !same_denotes in Hin by auto. tauto.
  - intros [Ha Hb]. assert (Hp : length p = S n) by apply Ha. apply C; auto. unfold expr_mem, t. cbn. rewrite !same_denotes by auto. tauto.
Qed.
