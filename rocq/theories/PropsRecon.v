(** The prediction over several levels: properties C72 and C73. *)
From Coq Require Import QArith Qfield.
From Verif Require Import Base IntervalModel MeshProofs AdaptModel AdaptProofs StencilModel NumModel NumProofs NumSpec PolyProofs PropsNum TransferProofs FluxProofs
  ReconModel ReconProofs ReconProofs2.
Open Scope Z_scope.

(** ** C72 *)

(** The states of the static map: whatever was called before, with any order, level and
    indices. *)
Inductive reached : memo -> Prop :=
| reached_nil : reached []
| reached_call : forall v order level idx, reached v -> reached (snd (prediction order level idx v)).

Lemma reached_good : forall v, reached v -> good v.
Proof. intros v H. induction H; [apply good_nil|]. apply memo_good. auto. Qed.

(** The earlier calls do not change the result. *)
Theorem C72_memory : forall v order level idx, reached v -> fst (prediction order level idx v) = fst (prediction order level idx []).
Proof.
  intros v order level idx H. rewrite (proj1 (memo_good level order idx v (reached_good v H))). symmetry. apply memo_good, good_nil.
Qed.

(** The map holds each cell once and stands for the interpolation, level after level and
    direction after direction, with the coefficients of one level. *)
Theorem C72_prediction : forall v order level idx, reached v -> (order <= 5)%nat ->
  NoDup (map fst (fst (prediction order level idx v))) /\
  forall u, (qsum (map (fun '(k, q) => q * u k) (fst (prediction order level idx v))) == iterated order level u idx)%Q.
Proof.
  intros v order level idx H Ho. rewrite (proj1 (memo_good level order idx v (reached_good v H))). split; [apply pure_nodup|].
  intros u. apply (pure_sum order level idx u Ho).
Qed.

(** Sub-cell [ii] of the cell [p], [delta_l] levels finer. *)
Definition subcell (delta_l : nat) (p ii : list Z) : list Z := add_vec (map (Z.mul (2 ^ Z.of_nat delta_l)) p) ii.

Lemma portion_is : forall v order u p delta_l ii, reached v -> (order <= 5)%nat -> length p = length ii ->
  (fst (portion order u p delta_l ii v) == iterated order delta_l u (subcell delta_l p ii))%Q.
Proof.
  intros v order u p delta_l ii H Ho Hl. unfold portion. pose proof (memo_good delta_l order ii v (reached_good v H)) as [E _].
  destruct (prediction order delta_l ii v) as [m v']. cbn [fst] in *. subst m. rewrite pm_value_sum, pure_sum by auto.
  apply iterated_shift. auto.
Qed.

Lemma iterated_same : forall s dl u v p, (forall q, length q = length p -> (u q == v q)%Q) -> (iterated s dl u p == iterated s dl v p)%Q.
Proof. intros. apply iterated_ext. auto. Qed.

Lemma subcell_length : forall dl p ii, length p = length ii -> length (subcell dl p ii) = length ii.
Proof. intros dl p ii H. unfold subcell, add_vec. rewrite map_length, combine_length, map_length. lia. Qed.

(** Exact on the sums of products of polynomials of degree at most [2 order] in each
    direction, given by their means over the cells. *)
Theorem C72_exact : forall v order (terms : list (Q * list (list Q))) h u p delta_l ii, reached v -> (order <= 5)%nat -> length p = length ii -> ~ (h == 0)%Q ->
  (forall c ps, In (c, ps) terms -> length ps = length ii /\ Forall (fun P => length P <= 2 * order + 1)%nat ps) ->
  (forall q, length q = length ii -> (u q == qsum (map (fun '(c, ps) => c * tensor_avg ps h q) terms))%Q) ->
  (fst (portion order u p delta_l ii v) ==
   qsum (map (fun '(c, ps) => c * tensor_avg ps (h / inject_Z (2 ^ Z.of_nat delta_l)) (subcell delta_l p ii)) terms))%Q.
Proof.
  intros v order terms h u p dl ii H Ho Hl Hh Ht Hu. rewrite portion_is by auto.
  rewrite (iterated_ext order dl _ u (fun q => sum_over (fun '(c, ps) => c * tensor_avg ps h q) terms)%Q).
  2: { intros q Hq. apply Hu. rewrite Hq. apply subcell_length. auto. }
  rewrite (iterated_ext _ _ _ _ (fun q => sum_over (fun t => fst t * tensor_avg (snd t) h q) terms)%Q)
    by (intros q _; apply sum_ext; intros [c ps] _; reflexivity).
  rewrite (iterated_sum _ order dl (fun t q => fst t * tensor_avg (snd t) h q)%Q). apply sum_ext. intros [c ps] Hin. cbn [fst snd].
  destruct (Ht c ps Hin) as [H1 H2]. rewrite (iterated_scale order dl (subcell dl p ii) c (tensor_avg ps h)). rewrite iterated_poly; auto; [reflexivity|]. rewrite H1. symmetry. apply subcell_length. auto.
Qed.

(** The mean over the sub-cells of a cell is the value of the cell, whatever was called
    before each of the calls. *)
Theorem C72_mean : forall (vs : list Z -> memo) order u p delta_l, (forall ii, reached (vs ii)) -> (order <= 5)%nat ->
  (qsum (map (fun ii => fst (portion order u p delta_l ii (vs ii))) (block (repeat (0, 2 ^ Z.of_nat delta_l)%Z (length p))))
   == inject_Z (2 ^ Z.of_nat (length p * delta_l)) * u p)%Q.
Proof.
  intros vs order u p dl H Ho.
  set (bl := block _).
  assert (Hlen : forall m q, In q (block (repeat (0, 2 ^ Z.of_nat dl) m)) -> length q = m).
  { induction m as [|m IH]; intros q Hq; cbn [repeat block] in Hq; [destruct Hq as [<-|[]]; auto|].
    apply in_flat_map in Hq as (x & _ & Hq). apply in_map_iff in Hq as (q' & <- & Hq). simpl. auto. }
  transitivity (sum_over (fun ii => iterated order dl (fun q => u (add_vec p q)) ii) bl).
  { apply sum_ext. intros ii Hii. rewrite portion_is; auto; [|symmetry; apply Hlen; exact Hii]. symmetry. apply iterated_shift. symmetry. apply Hlen. exact Hii. }
  replace bl with (block (zoom (2 ^ Z.of_nat dl) (repeat (0, 1) (length p)))).
  - rewrite iterated_mean; auto.
    + rewrite repeat_length. replace (sum_over (fun q => u (add_vec p q)) (block (repeat (0, 1) (length p)))) with (u p + 0)%Q; [ring|].
      replace (block (repeat (0, 1) (length p))) with [repeat 0 (length p)].
      * unfold sum_over. cbn [map qsum fold_right]. replace (add_vec p (repeat 0 (length p))) with p; auto.
        clear. unfold add_vec. induction p as [|x p IH]; cbn [length repeat combine map]; auto. rewrite <- IH. f_equal. lia.
      * generalize (length p). induction n as [|n IH]; auto. cbn [repeat block]. rewrite <- IH. reflexivity.
    + apply Forall_forall. intros [a b] Hin. apply repeat_spec in Hin. injection Hin as -> ->. lia.
  - unfold bl, zoom. f_equal. generalize (length p). induction n as [|n IH]; auto. cbn [repeat map]. rewrite IH. rewrite Z.mul_0_r, Z.mul_1_r. reflexivity.
Qed.

(** The cells that are read are at most [2 order] cells away, however many levels. *)
Theorem C72_reads : forall v order level idx, reached v -> (order <= 5)%nat ->
  forall k, In k (map fst (fst (prediction order level idx v))) ->
  length k = length idx /\ forall d, (d < length idx)%nat -> Z.abs (nth d k 0 - nth d idx 0 / 2 ^ Z.of_nat level) <= 2 * Z.of_nat order.
Proof.
  intros v order level idx H Ho k Hk. rewrite (proj1 (memo_good level order idx v (reached_good v H))) in Hk. apply pure_keys in Hk; auto.
  induction Hk as [|x y idx k Hw Hk IH]; [split; auto; simpl; lia|]. destruct IH as [IH1 IH2]. split; [simpl; auto|].
  intros [|d] Hd; cbn [nth]; [apply window_within; auto; lia|apply IH2; simpl in Hd; lia].
Qed.

(** The bound is reached from two levels on: with order 1, two cells away. *)
Theorem C72_reads_sharp : forall level, (2 <= level)%nat -> In [-2] (map fst (fst (prediction 1 level [0] []))).
Proof.
  intros level H. rewrite (proj1 (memo_good level 1 [0] [] good_nil)).
  assert (S0 : forall l i, map (fun i => Z.shiftr i 1) [i] = [i / 2] /\ (forall m, fold_left (fun m '(cs, q) => if is_centre 1 cs then m else pm_plus m (pm_scale q (pure 1 l (shifted 1 [i / 2] cs)))) (interp_loop 1 [i]) m =
      let g := if Z.odd i then (-1)%Q else 1%Q in
      pm_plus (pm_plus m (pm_scale (g * (1 # 8) * 1)%Q (pure 1 l [i / 2 + -1]))) (pm_scale (- g * (1 # 8) * 1)%Q (pure 1 l [i / 2 + 1])))).
  { intros l i. split; [cbn [map]; rewrite shiftr1; auto|]. intros m. cbv zeta. unfold interp_loop. cbn -[pure pm_plus pm_scale Qmult Qopp Z.div Z.add Z.odd]. reflexivity. }
  assert (K : forall l i k, In k (map fst (pure 1 l [i / 2 + -1])) -> In k (map fst (pure 1 (S l) [i]))).
  { intros l i k Hk. cbn [pure]. destruct (S0 l i) as [E1 E2]. rewrite E1, E2. cbv zeta. rewrite !pm_plus_keys, !pm_scale_keys. auto. }
  assert (B : forall l, In [-2] (map fst (pure 1 l [-2]))).
  { induction l as [|l IH]; [left; auto|]. apply (K _ (-2)). exact IH. }
  destruct level as [|[|l]]; try lia. apply K. apply (K _ (-1)). apply B.
Qed.

(** In one dimension this is what the prediction operator ([prediction_op_], used for the
    ghosts and the adaptation) gives level after level. *)
Theorem C72_operator : forall v order (w : nat -> field) p delta_l ii, reached v -> (order <= 5)%nat ->
  (forall l x, (l < delta_l)%nat -> exists q, is_predicted order (w l) x [] q /\ (q == w (S l) x [])%Q) ->
  (fst (portion order (fun q => w O (hd 0%Z q) []) [p] delta_l [ii] v) == w delta_l (2 ^ Z.of_nat delta_l * p + ii)%Z [])%Q.
Proof.
  intros v order w p dl ii H Ho Hw. rewrite portion_is by auto. unfold subcell, add_vec. cbn [map combine].
  generalize (2 ^ Z.of_nat dl * p + ii). clear p ii H. induction dl as [|dl IH]; intros x; cbn [iterated]; [reflexivity|].
  rewrite (interpolated_ext order [x] _ (fun q => w dl (hd 0%Z q) [])).
  2: { intros [|y [|z q]] Hq; try discriminate. apply IH. intros l y' Hl. apply Hw. lia. }
  destruct (Hw dl x (Nat.lt_succ_diag_r _)) as (q & (ws & E & Hin) & Eq). rewrite <- Eq.
  cbn [interpolated]. cbv zeta. cbn [hd]. rewrite (interp_child order (fun y => w dl y []) x Ho).
  rewrite <- (child1_of order (w dl) (Z.odd x) (x / 2) Ho).
  cbn [ancestor map] in E. rewrite prediction_true_spec in E by reflexivity. apply Some_inv in E. subst ws.
  apply in_flat_map in Hin as (par & Hpar & Hin). apply parities_In in Hpar. destruct par as [|b [|]]; try discriminate.
  rewrite strided_one in Hin. destruct Hin as [Hin|[]]. apply triple_inv in Hin as (E1 & _ & <-). unfold finer in E1. cbn [hd] in E1.
  replace (Z.odd x) with b; [reflexivity|]. rewrite <- E1. unfold bz. rewrite Z.odd_add, Z.odd_mul. destruct b; auto.
Qed.

Example C72_operator_case : forall l x, exists q, is_predicted 1 (fun x _ => inject_Z x / inject_Z (2 ^ Z.of_nat l) + (1 # 2) / inject_Z (2 ^ Z.of_nat l))%Q x [] q /\
  (q == inject_Z x / inject_Z (2 ^ Z.of_nat (S l)) + (1 # 2) / inject_Z (2 ^ Z.of_nat (S l)))%Q.
Proof.
  intros l x. pose proof (pow2_nz l) as Hp. unfold is_predicted. cbn [ancestor map].
  exists (pred_cell signs_true 1 (fun x _ => inject_Z x / inject_Z (2 ^ Z.of_nat l) + (1 # 2) / inject_Z (2 ^ Z.of_nat l))%Q [Z.odd x] (x / 2) []). split.
  - rewrite prediction_true_spec by reflexivity. eexists. split; [reflexivity|]. apply in_flat_map. exists [Z.odd x]. split; [apply parities_In; auto|].
    rewrite strided_one. left. unfold finer. cbn [hd]. rewrite odd_half. reflexivity.
  - assert (Ex : (inject_Z x == 2 * inject_Z (x / 2) + inject_Z (bz (Z.odd x)))%Q) by (rewrite <- (odd_half x) at 1; rewrite inject_Z_plus, inject_Z_mult; reflexivity).
    rewrite Nat2Z.inj_succ, Z.pow_succ_r, inject_Z_mult by lia. rewrite Ex.
    destruct (Z.odd x); cbn -[Qplus Qmult Qminus Qopp Qeq Qdiv Z.add Z.div inject_Z Z.pow]; rewrite ?inject_Z_plus; change (inject_Z 2) with 2%Q;
      change (inject_Z 1) with 1%Q; change (inject_Z 0) with 0%Q; change (inject_Z (-1)) with (-1)%Q; field; auto.
Qed.

(** Not in two dimensions: already for one level the operator and the map differ (the
    operator has the opposite sign for the cross term, see C38). *)
Theorem C72_operator_refuted : exists u q, is_predicted 1 u 0 [0] q /\
  ~ (q == fst (portion 1 (fun p => match p with [x; y] => u x [y] | _ => 0 end) [0; 0]%Z 1 [0; 0]%Z []))%Q.
Proof.
  exists (fun x yz => match yz with [y] => inject_Z (x * y) | _ => 0%Q end). eexists. split.
  - unfold is_predicted. eexists. split; [vm_compute; reflexivity|]. left. reflexivity.
  - vm_compute. congruence.
Qed.

(** A run of calls, and an exact case in two dimensions: x^2 y over three levels. *)
Example C72_reached : reached (snd (prediction 1 3 [5; 2] (snd (prediction 2 2 [1] (snd (prediction 1 2 [3; 3] [])))))).
Proof. repeat constructor. Qed.
Example C72_example : let u := fun q : list Z => (2 * tensor_avg [[0; 0; 1]; [0; 1]] 1 q)%Q in
  (fst (portion 1 u [2; -1]%Z 3 [5; 2]%Z (snd (prediction 1 2 [3; 3]%Z []))) == 2 * tensor_avg [[0; 0; 1]; [0; 1]] (1 # 8) [21; -6]%Z)%Q /\
  ~ (fst (portion 1 u [2; -1]%Z 3 [5; 2]%Z []) == u [2; -1]%Z)%Q.
Proof. vm_compute. split; [reflexivity|congruence]. Qed.

(** ** C73 *)

(** The states of the two static maps when the calls with intervals use, on each level,
    the number of levels [d level] only. *)
Inductive reached_sums (d : nat -> nat) : sums * memo -> Prop :=
| sums_nil : reached_sums d ([], [])
| sums_call : forall st order level u p ii, reached_sums d st -> reached_sums d (snd (portion_block order level u p (d level) ii st))
| sums_other : forall s v order level idx, reached_sums d (s, v) -> reached_sums d (s, snd (prediction order level idx v)).

Definition pure_block (order dl : nat) (ii : list (list Z)) (m : pmap) : pmap := fold_left (fun m i => pm_plus m (pure order dl i)) ii m.
Definition good_sums (d : nat -> nat) (s : sums) : Prop :=
  forall o l ii m, sums_find (o, l, ii) s = Some m -> m = pure_block o (d l) (block ii) [].

Lemma zpairs_eqb_eq : forall a b, zpairs_eqb a b = true <-> a = b.
Proof.
  induction a as [|[x x'] a IH]; intros [|[y y'] b]; cbn [zpairs_eqb]; split; intros H; auto; try discriminate.
  - apply andb_true_iff in H as [H H2]. apply andb_true_iff in H as [H H1]. apply Z.eqb_eq in H, H1. apply IH in H2. congruence.
  - injection H as -> -> ->. rewrite !Z.eqb_refl. apply IH. auto.
Qed.

Lemma fill_block : forall o dl ii m v, good v ->
  let r := fold_left (fun '(m, values) i => let '(p, values) := prediction o dl i values in (pm_plus m p, values)) ii (m, v) in
  fst r = pure_block o dl ii m /\ good (snd r).
Proof.
  intros o dl. induction ii as [|i ii IH]; intros m v G; cbn [fold_left]; cbv zeta; [cbn [fst snd]; auto|].
  destruct (memo_good dl o i v G) as [E G']. destruct (prediction o dl i v) as [p v']. cbn [fst snd] in *. subst p.
  apply (IH (pm_plus m (pure o dl i)) v' G').
Qed.

Lemma block_call : forall d st o l u p ii, good_sums d (fst st) -> good (snd st) ->
  fst (portion_block o l u p (d l) ii st) = pm_value (pure_block o (d l) (block ii) []) u p /\
  good_sums d (fst (snd (portion_block o l u p (d l) ii st))) /\ good (snd (snd (portion_block o l u p (d l) ii st))).
Proof.
  intros d [s v] o l u p ii G1 G2. cbn [fst snd] in *. unfold portion_block. destruct (sums_find (o, l, ii) s) as [m|] eqn:F.
  - cbn [fst snd]. rewrite (G1 _ _ _ _ F). auto.
  - destruct (fill_block o (d l) (block ii) [] v G2) as [E G3]. destruct (fold_left _ _ _) as [m v']. cbn [fst snd] in *. subst m. split; auto. split; auto.
    intros o' l' ii' m' F'. cbn [sums_find] in F'. destruct (sums_eqb (o', l', ii') (o, l, ii)) eqn:E; [|apply (G1 _ _ _ _ F')].
    unfold sums_eqb in E. rewrite !andb_true_iff, !Nat.eqb_eq, zpairs_eqb_eq in E. destruct E as [[-> ->] ->]. congruence.
Qed.

Lemma reached_sums_good : forall d st, reached_sums d st -> good_sums d (fst st) /\ good (snd st).
Proof.
  intros d st H. induction H as [|st o l u p ii H [IH1 IH2]|s v o l idx H [IH1 IH2]].
  - split; [intros o l ii m F; discriminate|apply good_nil].
  - apply block_call; auto.
  - cbn [fst snd] in *. split; auto. apply memo_good. auto.
Qed.

(** The result is the sum of the interpolated values over the sub-cells of the block. *)
Theorem C73_portion_block : forall d st order level u p ii, reached_sums d st -> (order <= 5)%nat -> length p = length ii ->
  (fst (portion_block order level u p (d level) ii st) == qsum (map (fun i => iterated order (d level) u (subcell (d level) p i)) (block ii)))%Q.
Proof.
  intros d st order level u p ii H Ho Hl. destruct (reached_sums_good d st H) as [G1 G2].
  destruct (block_call d st order level u p ii G1 G2) as [E _]. rewrite E, pm_value_sum.
  assert (L : forall l m, (forall i, In i l -> length i = length p) -> (pm_sum (pure_block order (d level) l m) (fun k => u (add_vec p k)) ==
    pm_sum m (fun k => u (add_vec p k)) + qsum (map (fun i => iterated order (d level) u (subcell (d level) p i)) l))%Q).
  { induction l as [|i l IH]; intros m Hi; cbn [pure_block fold_left map qsum fold_right]; [ring|]. fold (pure_block order (d level) l (pm_plus m (pure order (d level) i))).
    rewrite IH by (intros; apply Hi; right; auto). rewrite pm_sum_plus, pure_sum by auto. rewrite iterated_shift by (symmetry; apply Hi; left; auto).
    fold (subcell (d level) p i). fold qsum. unfold qsum. ring. }
  rewrite L; [unfold pm_sum; rewrite sum_nil; ring|].
  rewrite Hl. clear. induction ii as [|[a b] ii IH]; intros i Hi; cbn [block] in Hi; [destruct Hi as [<-|[]]; auto|].
  apply in_flat_map in Hi as (x & _ & Hi). apply in_map_iff in Hi as (q & <- & Hq). simpl. auto.
Qed.

(** The number of levels is not part of the key: a second call on the same level and the
    same block with another number of levels gets the sum of the first one. *)
Theorem C73_other_levels_refuted : forall order level u p ii d1 d2 st, (exists m, sums_find (order, level, ii) (fst st) = Some m) ->
  portion_block order level u p d1 ii st = portion_block order level u p d2 ii st.
Proof. intros order level u p ii d1 d2 [s v] [m F]. cbn [fst] in F. unfold portion_block. rewrite F. reflexivity. Qed.

(** The block of the sub-cells 0 and 1 of the cell 5 of a linear field, two levels finer:
    19/2 in the first call, but 10 (the sum over the block one level finer) after a call
    with one level. *)
Theorem C73_refuted : let u : list Z -> Q := fun q => inject_Z (hd 0%Z q) in
  let st := snd (portion_block 1 3 u [5]%Z 1 [(0, 2)]%Z ([], [])) in
  reached_sums (fun _ => 1%nat) st /\
  (fst (portion_block 1 3 u [5]%Z 2 [(0, 2)]%Z ([], [])) == 19 # 2)%Q /\ (fst (portion_block 1 3 u [5]%Z 2 [(0, 2)]%Z st) == 10)%Q.
Proof.
  cbv zeta. split; [apply (sums_call (fun _ => 1%nat) ([], []) 1 3); constructor|]. vm_compute. auto.
Qed.

Example C73_example : let u : list Z -> Q := fun q => inject_Z (hd 0%Z q * hd 0%Z (tl q)) in
  let st := snd (portion_block 1 3 u [5; 1]%Z 2 [(0, 2); (1, 4)]%Z ([], [])) in
  reached_sums (fun l => (5 - l)%nat) st /\ (fst (portion_block 1 3 u [7; 2]%Z 2 [(0, 2); (1, 4)]%Z st) == 1377 # 16)%Q.
Proof. cbv zeta. split; [apply (sums_call (fun l => (5 - l)%nat) ([], []) 1 3); constructor|]. vm_compute. reflexivity. Qed.

Print Assumptions C72_memory.
Print Assumptions C72_prediction.
Print Assumptions C72_exact.
Print Assumptions C72_mean.
Print Assumptions C72_reads.
Print Assumptions C72_reads_sharp.
Print Assumptions C72_operator.
Print Assumptions C72_operator_refuted.
Print Assumptions C73_portion_block.
Print Assumptions C73_other_levels_refuted.
Print Assumptions C73_refuted.
