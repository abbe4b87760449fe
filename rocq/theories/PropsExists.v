(** Property C86: the masks of the cells that exist in a mesh. *)
From Verif Require Import Base IntervalModel LcaModel LcaSpec ExistsModel PropsLca.
Open Scope Z_scope.

Definition present (cs : list lcl_call) (p : list Z) : Prop := exists c, In c cs /\ added c p.

Lemma set_mask_next : forall done m v, set_mask (done ++ repeat None (S m)) (length done) v = Some ((done ++ [Some v]) ++ repeat None m).
Proof.
  intros done m v. unfold set_mask. replace (Nat.ltb _ _) with true by (symmetry; apply Nat.ltb_lt; rewrite app_length; cbn; lia).
  f_equal. rewrite firstn_app, firstn_all, Nat.sub_diag. cbn [firstn]. rewrite app_nil_r, <- app_assoc. f_equal. cbn [app]. f_equal.
  rewrite skipn_app, skipn_all2 by lia. replace (S (length done) - length done)%nat with 1%nat by lia. reflexivity.
Qed.
Lemma set_mask_full : forall done v, set_mask done (length done) v = None.
Proof. intros. unfold set_mask. rewrite Nat.ltb_irrefl. reflexivity. Qed.

Lemma find_total : forall n level cs p, Forall (call_dim n) cs -> length p = S n -> exists r, find n (client_lca n level cs) p = Some r.
Proof.
  intros n level cs p Hd Hp. destruct (C10_find_iff_present n level cs p Hd Hp) as [A B].
  destruct (find n (client_lca n level cs) p) as [r|] eqn:E; [eauto|]. exfalso.
  assert (N : ~ exists c, In c cs /\ added c p) by (intros H; destruct (A H) as (k & i & F & _); congruence).
  specialize (B N). congruence.
Qed.

Definition found (n : nat) (a : lca) (p : list Z) : bool := match find n a p with Some (Some _) => true | _ => false end.

Lemma mark_found : forall n level cs index i iout out, Forall (call_dim n) cs -> length index = n ->
  mark n (client_lca n level cs) index i iout out = set_mask out iout (found n (client_lca n level cs) (i :: index)).
Proof.
  intros n level cs index i iout out Hd Hi. unfold mark, found. destruct (find_total n level cs (i :: index) Hd) as [r ->]; [cbn; lia|]. destruct r; reflexivity.
Qed.

Lemma mark_all_spec : forall n level cs index stop step, Forall (call_dim n) cs -> length index = n -> 0 < step ->
  forall m fuel i done, i + Z.of_nat m * step = stop -> (m <= fuel)%nat ->
  mark_all fuel n (client_lca n level cs) index stop step i (length done) (done ++ repeat None m) =
  Some (done ++ map (fun k => Some (found n (client_lca n level cs) ((i + Z.of_nat k * step) :: index))) (seq 0 m)).
Proof.
  intros n level cs index stop step Hd Hi Hs. induction m as [|m IH]; intros fuel i done Hm Hf; [cbn [Z.of_nat] in Hm; rewrite Z.mul_0_l in Hm|rewrite Nat2Z.inj_succ, Z.mul_succ_l in Hm].
  - replace (mark_all _ _ _ _ _ _ _ _ _) with (Some (done ++ repeat (@None bool) 0)); [reflexivity|]. destruct fuel; cbn [mark_all]; replace (i <? stop) with false by (symmetry; apply Z.ltb_ge; lia); reflexivity.
  - destruct fuel as [|fuel]; [lia|]. cbn [mark_all]. replace (i <? stop) with true by (symmetry; apply Z.ltb_lt; nia).
    rewrite mark_found, set_mask_next by assumption.
    replace (S (length done)) with (length (done ++ [Some (found n (client_lca n level cs) (i :: index))])) by (rewrite app_length; cbn; lia).
    rewrite IH by lia. f_equal. rewrite <- app_assoc. f_equal. cbn [seq map app]. rewrite Z.add_0_r. f_equal.
    rewrite <- seq_shift, map_map. apply map_ext. intros k. do 3 f_equal. rewrite Nat2Z.inj_succ, Z.mul_succ_l. lia.
Qed.

Lemma mark_all_over : forall n level cs index stop step, Forall (call_dim n) cs -> length index = n -> 0 < step ->
  forall m fuel i done, i + Z.of_nat m * step < stop ->
  mark_all fuel n (client_lca n level cs) index stop step i (length done) (done ++ repeat None m) = None.
Proof.
  intros n level cs index stop step Hd Hi Hs. induction m as [|m IH]; intros fuel i done Hm; [cbn [Z.of_nat] in Hm; rewrite Z.mul_0_l in Hm|rewrite Nat2Z.inj_succ, Z.mul_succ_l in Hm].
  - destruct fuel; cbn [mark_all]; replace (i <? stop) with true by (symmetry; apply Z.ltb_lt; lia); [reflexivity|]. rewrite mark_found by assumption. cbn [repeat]. rewrite app_nil_r, set_mask_full. reflexivity.
  - destruct fuel; cbn [mark_all]; replace (i <? stop) with true by (symmetry; apply Z.ltb_lt; nia); [reflexivity|].
    rewrite mark_found, set_mask_next by assumption.
    replace (S (length done)) with (length (done ++ [Some (found n (client_lca n level cs) (i :: index))])) by (rewrite app_length; cbn; lia).
    apply IH. lia.
Qed.

Lemma found_present : forall n level cs p, Forall (call_dim n) cs -> length p = S n ->
  (present cs p -> found n (client_lca n level cs) p = true) /\ (~ present cs p -> found n (client_lca n level cs) p = false).
Proof.
  intros n level cs p Hd Hp. destruct (C10_find_iff_present n level cs p Hd Hp) as [A B]. unfold found. split; intros H.
  - destruct (A H) as (k & i & -> & _). reflexivity.
  - rewrite (B H). reflexivity.
Qed.

(** MROMesh::exists: if the step divides the size, every entry is written, with whether the cell is in the mesh. *)
Theorem C86_overleaves : forall n level cs itv index m, Forall (call_dim n) cs -> length index = n -> 0 < istep itv -> iend itv = istart itv + Z.of_nat m * istep itv ->
  exists mask, mro_exists n (client_lca n level cs) itv index = Some mask /\ length mask = m /\
  forall k, (k < m)%nat -> (present cs ((istart itv + Z.of_nat k * istep itv) :: index) -> nth_error mask k = Some (Some true)) /\
                           (~ present cs ((istart itv + Z.of_nat k * istep itv) :: index) -> nth_error mask k = Some (Some false)).
Proof.
  intros n level cs itv index m Hd Hi Hs He.
  exists (map (fun k => Some (found n (client_lca n level cs) ((istart itv + Z.of_nat k * istep itv) :: index))) (seq 0 m)). split; [|split].
  - unfold mro_exists, empty_mask. replace ((iend itv - istart itv) / istep itv) with (Z.of_nat m) by (rewrite He; replace (istart itv + Z.of_nat m * istep itv - istart itv) with (Z.of_nat m * istep itv) by lia; symmetry; apply Z.div_mul; lia).
    rewrite Nat2Z.id. apply (mark_all_spec n level cs index (iend itv) (istep itv) Hd Hi Hs m _ _ []); [lia|]. rewrite He. nia.
  - rewrite map_length, seq_length. reflexivity.
  - intros k Hk. assert (E : nth_error (seq 0 m) k = Some k).
    { rewrite (nth_error_nth' _ 0%nat) by (rewrite seq_length; exact Hk). rewrite seq_nth by exact Hk. reflexivity. }
    rewrite (map_nth_error _ k (seq 0 m) E).
    destruct (found_present n level cs ((istart itv + Z.of_nat k * istep itv) :: index) Hd) as [A B]; [cbn; lia|].
    split; intros H; [rewrite (A H)|rewrite (B H)]; reflexivity.
Qed.

(** "MROMesh::exists gives the mask of an interval" is false whenever the step does not divide the
    size, as for the even elements of an interval of odd size: it writes after the end of the mask. *)
Theorem C86_step_refuted : forall n level cs itv index, Forall (call_dim n) cs -> length index = n -> 0 < istep itv -> istart itv < iend itv -> (iend itv - istart itv) mod istep itv <> 0 ->
  mro_exists n (client_lca n level cs) itv index = None.
Proof.
  intros n level cs itv index Hd Hi Hs Hl Hm. unfold mro_exists, empty_mask.
  apply (mark_all_over n level cs index (iend itv) (istep itv) Hd Hi Hs _ _ _ []).
  pose proof (Z.div_mod (iend itv - istart itv) (istep itv) ltac:(lia)) as D. pose proof (Z.mod_pos_bound (iend itv - istart itv) (istep itv) Hs) as Bd.
  rewrite Z2Nat.id by (apply Z.div_pos; lia). lia.
Qed.

(** The even elements and the odd elements of an interval always are such an interval. *)
Theorem C86_even_odd_refuted : forall n level cs i index itv, Forall (call_dim n) cs -> length index = n -> itv = even_elements i \/ itv = odd_elements i -> istart itv < iend itv ->
  mro_exists n (client_lca n level cs) itv index = None.
Proof.
  intros n level cs i index itv Hd Hi He Hl.
  assert (S2 : istep itv = 2) by (destruct He as [-> | ->]; reflexivity).
  apply C86_step_refuted; auto; [lia|]. rewrite S2.
  assert (P : forall x, odd_bit x = true /\ x mod 2 = 1 \/ odd_bit x = false /\ x mod 2 = 0).
  { intros x. unfold odd_bit. rewrite Z.bit0_odd, Zmod_odd. destruct (Z.odd x); auto. }
  destruct He as [-> | ->]; unfold even_elements, odd_elements; cbn [istart iend]; destruct (P (istart i)) as [[-> A]|[-> A]], (P (iend i)) as [[-> B]|[-> B]]; lia.
Qed.

(** "MRMesh::exists gives the mask of an interval" is false for every interval with two positions or
    more: the entry of the first position is right, all the others are not written. *)
Theorem C86_mr_refuted : forall n level cs itv index m, Forall (call_dim n) cs -> length index = n -> 0 < istep itv -> iend itv = istart itv + Z.of_nat (S m) * istep itv ->
  exists mask, mr_exists n (client_lca n level cs) itv index = Some mask /\ length mask = S m /\
  (present cs (istart itv :: index) -> nth_error mask 0 = Some (Some true)) /\ (~ present cs (istart itv :: index) -> nth_error mask 0 = Some (Some false)) /\
  forall k, (1 <= k <= m)%nat -> nth_error mask k = Some None.
Proof.
  intros n level cs itv index m Hd Hi Hs He. exists (Some (found n (client_lca n level cs) (istart itv :: index)) :: repeat None m).
  destruct (found_present n level cs (istart itv :: index) Hd) as [A B]; [cbn; lia|].
  split; [|split; [cbn; rewrite repeat_length; reflexivity|split; [intros H; rewrite (A H); reflexivity|split; [intros H; rewrite (B H); reflexivity|]]]].
  - unfold mr_exists. replace (istart itv <? iend itv) with true by (symmetry; apply Z.ltb_lt; nia). rewrite mark_found by assumption. unfold empty_mask.
    replace ((iend itv - istart itv) / istep itv) with (Z.of_nat (S m)) by (rewrite He; replace (istart itv + Z.of_nat (S m) * istep itv - istart itv) with (Z.of_nat (S m) * istep itv) by lia; symmetry; apply Z.div_mul; lia).
    rewrite Nat2Z.id. apply (set_mask_next []).
  - intros [|k] Hk; [lia|]. cbn [nth_error]. rewrite (nth_error_nth' _ None) by (rewrite repeat_length; lia). f_equal. apply nth_repeat.
Qed.

(** The calls of [ex_calls] with the row 0: cells 0..4 and 8 *)
Example C86_example : Forall (call_dim 1) ex_calls /\
  mro_exists 1 (client_lca 1 0 ex_calls) (mk 3 9) [0] = Some [Some true; Some true; Some false; Some false; Some false; Some true] /\
  mro_exists 1 (client_lca 1 0 ex_calls) (mkI 4 10 2 0) [0] = Some [Some true; Some false; Some true] /\
  mro_exists 1 (client_lca 1 0 ex_calls) (mkI 4 9 2 0) [0] = None /\ even_elements (mk 3 9) = mkI 4 9 2 0 /\
  mr_exists 1 (client_lca 1 0 ex_calls) (mk 3 9) [0] = Some [Some true; None; None; None; None; None] /\
  mr_exists 1 (client_lca 1 0 ex_calls) (mk 3 3) [0] = None.
Proof. split; [apply ex_calls_ok|]. repeat split; vm_compute; reflexivity. Qed.

Print Assumptions C86_overleaves.
Print Assumptions C86_step_refuted.
Print Assumptions C86_even_odd_refuted.
Print Assumptions C86_mr_refuted.
