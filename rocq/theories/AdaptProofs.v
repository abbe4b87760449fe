(** Lemmas on the adaptation of meshes. *)
From Coq Require Import QArith.
From Verif Require Import Base IntervalModel Spec LoiModel LcaModel LcaSpec IterProofs LcaProofs LcaProofs2 LcaProofs3 RowsProofs
  CellArrayModel CellArrayProofs PropsLca PropsCellArray SubsetModel TreeProofs ScanProofs LeafProofs SubsetProofs SubsetSpec SubsetProofs2
  PropsSubset StencilProofs MeshModel MeshProofs NumModel NumProofs AdaptModel.
Open Scope Z_scope.
Ltac Zify.zify_post_hook ::= Z.div_mod_to_equations.

(** ** Calls of a CellArray traversal, level by level *)
Lemma concat_opt_In : forall A (l : list (option (list A))) r x, concat_opt l = Some r ->
  (In x r <-> exists y, In (Some y) l /\ In x y).
Proof.
  induction l as [|[y|] l IH]; intros r x H; cbn [concat_opt] in H; try discriminate.
  - injection H as <-. split; [intros []|intros (y & [] & _)].
  - destruct (concat_opt l) as [r'|] eqn:E; [|discriminate]. injection H as <-. rewrite in_app_iff, (IH r' x eq_refl). split.
    + intros [H|(z & Hz & H)]; [exists y|exists z]; simpl; auto.
    + intros (z & [Hz|Hz] & H); [injection Hz as ->; auto|right; eauto].
Qed.

Lemma ca_calls_level : forall n c calls l i yz, ca_for_each_interval n c = Some calls -> In (l, (i, yz)) calls ->
  In l (levels c) /\ exists cl, for_each_interval n (c_at c l) = Some cl /\ In (i, yz) cl.
Proof.
  intros n c calls l i yz H Hin. unfold ca_for_each_interval in H. rewrite (concat_opt_In _ _ _ _ H) in Hin.
  destruct Hin as (y & Hy & Hin). apply in_map_iff in Hy as (l' & E & Hl').
  destruct (for_each_interval n (c_at c l')) as [cl|] eqn:F; [|discriminate]. cbn [option_map] in E. injection E as <-.
  apply in_map_iff in Hin as ([i' yz'] & E & Hin). injection E as -> -> ->. split; auto. exists cl. auto.
Qed.

Lemma ca_call_index : forall n c calls l i yz x, ca_wf n c -> ca_for_each_interval n c = Some calls -> In (l, (i, yz)) calls ->
  in_i i x -> ca_get_index n c l (x :: yz) = Some (iindex i + x).
Proof.
  intros n c calls l i yz x W H Hin Hx. destruct (ca_calls_level n c calls l i yz H Hin) as (Hl & cl & F & Hc).
  destruct (levels_spec c) as (_ & S2 & _). unfold ca_get_index, get_index.
  destruct (proj2 (get_interval_spec n (c_at c l) cl x yz i (W l (S2 l Hl)) F) (conj Hc Hx)) as [E _]. rewrite E. reflexivity.
Qed.

(** ** The flags *)
Lemma land_pow2 : forall t k, 0 <= k -> negb (Z.land t (2 ^ k) =? 0) = Z.testbit t k.
Proof.
  intros t k Hk. assert (E : Z.land t (2 ^ k) = if Z.testbit t k then 2 ^ k else 0).
  { apply Z.bits_inj'. intros j Hj. rewrite Z.land_spec, Z.pow2_bits_eqb by auto. destruct (Z.eqb_spec k j) as [->|H].
    - destruct (Z.testbit t j); [rewrite Z.pow2_bits_true by auto|rewrite Z.bits_0]; auto.
    - rewrite andb_false_r. destruct (Z.testbit t k); [rewrite Z.pow2_bits_false by auto|rewrite Z.bits_0]; auto. }
  rewrite E. destruct (Z.testbit t k).
  - pose proof (Z.pow_pos_nonneg 2 k ltac:(lia) Hk). destruct (Z.eqb_spec (2 ^ k) 0); simpl; lia.
  - reflexivity.
Qed.
Lemma has_keep : forall t, has flag_keep t = Z.testbit t 0.
Proof. intros. apply (land_pow2 t 0). lia. Qed.
Lemma has_coarsen : forall t, has flag_coarsen t = Z.testbit t 1.
Proof. intros. apply (land_pow2 t 1). lia. Qed.
Lemma has_refine : forall t, has flag_refine t = Z.testbit t 2.
Proof. intros. apply (land_pow2 t 2). lia. Qed.

(** ** What happens to one leaf *)
Inductive action := Refine | Stay | Coarsen | Drop.
Definition act (minl maxl level : nat) (t : Z) : action :=
  if Z.testbit t 2 then if Nat.ltb level maxl then Refine else Stay
  else if Z.testbit t 0 then Stay
  else if Z.testbit t 1 then if Nat.ltb minl level then Coarsen else Stay
  else Drop.
(** Cell [p] of level [l] comes from the leaf [q] of level [l0]. *)
Definition moves (a : action) (l0 : nat) (q : list Z) (l : nat) (p : list Z) : Prop :=
  match a with
  | Refine => l = S l0 /\ ancestor 1 p = q
  | Stay => l = l0 /\ p = q
  | Coarsen => S l = l0 /\ p = ancestor 1 q
  | Drop => False
  end.

Lemma ancestor_cons : forall k x yz, ancestor k (x :: yz) = x / 2 ^ Z.of_nat k :: ancestor k yz.
Proof. reflexivity. Qed.

Lemma double_ancestor : forall yz p, length p = length yz ->
  (ancestor 1 p = yz <-> exists st, length st = length yz /\ Forall (fun x => 0 <= x < 2) st /\ p = add_yz (map (Z.mul 2) yz) st).
Proof.
  unfold ancestor, add_yz. change (2 ^ Z.of_nat 1) with 2.
  induction yz as [|y yz IH]; intros [|x p] H; try discriminate.
  - split; auto. intros _. exists []. auto.
  - cbn [length] in H. cbn [map combine]. split.
    + intros E. injection E as E1 E2. destruct (proj1 (IH p ltac:(lia)) E2) as (st & L & F & E).
      exists (x - 2 * y :: st). cbn [length combine map]. spl; [lia|constructor; [lia|auto]|]. cbv beta iota. f_equal. { ring. } auto.
    + intros ([|s st] & L & F & E); [discriminate|]. cbn [combine map] in E. injection E as E1 E2. change (x = 2 * y + s) in E1. pose proof (Forall_inv F) as F1. apply Forall_inv_tail in F. cbv beta in F1. f_equal; [lia|].
      apply IH; [cbn [length] in *; lia|]. exists st. cbn [length] in L. auto.
Qed.

Lemma tag_body_spec : forall n minl maxl level yz x t l p, length yz = n -> length p = S n ->
  ((exists c, In (l, c) (tag_body n minl maxl level yz x t) /\ added c p) <->
   moves (act minl maxl level t) level (x :: yz) l p).
Proof.
  intros n minl maxl level yz x t l p Hn Hp. unfold tag_body, act. rewrite has_keep, has_coarsen, has_refine.
  assert (ST : (exists c, In (l, c) [(level, AddP yz x)] /\ added c p) <-> l = level /\ p = x :: yz).
  { split.
    - intros (c & [H|[]] & Ha). injection H as <- <-. cbn [added] in Ha. auto.
    - intros (-> & ->). exists (AddP yz x). split; [left; auto|reflexivity]. }
  destruct (Z.testbit t 2).
  - destruct (Nat.ltb level maxl); [|exact ST]. cbn [moves]. split.
    + intros (c & Hc & Ha). apply in_map_iff in Hc as (st & E & Hst). apply pair_equal_spec in E as [<- <-].
      apply nested_loop_In in Hst as [L F]. cbn [added] in Ha. unfold in_i, mk in Ha. cbn [istart iend] in Ha. destruct Ha as [Et Ha].
      destruct p as [|a p]; [discriminate|].
      cbn [tl nth] in *. subst p. split; auto.
      rewrite ancestor_cons. change (2 ^ Z.of_nat 1) with 2. f_equal; [lia|]. apply double_ancestor.
        { rewrite add_yz_length; rewrite map_length; lia. }
        exists st. spl; auto. lia.
    + intros (-> & E). destruct p as [|a p]; [discriminate|]. rewrite ancestor_cons in E. injection E as E1 E2.
      change (2 ^ 1) with 2 in E1. cbn [length] in Hp. destruct (proj1 (double_ancestor yz p ltac:(lia)) E2) as (st & L & F & E).
      exists (AddI (add_yz (map (Z.mul 2) yz) st) (mk (2 * x) (2 * x + 2))). split.
      * apply in_map_iff. exists st. split; auto. apply nested_loop_In. split; auto; lia.
      * cbn [added tl nth]. split; auto. unfold in_i, mk. cbn [istart iend]. lia.
  - destruct (Z.testbit t 0); [exact ST|]. destruct (Z.testbit t 1).
    + destruct (Nat.ltb_spec minl level); [|exact ST]. cbn [moves]. split.
      * intros (c & [Hc|[]] & Ha). injection Hc as <- <-. cbn [added] in Ha. subst p. split; [lia|].
        rewrite ancestor_cons. unfold ancestor. rewrite Z.shiftr_div_pow2 by lia. f_equal. apply map_ext. intros. apply Z.shiftr_div_pow2. lia.
      * intros (E & ->). exists (AddP (map (fun y => Z.shiftr y 1) yz) (Z.shiftr x 1)). split.
        -- left. f_equal. lia.
        -- cbn [added]. rewrite ancestor_cons. unfold ancestor. rewrite Z.shiftr_div_pow2 by lia. f_equal. apply map_ext. intros. rewrite Z.shiftr_div_pow2; [reflexivity|lia].
    + cbn [moves]. split; [intros (c & [] & _)|tauto].
Qed.

Lemma tag_loop_spec : forall n minl maxl level tag yz k x itag c,
  In c (tag_loop n minl maxl level tag yz k x itag) <->
  exists j, 0 <= j < Z.of_nat k /\ In c (tag_body n minl maxl level yz (x + j) (tag (itag + j))).
Proof.
  induction k as [|k IH]; intros x itag c; cbn [tag_loop].
  - split; [intros []|intros (j & Hj & _); lia].
  - rewrite in_app_iff, IH. split.
    + intros [H|(j & Hj & H)]; [exists 0; rewrite !Z.add_0_r; split; [lia|auto]|].
      exists (j + 1). split; [lia|]. rewrite (Z.add_comm j 1), !Z.add_assoc. auto.
    + intros (j & Hj & H). destruct (Z.eq_dec j 0) as [->|Hne]; [left; rewrite !Z.add_0_r in H; auto|].
      right. exists (j - 1). split; [lia|]. replace (x + 1 + (j - 1)) with (x + j) by lia. replace (itag + 1 + (j - 1)) with (itag + j) by lia. auto.
Qed.

Lemma act_level : forall minl maxl l0 t q l p, moves (act minl maxl l0 t) l0 q l p -> (l <= l0 \/ l <= maxl)%nat.
Proof.
  intros minl maxl l0 t q l p. unfold act.
  destruct (Z.testbit t 2), (Z.testbit t 0), (Z.testbit t 1), (Nat.ltb_spec l0 maxl), (Nat.ltb_spec minl l0); cbn [moves]; lia.
Qed.

Lemma tag_body_calls : forall n minl maxl level yz x t l c, length yz = n -> In (l, c) (tag_body n minl maxl level yz x t) ->
  call_dim n c /\ call_adds c /\ (l <= level \/ l <= maxl)%nat /\ call_fields (fun st _ => st = 1) c.
Proof.
  intros n minl maxl level yz x t l c Hn. unfold tag_body.
  assert (P : In (l, c) [(level, AddP yz x)] -> call_dim n c /\ call_adds c /\ (l <= level \/ l <= maxl)%nat /\ call_fields (fun st _ => st = 1) c).
  { intros [H|[]]. apply pair_equal_spec in H as [<- <-]. cbn [call_dim call_adds call_fields]. auto. }
  destruct (has flag_refine t); [destruct (Nat.ltb_spec level maxl); auto|].
  - intros H'. apply in_map_iff in H' as (st & E & Hst). apply pair_equal_spec in E as [<- <-]. apply nested_loop_length in Hst.
    cbn [call_dim call_adds call_fields]. unfold mk. cbn [istart iend istep]. spl; [rewrite add_yz_length; rewrite map_length; lia|lia|lia|lia].
  - destruct (has flag_keep t); auto. destruct (has flag_coarsen t); [|intros []]. destruct (Nat.ltb_spec minl level); auto.
    intros [E|[]]. apply pair_equal_spec in E as [<- <-]. cbn [call_dim call_adds call_fields]. rewrite map_length. spl; auto. lia.
Qed.

Theorem tag_calls_spec : forall n minl maxl cells tag, ca_wf n cells -> (maxl <= c_max cells)%nat ->
  exists cs, tag_calls n minl maxl cells tag = Some cs /\
    forallb (fun '(l, _) => Nat.leb l (c_max cells)) cs = true /\ good_hist n (c_max cells) (hist_of cs) /\
    (forall l, Forall (call_fields (fun st _ => st = 1)) (hist_of cs l)) /\
    forall l p, client_cell n (c_max cells) (hist_of cs) l p <->
      exists l0 q k, ca_mem n cells l0 q /\ ca_get_index n cells l0 q = Some k /\ length p = S n /\
        moves (act minl maxl l0 (tag k)) l0 q l p.
Proof.
  intros n minl maxl cells tag W Hm. unfold tag_calls.
  destruct (ca_calls_spec n cells W) as (calls & E & V & M). rewrite E.
  set (f := fun x : nat * (interval * list Z) => let (level, y) := x in let (i, yz) := y in
    tag_loop n minl maxl level tag yz (Z.to_nat (iend i - istart i)) (istart i) (istart i + iindex i)).
  set (cs := flat_map f calls).
  assert (IN : forall l c, In (l, c) cs <-> exists l0 i yz x, In (l0, (i, yz)) calls /\ in_i i x /\
    In (l, c) (tag_body n minl maxl l0 yz x (tag (iindex i + x)))).
  { intros l c. unfold cs. rewrite in_flat_map. split.
    - intros ([l0 [i yz]] & Hin & Hc). cbn [f] in Hc. apply tag_loop_spec in Hc as (j & Hj & Hc).
      destruct (V _ _ _ Hin) as [V1 _]. exists l0, i, yz, (istart i + j). spl; auto.
      + unfold in_i. lia.
      + replace (iindex i + (istart i + j)) with (istart i + iindex i + j) by lia. auto.
    - intros (l0 & i & yz & x & Hin & Hx & Hc). exists (l0, (i, yz)). split; auto. cbn [f]. apply tag_loop_spec.
      unfold in_i in Hx. exists (x - istart i). split; [lia|].
      replace (istart i + (x - istart i)) with x by lia. replace (istart i + iindex i + (x - istart i)) with (iindex i + x) by lia. auto. }
  assert (LV : forall l0 i yz, In (l0, (i, yz)) calls -> (l0 <= c_max cells)%nat).
  { intros l0 i yz Hin. destruct (V _ _ _ Hin) as [V1 _].
    assert (ca_mem n cells l0 (istart i :: yz)) as [H _] by (apply M; exists i; split; auto; unfold in_i; lia). auto. }
  assert (CS : forall l c, In (l, c) cs -> call_dim n c /\ call_adds c /\ (l <= c_max cells)%nat /\ call_fields (fun st _ => st = 1) c).
  { intros l c H. apply IN in H as (l0 & i & yz & x & Hin & Hx & Hc). pose proof (LV _ _ _ Hin). destruct (V _ _ _ Hin) as [_ V2].
    destruct (tag_body_calls _ _ _ _ _ _ _ _ _ V2 Hc) as (D & A & Hl & F1). spl; auto. lia. }
  assert (FB : forallb (fun '(l, _) => Nat.leb l (c_max cells)) cs = true).
  { apply forallb_forall. intros [l c] H. apply Nat.leb_le. apply (CS l c H). }
  assert (HI : forall l c, In c (hist_of cs l) <-> In (l, c) cs).
  { intros l c. unfold hist_of. rewrite in_map_iff. split.
    - intros ([l' c'] & <- & H). apply filter_In in H as [H1 H2]. apply Nat.eqb_eq in H2. subst. auto.
    - intros H. exists (l, c). split; auto. apply filter_In. split; auto. apply Nat.eqb_refl. }
  assert (G : good_hist n (c_max cells) (hist_of cs)).
  { intros l Hl. split; [|apply adds_filled]; apply Forall_forall; intros c Hc; apply HI in Hc; apply (CS l c Hc). }
  exists cs. spl; auto.
  - intros l. apply Forall_forall. intros c Hc. apply HI in Hc. apply (CS l c Hc).
  - intros l p. unfold client_cell. split.
    + intros (Hl & Hp & c & Hc & Ha). apply HI, IN in Hc as (l0 & i & yz & x & Hin & Hx & Hc).
      exists l0, (x :: yz), (iindex i + x). spl; auto.
      * apply M. eauto.
      * apply (ca_call_index n cells calls l0 i yz x W E Hin Hx).
      * apply (tag_body_spec n minl maxl l0 yz x _ l p); auto; [apply (V _ _ _ Hin)|]. eauto.
    + intros (l0 & q & k & Hq & Hk & Hp & Hmv). destruct q as [|x yz]; [destruct Hq as [_ [Hq _]]; discriminate|].
      destruct (proj1 (M l0 x yz) Hq) as (i & Hin & Hx). rewrite (ca_call_index n cells calls l0 i yz x W E Hin Hx) in Hk. injection Hk as <-.
      destruct (proj2 (tag_body_spec n minl maxl l0 yz x (tag (iindex i + x)) l p (proj2 (V _ _ _ Hin)) Hp) Hmv) as (c & Hc & Ha).
      assert (In (l, c) cs) by (apply IN; exists l0, i, yz, x; auto).
      spl; auto; [apply (CS l c H)|]. exists c. split; auto. apply HI. auto.
Qed.

Theorem update_cells_spec : forall n minl maxl cells tag, ca_wf n cells -> (maxl <= c_max cells)%nat ->
  exists new, update_cells n minl maxl cells tag = Some new /\ c_max new = c_max cells /\ ca_wf n new /\
    (forall l, (l <= c_max cells)%nat -> a_level (c_at new l) = l) /\
    forall l p, ca_mem n new l p <->
      exists l0 q k, ca_mem n cells l0 q /\ ca_get_index n cells l0 q = Some k /\ length p = S n /\
        moves (act minl maxl l0 (tag k)) l0 q l p.
Proof.
  intros n minl maxl cells tag W Hm. destruct (tag_calls_spec n minl maxl cells tag W Hm) as (cs & E & FB & G & _ & M).
  unfold update_cells. rewrite E, FB. eexists. split; [reflexivity|].
  change (ca_of_cl n (c_max cells) (cl_run n (hist_of cs)) false) with (client_ca n (c_max cells) (hist_of cs) false). spl; auto.
  - apply raw_wf; auto.
  - intros l Hl. apply client_lca_level; apply G; auto.
  - intros l p. rewrite raw_mem by auto. apply M.
Qed.

(** ** Covering: one leaf above every point *)
Lemma descend : forall k p, exists z, length z = length p /\ ancestor k z = p.
Proof.
  intros k p. exists (map (fun x => x * 2 ^ Z.of_nat k) p). split; [apply map_length|].
  unfold ancestor. rewrite map_map. rewrite <- (map_id p) at 2. apply map_ext. intros x. apply Z.div_mul. apply Z.pow_nonzero; lia.
Qed.

Section Cover.
  Context (n : nat) (old new : nat -> list Z -> Prop) (A : nat -> list Z -> action) (K : nat).
  Hypothesis old_level : forall l q, old l q -> length q = S n /\ (l <= K)%nat.
  Hypothesis refine_level : forall l q, old l q -> A l q = Refine -> (l < K)%nat.
  Hypothesis new_spec : forall l p, new l p <-> exists l0 q, old l0 q /\ length p = S n /\ moves (A l0 q) l0 q l p.
  Hypothesis coarsen_level : forall l q, old l q -> A l q = Coarsen -> (0 < l)%nat.
  Hypothesis no_drop : forall l q, old l q -> A l q <> Drop.
  Hypothesis siblings : forall l q q', old l q -> A l q = Coarsen -> length q' = S n -> ancestor 1 q' = ancestor 1 q ->
    old l q' /\ A l q' = Coarsen.

  (** Every leaf of the new mesh above [z] comes from a leaf of the old mesh above
      [z], and conversely. *)
  Lemma new_from : forall l z, length z = S n -> (l <= K)%nat ->
    (new l (ancestor (K - l) z) <->
     exists l0, (l0 <= K)%nat /\ old l0 (ancestor (K - l0) z) /\
       match A l0 (ancestor (K - l0) z) with Refine => l = S l0 | Stay => l = l0 | Coarsen => S l = l0 | Drop => False end).
  Proof.
    intros l z Hz Hl. rewrite new_spec. split.
    - intros (l0 & q & Ho & _ & Hm). destruct (old_level l0 q Ho) as [Lq Hl0]. destruct (A l0 q) eqn:EA; cbn [moves] in Hm.
      + destruct Hm as [-> E]. rewrite ancestor_add in E. replace (1 + (K - S l0))%nat with (K - l0)%nat in E by lia. subst q.
        exists l0. rewrite EA. auto.
      + destruct Hm as [-> <-]. exists l0. rewrite EA. auto.
      + destruct Hm as [<- E].
        assert (ancestor 1 (ancestor (K - S l) z) = ancestor 1 q).
        { rewrite <- E, ancestor_add. f_equal. lia. }
        destruct (siblings (S l) q (ancestor (K - S l) z) Ho EA) as [So Sa]; auto; [rewrite ancestor_length; auto|].
        exists (S l). rewrite Sa. auto.
      + destruct Hm.
    - intros (l0 & Hl0 & Ho & Hm). exists l0, (ancestor (K - l0) z). rewrite ancestor_length. spl; auto.
      destruct (A l0 (ancestor (K - l0) z)); cbn [moves].
      + split; auto. subst l. rewrite ancestor_add. f_equal. lia.
      + subst. auto.
      + split; auto. subst l0. rewrite ancestor_add. f_equal. lia.
      + auto.
  Qed.

  Lemma new_level : forall l p, new l p -> length p = S n /\ (l <= K)%nat.
  Proof.
    intros l p H. apply new_spec in H as (l0 & q & Ho & Hp & Hm). split; auto. destruct (old_level _ _ Ho) as [_ Hl].
    destruct (A l0 q) eqn:EA; cbn [moves] in Hm; try lia. pose proof (refine_level _ _ Ho EA). lia.
  Qed.

  Lemma same_cover : forall z, length z = S n ->
    ((exists l, (l <= K)%nat /\ new l (ancestor (K - l) z)) <-> (exists l, (l <= K)%nat /\ old l (ancestor (K - l) z))).
  Proof.
    intros z Hz. split.
    - intros (l & Hl & H). apply new_from in H as (l0 & H0 & Ho & _); [|auto|auto]. exists l0. auto.
    - intros (l0 & Hl0 & Ho). destruct (A l0 (ancestor (K - l0) z)) eqn:EA.
      + pose proof (refine_level _ _ Ho EA). exists (S l0). split; [lia|]. apply new_from; [auto|lia|]. exists l0. rewrite EA. auto.
      + exists l0. split; [lia|]. apply new_from; [auto|lia|]. exists l0. rewrite EA. auto.
      + pose proof (coarsen_level _ _ Ho EA). exists (Nat.pred l0). split; [lia|]. apply new_from; [auto|lia|]. exists l0. rewrite EA.
        spl; auto. lia.
      + destruct (no_drop _ _ Ho EA).
  Qed.

  Hypothesis old_disjoint : forall l l' p q, old l p -> old l' q -> (l <= l')%nat -> ancestor (l' - l) q = p -> l = l'.

  Lemma old_unique : forall l l' z, length z = S n -> (l <= K)%nat -> (l' <= K)%nat ->
    old l (ancestor (K - l) z) -> old l' (ancestor (K - l') z) -> l = l'.
  Proof.
    assert (G : forall l l' z, length z = S n -> (l' <= K)%nat -> (l <= l')%nat ->
      old l (ancestor (K - l) z) -> old l' (ancestor (K - l') z) -> l = l').
    { intros l l' z Hz H' Hle H1 H2. apply (old_disjoint l l' _ _ H1 H2 Hle). rewrite ancestor_add. f_equal. lia. }
    intros l l' z Hz Hl Hl' H1 H2. destruct (Nat.le_ge_cases l l'); [|symmetry]; eapply G; eauto.
  Qed.

  Lemma new_disjoint : forall l l' p q, new l p -> new l' q -> (l <= l')%nat -> ancestor (l' - l) q = p -> l = l'.
  Proof.
    intros l l' p q H1 H2 Hle E. destruct (new_level _ _ H2) as [Lq Hl'].
    destruct (descend (K - l') q) as (z & Lz & Ez).
    assert (Ep : p = ancestor (K - l) z). { subst p q. rewrite ancestor_add. f_equal. lia. }
    rewrite Ep in H1. rewrite <- Ez in H2. rewrite Lq in Lz.
    apply new_from in H1 as (a & Ha & Oa & Ma); auto; [|lia]. apply new_from in H2 as (b & Hb & Ob & Mb); auto.
    assert (a = b) by (eapply old_unique; eauto). subst b.
    destruct (A a (ancestor (K - a) z)); lia.
  Qed.
End Cover.

(** ** for_each_cell on a CellArray *)
Definition leaf_cells (cs : list (nat * (list Z * Z))) : list (nat * list Z) := map (fun '(l, (p, _)) => (l, p)) cs.

Theorem ca_for_each_cell_spec : forall n c, ca_wf n c -> exists cs, ca_for_each_cell n c = Some cs /\
  ca_enumeration n c (leaf_cells cs) /\ forall l p k, In (l, (p, k)) cs -> ca_get_index n c l p = Some k.
Proof.
  intros n c W. destruct (ca_for_each_interval_spec n c W) as (calls & E & EN).
  set (g := fun x : nat * (interval * list Z) => let (l, y) := x in let (i, yz) := y in
     map (fun x => (l, (x :: yz, iindex i + x))) (zrange (istart i) (iend i))).
  assert (H : ca_for_each_cell n c = Some (flat_map g calls)).
  { unfold ca_for_each_cell. unfold ca_for_each_interval in E. destruct (levels_spec c) as (_ & S2 & _).
    clear EN. revert calls E. generalize (levels c) S2. induction l as [|l ls IH]; intros HS calls E; cbn [map concat_opt] in *.
    - injection E as <-. reflexivity.
    - pose proof (W l (HS l (or_introl eq_refl))) as Wl.
      destruct (for_each_interval n (c_at c l)) as [cl|] eqn:F; [|discriminate]. cbn [option_map] in E.
      destruct (concat_opt (map (fun level => option_map (map (pair level)) (for_each_interval n (c_at c level))) ls)) as [r|] eqn:R; [|discriminate].
      injection E as <-. 
      assert (R' : concat_opt (map (fun level => if lca_is_empty (c_at c level) then Some [] else option_map (map (pair level)) (for_each_cell n (c_at c level))) ls)
                   = Some (flat_map g r)).
      { apply IH; auto. intros; apply HS; right; auto. }
      rewrite R', flat_map_app.
      assert (FG : flat_map g (map (pair l) cl) = map (pair l) (flat_map (fun '(i, yz) => map (fun x => (x :: yz, iindex i + x)) (zrange (istart i) (iend i))) cl)).
      { clear. induction cl as [|[i yz] cl IH]; auto. cbn [map flat_map]. rewrite map_app, IH. f_equal. unfold g. rewrite map_map. reflexivity. }
      rewrite FG. destruct (lca_is_empty (c_at c l)) eqn:Em.
      + apply (empty_iff n _ Wl) in Em. rewrite (no_cells_for_each n _ Em) in F. injection F as <-. reflexivity.
      + destruct (for_each_cell_correct n _ (nonempty_full n _ Wl Em)) as (cl' & F' & C). rewrite F in F'. injection F' as <-.
        rewrite C. reflexivity. }
  exists (flat_map g calls). spl; auto.
  - replace (leaf_cells (flat_map g calls)) with (ca_cells_of_calls calls); auto.
    clear. unfold leaf_cells, ca_cells_of_calls. induction calls as [|[l [i yz]] calls IH]; auto. cbn [flat_map]. rewrite map_app, <- IH.
    f_equal. unfold g, cells_of_calls. cbn [flat_map]. rewrite app_nil_r, !map_map. reflexivity.
  - intros l p k Hin. apply in_flat_map in Hin as ([l' [i yz]] & Hc & Hin). apply in_map_iff in Hin as (x & Ex & Hx).
    apply pair_equal_spec in Ex as [<- Ex]. apply pair_equal_spec in Ex as [<- <-].
    apply (ca_call_index n c calls l' i yz x W E Hc). apply zrange_In in Hx. exact Hx.
Qed.

Lemma leaf_cells_In : forall l p cs, In (l, p) (leaf_cells cs) <-> exists k, In (l, (p, k)) cs.
Proof.
  intros l p cs. unfold leaf_cells. rewrite in_map_iff. split.
  - intros ([l' [p' k]] & E & H). apply pair_equal_spec in E as [-> ->]. eauto.
  - intros (k & H). exists (l, (p, k)). auto.
Qed.

Lemma zlist_eqb_eq : forall a b, zlist_eqb a b = true <-> a = b.
Proof.
  induction a as [|x a IH]; intros [|y b]; cbn [zlist_eqb]; split; intros H; auto; try discriminate.
  - apply andb_true_iff in H as [H1 H2]. apply Z.eqb_eq in H1. apply IH in H2. congruence.
  - injection H as -> ->. rewrite Z.eqb_refl. apply IH. auto.
Qed.
