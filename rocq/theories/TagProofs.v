(** Proofs about the reduction of tags on sibling groups. *)
From Coq Require Import QArith.
From Verif Require Import Base IntervalModel Spec LoiModel LcaModel LcaSpec RowsProofs LcaProofs CellArrayModel CellArrayProofs PropsLca PropsCellArray
  SubsetModel TreeProofs SubsetSpec SubsetProofs2 PropsSubset MeshModel MeshProofs NumModel NumProofs AdaptModel AdaptProofs.
Open Scope Z_scope.

(** ** All intervals given by a subset have step 1 *)
Definition step1 (c : call) : Prop := istep (fst c) = 1.

Lemma scan_loop_step : forall fuel n d sub sentinel scan r t t' calls,
  (forall s e t t' calls, sub (mk s e) t = Some (t', calls) -> Forall step1 calls) ->
  scan_loop fuel n d sub sentinel scan r t = Some (t', calls) -> Forall step1 calls.
Proof.
  induction fuel as [|fuel IH]; intros n d sub sentinel scan r t t' calls HS H; cbn [scan_loop] in H.
  - destruct (scan <? sentinel); [discriminate|]. injection H as _ <-. constructor.
  - destruct (scan <? sentinel); [|injection H as _ <-; constructor].
    destruct r as [s|]; destruct (teval d (tmap (leaf_eval d scan) t)); cbv iota beta in H.
    + destruct (tmapM (leaf_update n d scan sentinel) t) as [t1|]; [|discriminate].
      destruct (scan_loop fuel _ _ _ _ _ _ t1) as [[t2 cs]|] eqn:E; [|discriminate].
      injection H as _ <-. apply (IH _ _ _ _ _ _ _ _ _ HS E).
    + destruct (is_valid (mk s scan)).
      * destruct (sub (mk s scan) t) as [[t1 c1]|] eqn:ES; [|discriminate]. cbv iota beta in H.
        destruct (tmapM (leaf_update n d scan sentinel) t1) as [t2|]; [|discriminate].
        destruct (scan_loop fuel _ _ _ _ _ _ t2) as [[t3 cs]|] eqn:E; [|discriminate].
        injection H as _ <-. apply Forall_app. split; [apply (HS _ _ _ _ _ ES)|apply (IH _ _ _ _ _ _ _ _ _ HS E)].
      * cbv iota beta in H. destruct (tmapM (leaf_update n d scan sentinel) t) as [t1|]; [|discriminate].
        destruct (scan_loop fuel _ _ _ _ _ _ t1) as [[t2 cs]|] eqn:E; [|discriminate].
        injection H as _ <-. apply (IH _ _ _ _ _ _ _ _ _ HS E).
    + destruct (tmapM (leaf_update n d scan sentinel) t) as [t1|]; [|discriminate].
      destruct (scan_loop fuel _ _ _ _ _ _ t1) as [[t2 cs]|] eqn:E; [|discriminate].
      injection H as _ <-. apply (IH _ _ _ _ _ _ _ _ _ HS E).
    + destruct (tmapM (leaf_update n d scan sentinel) t) as [t1|]; [|discriminate].
      destruct (scan_loop fuel _ _ _ _ _ _ t1) as [[t2 cs]|] eqn:E; [|discriminate].
      injection H as _ <-. apply (IH _ _ _ _ _ _ _ _ _ HS E).
Qed.

Lemma sub_loop_step : forall n m rec yz is t t' calls,
  (forall yz t t' calls, rec yz t = Some (t', calls) -> Forall step1 calls) ->
  sub_loop n m rec yz is t = Some (t', calls) -> Forall step1 calls.
Proof.
  induction is as [|i is IH]; intros t t' calls HS H; cbn [sub_loop] in H; [injection H as _ <-; constructor|].
  destruct (tmapM (leaf_decrement n m i) t) as [t1|]; [|discriminate]. destruct (rec (i :: yz) t1) as [[t2 c1]|] eqn:E1; [|discriminate].
  destruct (sub_loop n m rec yz is t2) as [[t3 c2]|] eqn:E2; [|discriminate]. injection H as _ <-.
  apply Forall_app. split; eauto.
Qed.

Lemma emit_step : forall n ref c s e yz, Forall step1 (emit n ref c (mk s e) yz).
Proof.
  intros. unfold emit. destruct (Nat.leb ref c); [repeat constructor|]. apply Forall_forall. intros x Hx.
  apply in_map_iff in Hx as (st & <- & _). reflexivity.
Qed.

Lemma apply_step : forall n ref d yz t t' calls, apply n ref d yz t = Some (t', calls) -> Forall step1 calls.
Proof.
  induction d as [|d IH]; intros yz t t' calls H; cbn [apply] in H;
    (destruct (tempty _); [injection H as _ <-; constructor|]); (destruct (tmapM _ t) as [ms|]; [|discriminate]);
    refine (scan_loop_step _ _ _ _ _ _ _ _ _ _ _ H); intros s e t1 t2 c1 E.
  - injection E as _ <-. apply emit_step.
  - apply (sub_loop_step _ _ _ _ _ _ _ _ IH E).
Qed.

Lemma subset_calls_step : forall n s calls i yz, subset_calls n s = Some calls -> In (i, yz) calls -> istep i = 1.
Proof.
  intros n s calls i yz H Hin. unfold subset_calls, subset_run in H. destruct (tmapM (leaf_reset n) (s_tree s)) as [t|]; [|discriminate].
  destruct (apply n (s_ref s) n [] t) as [[t' cs]|] eqn:E; [|discriminate]. injection H as <-.
  apply apply_step in E. rewrite Forall_forall in E. apply (E _ Hin).
Qed.

(** ** Children *)
Lemma children_In : forall x yz cx cyz, In (cx, cyz) (children x yz) <-> cx / 2 = x /\ length cyz = length yz /\ ancestor 1 cyz = yz.
Proof.
  intros x yz cx cyz. unfold children. rewrite in_map_iff. split.
  - intros (par & E & Hp). apply pair_equal_spec in E as [<- <-]. apply parities_In in Hp. destruct par as [|b par]; [discriminate|].
    cbn [hd tl length] in *. assert (Hl : length par = length yz) by lia. split; [symmetry; apply Z.div_unique with (bz b); destruct b; cbn [bz]; lia|].
    clear Hp. unfold fine_row, ancestor. change (2 ^ Z.of_nat 1) with 2. revert par Hl.
    induction yz as [|y yz IH]; intros [|p par] Hl; try discriminate; auto. cbn [combine map length].
    destruct (IH par) as [H1 H2]; [simpl in Hl; lia|]. split; [f_equal; exact H1|]. f_equal; [|exact H2].
    symmetry. apply Z.div_unique with (bz p); destruct p; cbn [bz]; lia.
  - intros (H1 & H2 & H3). exists (Z.odd cx :: map Z.odd cyz). split.
    + cbn [hd tl]. assert (Hb : forall z, 2 * (z / 2) + bz (Z.odd z) = z).
      { intros z. pose proof (Zmod_odd z). pose proof (Z.div_mod z 2). destruct (Z.odd z); cbn [bz]; lia. }
      apply pair_equal_spec. split; [rewrite <- H1; apply Hb|]. rewrite <- H3. unfold fine_row, ancestor. change (2 ^ Z.of_nat 1) with 2.
      clear -Hb. induction cyz as [|c cyz IH]; auto. cbn [map combine]. f_equal; auto.
    + apply parities_In. cbn [length]. rewrite map_length. lia.
Qed.

Lemma children_NoDup : forall x yz, NoDup (children x yz).
Proof.
  intros x yz. unfold children. assert (G : forall l, (forall p, In p l -> length p = S (length yz)) -> NoDup l ->
    NoDup (map (fun par => (2 * x + bz (hd false par), fine_row yz (tl par))) l)).
  { induction l as [|p l IH]; intros HL HN; [constructor|]. inversion HN; subst. cbn [map]. constructor.
    - intros H. apply in_map_iff in H as (p' & E & Hin). apply H1. replace p with p'; auto.
      apply pair_equal_spec in E as [E1 E2]. pose proof (HL p (or_introl eq_refl)) as L1. pose proof (HL p' (or_intror Hin)) as L2.
      destruct p as [|b p]; [discriminate|]. destruct p' as [|b' p']; [discriminate|]. cbn [hd tl length] in *. f_equal.
      + destruct b, b'; cbn [bz] in E1; auto; lia.
      + injection L1 as L1. injection L2 as L2. clear -E2 L1 L2. revert p p' L1 L2 E2. unfold fine_row.
        induction yz as [|y yz IH]; intros [|a p] [|b p'] L1 L2 E; try discriminate; auto. cbn [combine map] in E.
        inversion E. f_equal; [destruct a, b; cbn [bz] in *; auto; lia|]. apply IH; auto.
    - apply IH; auto. intros; apply HL; right; auto. }
  apply G; [intros p Hp; apply parities_In; auto|apply parities_NoDup].
Qed.

Lemma children_length : forall x yz, length (children x yz) = length (parities (S (length yz))).
Proof. intros. unfold children. apply map_length. Qed.

(** ** Masked updates *)
Definition eqc (a b : Z * list Z) : bool := (fst a =? fst b) && zlist_eqb (snd a) (snd b).
Lemma eqc_eq : forall a b, eqc a b = true <-> a = b.
Proof.
  intros [x a] [y b]. unfold eqc. cbn [fst snd]. rewrite andb_true_iff, Z.eqb_eq, zlist_eqb_eq. split.
  - intros [-> ->]. auto.
  - intros E. apply pair_equal_spec in E. auto.
Qed.
Lemma eqc_sym : forall a b, eqc a b = eqc b a.
Proof. intros. destruct (eqc a b) eqn:E1, (eqc b a) eqn:E2; auto; apply eqc_eq in E1 || apply eqc_eq in E2; subst; [rewrite (proj2 (eqc_eq b b) eq_refl) in E2|rewrite (proj2 (eqc_eq a a) eq_refl) in E1]; discriminate. Qed.

Lemma twrite_at : forall t level x yz v l x' yz',
  twrite t level x yz v l x' yz' = if Nat.eqb l level && eqc (x', yz') (x, yz) then v else t l x' yz'.
Proof. intros. unfold twrite, eqc. cbn [fst snd]. rewrite andb_assoc. auto. Qed.

Lemma masked_spec : forall A (h : A -> Z * list Z) (g : A -> bool) f level (xs : list A) t l x yz, NoDup (map h xs) ->
  masked f level (map h xs) (map g xs) t l x yz =
  if Nat.eqb l level && existsb (fun a => g a && eqc (h a) (x, yz)) xs then f (t l x yz) else t l x yz.
Proof.
  intros A h g f level. unfold masked. induction xs as [|a xs IH]; intros t l x yz HN; [cbn [existsb map combine fold_left]; rewrite andb_false_r; auto|].
  inversion HN; subst. cbn [map combine fold_left existsb]. rewrite IH by auto. destruct (h a) as [hx hy] eqn:Eh.
  assert (D : forall b, existsb (fun a0 => g a0 && eqc (h a0) (x, yz)) xs = true -> eqc (x, yz) (hx, hy) = b -> b = false).
  { intros b Hex Hb. destruct b; auto. apply eqc_eq in Hb. apply existsb_exists in Hex as (a' & Hin & Ha). apply andb_true_iff in Ha as [_ Ha].
    apply eqc_eq in Ha. exfalso. apply H1. rewrite <- Hb, <- Ha. apply in_map. auto. }
  rewrite <- (eqc_sym (x, yz)). destruct (g a); cbn [andb orb]; auto.
  rewrite twrite_at. destruct (Nat.eqb_spec l level) as [->|]; cbn [andb]; auto.
  destruct (existsb _ xs) eqn:Hex.
  - rewrite (D _ eq_refl eq_refl). cbn [orb]. auto.
  - rewrite orb_false_r. destruct (eqc (x, yz) (hx, hy)) eqn:E; auto. apply eqc_eq in E. apply pair_equal_spec in E as [-> ->]. auto.
Qed.

(** The loop over the children, for all the cells of the interval at once. *)
Lemma masked_loop : forall B (h : nat -> B -> Z * list Z) (g : B -> bool) f level (xs : list B) ks t,
  fold_left (fun t k => masked f level (map (h k) xs) (map g xs) t) ks t =
  masked f level (map (fun '(k, x) => h k x) (list_prod ks xs)) (map (fun '(k, x) => g x) (list_prod ks xs)) t.
Proof.
  intros B h g f level xs. induction ks as [|k ks IH]; intros t; [reflexivity|]. cbn [fold_left list_prod]. rewrite IH.
  unfold masked. rewrite !map_app, !map_map. rewrite <- fold_left_app. f_equal.
  assert (G : forall (a1 a2 : list (Z * list Z)) (b1 b2 : list bool), length a1 = length b1 -> combine (a1 ++ a2) (b1 ++ b2) = combine a1 b1 ++ combine a2 b2).
  { induction a1; intros a2 [|b b1] b2 HL; try discriminate; auto. cbn [app combine]. f_equal. apply IHa1. simpl in HL. lia. }
  rewrite G by (rewrite !map_length; auto). reflexivity.
Qed.

Definition child_of (yz : list Z) (k : nat) (x : Z) : Z * list Z := nth k (children x yz) (0, []).

Lemma child_of_In : forall yz k x, (k < length (parities (S (length yz))))%nat -> In (child_of yz k x) (children x yz).
Proof. intros. apply nth_In. rewrite children_length. auto. Qed.

Lemma child_pairs_NoDup : forall yz xs, NoDup xs -> NoDup (map (fun '(k, x) => child_of yz k x) (list_prod (seq 0 (length (parities (S (length yz))))) xs)).
Proof.
  intros yz xs HN. set (nb := length (parities (S (length yz)))).
  assert (I : forall k x k' x', (k < nb)%nat -> (k' < nb)%nat -> child_of yz k x = child_of yz k' x' -> k = k' /\ x = x').
  { intros k x k' x' Hk Hk' E. pose proof (child_of_In yz k x Hk) as H1. pose proof (child_of_In yz k' x' Hk') as H2. rewrite <- E in H2.
    destruct (child_of yz k x) as [cx cyz] eqn:Ec. apply children_In in H1 as [H1 _]. apply children_In in H2 as [H2 _].
    assert (x = x') by congruence. subst x'. split; auto. apply (proj1 (NoDup_nth (children x yz) (0, [])) (children_NoDup x yz));
      [rewrite children_length; auto|rewrite children_length; auto|]. unfold child_of in *. congruence. }
  assert (G : forall l : list (nat * Z), (forall p, In p l -> (fst p < nb)%nat) -> NoDup l -> NoDup (map (fun '(k, x) => child_of yz k x) l)).
  { induction l as [|[k x] l IH]; intros HL HD; [constructor|]. inversion HD; subst. cbn [map]. constructor.
    - intros H. apply in_map_iff in H as ([k' x'] & E & Hin). apply H1.
      destruct (I k' x' k x) as [-> ->]; auto; [apply (HL _ (or_intror Hin))|apply (HL _ (or_introl eq_refl))].
    - apply IH; auto. intros; apply HL; right; auto. }
  apply G.
  - intros [k x] H. apply in_prod_iff in H as [H _]. apply in_seq in H. simpl. lia.
  - assert (P : forall ks : list nat, NoDup ks -> NoDup (list_prod ks xs)).
    { induction ks as [|k ks IH]; intros HK; [constructor|]. inversion HK; subst. cbn [list_prod]. apply NoDup_app2; auto.
      - apply FinFun.Injective_map_NoDup; auto. intros a b E. congruence.
      - intros [k' x] Ha Hb. apply in_map_iff in Ha as (y & Ha & _). apply in_prod_iff in Hb as [Hb _]. congruence. }
    apply P, seq_NoDup.
Qed.

Lemma child_mask : forall yz xs (g : Z -> bool) cx cyz,
  existsb (fun a => (let '(k, x) := a in g x) && eqc (let '(k, x) := a in child_of yz k x) (cx, cyz)) (list_prod (seq 0 (length (parities (S (length yz))))) xs) = 
  g (cx / 2) && existsb (fun x => x =? cx / 2) xs && zlist_eqb (ancestor 1 cyz) yz.
Proof.
  intros yz xs g cx cyz. apply eq_true_iff_eq. rewrite existsb_exists, !andb_true_iff, existsb_exists, zlist_eqb_eq. split.
  - intros ([k x] & Hin & H). apply in_prod_iff in Hin as [Hk Hx]. apply in_seq in Hk. apply andb_true_iff in H as [Hg H].
    apply eqc_eq in H. assert (Hc : In (cx, cyz) (children x yz)) by (rewrite <- H; apply child_of_In; lia).
    apply children_In in Hc as (H1 & _ & H2). rewrite H1. spl; auto. exists x. split; auto. apply Z.eqb_refl.
  - intros ((Hg & x & Hx & Ex) & Ha). apply Z.eqb_eq in Ex. assert (Hc : In (cx, cyz) (children x yz)).
    { apply children_In. spl; auto. rewrite <- Ha, ancestor_length. auto. }
    apply (In_nth _ _ (0, [])) in Hc as (k & Hk & Ek). exists (k, x). rewrite children_length in Hk. split; [apply in_prod_iff; split; auto; apply in_seq; lia|].
    subst x. rewrite Hg. cbn [andb]. apply eqc_eq. auto.
Qed.

(** ** The operator on a group: any keep gives keep to all and to the parent; the
    coarsen flag survives only if all have it, and then the parent gets keep *)
Definition any_keep (t : tfield) (level : nat) (x : Z) (yz : list Z) : bool :=
  existsb (fun '(cx, cyz) => Z.testbit (t (S level) cx cyz) 0) (children x yz).
Definition all_coarsen (t : tfield) (level : nat) (x : Z) (yz : list Z) : bool :=
  forallb (fun '(cx, cyz) => Z.testbit (t (S level) cx cyz) 1) (children x yz).
Definition set_keep (v : Z) : Z := Z.lor v 1.
Definition del_coarsen (v : Z) : Z := Z.land v (Z.lnot 2).
Definition child_tag (ak ac : bool) (v : Z) : Z :=
  let v := if ak then set_keep v else v in if ac then v else del_coarsen v.
Definition parent_tag (ak ac : bool) (v : Z) : Z := if ak || ac then set_keep v else v.

Lemma land_pow2_val : forall t k, 0 <= k -> Z.land t (2 ^ k) = if Z.testbit t k then 2 ^ k else 0.
Proof.
  intros t k Hk. apply Z.bits_inj'. intros j Hj. rewrite Z.land_spec, Z.pow2_bits_eqb by auto. destruct (Z.eqb_spec k j) as [->|H].
  - rewrite andb_true_r. destruct (Z.testbit t j); [symmetry; apply Z.pow2_bits_true; auto|symmetry; apply Z.bits_0].
  - rewrite andb_false_r. destruct (Z.testbit t k); [symmetry; apply Z.pow2_bits_false; auto|symmetry; apply Z.bits_0].
Qed.

Lemma keep_mask : forall vs, negb (fold_left Z.lor (map (fun v => Z.land v 1) vs) 0 =? 0) = existsb (fun v => Z.testbit v 0) vs.
Proof.
  assert (G : forall vs a, a = 0 \/ a = 1 -> fold_left Z.lor (map (fun v => Z.land v 1) vs) a = if (a =? 1) || existsb (fun v => Z.testbit v 0) vs then 1 else 0).
  { induction vs as [|v vs IH]; intros a Ha; cbn [map fold_left existsb].
    - destruct Ha as [->| ->]; reflexivity.
    - assert (E : Z.land v 1 = if Z.testbit v 0 then 1 else 0).
      { apply (land_pow2_val v 0). lia. }
      rewrite IH; rewrite E; destruct Ha as [->| ->], (Z.testbit v 0); cbn; auto. }
  intros vs. rewrite G by auto. cbn [Z.eqb orb]. destruct (existsb _ vs); auto.
Qed.

Lemma coarsen_mask : forall vs, vs <> [] -> negb (fold_left Z.land (map (fun v => Z.land v 2) vs) (-1) =? 0) = forallb (fun v => Z.testbit v 1) vs.
Proof.
  assert (E : forall v, Z.land v 2 = if Z.testbit v 1 then 2 else 0).
  { intros v. apply (land_pow2_val v 1). lia. }
  assert (G : forall vs a, a = 0 \/ a = 2 -> fold_left Z.land (map (fun v => Z.land v 2) vs) a = if (a =? 2) && forallb (fun v => Z.testbit v 1) vs then 2 else 0).
  { induction vs as [|v vs IH]; intros a Ha; cbn [map fold_left forallb].
    - destruct Ha as [->| ->]; reflexivity.
    - rewrite IH; rewrite E; destruct Ha as [->| ->], (Z.testbit v 1); cbn; auto. }
  intros [|v vs] H; [congruence|]. cbn [map fold_left forallb]. rewrite E.
  replace (Z.land (-1) (if Z.testbit v 1 then 2 else 0)) with (if Z.testbit v 1 then 2 else 0) by (destruct (Z.testbit v 1); auto).
  rewrite G by (destruct (Z.testbit v 1); auto). destruct (Z.testbit v 1); cbn; auto. destruct (forallb _ vs); auto.
Qed.

Lemma set_keep_bits : forall v k, 0 <= k -> Z.testbit (set_keep v) k = (k =? 0) || Z.testbit v k.
Proof.
  intros v k Hk. unfold set_keep. rewrite Z.lor_spec, orb_comm. change 1 with (2 ^ 0) at 1. rewrite Z.pow2_bits_eqb by lia. rewrite (Z.eqb_sym 0 k). auto.
Qed.
Lemma del_coarsen_bits : forall v k, 0 <= k -> Z.testbit (del_coarsen v) k = negb (k =? 1) && Z.testbit v k.
Proof.
  intros v k Hk. unfold del_coarsen. rewrite Z.land_spec, Z.lnot_spec by auto. change 2 with (2 ^ 1). rewrite Z.pow2_bits_eqb by lia.
  rewrite andb_comm, (Z.eqb_sym 1 k). auto.
Qed.

Lemma masked_parents : forall f level (xs : list Z) (yz : list Z) (g : Z -> bool) t l x' yz', NoDup xs ->
  masked f level (map (fun x => (x, yz)) xs) (map g xs) t l x' yz' =
  if Nat.eqb l level && (g x' && existsb (fun x => x =? x') xs && zlist_eqb yz' yz) then f (t l x' yz') else t l x' yz'.
Proof.
  intros f level xs yz g t l x' yz' HN. rewrite masked_spec.
  - replace (existsb (fun a => g a && eqc (a, yz) (x', yz')) xs) with (g x' && existsb (fun x => x =? x') xs && zlist_eqb yz' yz); auto.
    apply eq_true_iff_eq. rewrite !andb_true_iff, !existsb_exists, zlist_eqb_eq. split.
    + intros ((Hg & x & Hx & E) & ->). apply Z.eqb_eq in E. subst x'. exists x. rewrite Hg, (proj2 (eqc_eq _ _) eq_refl). auto.
    + intros (x & Hx & H). apply andb_true_iff in H as [Hg H]. apply eqc_eq, pair_equal_spec in H as [-> ->]. spl; auto. exists x'. rewrite Z.eqb_refl. auto.
  - apply FinFun.Injective_map_NoDup; auto. intros a b E. congruence.
Qed.

Lemma masked_children : forall f level (xs : list Z) (yz : list Z) (g : Z -> bool) t l cx cyz, NoDup xs ->
  fold_left (fun t k => masked f level (map (child_of yz k) xs) (map g xs) t) (seq 0 (length (parities (S (length yz))))) t l cx cyz =
  if Nat.eqb l level && (g (cx / 2) && existsb (fun x => x =? cx / 2) xs && zlist_eqb (ancestor 1 cyz) yz) then f (t l cx cyz) else t l cx cyz.
Proof.
  intros f level xs yz g t l cx cyz HN. rewrite masked_loop, masked_spec by (apply child_pairs_NoDup; auto). rewrite child_mask. auto.
Qed.

Lemma flags_keep : forall t level x yz,
  negb (fold_left Z.lor (map (fun '(cx, cyz) => Z.land (t (S level) cx cyz) flag_keep) (children x yz)) 0 =? 0) = any_keep t level x yz.
Proof.
  intros. unfold any_keep. rewrite <- (map_map (fun '(cx, cyz) => t (S level) cx cyz) (fun v => Z.land v 1)) with (l := children x yz) || idtac.
  transitivity (existsb (fun v => Z.testbit v 0) (map (fun '(cx, cyz) => t (S level) cx cyz) (children x yz))).
  - rewrite <- keep_mask, map_map. f_equal. f_equal. f_equal. apply map_ext. intros [cx cyz]. auto.
  - induction (children x yz) as [|[cx cyz] l IH]; auto. cbn [map existsb]. rewrite IH. auto.
Qed.
Lemma flags_coarsen : forall t level x yz,
  negb (fold_left Z.land (map (fun '(cx, cyz) => Z.land (t (S level) cx cyz) flag_coarsen) (children x yz)) (-1) =? 0) = all_coarsen t level x yz.
Proof.
  intros. unfold all_coarsen.
  transitivity (forallb (fun v => Z.testbit v 1) (map (fun '(cx, cyz) => t (S level) cx cyz) (children x yz))).
  - rewrite <- coarsen_mask, map_map.
    + f_equal. f_equal. f_equal. apply map_ext. intros [cx cyz]. auto.
    + intros H. apply map_eq_nil in H. assert (C : In (2 * x, map (Z.mul 2) yz) (children x yz)).
      { apply children_In. spl; [rewrite Z.mul_comm; apply Z.div_mul; lia|apply map_length|]. unfold ancestor. rewrite map_map.
        rewrite <- (map_id yz) at 2. apply map_ext. intros a. change (2 ^ Z.of_nat 1) with 2. rewrite Z.mul_comm. apply Z.div_mul. lia. }
      rewrite H in C. destruct C.
  - induction (children x yz) as [|[cx cyz] l IH]; auto. cbn [map forallb]. rewrite IH. auto.
Qed.

Lemma forallb_ext : forall A (f g : A -> bool), (forall a, f a = g a) -> forall l, forallb f l = forallb g l.
Proof. intros A f g H. induction l; simpl; auto. rewrite H, IHl. auto. Qed.

Lemma maximum_op_at : forall level i yz t l x' yz', istep i = 1 ->
  maximum_op level i yz t l x' yz' =
  if Nat.eqb l (S level) && (existsb (fun x => x =? x' / 2) (strided i) && zlist_eqb (ancestor 1 yz') yz)
  then child_tag (any_keep t level (x' / 2) yz) (all_coarsen t level (x' / 2) yz) (t l x' yz')
  else if Nat.eqb l level && (existsb (fun x => x =? x') (strided i) && zlist_eqb yz' yz)
  then parent_tag (any_keep t level x' yz) (all_coarsen t level x' yz) (t l x' yz')
  else t l x' yz'.
Proof.
  intros level i yz t l x' yz' Hst. assert (HN : NoDup (strided i)) by (apply strided_NoDup; lia).
  unfold maximum_op. set (nb := length (parities (S (length yz)))). set (xs := strided i) in *.
  assert (M1 : forall t, map (fun l => negb (fold_left Z.lor l 0 =? 0)) (map (fun x => map (fun '(cx, cyz) => Z.land (t (S level) cx cyz) flag_keep) (children x yz)) xs) =
    map (fun x => any_keep t level x yz) xs) by (intros; rewrite map_map; apply map_ext; intros; apply flags_keep).
  assert (M2 : forall t, map (fun l => negb (fold_left Z.land l (-1) =? 0)) (map (fun x => map (fun '(cx, cyz) => Z.land (t (S level) cx cyz) flag_coarsen) (children x yz)) xs) =
    map (fun x => all_coarsen t level x yz) xs) by (intros; rewrite map_map; apply map_ext; intros; apply flags_coarsen).
  rewrite M1.
  set (t1 := fold_left _ (seq 0 nb) t). set (t2 := masked _ level _ _ t1).
  assert (T1 : forall l x' yz', t1 l x' yz' = if Nat.eqb l (S level) && (any_keep t level (x' / 2) yz && existsb (fun x => x =? x' / 2) xs && zlist_eqb (ancestor 1 yz') yz)
    then set_keep (t l x' yz') else t l x' yz') by (intros; apply masked_children; auto).
  assert (T2 : forall l x' yz', t2 l x' yz' = if Nat.eqb l level && (any_keep t level x' yz && existsb (fun x => x =? x') xs && zlist_eqb yz' yz)
    then set_keep (t1 l x' yz') else t1 l x' yz') by (intros; apply masked_parents; auto).
  assert (A2 : forall x, all_coarsen t2 level x yz = all_coarsen t level x yz).
  { intros x. unfold all_coarsen. apply forallb_ext. intros [cx cyz]. rewrite T2.
    replace (Nat.eqb (S level) level) with false by (symmetry; apply Nat.eqb_neq; lia). cbn [andb]. rewrite T1.
    destruct (Nat.eqb (S level) (S level) && _); auto. rewrite set_keep_bits by lia. auto. }
  rewrite M2. rewrite (map_ext _ _ A2).
  rewrite map_map. set (t3 := fold_left _ (seq 0 nb) t2).
  assert (T3 : forall l x' yz', t3 l x' yz' = if Nat.eqb l (S level) && (negb (all_coarsen t level (x' / 2) yz) && existsb (fun x => x =? x' / 2) xs && zlist_eqb (ancestor 1 yz') yz)
    then del_coarsen (t2 l x' yz') else t2 l x' yz') by (intros; apply masked_children; auto).
  rewrite masked_parents by auto. rewrite T3, T2, T1. fold (set_keep (t l x' yz')).
  unfold child_tag, parent_tag.
  destruct (Nat.eqb_spec l (S level)) as [->|Hl1].
  - replace (Nat.eqb (S level) level) with false by (symmetry; apply Nat.eqb_neq; lia). cbn [andb].
    destruct (existsb (fun x => x =? x' / 2) xs), (zlist_eqb (ancestor 1 yz') yz), (any_keep t level (x' / 2) yz), (all_coarsen t level (x' / 2) yz); cbn [andb negb]; auto.
  - cbn [andb]. destruct (Nat.eqb_spec l level) as [->|Hl2]; cbn [andb]; auto.
    destruct (existsb (fun x => x =? x') xs), (zlist_eqb yz' yz), (any_keep t level x' yz), (all_coarsen t level x' yz); cbn [andb orb]; auto.
    fold (set_keep (t level x' yz')). fold (set_keep (set_keep (t level x' yz'))). unfold set_keep. rewrite <- Z.lor_assoc. auto.
Qed.

(** ** All the calls of the subset *)
Definition inb (p : list Z) (C : list (list Z)) : bool := existsb (zlist_eqb p) C.
Lemma inb_In : forall p C, inb p C = true <-> In p C.
Proof.
  intros. unfold inb. rewrite existsb_exists. split.
  - intros (q & H & E). apply zlist_eqb_eq in E. subst. auto.
  - intros H. exists p. split; auto. apply zlist_eqb_eq. auto.
Qed.

Definition grp_tag (t t0 : tfield) (level : nat) (C : list (list Z)) (l : nat) (x : Z) (yz : list Z) : Z :=
  if Nat.eqb l (S level) && inb (ancestor 1 (x :: yz)) C
  then child_tag (any_keep t level (x / 2) (ancestor 1 yz)) (all_coarsen t level (x / 2) (ancestor 1 yz)) (t0 l x yz)
  else if Nat.eqb l level && inb (x :: yz) C
  then parent_tag (any_keep t level x yz) (all_coarsen t level x yz) (t0 l x yz)
  else t0 l x yz.

Lemma existsb_ext_In : forall A (f g : A -> bool) l, (forall a, In a l -> f a = g a) -> existsb f l = existsb g l.
Proof. induction l; simpl; intros; auto. rewrite H, IHl; auto. Qed.
Lemma forallb_ext_In : forall A (f g : A -> bool) l, (forall a, In a l -> f a = g a) -> forallb f l = forallb g l.
Proof. induction l; simpl; intros; auto. rewrite H, IHl; auto. Qed.

Lemma in_call : forall i yz x yz', istep i = 1 ->
  existsb (fun y => y =? x) (strided i) && zlist_eqb yz' yz = inb (x :: yz') (cells_of_calls [(i, yz)]).
Proof.
  intros i yz x yz' Hst. apply eq_true_iff_eq. rewrite andb_true_iff, existsb_exists, zlist_eqb_eq, inb_In, cells_of_calls_In. split.
  - intros ((y & Hy & E) & ->). apply Z.eqb_eq in E. subst y. exists i. split; [left; auto|]. apply strided_In; auto.
  - intros (j & [E|[]] & Hx). apply pair_equal_spec in E as [<- <-]. split; auto. exists x. split; [apply strided_In; auto|apply Z.eqb_refl].
Qed.

Lemma inb_app : forall p a b, inb p (a ++ b) = inb p a || inb p b.
Proof. intros. unfold inb. apply existsb_app. Qed.

Lemma NoDup_app_inv2 : forall A (a b : list A), NoDup (a ++ b) -> NoDup a /\ NoDup b /\ forall x, In x a -> In x b -> False.
Proof.
  induction a as [|x a IH]; intros b H; [spl; auto; constructor|]. inversion H; subst. destruct (IH b H3) as (H4 & H5 & H6).
  spl; auto; [constructor; auto; intros HH; apply H2, in_or_app; auto|].
  intros y [<-|Hy] Hb; [apply H2, in_or_app; auto|eauto].
Qed.

Lemma maximum_calls_at : forall level calls t l x yz, (forall i yz, In (i, yz) calls -> istep i = 1) -> NoDup (cells_of_calls calls) ->
  maximum_calls level calls t l x yz = grp_tag t t level (cells_of_calls calls) l x yz.
Proof.
  intros level. induction calls as [|[i yz0] calls IH]; intros t l x yz HS HN.
  - unfold grp_tag. cbn. rewrite !andb_false_r. auto.
  - unfold maximum_calls. cbn [fold_left]. fold (maximum_calls level calls (maximum_op level i yz0 t)).
    change (cells_of_calls ((i, yz0) :: calls)) with (cells_of_calls [(i, yz0)] ++ cells_of_calls calls) in HN |- * || idtac.
    assert (EC : cells_of_calls ((i, yz0) :: calls) = cells_of_calls [(i, yz0)] ++ cells_of_calls calls).
    { unfold cells_of_calls. cbn [flat_map]. rewrite app_nil_r. auto. }
    rewrite EC in HN |- *. apply NoDup_app_inv2 in HN as (_ & HN & HD).
    assert (Hst : istep i = 1) by (apply (HS i yz0); left; auto).
    rewrite IH by (auto; intros; eapply HS; right; eauto). unfold grp_tag. rewrite !inb_app.
    assert (T1 : forall l x yz, maximum_op level i yz0 t l x yz = grp_tag t t level (cells_of_calls [(i, yz0)]) l x yz).
    { intros l0 x0 yz1. rewrite maximum_op_at by auto. unfold grp_tag. rewrite ancestor_cons. change (2 ^ Z.of_nat 1) with 2.
      rewrite !in_call by auto.
      destruct (Nat.eqb l0 (S level)) eqn:E1; cbn [andb].
      - destruct (inb (x0 / 2 :: ancestor 1 yz1) (cells_of_calls [(i, yz0)])) eqn:E2.
        + apply inb_In, cells_of_calls_In in E2 as (j & [E2|[]] & _). apply pair_equal_spec in E2 as [_ E2]. rewrite E2. auto.
        + destruct (Nat.eqb l0 level) eqn:E3; cbn [andb]; auto. apply Nat.eqb_eq in E1, E3. lia.
      - destruct (Nat.eqb l0 level) eqn:E3; cbn [andb]; auto. destruct (inb (x0 :: yz1) (cells_of_calls [(i, yz0)])) eqn:E2; auto.
        apply inb_In, cells_of_calls_In in E2 as (j & [E2|[]] & _). apply pair_equal_spec in E2 as [_ E2]. rewrite E2. auto. }
    set (C1 := cells_of_calls [(i, yz0)]) in *. set (C2 := cells_of_calls calls) in *.
    assert (ST : forall x yz cx cyz, ~ In (x :: yz) C1 -> In (cx, cyz) (children x yz) -> maximum_op level i yz0 t (S level) cx cyz = t (S level) cx cyz).
    { intros x0 yz1 cx cyz Hni Hc. apply children_In in Hc as (H1 & _ & H2). rewrite T1. unfold grp_tag. rewrite Nat.eqb_refl, ancestor_cons.
      change (2 ^ Z.of_nat 1) with 2. rewrite H1, H2. destruct (inb (x0 :: yz1) C1) eqn:E; [apply inb_In in E; tauto|]. cbn [andb].
      replace (Nat.eqb (S level) level) with false by (symmetry; apply Nat.eqb_neq; lia). auto. }
    assert (KK : forall x yz, ~ In (x :: yz) C1 -> any_keep (maximum_op level i yz0 t) level x yz = any_keep t level x yz).
    { intros. unfold any_keep. apply existsb_ext_In. intros [cx cyz] Hc. rewrite (ST x0 yz1); auto. }
    assert (CC : forall x yz, ~ In (x :: yz) C1 -> all_coarsen (maximum_op level i yz0 t) level x yz = all_coarsen t level x yz).
    { intros. unfold all_coarsen. apply forallb_ext_In. intros [cx cyz] Hc. rewrite (ST x0 yz1); auto. }
    rewrite T1. unfold grp_tag. rewrite ancestor_cons. change (2 ^ Z.of_nat 1) with 2.
    destruct (Nat.eqb l (S level)) eqn:E1; cbn [andb].
    + replace (Nat.eqb l level) with false by (symmetry; apply Nat.eqb_neq; apply Nat.eqb_eq in E1; lia). cbn [andb].
      destruct (inb (x / 2 :: ancestor 1 yz) C2) eqn:E2.
      * apply inb_In in E2. assert (Hn : ~ In (x / 2 :: ancestor 1 yz) C1) by (intros HH; eauto).
        rewrite KK, CC by auto. destruct (inb (x / 2 :: ancestor 1 yz) C1) eqn:E3; [apply inb_In in E3; tauto|]. auto.
      * rewrite orb_false_r. auto.
    + destruct (Nat.eqb l level) eqn:E4; cbn [andb]; auto. destruct (inb (x :: yz) C2) eqn:E2.
      * apply inb_In in E2. assert (Hn : ~ In (x :: yz) C1) by (intros HH; eauto).
        rewrite KK, CC by auto. destruct (inb (x :: yz) C1) eqn:E3; [apply inb_In in E3; tauto|]. auto.
      * rewrite orb_false_r. auto.
Qed.

(** ** Two arrays intersected on a level *)
Definition fits (n w : nat) (a : lca) : Prop := forall q k, lca_mem n a q -> (k <= n)%nat ->
  (nth k q 0 + 2) * 2 ^ Z.max 0 (Z.of_nat w - Z.of_nat (a_level a)) + 1 < 2 ^ 31 - 1.

Lemma inter_spec : forall n a b ref, wf n a -> wf n b ->
  fits n (Nat.min ref (Nat.max (a_level a) (a_level b))) a -> fits n (Nat.min ref (Nat.max (a_level a) (a_level b))) b ->
  exists calls, subset_calls n (on (inter a b) ref) = Some calls /\
    (forall i yz, In (i, yz) calls -> length yz = n /\ istart i < iend i /\ istep i = 1) /\
    NoDup (cells_of_calls calls) /\
    ((ref <= Nat.max (a_level a) (a_level b))%nat -> StronglySorted lex_lt (cells_of_calls calls)) /\
    forall p, In p (cells_of_calls calls) <-> length p = S n /\ denotes n ref p (NMesh a) /\ denotes n ref p (NMesh b).
Proof.
  intros n a b ref Wa Wb Fa Fb. unfold inter. rewrite on_make_op.
  set (t := Nd Intersect (More (Lf (leaf_of (NMesh a))) (One (Lf (leaf_of (NMesh b)))))).
  assert (F : finest t = Nat.max (a_level a) (a_level b)) by reflexivity.
  assert (HO : operands_ok n ref t).
  { intros lf Hlf. rewrite F. unfold t in Hlf. cbn [tin ain] in Hlf.
    destruct Hlf as [->| ->]; cbn [l_node leaf_of]; unfold operand_ok; cbn [simple node_mesh node_vect];
      spl; auto; intros q k Hq Hk; rewrite vadd_nil by apply Hq; [apply (Fa q k)|apply (Fb q k)]; auto. }
  destruct (C18_levels n ref t HO) as (calls & E & V & N & S & M). exists calls. spl; auto.
  - intros i yz Hin. destruct (V i yz Hin). spl; auto. eapply subset_calls_step; eauto.
  - intros Hle. rewrite F in S. apply (proj1 (S Hle)).
  - intros p. assert (HL : In p (cells_of_calls calls) -> length p = Datatypes.S n).
    { intros Hp. unfold cells_of_calls in Hp. apply in_flat_map in Hp as ([i yz] & Hin & Hp). apply in_map_iff in Hp as (x & <- & _).
      simpl. f_equal. apply (V i yz Hin). }
    split.
    + intros Hp. pose proof (HL Hp) as Lp. apply (M p Lp) in Hp. split; auto. 
    + intros (Lp & H1 & H2). apply (M p Lp). split; auto.
Qed.

(** ** Tags by cell *)
Definition tg (t : tfield) (l : nat) (p : list Z) : Z := t l (hd 0 p) (tl p).
Definition K (t : tfield) (l : nat) (p : list Z) : Prop := Z.testbit (tg t l p) 0 = true.
Definition Co (t : tfield) (l : nat) (p : list Z) : Prop := Z.testbit (tg t l p) 1 = true.

(** What one level of the pass does; [C] is the set of parents handled. *)
Definition pass (n m : nat) (C : list Z -> Prop) (t t' : tfield) : Prop :=
  (forall l p, length p = S n -> l <> m -> l <> S m -> tg t' l p = tg t l p) /\
  (forall p, length p = S n -> ~ C p -> tg t' m p = tg t m p) /\
  (forall p, length p = S n -> ~ C (ancestor 1 p) -> tg t' (S m) p = tg t (S m) p) /\
  (forall l p j, length p = S n -> 2 <= j -> Z.testbit (tg t' l p) j = Z.testbit (tg t l p) j) /\
  (forall p, length p = S n -> C (ancestor 1 p) ->
     (K t' (S m) p <-> exists q, length q = S n /\ ancestor 1 q = ancestor 1 p /\ K t (S m) q) /\
     (Co t' (S m) p <-> forall q, length q = S n -> ancestor 1 q = ancestor 1 p -> Co t (S m) q)) /\
  (forall p, length p = S n -> (Co t' m p <-> Co t m p)) /\
  (forall p, length p = S n -> C p ->
     (K t' m p <-> K t m p \/ (exists q, length q = S n /\ ancestor 1 q = p /\ K t (S m) q) \/
                   (forall q, length q = S n -> ancestor 1 q = p -> Co t (S m) q))) /\
  (forall l p, length p = S n -> (K t l p -> K t' l p) /\ (Co t' l p -> Co t l p)) /\
  (forall p, length p = S n -> C p \/ ~ C p).

Lemma any_keep_iff : forall n t m p, length p = S n ->
  (any_keep t m (hd 0 p) (tl p) = true <-> exists q, length q = S n /\ ancestor 1 q = p /\ K t (S m) q).
Proof.
  intros n t m [|x yz] Hp; [discriminate|]. cbn [hd tl]. unfold any_keep. rewrite existsb_exists. split.
  - intros ([cx cyz] & Hc & H). apply children_In in Hc as (H1 & H2 & H3). exists (cx :: cyz). spl; auto; [simpl in *; lia|].
    rewrite ancestor_cons. change (2 ^ Z.of_nat 1) with 2. congruence.
  - intros ([|cx cyz] & Hq & Ha & H); [discriminate|]. rewrite ancestor_cons in Ha. change (2 ^ Z.of_nat 1) with 2 in Ha.
    exists (cx, cyz). split; auto. apply children_In. injection Ha as E1 E2. spl; auto; simpl in *; lia.
Qed.
Lemma all_coarsen_iff : forall n t m p, length p = S n ->
  (all_coarsen t m (hd 0 p) (tl p) = true <-> forall q, length q = S n -> ancestor 1 q = p -> Co t (S m) q).
Proof.
  intros n t m [|x yz] Hp; [discriminate|]. cbn [hd tl]. unfold all_coarsen. rewrite forallb_forall. split.
  - intros H [|cx cyz] Hq Ha; [discriminate|]. rewrite ancestor_cons in Ha. change (2 ^ Z.of_nat 1) with 2 in Ha.
    apply (H (cx, cyz)). apply children_In. injection Ha as E1 E2. spl; auto; simpl in *; lia.
  - intros H [cx cyz] Hc. apply children_In in Hc as (H1 & H2 & H3). apply (H (cx :: cyz)); [simpl in *; lia|].
    rewrite ancestor_cons. change (2 ^ Z.of_nat 1) with 2. congruence.
Qed.

Lemma child_tag_bits : forall ak ac v j, 0 <= j -> Z.testbit (child_tag ak ac v) j =
  if j =? 0 then ak || Z.testbit v 0 else if j =? 1 then ac && Z.testbit v 1 else Z.testbit v j.
Proof.
  intros ak ac v j Hj. unfold child_tag.
  destruct ak, ac; rewrite ?del_coarsen_bits, ?set_keep_bits by auto;
    (destruct (Z.eqb_spec j 0) as [->|]; [|destruct (Z.eqb_spec j 1) as [->|]]); cbn [negb orb andb Z.eqb]; auto.
Qed.
Lemma parent_tag_bits : forall ak ac v j, 0 <= j -> Z.testbit (parent_tag ak ac v) j =
  if j =? 0 then ak || ac || Z.testbit v 0 else Z.testbit v j.
Proof.
  intros ak ac v j Hj. unfold parent_tag. destruct ak, ac; cbn [orb]; rewrite ?set_keep_bits by auto; destruct (Z.eqb_spec j 0) as [->|]; auto.
Qed.

Lemma grp_tag_pass : forall n m C t t', (forall p, In p C -> length p = S n) ->
  (forall l x yz, t' l x yz = grp_tag t t m C l x yz) -> pass n m (fun p => In p C) t t'.
Proof.
  intros n m C t t' HC H.
  assert (G : forall l p, length p = S n -> tg t' l p =
    if Nat.eqb l (S m) && inb (ancestor 1 p) C then child_tag (any_keep t m (hd 0 (ancestor 1 p)) (tl (ancestor 1 p))) (all_coarsen t m (hd 0 (ancestor 1 p)) (tl (ancestor 1 p))) (tg t l p)
    else if Nat.eqb l m && inb p C then parent_tag (any_keep t m (hd 0 p) (tl p)) (all_coarsen t m (hd 0 p) (tl p)) (tg t l p) else tg t l p).
  { intros l [|x yz] Hp; [discriminate|]. unfold tg. cbn [hd tl]. rewrite H. unfold grp_tag. rewrite ancestor_cons. reflexivity. }
  assert (NB : forall p, ~ In p C -> inb p C = false) by (intros p Hp; destruct (inb p C) eqn:E; auto; apply inb_In in E; tauto).
  assert (Nm : Nat.eqb m (S m) = false) by (apply Nat.eqb_neq; lia).
  assert (Nm2 : Nat.eqb (S m) m = false) by (apply Nat.eqb_neq; lia).
  unfold pass. spl.
  - intros l p Hp H1 H2. rewrite G by auto. apply Nat.eqb_neq in H1, H2. rewrite H1, H2. auto.
  - intros p Hp Hn. rewrite (G m p Hp), Nm, (NB p Hn), andb_false_r. auto.
  - intros p Hp Hn. rewrite (G (S m) p Hp), Nm2, (NB _ Hn), andb_false_r. auto.
  - intros l p j Hp Hj. rewrite G by auto. destruct (Nat.eqb l (S m) && inb (ancestor 1 p) C).
    + rewrite child_tag_bits by lia. destruct (Z.eqb_spec j 0), (Z.eqb_spec j 1); try lia. auto.
    + destruct (Nat.eqb l m && inb p C); auto. rewrite parent_tag_bits by lia. destruct (Z.eqb_spec j 0); try lia. auto.
  - intros p Hp Hc. assert (La : length (ancestor 1 p) = S n) by (rewrite ancestor_length; auto).
    unfold K at 1, Co at 1. rewrite G by auto. rewrite Nat.eqb_refl, (proj2 (inb_In _ _) Hc). cbn [andb].
    rewrite !child_tag_bits by lia. change (0 =? 0) with true; change (1 =? 0) with false; change (1 =? 1) with true; cbv iota. rewrite orb_true_iff, andb_true_iff, any_keep_iff, all_coarsen_iff by auto. split.
    + split; [intros [X|X]; auto|auto]. exists p. auto.
    + split; [intros [X _]; auto|intros X; split; auto]. apply (X p Hp eq_refl).
  - intros p Hp. unfold Co. rewrite G by auto. rewrite Nm. cbn [andb]. destruct (Nat.eqb m m && inb p C); [|tauto].
    rewrite !parent_tag_bits by lia. change (1 =? 0) with false. cbv iota. tauto.
  - intros p Hp Hc. unfold K at 1. rewrite G by auto. rewrite Nm, Nat.eqb_refl, (proj2 (inb_In _ _) Hc). cbn [andb].
    rewrite !parent_tag_bits by lia. change (0 =? 0) with true; change (1 =? 0) with false; change (1 =? 1) with true; cbv iota. rewrite !orb_true_iff, any_keep_iff, all_coarsen_iff by auto. unfold K, Co. tauto.
  - intros l p Hp. unfold K, Co. rewrite G by auto. destruct (Nat.eqb l (S m) && inb (ancestor 1 p) C).
    + rewrite !child_tag_bits by lia. change (0 =? 0) with true; change (1 =? 0) with false; change (1 =? 1) with true; cbv iota. rewrite orb_true_iff, andb_true_iff. tauto.
    + destruct (Nat.eqb l m && inb p C); auto. rewrite !parent_tag_bits by lia. change (0 =? 0) with true; change (1 =? 0) with false; change (1 =? 1) with true; cbv iota. rewrite !orb_true_iff. tauto.
  - intros p _. destruct (in_dec (list_eq_dec Z.eq_dec) p C); auto.
Qed.

(** The parents handled on level [S m]: those in all_cells with a leaf among their children. *)
Definition handled (n : nat) (cells all_cells : ca) (m : nat) (p : list Z) : Prop :=
  lca_mem n (c_at all_cells m) p /\ exists q, lca_mem n (c_at cells (S m)) q /\ ancestor 1 q = p.

Lemma maximum_level_spec : forall n cells all_cells t m,
  wf n (c_at cells (S m)) -> a_level (c_at cells (S m)) = S m -> wf n (c_at all_cells m) -> a_level (c_at all_cells m) = m ->
  (forall q k, lca_mem n (c_at cells (S m)) q \/ lca_mem n (c_at all_cells m) q -> (k <= n)%nat -> nth k q 0 + 3 < 2 ^ 31 - 1) ->
  exists t', maximum_level n cells all_cells t (S m) = Some t' /\ pass n m (handled n cells all_cells m) t t'.
Proof.
  intros n cells all_cells t m Wc Lc Wa La B. unfold maximum_level. cbn [Nat.pred].
  assert (X : Nat.min m (Nat.max (S m) m) = m) by lia.
  destruct (inter_spec n (c_at cells (S m)) (c_at all_cells m) m Wc Wa) as (calls & E & V & N & _ & M).
  - rewrite Lc, La, X. intros q k Hq Hk. rewrite Lc. replace (Z.max 0 (Z.of_nat m - Z.of_nat (S m))) with 0 by lia.
    pose proof (B q k (or_introl Hq) Hk). lia.
  - rewrite Lc, La, X. intros q k Hq Hk. rewrite La, Z.sub_diag. pose proof (B q k (or_intror Hq) Hk). change (Z.max 0 0) with 0. lia.
  - rewrite E. exists (maximum_calls m calls t). split; auto.
    assert (P : pass n m (fun p => In p (cells_of_calls calls)) t (maximum_calls m calls t)).
    { apply grp_tag_pass; [intros p Hp; apply M; auto|]. intros. apply maximum_calls_at; auto. intros i yz0 Hi. apply (V _ _ Hi). }
    assert (HH : forall p, length p = S n -> (handled n cells all_cells m p <-> In p (cells_of_calls calls))).
    { intros p Hp. rewrite M. unfold handled. rewrite (denotes_mesh_coarse n (c_at cells (S m)) p m), (denotes_mesh_fine n (c_at all_cells m) p m) by (auto; lia).
      rewrite Lc, La, Nat.sub_diag, ancestor_0. replace (S m - m)%nat with 1%nat by lia. split.
      - intros (Ha & q & Hq & Eq). spl; auto. exists q. auto.
      - intros (_ & (q & Hq & Eq) & Ha). split; auto. exists q. auto. }
    destruct P as (P1 & P2 & P3 & P4 & P5 & P8 & P6 & P7 & P9). unfold pass. spl.
    + exact P1.
    + intros p Hp Hn. apply P2; auto. rewrite <- HH; auto.
    + intros p Hp Hn. apply P3; auto. rewrite <- HH; auto. rewrite ancestor_length; auto.
    + exact P4.
    + intros p Hp Hc. apply P5; auto. rewrite <- HH; auto. rewrite ancestor_length; auto.
    + exact P8.
    + intros p Hp Hc. apply P6; auto. rewrite <- HH; auto.
    + exact P7.
    + intros p Hp. rewrite HH by auto. auto.
Qed.

(** ** The whole pass *)
Section Final.
  Variables (n maxl : nat) (cells all_cells : ca).
  Definition pass_ok : Prop :=
    (forall l, (l <= maxl)%nat -> wf n (c_at cells l) /\ a_level (c_at cells l) = l /\ wf n (c_at all_cells l) /\ a_level (c_at all_cells l) = l) /\
    (forall l q k, (l <= maxl)%nat -> lca_mem n (c_at cells l) q \/ lca_mem n (c_at all_cells l) q -> (k <= n)%nat -> nth k q 0 + 3 < 2 ^ 31 - 1).

  Lemma final_pass_states : forall t, pass_ok -> exists T, T maxl = t /\ final_pass n maxl cells all_cells t = Some (T O) /\
    forall m, (m < maxl)%nat -> pass n m (handled n cells all_cells m) (T (S m)) (T m).
  Proof.
    intros t [W B]. unfold final_pass.
    assert (G : forall k t, (k <= maxl)%nat -> exists T, T k = t /\ maximum_levels n cells all_cells (rev (seq 1 k)) t = Some (T O) /\
      forall m, (m < k)%nat -> pass n m (handled n cells all_cells m) (T (S m)) (T m)); [|apply G; auto].
    induction k as [|k IH]; intros t0 Hk.
    - exists (fun _ => t0). spl; auto. intros; lia.
    - rewrite seq_S, rev_app_distr. cbn [rev app maximum_levels]. replace (1 + k)%nat with (S k) by lia.
      destruct (W (S k) Hk) as (W1 & W2 & _). destruct (W k ltac:(lia)) as (_ & _ & W3 & W4).
      destruct (maximum_level_spec n cells all_cells t0 k W1 W2 W3 W4) as (t1 & E1 & P1).
      { intros q j [Hq|Hq] Hj; [apply (B (S k) q j)|apply (B k q j)]; auto; lia. }
      rewrite E1. destruct (IH t1 ltac:(lia)) as (T & T1 & T2 & T3).
      exists (fun j => if Nat.eqb j (S k) then t0 else T j). spl.
      + rewrite Nat.eqb_refl. auto.
      + cbn [Nat.eqb]. exact T2.
      + intros m Hm. replace (Nat.eqb m (S k)) with false by (symmetry; apply Nat.eqb_neq; lia).
        destruct (Nat.eqb_spec (S m) (S k)) as [Em|Hne].
        * injection Em as ->. rewrite T1. auto.
        * apply T3. lia.
  Qed.
End Final.

Lemma co_dec : forall n t m p, length p = S n ->
  (forall q, length q = S n -> ancestor 1 q = p -> Co t (S m) q) \/ (exists q, length q = S n /\ ancestor 1 q = p /\ ~ Co t (S m) q).
Proof.
  intros n t m p Hp. destruct (all_coarsen t m (hd 0 p) (tl p)) eqn:E; [left; apply all_coarsen_iff; auto|right].
  destruct p as [|x yz]; [discriminate|]. unfold all_coarsen in E. cbn [hd tl] in E.
  assert (G : exists c, In c (children x yz) /\ (fun '(cx, cyz) => Z.testbit (t (S m) cx cyz) 1) c = false).
  { induction (children x yz) as [|c l IH]; [discriminate|]. cbn [forallb] in E. apply andb_false_iff in E as [E|E].
    - exists c. split; [left|]; auto.
    - destruct (IH E) as (c' & H1 & H2). exists c'. split; [right|]; auto. }
  destruct G as ([cx cyz] & Hc & E2). apply children_In in Hc as (H1 & H2 & H3). exists (cx :: cyz). spl.
  - simpl in *. lia.
  - rewrite ancestor_cons. change (2 ^ Z.of_nat 1) with 2. congruence.
  - unfold Co, tg. cbn [hd tl]. rewrite E2. discriminate.
Qed.

Section States.
  Variables (n maxl : nat) (H : nat -> list Z -> Prop) (T : nat -> tfield).
  Hypothesis P : forall m, (m < maxl)%nat -> pass n m (H m) (T (S m)) (T m).

  Lemma states_hi : forall j l p, length p = S n -> (l < j <= maxl)%nat -> tg (T j) l p = tg (T maxl) l p.
  Proof.
    intros j l p Hp Hj. remember (maxl - j)%nat as d eqn:Ed. revert j Hj Ed. induction d as [|d IH]; intros j Hj Ed.
    - replace j with maxl by lia. auto.
    - rewrite <- (IH (S j)) by lia. destruct (P j ltac:(lia)) as (P1 & _). apply P1; auto; lia.
  Qed.
  Lemma states_lo : forall j l p, length p = S n -> (j < l <= maxl)%nat -> tg (T j) l p = tg (T (Nat.pred l)) l p.
  Proof.
    intros j l p Hp Hj. remember (Nat.pred l - j)%nat as d eqn:Ed. revert j Hj Ed. induction d as [|d IH]; intros j Hj Ed.
    - replace j with (Nat.pred l) by lia. auto.
    - rewrite <- (IH (S j)) by lia. destruct (P j ltac:(lia)) as (P1 & _). apply P1; auto; lia.
  Qed.
  (** Bits above 1 stay, keep flags are only added, coarsen flags are only removed. *)
  Lemma states_mono : forall j j' l p, length p = S n -> (j <= j' <= maxl)%nat ->
    (forall b, 2 <= b -> Z.testbit (tg (T j) l p) b = Z.testbit (tg (T j') l p) b) /\
    (K (T j') l p -> K (T j) l p) /\ (Co (T j) l p -> Co (T j') l p).
  Proof.
    intros j j' l p Hp Hj. remember (j' - j)%nat as d eqn:Ed. revert j Hj Ed. induction d as [|d IH]; intros j Hj Ed.
    - replace j with j' by lia. auto.
    - destruct (IH (S j)) as (I1 & I2 & I3); [lia|lia|]. destruct (P j ltac:(lia)) as (P1 & P2 & P3 & P4 & P5 & P8 & P6 & P7 & P9). spl.
      + intros b Hb. rewrite <- I1, P4 by auto. auto.
      + intros HK. apply P7; auto.
      + intros HC. apply I3, P7; auto.
  Qed.

  (** The tags of the end: [T 0]. *)
  Definition up (l : nat) (p : list Z) : Prop := (l < maxl)%nat /\ H l p /\
    exists c, length c = S n /\ ancestor 1 c = p /\ (K (T O) (S l) c \/ Co (T O) (S l) c).

  Lemma final_K : forall l p, length p = S n -> (1 <= l <= maxl)%nat -> tg (T O) l p = tg (T (Nat.pred l)) l p.
  Proof. intros. apply states_lo; auto; lia. Qed.

  Lemma state_Co : forall l p, length p = S n -> (l <= maxl)%nat -> (Co (T l) l p <-> Co (T maxl) l p).
  Proof.
    intros l p Hp Hl. destruct (Nat.eq_dec l maxl) as [->|Hne]; [tauto|].
    destruct (P l ltac:(lia)) as (P1 & P2 & P3 & P4 & P5 & P8 & P6 & P7 & P9). rewrite P8 by auto. unfold Co. rewrite states_hi by (auto; lia). tauto.
  Qed.

  Lemma child_exists : forall p, length p = S n -> exists c, length c = S n /\ ancestor 1 c = p.
  Proof. intros p Hp. destruct (descend 1 p) as (z & Hz & E). exists z. split; auto; lia. Qed.

  Lemma state_K : forall l p, length p = S n -> (l <= maxl)%nat -> (K (T l) l p <-> K (T maxl) l p \/ up l p).
  Proof.
    intros l p Hp Hl. destruct (Nat.eq_dec l maxl) as [->|Hne]; [unfold up; split; [auto|intros [X|[X _]]; [auto|lia]]|].
    destruct (P l ltac:(lia)) as (P1 & P2 & P3 & P4 & P5 & P8 & P6 & P7 & P9).
    assert (E : tg (T (S l)) l p = tg (T maxl) l p) by (apply states_hi; auto; lia).
    assert (F : forall c, length c = S n -> tg (T O) (S l) c = tg (T l) (S l) c) by (intros; apply (final_K (S l)); auto; lia).
    assert (CC : forall c, length c = S n -> ancestor 1 c = p -> H l p ->
      ((K (T O) (S l) c <-> exists q, length q = S n /\ ancestor 1 q = p /\ K (T (S l)) (S l) q) /\
       (Co (T O) (S l) c <-> forall q, length q = S n -> ancestor 1 q = p -> Co (T (S l)) (S l) q))).
    { intros c Hc Hca HH. unfold K at 1, Co at 1. rewrite F by auto. destruct (P5 c Hc) as [Q1 Q2]; [rewrite Hca; auto|]. rewrite Hca in *. split; auto. }
    destruct (P9 p Hp) as [HH|HH].
    - rewrite (P6 p Hp HH). unfold K at 1. rewrite E. split.
      + intros [X|[X|X]]; auto; right; (split; [lia|]); split; auto; destruct (child_exists p Hp) as (c & Lc & Ec); exists c;
          destruct (CC c Lc Ec HH) as [C1 C2]; spl; auto; [left; apply C1|right; apply C2]; auto.
      + intros [X|(_ & _ & c & Lc & Ec & X)]; auto. right. destruct (CC c Lc Ec HH) as [C1 C2]. destruct X as [X|X]; [left; apply C1|right; apply C2]; auto.
    - unfold K at 1. rewrite (P2 p Hp HH), E. unfold up. tauto.
  Qed.

  (** The tags of the end by those of the start. *)
  Theorem final_tags : forall l p, length p = S n -> (l <= maxl)%nat ->
    (forall b, 2 <= b -> Z.testbit (tg (T O) l p) b = Z.testbit (tg (T maxl) l p) b) /\
    ((1 <= l)%nat -> H (Nat.pred l) (ancestor 1 p) ->
       (Co (T O) l p <-> forall q, length q = S n -> ancestor 1 q = ancestor 1 p -> Co (T maxl) l q) /\
       (K (T O) l p <-> exists q, length q = S n /\ ancestor 1 q = ancestor 1 p /\ (K (T maxl) l q \/ up l q))) /\
    ((l = 0%nat \/ ~ H (Nat.pred l) (ancestor 1 p)) ->
       (Co (T O) l p <-> Co (T maxl) l p) /\ (K (T O) l p <-> K (T maxl) l p \/ up l p)).
  Proof.
    intros l p Hp Hl. spl.
    - intros b Hb. destruct (states_mono O maxl l p Hp ltac:(lia)) as (B & _). apply B. auto.
    - intros H1 HH. destruct l as [|m]; [lia|]. cbn [Nat.pred] in HH.
      destruct (P m ltac:(lia)) as (P1 & P2 & P3 & P4 & P5 & P8 & P6 & P7 & P9). destruct (P5 p Hp HH) as [Q1 Q2].
      unfold Co at 1, K at 1. rewrite (final_K (S m)) by (auto; lia). cbn [Nat.pred]. fold (Co (T m) (S m) p). fold (K (T m) (S m) p).
      rewrite Q1, Q2. split.
      + split; intros X q Lq Eq; apply state_Co; auto.
      + split; intros (q & Lq & Eq & X); exists q; spl; auto; apply state_K; auto.
    - intros HN. assert (E : tg (T O) l p = tg (T l) l p).
      { destruct l as [|m]; auto. destruct HN as [HN|HN]; [discriminate|]. rewrite (final_K (S m)) by (auto; lia). cbn [Nat.pred] in *.
        destruct (P m ltac:(lia)) as (P1 & P2 & P3 & _). apply P3; auto. }
      unfold Co at 1, K at 1. rewrite E. split; [apply state_Co|apply state_K]; auto.
  Qed.
End States.

Lemma handled_dec : forall n maxl cells all_cells m p, pass_ok n maxl cells all_cells -> (m < maxl)%nat -> length p = S n ->
  handled n cells all_cells m p \/ ~ handled n cells all_cells m p.
Proof.
  intros n maxl cells all_cells m p HO Hm Hp. destruct (final_pass_states n maxl cells all_cells (fun _ _ _ => 0) HO) as (T & _ & _ & P).
  destruct (P m Hm) as (_ & _ & _ & _ & _ & _ & _ & _ & D). apply D. auto.
Qed.
