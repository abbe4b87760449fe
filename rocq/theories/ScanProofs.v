(** The scan of one dimension: proof over an abstract description of the leaves. *)
From Verif Require Import Base IntervalModel Spec LoiModel LoiProofs IntervalProofs LcaModel LcaSpec GridProofs InitProofs SubsetModel TreeProofs.
Open Scope Z_scope.

Definition coversb (P : list interval) (x : Z) : bool := existsb (fun i => icontains i x) P.

Lemma coversb_spec : forall P x, coversb P x = true <-> covers P x.
Proof.
  intros. unfold coversb, covers. rewrite existsb_exists.
  split; intros (i & H1 & H2); exists i; split; auto; apply icontains_spec; auto.
Qed.

Lemma normal_app : forall l1 l2, normal (l1 ++ l2) ->
  normal l1 /\ normal l2 /\ forall i j, In i l1 -> In j l2 -> iend i < istart j.
Proof.
  intros l1 l2 N. destruct (normal_sub_app l1 l2 N). spl; auto.
  destruct N as [_ N]. apply StronglySorted_app_inv in N as (_ & _ & N). auto.
Qed.

(** Value a leaf waits for: next start or end; [snt] once exhausted. *)
Definition curv (snt : Z) (P rest : list interval) (ip : bool) : Z :=
  match rest with
  | [] => match P with [] => INT_MAX | _ => snt end
  | i :: _ => if ip then iend i else istart i
  end.

(** Everything up to [lo] has been consumed. *)
Definition apos (P rest : list interval) (ip : bool) (lo : Z) : Prop :=
  exists pre, P = pre ++ rest /\ Forall (fun i => iend i <= lo) pre /\
    match rest with
    | [] => ip = false
    | i :: _ => if ip then istart i <= lo < iend i else lo < istart i
    end.

Lemma apos_const : forall snt P rest ip lo y, normal P -> Forall (fun i => iend i < snt) P ->
  apos P rest ip lo -> lo <= y < curv snt P rest ip -> (covers P y <-> ip = true).
Proof.
  intros snt P rest ip lo y N Hs (pre & -> & Hp & Hr) Hy. rewrite covers_app.
  apply normal_app in N as (N1 & N2 & N3).
  assert (Hpre : ~ covers pre y).
  { intros (i & Hi & Hy'). rewrite Forall_forall in Hp. specialize (Hp i Hi). unfold in_i in Hy'. simpl in Hp. lia. }
  destruct rest as [|i rest].
  - subst ip. rewrite covers_nil. split; [tauto|discriminate].
  - apply normal_cons in N2 as (Hv & Hf & N2). simpl in Hy. rewrite covers_cons.
    assert (Hrest : ~ covers rest y).
    { intros (j & Hj & Hy'). rewrite Forall_forall in Hf. specialize (Hf j Hj). simpl in Hf. unfold in_i in Hy'.
      destruct ip; lia. }
    unfold in_i. destruct ip; split; try tauto; try discriminate; try lia.
    intros [?|[?|?]]; try tauto. lia.
Qed.

Lemma apos_at : forall P i rest ip lo, normal P -> apos P (i :: rest) ip lo ->
  (covers P (if ip then iend i else istart i) <-> ip = false).
Proof.
  intros P i rest ip lo N (pre & -> & Hp & Hr). rewrite covers_app, covers_cons.
  apply normal_app in N as (N1 & N2 & N3). apply normal_cons in N2 as (Hv & Hf & N2).
  set (y := if ip then iend i else istart i).
  assert (Hpre : ~ covers pre y).
  { intros (j & Hj & Hy'). specialize (N3 j i Hj (or_introl eq_refl)). unfold in_i in Hy'. subst y. destruct ip; lia. }
  assert (Hrest : ~ covers rest y).
  { intros (j & Hj & Hy'). rewrite Forall_forall in Hf. specialize (Hf j Hj). simpl in Hf. unfold in_i in Hy'. subst y.
    destruct ip; lia. }
  unfold in_i. subst y. destruct ip; split; try tauto; try discriminate.
  - intros [?|[?|?]]; try tauto. lia.
  - intros _. right; left. lia.
Qed.

Lemma apos_step : forall P i rest ip lo, normal P -> apos P (i :: rest) ip lo ->
  apos P (if ip then rest else i :: rest) (negb ip) (if ip then iend i else istart i).
Proof.
  intros P i rest ip lo N (pre & -> & Hp & Hr).
  apply normal_app in N as (N1 & N2 & N3). apply normal_cons in N2 as (Hv & Hf & N2).
  destruct ip; simpl in *.
  - exists (pre ++ [i]). rewrite <- app_assoc. simpl. spl; auto.
    + apply Forall_app. split; [|repeat constructor; lia].
      rewrite Forall_forall in *. intros j Hj. specialize (Hp j Hj). simpl in Hp. lia.
    + destruct rest as [|j rest]; auto. rewrite Forall_forall in Hf. apply (Hf j). simpl. auto.
  - exists pre. spl; auto; [|lia].
    rewrite Forall_forall in *. intros j Hj. specialize (Hp j Hj). simpl in Hp. lia.
Qed.

Lemma apos_later : forall snt P rest ip lo lo', apos P rest ip lo -> lo <= lo' < curv snt P rest ip ->
  apos P rest ip lo'.
Proof.
  intros snt P rest ip lo lo' (pre & -> & Hp & Hr) Hl. exists pre. spl; auto.
  - rewrite Forall_forall in *. intros j Hj. specialize (Hp j Hj). simpl in Hp. lia.
  - destruct rest as [|i rest]; auto. simpl in Hl. destruct ip; lia.
Qed.

(** Leaves that agree but for the cursors of the dimensions below [d]. *)
Definition keep (d : nat) (lf lf' : leaf) : Prop :=
  l_node lf' = l_node lf /\ l_shift lf' = l_shift lf /\ forall k, (d <= k)%nat -> l_cs lf' k = l_cs lf k.

Lemma keep_refl : forall d lf, keep d lf lf.
Proof. unfold keep. auto. Qed.
Lemma keep_trans : forall d a b c, keep d a b -> keep d b c -> keep d a c.
Proof. unfold keep. intros d a b c (A & B & C) (A' & B' & C'). spl; try congruence. intros. rewrite C', C; auto. Qed.
Lemma keep_weak : forall d d' a b, (d <= d')%nat -> keep d a b -> keep d' a b.
Proof. unfold keep. intros d d' a b Hd (A & B & C). spl; auto. intros. apply C. lia. Qed.
Lemma keep_set : forall d lf c, keep (S d) lf (set_cursor lf d c).
Proof. unfold keep, set_cursor. intros. simpl. spl; auto. intros. apply upd_other. lia. Qed.

Lemma trel_keep_trans : forall d t u v, trel (keep d) t u -> trel (keep d) u v -> trel (keep d) t v.
Proof.
  intros d t u v H1 H2. eapply trel_impl; [|apply (trel_trans _ _ _ _ _ _ _ _ H1 H2)].
  intros x z (y & ? & ?). eapply keep_trans; eauto.
Qed.

Lemma leaf_update_keep : forall n d scan snt lf lf', leaf_update n d scan snt lf = Some lf' -> keep (S d) lf lf'.
Proof.
  intros n d scan snt lf lf'. unfold leaf_update. destruct (scan =? c_cur (l_cs lf d)).
  - destruct (c_ipos (l_cs lf d)).
    + match goal with |- context [match ?e with Some _ => _ | None => _ end] => destruct e as [cur|] end; [|discriminate].
      intros H; injection H as <-. apply keep_set.
    + match goal with |- context [match ?e with Some _ => _ | None => _ end] => destruct e as [[index cur]|] end; [|discriminate].
      intros H; injection H as <-. apply keep_set.
  - intros H; injection H as <-. apply keep_refl.
Qed.

Lemma trel_mapM_keep : forall (g : leaf -> option leaf) (K : leaf -> leaf -> Prop),
  (forall lf lf', g lf = Some lf' -> K lf lf') -> 
  forall t t', tmapM g t = Some t' -> trel K t t'.
Proof.
  intros g K Hg.
  assert (G : (forall t t', tmapM g t = Some t' -> trel K t t') /\ (forall t t', amapM g t = Some t' -> arel K t t')).
  { trees.
    - intros x t'. destruct (g x) eqn:E; [|discriminate]. intros H; injection H as <-. simpl. auto.
    - intros f es IH t'. destruct (amapM g es) eqn:E; [|discriminate]. intros H; injection H as <-. simpl. auto.
    - intros e IH t'. destruct (tmapM g e) eqn:E; [|discriminate]. intros H; injection H as <-. simpl. auto.
    - intros e IH es IHs t'. destruct (tmapM g e) eqn:E; [|discriminate].
      destruct (amapM g es) eqn:E'; [|discriminate]. intros H; injection H as <-. simpl. auto. }
  apply G.
Qed.

(** Relation on a pair of trees related to a third one, all over [t]. *)
Lemma trel_pull : forall A B C (P : A -> B -> Prop) (Q : C -> A -> Prop) (R : C -> B -> Prop),
  (forall a b c, P a b -> Q c a -> R c b) ->
  forall t u v, trel P t u -> trel Q v t -> trel R v u.
Proof.
  intros A B C P Q R H t u v H1 H2. eapply trel_impl; [|apply (trel_trans _ _ _ _ _ _ _ _ H2 H1)].
  intros x z (y & ? & ?). eauto.
Qed.

Section Scan.
  Variables (n d : nat) (X : Type) (Pl : X -> list interval) (snt : Z).
  Variable Inv : X -> list interval -> bool -> leaf -> Prop.
  Hypothesis snt_max : snt < INT_MAX.
  Hypothesis Inv_P : forall x rest ip lf, Inv x rest ip lf ->
    normal (Pl x) /\ Forall (fun i => iend i < snt) (Pl x).
  Hypothesis Inv_cur : forall x rest ip lf, Inv x rest ip lf ->
    c_cur (l_cs lf d) = curv snt (Pl x) rest ip /\ c_ipos (l_cs lf d) = ip /\
    cursor_is_valid (l_cs lf d) = match Pl x with [] => false | _ => true end.
  Hypothesis Inv_step : forall x i rest ip lf, Inv x (i :: rest) ip lf ->
    exists lf', leaf_update n d (if ip then iend i else istart i) snt lf = Some lf' /\
      Inv x (if ip then rest else i :: rest) (negb ip) lf'.
  Hypothesis Inv_keep : forall x rest ip lf lf', keep d lf lf' -> Inv x rest ip lf -> Inv x rest ip lf'.

  Notation st := (X * (list interval * bool))%type.
  Definition Inv' (lf : leaf) (z : st) : Prop := Inv (fst z) (fst (snd z)) (snd (snd z)) lf.
  Definition ap (lo : Z) (z : st) : Prop := apos (Pl (fst z)) (fst (snd z)) (snd (snd z)) lo.
  Definition cz (z : st) : Z := curv snt (Pl (fst z)) (fst (snd z)) (snd (snd z)).

  Lemma eval_spec : forall lf z lo v, Inv' lf z -> ap lo z -> lo <= v <= cz z -> v < snt ->
    leaf_eval d v lf = coversb (Pl (fst z)) v.
  Proof.
    intros lf [x [rest ip]] lo v HI HA Hv Hs. unfold Inv', ap, cz in *. simpl in *.
    destruct (Inv_P _ _ _ _ HI) as [N F]. destruct (Inv_cur _ _ _ _ HI) as (C1 & C2 & C3).
    unfold leaf_eval. rewrite C1, C2, C3.
    assert (E : coversb (Pl x) v = true <-> covers (Pl x) v) by apply coversb_spec.
    destruct (Z.ltb_spec v (curv snt (Pl x) rest ip)).
    - rewrite (apos_const snt _ rest ip lo v N F HA) in E by lia.
      assert (coversb (Pl x) v = ip) as ->. { destruct (coversb (Pl x) v), ip; intuition congruence. }
      destruct ip; simpl; auto. destruct (Pl x) eqn:EP; auto.
      destruct HA as (pre & Hp & _). destruct rest; [|destruct pre; discriminate].
      exfalso. destruct E as [_ E]. specialize (E eq_refl). discriminate.
    - destruct rest as [|i rest]; [simpl in *; destruct (Pl x); lia|].
      assert (v = (if ip then iend i else istart i)) by (simpl in *; destruct ip; lia).
      pose proof (apos_at _ _ _ _ _ N HA) as K. rewrite <- H0 in K.
      assert (coversb (Pl x) v = negb ip) as ->.
      { destruct (coversb (Pl x) v), ip; simpl; intuition congruence. }
      destruct HA as (pre & Hp & _). destruct (Pl x); [destruct pre; discriminate|].
      destruct ip; auto.
  Qed.

  Definition stepz (v : Z) (z : st) : st :=
    match snd z with
    | (i :: rest, ip) => if v =? (if ip then iend i else istart i) then (fst z, (if ip then rest else i :: rest, negb ip)) else z
    | _ => z
    end.

  Lemma update_spec : forall lf z lo v, Inv' lf z -> ap lo z -> lo < v <= cz z -> v < snt ->
    exists lf', leaf_update n d v snt lf = Some lf' /\ (Inv' lf' (stepz v z) /\ ap v (stepz v z)).
  Proof.
    intros lf [x [rest ip]] lo v HI HA Hv Hs. unfold Inv', ap, cz, stepz in *. simpl in *.
    destruct (Inv_P _ _ _ _ HI) as [N F]. destruct (Inv_cur _ _ _ _ HI) as (C1 & C2 & C3).
    destruct rest as [|i rest].
    - simpl. exists lf. spl; auto.
      + unfold leaf_update. rewrite C1. destruct (Z.eqb_spec v (curv snt (Pl x) [] ip)); auto.
        simpl in *. destruct (Pl x); lia.
      + apply (apos_later snt _ _ _ lo v HA). simpl in *. destruct (Pl x); lia.
    - destruct (Z.eqb_spec v (if ip then iend i else istart i)).
      + destruct (Inv_step _ _ _ _ _ HI) as (lf' & H1 & H2). rewrite <- e in H1. exists lf'. spl; auto.
        simpl. rewrite e. eapply apos_step; eauto.
      + exists lf. simpl. spl; auto.
        * unfold leaf_update. rewrite C1. simpl. destruct (Z.eqb_spec v (if ip then iend i else istart i)); auto. lia.
        * apply (apos_later snt _ _ _ lo v HA). simpl in *. destruct ip; lia.
  Qed.

  Variable u : tree X.
  Definition inS (x : Z) : bool := teval d (tmap (fun z => coversb (Pl z) x) u).

  Variable sub : interval -> tree leaf -> option (tree leaf * list call).
  Variable Q : interval -> list call -> Prop.
  Hypothesis Hsub : forall res t v, istart res < iend res -> res = mk (istart res) (iend res) -> trel Inv' t v -> tmap fst v = u ->
    exists t' calls, sub res t = Some (t', calls) /\ trel (keep d) t t' /\ Q res calls.

  Definition mz (z : st) : nat := (2 * length (fst (snd z)) - if snd (snd z) then 1 else 0)%nat.

  Definition from (r : option Z) (lo : Z) : Z := match r with Some s => s | None => lo + 1 end.

  Lemma scan_loop_spec : forall fuel t v lo r,
    trel (fun lf z => Inv' lf z /\ ap lo z) t v -> tmap fst v = u ->
    (tsum (tmap mz v) < fuel)%nat ->
    match r with Some s => s <= lo /\ inS lo = true /\ (forall y, s <= y <= lo -> inS y = true) | None => inS lo = false end ->
    exists t' segs, 
      scan_loop fuel n d sub snt (tmin (tmap (leaf_min d) t)) r t = Some (t', flat_map snd segs) /\
      trel (keep (S d)) t t' /\
      Forall (fun seg => Q (fst seg) (snd seg)) segs /\
      normal (map fst segs) /\
      forall x, covers (map fst segs) x <-> inS x = true /\ from r lo <= x.
  Proof.
    induction fuel as [|fuel IH]; intros t v lo r HT Hu Hf Hr; [lia|].
    assert (Hcur : tmap (leaf_min d) t = tmap cz v).
    { apply tmap_trel. eapply trel_impl; [|exact HT]. intros lf z [HI _]. apply (Inv_cur _ _ _ _ HI). }
    set (scan := tmin (tmap (leaf_min d) t)).
    assert (Hmin : forall z, tin z v -> scan <= cz z).
    { intros z Hz. unfold scan. rewrite Hcur. apply tmin_le. apply tin_map. eauto. }
    assert (Hlf : forall z, tin z v -> exists lf, tin lf t /\ Inv' lf z /\ ap lo z).
    { intros z Hz. destruct (trel_tin _ _ _ _ _ z (trel_sym _ _ _ _ _ HT) Hz) as (lf & ? & ?). eauto. }
    assert (Hlo : lo < scan \/ snt <= scan).
    { assert (Hin : tin scan (tmap cz v)) by (unfold scan; rewrite Hcur; apply tmin_in).
      apply tin_map in Hin as (z & Hz & E). destruct (Hlf z Hz) as (lf & _ & HI & HA).
      destruct z as [x [rest ip]]. unfold cz, ap in *. simpl in *.
      destruct rest as [|i rest]; [destruct (Pl x); simpl in E; lia|].
      destruct HA as (pre & _ & _ & HA). simpl in E. destruct ip; lia. }
    assert (HT' : trel (fun lf z => (Inv' lf z /\ ap lo z) /\ scan <= cz z) t v).
    { apply (proj1 (trel_impl_ _ _ (fun lf z => Inv' lf z /\ ap lo z) _)); [|exact HT].
      intros lf z Hlft [HI HA]. spl; auto.
      unfold cz. rewrite <- (proj1 (Inv_cur _ _ _ _ HI)). unfold scan. apply tmin_le. apply tin_map. exists lf. auto. }
    assert (HinS : forall y, lo <= y <= scan -> y < snt ->
              inS y = teval d (tmap (leaf_eval d y) t)).
    { intros y Hy Hs. unfold inS. f_equal. rewrite <- Hu, tmap_tmap. symmetry. apply tmap_trel.
      eapply trel_impl; [|exact HT']. intros lf z [[HI HA] Hc]. eapply eval_spec; eauto. lia. }
    assert (Hconst : forall y, lo <= y < scan -> y < snt -> inS y = inS lo).
    { intros y Hy Hs. unfold inS. f_equal. apply tmap_ext. intros x Hx. rewrite <- Hu in Hx.
      apply tin_map in Hx as (z & Hz & ->). destruct (Hlf z Hz) as (lf & _ & HI & HA).
      destruct (Inv_P _ _ _ _ HI) as [N F]. specialize (Hmin z Hz). unfold cz in Hmin. 
      pose proof (apos_const snt _ _ _ _ y N F HA ltac:(lia)) as K1.
      pose proof (apos_const snt _ _ _ _ lo N F HA ltac:(lia)) as K2.
      rewrite <- coversb_spec in K1, K2.
      destruct (coversb (Pl (fst z)) y), (coversb (Pl (fst z)) lo); intuition congruence. }
    cbn [scan_loop]. fold scan. destruct (Z.ltb_spec scan snt) as [Hs|Hs].
    - destruct Hlo as [Hlo|Hlo]; [|lia].
      rewrite <- HinS by lia.
      (* one turn: the update, from any state reached by the sub call *)
      assert (STEP : forall t1, trel (keep d) t t1 ->
        exists t2, tmapM (leaf_update n d scan snt) t1 = Some t2 /\
          trel (fun lf z => Inv' lf z /\ ap scan z) t2 (tmap (stepz scan) v) /\
          trel (keep (S d)) t t2).
      { intros t1 K.
        assert (HT1 : trel (fun lf z => (Inv' lf z /\ ap lo z) /\ scan <= cz z) t1 v).
        { apply (trel_pull _ _ _ (fun lf z => (Inv' lf z /\ ap lo z) /\ scan <= cz z) (fun c a => keep d a c)) with (t := t);
            [|exact HT'|apply trel_sym; exact K].
          intros lf z lf1 [[H1 H2] H3] Hk. spl; auto. unfold Inv' in *. eapply Inv_keep; eauto. }
        assert (UPD : forall lf z, (Inv' lf z /\ ap lo z) /\ scan <= cz z -> exists lf', leaf_update n d scan snt lf = Some lf' /\
                  (Inv' lf' (stepz scan z) /\ ap scan (stepz scan z))).
        { intros lf z [[H1 H2] H3]. eapply update_spec; eauto. }
        destruct (trel_mapM _ _ _ _ (fun lf z => Inv' lf (stepz scan z) /\ ap scan (stepz scan z)) _ UPD t1 v HT1) as (t2 & E2 & HT2).
        exists t2. spl; auto.
        - apply trel_map_r. auto.
        - apply trel_keep_trans with (u := t1).
          + eapply trel_impl; [|exact K]. intros. eapply keep_weak; [|eauto]. lia.
          + eapply trel_mapM_keep; [|exact E2]. intros. eapply leaf_update_keep; eauto. }
      assert (Hu' : tmap fst (tmap (stepz scan) v) = u).
      { rewrite tmap_tmap, <- Hu. apply tmap_ext. intros [x [rest ip]] _. unfold stepz. simpl.
        destruct rest; auto. destruct (scan =? _); auto. }
      assert (Hm' : (tsum (tmap mz (tmap (stepz scan) v)) < fuel)%nat).
      { rewrite tmap_tmap. apply Nat.lt_le_trans with (tsum (tmap mz v)); [|lia]. apply tsum_lt.
        - intros [x [rest ip]] _. unfold stepz, mz. simpl. destruct rest as [|i rest]; auto.
          destruct (scan =? _); auto. destruct ip; simpl; lia.
        - assert (Hin : tin scan (tmap cz v)) by (unfold scan; rewrite Hcur; apply tmin_in).
          apply tin_map in Hin as (z & Hz & E). exists z. split; auto.
          destruct z as [x [rest ip]]. unfold cz, stepz, mz in *. simpl in *.
          destruct rest as [|i rest]; [exfalso; destruct (Pl x); simpl in E; lia|].
          simpl in E. rewrite E, Z.eqb_refl. destruct ip; simpl; lia. }
      destruct r as [s|].
      + destruct Hr as (Hr1 & Hr2 & Hr3). destruct (inS scan) eqn:Ein.
        * (* goes on *)
          destruct (STEP t) as (t2 & E2 & HT2 & K2); [apply trel_refl; intros; apply keep_refl|].
          rewrite E2. 
          destruct (IH t2 _ scan (Some s) HT2 Hu' Hm') as (t' & segs & E' & K' & HQ & HN & HC).
          { spl; auto; [lia|]. intros y Hy. destruct (Z.eq_dec y scan); [congruence|].
            destruct (Z_le_gt_dec y lo); [apply Hr3; lia|]. rewrite Hconst by lia. auto. }
          rewrite E'. exists t', segs. spl; auto.
          eapply trel_keep_trans; eauto.
        * (* closes the interval [s, scan) *)
          unfold is_valid. cbn [istart iend mk]. destruct (Z.ltb_spec s scan); [|lia].
          destruct (Hsub (mk s scan) t v) as (t1 & calls & E1 & K1 & HQ1); auto.
          { eapply trel_impl; [|exact HT]. intros lf z [H1 _]; exact H1. }
          rewrite E1. destruct (STEP t1 K1) as (t2 & E2 & HT2 & K2). rewrite E2.
          destruct (IH t2 _ scan None HT2 Hu' Hm' Ein) as (t' & segs & E' & K' & HQ & HN & HC).
          rewrite E'. exists t', ((mk s scan, calls) :: segs). simpl. spl; auto.
          -- eapply trel_keep_trans; eauto.
          -- apply normal_cons. spl; auto.
             ++ apply Forall_forall. intros j Hj.
                assert (Hvj : istart j < iend j).
                { destruct HN as [HN _]. rewrite Forall_forall in HN. auto. }
                assert (covers (map fst segs) (istart j)) by (exists j; split; auto; unfold in_i; lia).
                apply HC in H0. simpl in *. lia.
          -- intros x. rewrite covers_cons, HC. unfold in_i, from. simpl. split.
             ++ intros [Hx|Hx]; [|split; [tauto|lia]]. split; [|lia].
                destruct (Z_le_gt_dec x lo); [apply Hr3; lia|]. rewrite Hconst by lia. auto.
             ++ intros [Hx1 Hx2]. destruct (Z_le_gt_dec scan x); [right|left; lia]. split; auto.
                destruct (Z.eq_dec x scan); [congruence|lia].
      + destruct (inS scan) eqn:Ein.
        * (* opens an interval *)
          destruct (STEP t) as (t2 & E2 & HT2 & K2); [apply trel_refl; intros; apply keep_refl|].
          rewrite E2.
          destruct (IH t2 _ scan (Some scan) HT2 Hu' Hm') as (t' & segs & E' & K' & HQ & HN & HC).
          { spl; auto; [lia|]. intros y Hy. replace y with scan by lia. auto. }
          rewrite E'. exists t', segs. spl; auto; [eapply trel_keep_trans; eauto|].
          intros x. rewrite HC. unfold from. split; intros [Hx1 Hx2]; split; auto; [lia|].
          destruct (Z_le_gt_dec scan x); auto. exfalso. rewrite Hconst in Hx1 by lia. congruence.
        * destruct (STEP t) as (t2 & E2 & HT2 & K2); [apply trel_refl; intros; apply keep_refl|].
          rewrite E2.
          destruct (IH t2 _ scan None HT2 Hu' Hm' Ein) as (t' & segs & E' & K' & HQ & HN & HC).
          rewrite E'. exists t', segs. spl; auto; [eapply trel_keep_trans; eauto|].
          intros x. rewrite HC. unfold from. split; intros [Hx1 Hx2]; split; auto; [lia|].
          destruct (Z.eq_dec x scan); [congruence|].
          destruct (Z_le_gt_dec scan x); [lia|]. exfalso. rewrite Hconst in Hx1 by lia. congruence.
    - (* end of the scan: every leaf is exhausted *)
      assert (Hend : forall x, lo <= x -> inS x = false).
      { intros x Hx. apply teval_false. intros b Hb. apply tin_map in Hb as (y & Hy & ->).
        rewrite <- Hu in Hy. apply tin_map in Hy as (z & Hz & ->). destruct (Hlf z Hz) as (lf & _ & HI & HA).
        destruct (Inv_P _ _ _ _ HI) as [N F]. specialize (Hmin z Hz).
        destruct (coversb (Pl (fst z)) x) eqn:E; auto. exfalso. apply coversb_spec in E as (i & Hi & Hx').
        destruct HA as (pre & Hp & Hpre & HA). unfold cz in Hmin.
        destruct (fst (snd z)) as [|j rest] eqn:Er.
        - rewrite Hp, app_nil_r in Hi. rewrite Forall_forall in Hpre. specialize (Hpre i Hi). simpl in Hpre.
          unfold in_i in Hx'. lia.
        - assert (Hj : In j (Pl (fst z))) by (rewrite Hp; apply in_app_iff; simpl; auto).
          rewrite Forall_forall in F. specialize (F j Hj). simpl in F, Hmin.
          destruct N as [N _]. rewrite Forall_forall in N. specialize (N j Hj). simpl in N.
          destruct (snd (snd z)); lia. }
      exists t, []. spl; auto.
      + apply trel_refl. intros; apply keep_refl.
      + constructor; constructor.
      + intros x. simpl. rewrite covers_nil. split; [tauto|]. intros [Hx1 Hx2].
        destruct r as [s|]; simpl in Hx2.
        * destruct Hr as (_ & Hr & _). rewrite Hend in Hr by lia. discriminate.
        * rewrite Hend in Hx1 by lia. discriminate.
  Qed.
End Scan.
