(** Transfer of fields between meshes (property C40). *)
From Coq Require Import QArith Permutation.
From Verif Require Import Base IntervalModel Spec LoiModel LcaModel LcaSpec LcaProofs CellArrayModel CellArrayProofs
  SubsetModel SubsetSpec SubsetProofs2 MeshModel MeshProofs NumModel NumProofs PropsNum AdaptModel AdaptProofs TagProofs.
Open Scope Z_scope.

(** ** Assignments *)
Lemma write_all_spec : forall (R : Z -> list Z -> Q -> Prop) ws u x y,
  (forall x y q, In (x, y, q) ws -> R x y q) ->
  (In (x, y) (map fst ws) /\ R x y (write_all ws u x y)) \/ (~ In (x, y) (map fst ws) /\ write_all ws u x y = u x y).
Proof.
  intros R ws. induction ws as [|[[x0 y0] q0] ws IH]; intros u x y H; [right; split; auto|].
  unfold write_all. cbn [fold_left]. change (fold_left write1 ws ?u) with (write_all ws u).
  destruct (IH (write1 u (x0, y0, q0)) x y) as [[H1 H2]|[H1 H2]]; [intros; apply H; right; auto|left; split; auto; right; auto|].
  rewrite H2. cbn [write1]. destruct ((x =? x0) && zlist_eqb y y0) eqn:E.
  - apply andb_prop in E as [E1 E2]. apply Z.eqb_eq in E1. apply zlist_eqb_eq in E2. subst. left. split; [left; auto|]. apply H. left; auto.
  - right. split; auto. intros [E'|E']; auto. cbn [fst] in E'. apply pair_equal_spec in E' as [-> ->].
    rewrite Z.eqb_refl in E. rewrite (proj2 (zlist_eqb_eq _ _) eq_refl) in E. discriminate.
Qed.

Lemma mapM_some : forall A B (f : A -> option B) l, (forall x, In x l -> exists y, f x = Some y) -> exists ys, mapM f l = Some ys /\
  forall y, In y ys <-> exists x, In x l /\ f x = Some y.
Proof.
  intros A B f l. induction l as [|a l IH]; intros H.
  - exists []. split; auto. intros y. split; [intros []|intros (x & [] & _)].
  - destruct (H a) as (b & Hb); [left; auto|]. destruct IH as (ys & E & M); [intros; apply H; right; auto|].
    exists (b :: ys). cbn [mapM]. rewrite Hb, E. split; auto. intros y. cbn [In]. rewrite M. split.
    + intros [<-|(x & Hx & E')]; [exists a; auto|exists x; auto].
    + intros (x & [<-|Hx] & E'); [left; congruence|right; eauto].
Qed.

(** What one [apply_op] does, when the operator applied to a call assigns to the
    cells [A i yz] only values satisfying [R]. *)
Lemma apply_op_spec : forall n dest set (op : interval -> list Z -> option (list write)) v calls (A : interval -> list Z -> Z -> list Z -> Prop) (R : Z -> list Z -> Q -> Prop),
  subset_calls n set = Some calls ->
  (forall i yz, In (i, yz) calls -> exists ws, op i yz = Some ws /\ (forall x y q, In (x, y, q) ws -> R x y q) /\
     forall x y, In (x, y) (map fst ws) <-> A i yz x y) ->
  exists v', apply_op n dest set op v = Some v' /\ (forall l, l <> dest -> v' l = v l) /\
    forall x y, ((exists i yz, In (i, yz) calls /\ A i yz x y) /\ R x y (v' dest x y)) \/
                (~ (exists i yz, In (i, yz) calls /\ A i yz x y) /\ v' dest x y = v dest x y).
Proof.
  intros n dest set op v calls A R E H. unfold apply_op. rewrite E.
  destruct (mapM_some _ _ (fun '(i, yz) => op i yz) calls) as (wss & Ew & M).
  { intros [i yz] Hin. destruct (H i yz Hin) as (ws & Hws & _). eauto. }
  rewrite Ew. eexists. split; [reflexivity|]. split; [intros l Hl; unfold upd; rewrite (proj2 (Nat.eqb_neq l dest)); auto|].
  intros x y. unfold upd. rewrite Nat.eqb_refl.
  assert (HR : forall x y q, In (x, y, q) (concat wss) -> R x y q).
  { intros x1 y1 q Hin. apply in_concat in Hin as (ws & Hws & Hin). apply M in Hws as ([i yz] & Hc & E').
    destruct (H i yz Hc) as (ws' & E'' & HR & _). rewrite E' in E''. injection E'' as <-. auto. }
  assert (HA : In (x, y) (map fst (concat wss)) <-> exists i yz, In (i, yz) calls /\ A i yz x y).
  { rewrite in_map_iff. split.
    - intros (w & Ew' & Hin). apply in_concat in Hin as (ws & Hws & Hin). apply M in Hws as ([i yz] & Hc & E').
      destruct (H i yz Hc) as (ws' & E'' & _ & HA). rewrite E' in E''. injection E'' as <-. exists i, yz. split; auto. apply HA.
      rewrite <- Ew'. apply in_map. auto.
    - intros (i & yz & Hc & Ha). destruct (H i yz Hc) as (ws & E' & _ & HA). apply HA in Ha. apply in_map_iff in Ha as (w & Hw & Hin).
      exists w. split; auto. apply in_concat. exists ws. split; auto. apply M. exists (i, yz). auto. }
  destruct (write_all_spec R (concat wss) (v dest) x y HR) as [[H1 H2]|[H1 H2]]; [left|right]; rewrite <- HA; auto.
Qed.

(** ** The three operators *)
Lemma cells_of_calls_step : forall calls x yz, (forall i yz, In (i, yz) calls -> istep i = 1) ->
  (In (x :: yz) (cells_of_calls calls) <-> exists i, In (i, yz) calls /\ In x (strided i)).
Proof.
  intros calls x yz H. rewrite cells_of_calls_In. split.
  - intros (i & Hi & Hx). exists i. split; auto. apply strided_In; eauto.
  - intros (i & Hi & Hx). exists i. split; auto. apply strided_In; eauto.
Qed.

Lemma copy_op_spec : forall u i yz, exists ws, copy_op u i yz = Some ws /\ (forall x y q, In (x, y, q) ws -> q = u x y) /\
  forall x y, In (x, y) (map fst ws) <-> y = yz /\ In x (strided i).
Proof.
  intros u i yz. unfold copy_op, view.
  rewrite (assign_map _ i yz (fun x => x) (fun x => u x yz) (strided i)) by (rewrite map_id; auto).
  eexists. split; [reflexivity|]. split.
  - intros x y q H. apply in_map_iff in H as (x' & E & _). injection E as <- <- <-. auto.
  - intros x y. rewrite map_map, in_map_iff. cbn [fst]. split.
    + intros (x' & E & Hx). injection E as -> <-. auto.
    + intros [-> Hx]. exists x. auto.
Qed.

(** The mean over the children. *)
Definition is_mean (w : field) (x : Z) (y : list Z) (q : Q) : Prop :=
  (q * inject_Z (2 ^ Z.of_nat (S (length y))) == qsum (map (fun c => w (fst c) (snd c)) (children x y)))%Q.

Lemma projection_op_spec : forall w i yz, istep i = 1 -> (length yz <= 2)%nat -> exists ws, projection_op_ w i yz = Some ws /\
  (forall x y q, In (x, y, q) ws -> is_mean w x y q) /\
  forall x y, In (x, y) (map fst ws) <-> y = yz /\ In x (strided i).
Proof.
  intros w i yz Hst Hl. destruct (C36_projection_is_mean w i yz Hst Hl) as (ps & E & F & V). exists ps. spl; auto.
  - intros x y q H. pose proof (in_map fst _ _ H) as H'. rewrite F in H'. cbn [fst] in H'. apply in_map_iff in H' as (x' & E' & _).
    apply pair_equal_spec in E' as [-> <-]. unfold is_mean, children. rewrite map_map. cbn [fst snd]. apply (V x yz q H).
  - intros x y. rewrite F, in_map_iff. split.
    + intros (x' & E' & Hx). injection E' as -> <-. auto.
    + intros [-> Hx]. exists x. auto.
Qed.

(** The value of the prediction in one cell: what the operator assigns to it when it
    is applied to its parent. *)
Definition is_predicted (order : nat) (w : field) (x : Z) (y : list Z) (q : Q) : Prop :=
  exists ws, prediction_true order w (mk (x / 2) (x / 2 + 1)) (ancestor 1 y) = Some ws /\ In (x, y, q) ws.

Lemma strided_one : forall x, strided (mk x (x + 1)) = [x].
Proof.
  intros x. unfold strided, mk, range_count. cbn [istart iend istep]. replace (x + 1 - x + 1 - 1) with 1 by lia. reflexivity.
Qed.

Lemma predicted_cell : forall order w par x yz, In par (parities (S (length yz))) ->
  is_predicted order w (finer par x) (fine_row yz (tl par)) (pred_cell signs_true order w par x yz) /\
  In (finer par x, fine_row yz (tl par)) (children x yz).
Proof.
  intros order w par x yz Hpar.
  assert (Hc : In (finer par x, fine_row yz (tl par)) (children x yz)) by (unfold children; apply in_map_iff; exists par; auto).
  split; auto. pose proof (proj1 (children_In _ _ _ _) Hc) as (Hx & _ & Hy). unfold is_predicted. rewrite Hx, Hy.
  rewrite prediction_true_spec by reflexivity. eexists. split; [reflexivity|]. apply in_flat_map. exists par. split; auto.
  rewrite strided_one. left. auto.
Qed.

Lemma prediction_op_spec : forall order w i yz, istep i = 1 -> exists ws, prediction_true order w i yz = Some ws /\
  (forall x y q, In (x, y, q) ws -> is_predicted order w x y q) /\
  forall x y, In (x, y) (map fst ws) <-> length y = length yz /\ ancestor 1 y = yz /\ In (x / 2) (strided i).
Proof.
  intros order w i yz Hst. rewrite prediction_true_spec by auto. eexists. split; [reflexivity|]. split.
  - intros x y q H. apply in_flat_map in H as (par & Hpar & H). apply in_map_iff in H as (x' & E & Hx'). injection E as <- <- <-.
    apply predicted_cell. auto.
  - intros x y. rewrite in_map_iff. split.
    + intros ([[x1 y1] q] & E & H). cbn [fst] in E. apply pair_equal_spec in E as [-> ->].
      apply in_flat_map in H as (par & Hpar & H). apply in_map_iff in H as (x' & E & Hx'). injection E as <- <- <-.
      destruct (predicted_cell order w par x' yz Hpar) as [_ Hc]. apply children_In in Hc as (-> & Hl & ->). auto.
    + intros (Hl & Ha & Hx). assert (Hc : In (x, y) (children (x / 2) yz)) by (apply children_In; auto).
      unfold children in Hc. apply in_map_iff in Hc as (par & E & Hpar).
      exists (x, y, pred_cell signs_true order w par (x / 2) yz). split; auto. apply in_flat_map. exists par. split; auto.
      apply in_map_iff. exists (x / 2). split; auto. apply pair_equal_spec in E as [E1 E2]. unfold finer. rewrite E1, E2. auto.
Qed.

(** ** One level *)
Section Levels.
  Context (n order maxl : nat) (old new : ca) (u : lfield).
  Hypothesis dim : (n <= 2)%nat.
  Hypothesis old_wf : forall l, (l <= maxl)%nat -> wf n (c_at old l) /\ a_level (c_at old l) = l.
  Hypothesis new_wf : forall l, (l <= maxl)%nat -> wf n (c_at new l) /\ a_level (c_at new l) = l.
  Hypothesis old_small : forall l q k, (l <= maxl)%nat -> lca_mem n (c_at old l) q -> (k <= n)%nat -> nth k q 0 + 3 < 2 ^ 31 - 1.
  Hypothesis new_small : forall l q k, (l <= maxl)%nat -> lca_mem n (c_at new l) q -> (k <= n)%nat -> nth k q 0 + 3 < 2 ^ 31 - 1.

  Notation oldm l p := (lca_mem n (c_at old l) p).
  Notation newm l p := (lca_mem n (c_at new l) p).

  (** The cells assigned by the three kinds of operators. *)
  Definition copied (l : nat) (x : Z) (y : list Z) : Prop := oldm l (x :: y) /\ newm l (x :: y).
  Definition projected (l : nat) (x : Z) (y : list Z) : Prop :=
    newm l (x :: y) /\ exists q, oldm (S l) q /\ ancestor 1 q = x :: y.
  Definition predicted (l : nat) (x : Z) (y : list Z) : Prop :=
    match l with O => False | S m => oldm m (ancestor 1 (x :: y)) /\ length y = n /\ exists q, newm (S m) q /\ ancestor 1 q = ancestor 1 (x :: y) end.

  Lemma small_fits : forall c l w, (forall q k, lca_mem n c q -> (k <= n)%nat -> nth k q 0 + 3 < 2 ^ 31 - 1) -> a_level c = l -> (w <= l)%nat -> fits n w c.
  Proof.
    intros c l w H El Hw q k Hq Hk. rewrite El. replace (Z.max 0 (Z.of_nat w - Z.of_nat l)) with 0 by lia.
    rewrite Z.pow_0_r. specialize (H q k Hq Hk). lia.
  Qed.

  Lemma copy_step : forall v l, (l <= maxl)%nat -> exists v', copy_level n old new u v l = Some v' /\ (forall k, k <> l -> v' k = v k) /\
    forall x y, (copied l x y /\ v' l x y = u l x y) \/ (~ copied l x y /\ v' l x y = v l x y).
  Proof.
    intros v l Hl. destruct (old_wf l Hl) as [Wo Lo], (new_wf l Hl) as [Wn Ln]. unfold copy_level.
    assert (EI : inter (c_at old l) (c_at new l) = on (inter (c_at old l) (c_at new l)) (Nat.max (a_level (c_at old l)) (a_level (c_at new l)))).
    { unfold inter. rewrite on_make_op. reflexivity. }
    rewrite Lo, Ln, Nat.max_id in EI. rewrite EI.
    destruct (inter_spec n (c_at old l) (c_at new l) l Wo Wn) as (calls & E & V & _ & _ & M).
    - apply (small_fits _ l); [intros; apply (old_small l); auto|auto|lia].
    - apply (small_fits _ l); [intros; apply (new_small l); auto|auto|lia].
    - destruct (apply_op_spec n l (on (inter (c_at old l) (c_at new l)) l) (copy_op (u l)) v calls
        (fun i yz x y => y = yz /\ In x (strided i)) (fun x y q => q = u l x y) E) as (v' & E' & F & P).
      { intros i yz _. apply copy_op_spec. }
      assert (HC : forall x y, (exists i yz, In (i, yz) calls /\ y = yz /\ In x (strided i)) <-> copied l x y).
      { intros x y. unfold copied. transitivity (In (x :: y) (cells_of_calls calls)).
        - rewrite cells_of_calls_step by (intros i yz Hin; apply (V i yz Hin)). split; [intros (i & yz & H1 & -> & H2)|intros (i & H1 & H2)]; eauto.
        - rewrite M. split.
          + intros (Hp & D1 & D2). rewrite denotes_mesh_fine in D1, D2 by lia. rewrite Lo, Nat.sub_diag, ancestor_0 in D1. rewrite Ln, Nat.sub_diag, ancestor_0 in D2. auto.
          + intros [D1 D2]. assert (Hp : length (x :: y) = S n) by apply D1. rewrite !denotes_mesh_fine by lia.
            rewrite Lo, Ln, Nat.sub_diag, ancestor_0. auto. }
      exists v'. spl; auto. intros x y. rewrite <- HC. apply P.
  Qed.

  Lemma move_step : forall v m, (S m <= maxl)%nat -> exists v', move_level n order old new u v (S m) = Some v' /\
    (forall k, k <> m -> k <> S m -> v' k = v k) /\
    (forall x y, (projected m x y /\ is_mean (u (S m)) x y (v' m x y)) \/ (~ projected m x y /\ v' m x y = v m x y)) /\
    (forall x y, (predicted (S m) x y /\ is_predicted order (u m) x y (v' (S m) x y)) \/ (~ predicted (S m) x y /\ v' (S m) x y = v (S m) x y)).
  Proof.
    intros v m Hm. assert (Hm' : (m <= maxl)%nat) by lia.
    destruct (old_wf (S m) Hm) as [Wo Lo], (new_wf (S m) Hm) as [Wn Ln], (old_wf m Hm') as [Wo' Lo'], (new_wf m Hm') as [Wn' Ln'].
    unfold move_level. cbn [Nat.pred].
    destruct (inter_spec n (c_at old (S m)) (c_at new m) m Wo Wn') as (calls & E & V & _ & _ & M).
    { apply (small_fits _ (S m)); [intros; apply (old_small (S m)); auto|auto|lia]. }
    { apply (small_fits _ m); [intros; apply (new_small m); auto|auto|lia]. }
    destruct (apply_op_spec n m (on (inter (c_at old (S m)) (c_at new m)) m) (projection_op_ (u (S m))) v calls
        (fun i yz x y => y = yz /\ In x (strided i)) (fun x y q => is_mean (u (S m)) x y q) E) as (v1 & E1 & F1 & P1).
    { intros i yz Hin. destruct (V i yz Hin) as (H1 & _ & H2). apply projection_op_spec; auto. lia. }
    rewrite E1.
    assert (HC : forall x y, (exists i yz, In (i, yz) calls /\ y = yz /\ In x (strided i)) <-> projected m x y).
    { intros x y. unfold projected. transitivity (In (x :: y) (cells_of_calls calls)).
      - rewrite cells_of_calls_step by (intros i yz Hin; apply (V i yz Hin)). split; [intros (i & yz & H1 & -> & H2)|intros (i & H1 & H2)]; eauto.
      - rewrite M. split.
        + intros (Hp & D1 & D2). rewrite denotes_mesh_coarse in D1 by lia. rewrite denotes_mesh_fine in D2 by lia.
          rewrite Lo in D1. rewrite Ln', Nat.sub_diag, ancestor_0 in D2. split; auto.
          destruct D1 as (q & Hq & ->). exists q. replace (S m - m)%nat with 1%nat by lia. auto.
        + intros [D1 (q & Hq & Eq)]. assert (Hp : length (x :: y) = S n) by apply D1. rewrite denotes_mesh_coarse by lia. rewrite denotes_mesh_fine by lia.
          rewrite Lo, Ln', Nat.sub_diag, ancestor_0. replace (S m - m)%nat with 1%nat by lia. spl; auto. exists q. auto. }
    destruct (inter_spec n (c_at new (S m)) (c_at old m) m Wn Wo') as (calls2 & E2 & V2 & _ & _ & M2).
    { apply (small_fits _ (S m)); [intros; apply (new_small (S m)); auto|auto|lia]. }
    { apply (small_fits _ m); [intros; apply (old_small m); auto|auto|lia]. }
    destruct (apply_op_spec n (S m) (on (inter (c_at new (S m)) (c_at old m)) m) (prediction_true order (u m)) v1 calls2
        (fun i yz x y => length y = length yz /\ ancestor 1 y = yz /\ In (x / 2) (strided i)) (fun x y q => is_predicted order (u m) x y q) E2) as (v2 & E3 & F2 & P2).
    { intros i yz Hin. destruct (V2 i yz Hin) as (H1 & _ & H2). apply prediction_op_spec; auto. }
    assert (HC2 : forall x y, (exists i yz, In (i, yz) calls2 /\ length y = length yz /\ ancestor 1 y = yz /\ In (x / 2) (strided i)) <-> predicted (S m) x y).
    { intros x y. cbn [predicted]. transitivity (length y = n /\ In (ancestor 1 (x :: y)) (cells_of_calls calls2)).
      - rewrite ancestor_cons, cells_of_calls_step by (intros i yz Hin; apply (V2 i yz Hin)).
        replace (x / 2 ^ Z.of_nat 1) with (x / 2) by reflexivity. split.
        + intros (i & yz & H1 & H2 & <- & H3). split; [|eauto]. destruct (V2 _ _ H1) as [L _]. rewrite ancestor_length in L. auto.
        + intros (L & i & H1 & H2). exists i, (ancestor 1 y). rewrite ancestor_length. auto.
      - rewrite M2. split.
        + intros (L & Hp & D1 & D2). rewrite denotes_mesh_coarse in D1 by lia. rewrite denotes_mesh_fine in D2 by lia.
          rewrite Ln in D1. rewrite Lo', Nat.sub_diag, ancestor_0 in D2. spl; auto.
          destruct D1 as (q & Hq & Eq). exists q. replace (S m - m)%nat with 1%nat in Eq by lia. auto.
        + intros (D1 & L & (q & Hq & Eq)). assert (Hp : length (ancestor 1 (x :: y)) = S n) by (rewrite ancestor_length; cbn [length]; lia). spl; auto.
          * rewrite denotes_mesh_coarse by lia. rewrite Ln. replace (S m - m)%nat with 1%nat by lia. exists q. auto.
          * rewrite denotes_mesh_fine by lia. rewrite Lo', Nat.sub_diag, ancestor_0. auto. }
    exists v2. spl; auto.
    - intros k H1 H2. rewrite F2, F1; auto.
    - intros x y. rewrite F2 by lia. rewrite <- HC. apply P1.
    - intros x y. rewrite <- HC2. destruct (P2 x y) as [H|[H1 H2]]; [left; auto|right; split; auto]. rewrite H2, F1 by lia. auto.
  Qed.

  (** ** The loops *)
  Lemma copy_loop : forall ls v, NoDup ls -> (forall l, In l ls -> (l <= maxl)%nat) -> exists v', fold_levels (copy_level n old new u) ls v = Some v' /\
    forall l x y, (In l ls /\ copied l x y /\ v' l x y = u l x y) \/ (~ (In l ls /\ copied l x y) /\ v' l x y = v l x y).
  Proof.
    induction ls as [|l ls IH]; intros v ND H.
    - exists v. split; auto. intros l x y. right. split; auto. intros [[] _].
    - cbn [fold_levels]. destruct (copy_step v l) as (v1 & E1 & F1 & P1); [apply H; left; auto|]. rewrite E1.
      inversion ND as [|? ? N1 N2]; subst. destruct (IH v1 N2) as (v' & E & P); [intros; apply H; right; auto|].
      exists v'. split; auto. intros k x y. destruct (P k x y) as [(H1 & H2 & H3)|[H1 H2]].
      + left. spl; auto. right; auto.
      + destruct (Nat.eq_dec k l) as [->|Hk].
        * destruct (P1 x y) as [[H3 H4]|[H3 H4]]; [left; spl; auto; [left; auto|congruence]|right].
          split; [|congruence]. intros [_ H5]. auto.
        * right. split; [|rewrite H2, F1; auto]. intros [[->|H3] H4]; auto.
  Qed.

  Lemma fold_levels_app : forall f a b (v : lfield), fold_levels f (a ++ b) v = match fold_levels f a v with Some v => fold_levels f b v | None => None end.
  Proof. induction a as [|x a IH]; intros b v; auto. cbn [app fold_levels]. destruct (f v x); auto. Qed.

  Definition moved (s k l : nat) (x : Z) (y : list Z) (before after : Q) : Prop :=
    ((s <= l < s + k)%nat /\ projected l x y /\ is_mean (u (S l)) x y after) \/
    (~ ((s <= l < s + k)%nat /\ projected l x y) /\
      (((s < l <= s + k)%nat /\ predicted l x y /\ is_predicted order (u (Nat.pred l)) x y after) \/
       (~ ((s < l <= s + k)%nat /\ predicted l x y) /\ after = before))).

  Lemma move_loop : forall k s v, (s + k <= maxl)%nat -> exists v', fold_levels (move_level n order old new u) (seq (S s) k) v = Some v' /\
    forall l x y, moved s k l x y (v l x y) (v' l x y).
  Proof.
    induction k as [|k IH]; intros s v Hk.
    - exists v. split; auto. intros l x y. right. split; [lia|]. right. split; [lia|auto].
    - rewrite seq_S, fold_levels_app. destruct (IH s v) as (v1 & E1 & P1); [lia|]. rewrite E1. cbn [fold_levels].
      destruct (move_step v1 (s + k)) as (v2 & E2 & F2 & PP & PQ); [lia|]. replace (S s + k)%nat with (S (s + k)) by lia. rewrite E2.
      exists v2. split; auto. intros l x y. specialize (P1 l x y).
      destruct (Nat.eq_dec l (s + k)) as [El|N1]; [|destruct (Nat.eq_dec l (S (s + k))) as [El|N2]].
      + rewrite <- El in PP. destruct (PP x y) as [[H1 H2]|[H1 H2]]; [left; spl; auto; lia|right]. split; [intros [_ H]; auto|].
        rewrite H2. destruct P1 as [(H & _)|[_ [(H3 & H4)|(H3 & H4)]]]; [lia|left; split; auto; lia|right]. split; auto.
        intros [H5 H6]. apply H3. split; auto. lia.
      + subst l. right. split; [lia|]. replace (Nat.pred (S (s + k))) with (s + k)%nat by lia.
        destruct P1 as [(H & _)|[_ [(H3 & H4)|(H3 & H4)]]]; [lia|lia|].
        destruct (PQ x y) as [[H1 H2]|[H1 H2]]; [left; spl; auto; lia|right]. split; [intros [_ H]; auto|congruence].
      + rewrite F2 by auto. destruct P1 as [(H & H')|[H0 [(H3 & H4)|(H3 & H4)]]].
        * left. split; auto; lia.
        * right. split; [intros [H5 H6]; apply H0; split; auto; lia|]. left. split; auto; lia.
        * right. split; [intros [H5 H6]; apply H0; split; auto; lia|]. right. split; auto. intros [H5 H6]. apply H3. split; auto. lia.
  Qed.
End Levels.
