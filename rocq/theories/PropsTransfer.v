(** Property C40: transfer of a field from the old mesh to the adapted one. *)
From Coq Require Import QArith Permutation.
From Verif Require Import Base IntervalModel Spec LoiModel LcaModel LcaSpec LcaProofs RowsProofs CellArrayModel CellArrayProofs PropsLca PropsCellArray
  SubsetModel SubsetSpec SubsetProofs2 PropsSubset MeshModel MeshProofs PropsMesh NumModel NumProofs PropsNum AdaptModel AdaptProofs TagProofs
  TransferProofs PropsAdapt.
Open Scope Z_scope.

(** ** Vocabulary *)

(** A mesh whose leaves have levels between [minl] and [maxl] and coordinates within
    the integer type. *)
Definition mesh_ok (n minl maxl : nat) (c : ca) : Prop :=
  ca_wf n c /\ (maxl <= c_max c)%nat /\ (forall l, (l <= maxl)%nat -> a_level (c_at c l) = l) /\
  (forall l q, ca_mem n c l q -> (minl <= l <= maxl)%nat /\ forall k, (k <= n)%nat -> nth k q 0 + 3 < 2 ^ 31 - 1).

Lemma mesh_ok_wf : forall n minl maxl c, mesh_ok n minl maxl c -> forall l, (l <= maxl)%nat -> wf n (c_at c l) /\ a_level (c_at c l) = l.
Proof. intros n minl maxl c (W & M & L & _) l Hl. split; auto. apply W. lia. Qed.
Lemma mesh_ok_small : forall n minl maxl c, mesh_ok n minl maxl c -> forall l q k, (l <= maxl)%nat -> lca_mem n (c_at c l) q -> (k <= n)%nat ->
  nth k q 0 + 3 < 2 ^ 31 - 1.
Proof. intros n minl maxl c (W & M & L & B) l q k Hl Hq Hk. apply (B l q); auto. split; auto. lia. Qed.

(** ** The values on the new leaves
    For any two meshes: a leaf of both keeps its value, a leaf above old leaves takes
    the mean of its children, a leaf below an old leaf takes the prediction, and any
    other leaf takes 0. *)
Theorem C40_values : forall n order minl maxl old new u, (n <= 2)%nat -> (minl <= maxl)%nat ->
  mesh_ok n minl maxl old -> mesh_ok n minl maxl new -> no_overlap n old ->
  exists v, update_fields n order minl maxl old new u = Some v /\
    forall l x y, ca_mem n new l (x :: y) ->
      (ca_mem n old l (x :: y) -> v l x y = u l x y) /\
      ((exists q, ca_mem n old (S l) q /\ ancestor 1 q = x :: y) ->
        (v l x y * inject_Z (2 ^ Z.of_nat (S n)) == qsum (map (fun c => u (S l) (fst c) (snd c)) (children x y)))%Q) /\
      (forall m, l = S m -> ca_mem n old m (ancestor 1 (x :: y)) ->
        exists ws, prediction_true order (u m) (mk (x / 2) (x / 2 + 1)) (ancestor 1 y) = Some ws /\ In (x, y, v l x y) ws) /\
      (~ ca_mem n old l (x :: y) -> ~ (exists q, ca_mem n old (S l) q /\ ancestor 1 q = x :: y) ->
       ~ (exists m, l = S m /\ ca_mem n old m (ancestor 1 (x :: y))) -> v l x y = 0%Q).
Proof.
  intros n order minl maxl old new u Hn Hmm Ho Hnew HD.
  pose proof (mesh_ok_wf _ _ _ _ Ho) as Wo. pose proof (mesh_ok_wf _ _ _ _ Hnew) as Wn.
  pose proof (mesh_ok_small _ _ _ _ Ho) as So. pose proof (mesh_ok_small _ _ _ _ Hnew) as Sn.
  destruct Ho as (_ & Mo & _ & Bo). destruct Hnew as (_ & Mn & _ & Bn).
  assert (OM : forall l q, (l <= maxl)%nat -> lca_mem n (c_at old l) q -> ca_mem n old l q) by (intros; split; auto; lia).
  unfold update_fields.
  destruct (copy_loop n maxl old new u Hn Wo Wn So Sn (seq minl (S maxl - minl)) (fun _ _ _ => 0%Q)) as (v1 & E1 & P1).
  { apply seq_NoDup. } { intros l Hl. apply in_seq in Hl. lia. }
  rewrite E1.
  destruct (move_loop n order maxl old new u Hn Wo Wn So Sn (maxl - minl) minl v1) as (v & E2 & P2); [lia|].
  exists v. split; auto. intros l x y Hp. destruct (Bn l _ Hp) as [Hl _]. specialize (P1 l x y). specialize (P2 l x y).
  assert (Ly : length y = n) by (destruct Hp as [_ [Hp _]]; cbn [length] in Hp; lia).
  assert (HI : In l (seq minl (S maxl - minl))) by (apply in_seq; lia).
  assert (NP : forall q, ca_mem n old l (x :: y) -> ca_mem n old (S l) q -> ancestor 1 q <> x :: y).
  { intros q H1 H2 E. assert (l = S l); [|lia]. apply (HD l (S l) (x :: y) q); auto. replace (S l - l)%nat with 1%nat by lia. auto. }
  assert (NQ : forall m, l = S m -> ca_mem n old l (x :: y) -> ~ ca_mem n old m (ancestor 1 (x :: y))).
  { intros m -> H1 H2. assert (m = S m); [|lia]. apply (HD m (S m) (ancestor 1 (x :: y)) (x :: y)); auto. replace (S m - m)%nat with 1%nat by lia. auto. }
  assert (NR : forall m q, l = S m -> ca_mem n old (S l) q -> ancestor 1 q = x :: y -> ~ ca_mem n old m (ancestor 1 (x :: y))).
  { intros m q -> H1 Eq H2. assert (m = S (S m)); [|lia]. apply (HD m (S (S m)) (ancestor 1 (x :: y)) q); auto. rewrite <- Eq, ancestor_add. f_equal. lia. }
  spl.
  - intros Hold. destruct P2 as [(H1 & (_ & q & Hq & Eq) & _)|(_ & [(H2 & H3 & _)|(_ & ->)])].
    + exfalso. apply (NP q); auto. apply OM; auto. lia.
    + exfalso. destruct l as [|m]; [lia|]. destruct H3 as (H3 & _). apply (NQ m); auto. apply OM; auto. lia.
    + destruct P1 as [(_ & _ & H)|(H & _)]; auto. exfalso. apply H. split; auto. split; [apply Hold|apply Hp].
  - intros (q & Hq & Eq). destruct (Bo _ _ Hq) as [Hl' _]. destruct P2 as [(_ & _ & H)|(H & _)].
    + unfold is_mean in H. rewrite Ly in H. exact H.
    + exfalso. apply H. split; [lia|]. split; [apply Hp|]. exists q. split; auto. apply Hq.
  - intros m -> Hold. destruct (Bo _ _ Hold) as [Hl' _]. destruct P2 as [(H1 & (_ & q & Hq & Eq) & _)|(_ & [(H2 & H3 & H4)|(H2 & _)])].
    + exfalso. apply (NR m q); auto. apply OM; auto. lia.
    + exact H4.
    + exfalso. apply H2. split; [lia|]. cbn [predicted]. spl; auto; [apply Hold|]. exists (x :: y). split; auto. apply Hp.
  - intros H1 H2 H3. destruct P2 as [(H & (_ & q & Hq & Eq) & _)|(_ & [(H & H4 & _)|(_ & ->)])].
    + exfalso. apply H2. exists q. split; auto. apply OM; auto. lia.
    + exfalso. destruct l as [|m]; [lia|]. destruct H4 as (H4 & _). apply H3. exists m. split; auto. apply OM; auto. lia.
    + destruct P1 as [(_ & [H _] & _)|(_ & H)]; auto. exfalso. apply H1. apply OM; auto. lia.
Qed.

(** ** The integral *)

(** The volume of a cell, for a domain of scaling 1: (1/2)^(dim * level). *)
Definition vol (n l : nat) : Q := / inject_Z (2 ^ Z.of_nat (S n * l)).
Definition integral (n : nat) (w : lfield) (cs : list (nat * list Z)) : Q :=
  qsum (map (fun '(l, p) => match p with x :: y => w l x y * vol n l | [] => 0 end)%Q cs).

Lemma qsum_app : forall a b, (qsum (a ++ b) == qsum a + qsum b)%Q.
Proof. induction a as [|x a IH]; intros b; cbn [app qsum fold_right]; [unfold qsum; ring|]. change (fold_right Qplus 0%Q) with qsum. rewrite IH. ring. Qed.
Lemma qsum_perm : forall a b, Permutation a b -> (qsum a == qsum b)%Q.
Proof.
  induction 1; cbn [qsum fold_right]; change (fold_right Qplus 0%Q) with qsum; [reflexivity|rewrite IHPermutation; reflexivity|ring|].
  rewrite IHPermutation1. auto.
Qed.
Lemma integral_perm : forall n w a b, Permutation a b -> (integral n w a == integral n w b)%Q.
Proof. intros. apply qsum_perm. apply Permutation_map. auto. Qed.
Lemma integral_app : forall n w a b, (integral n w (a ++ b) == integral n w a + integral n w b)%Q.
Proof. intros. unfold integral. rewrite map_app. apply qsum_app. Qed.
Lemma integral_ext : forall n w w' a, (forall l x y, In (l, x :: y) a -> (w l x y == w' l x y)%Q) -> (integral n w a == integral n w' a)%Q.
Proof.
  intros n w w' a. unfold integral. induction a as [|[l p] a IH]; intros H; [reflexivity|]. cbn [map qsum fold_right]. change (fold_right Qplus 0%Q) with qsum.
  rewrite IH by (intros; apply H; right; auto). destruct p as [|x y]; [reflexivity|]. rewrite (H l x y) by (left; auto). reflexivity.
Qed.

Definition kids (b : nat * list Z) : list (nat * list Z) :=
  match snd b with x :: y => map (fun c => (S (fst b), fst c :: snd c)) (children x y) | [] => [] end.

Lemma kids_In : forall l p l' q, p <> [] -> (In (l', q) (kids (l, p)) <-> l' = S l /\ length q = length p /\ ancestor 1 q = p).
Proof.
  intros l p l' q Hp. destruct p as [|x y]; [congruence|]. unfold kids. cbn [fst snd]. rewrite in_map_iff. split.
  - intros ([cx cy] & E & H). cbn [fst snd] in E. apply pair_equal_spec in E as [<- <-]. apply children_In in H as (<- & H1 & <-). spl; auto. cbn [length]. lia.
  - intros (-> & Hl & E). destruct q as [|cx cy]; [discriminate|]. rewrite ancestor_cons in E. change (2 ^ Z.of_nat 1) with 2 in E. injection E as E1 E2.
    cbn [length] in Hl. exists (cx, cy). cbn [fst snd]. split; auto. apply children_In. spl; auto; lia.
Qed.
Lemma kids_NoDup : forall b, NoDup (kids b).
Proof.
  intros [l [|x y]]; unfold kids; cbn [fst snd]; [constructor|]. apply FinFun.Injective_map_NoDup; [|apply children_NoDup].
  intros [a b] [c d] E. cbn [fst snd] in E. congruence.
Qed.

Lemma flat_kids_NoDup : forall bs, NoDup bs -> (forall l p, In (l, p) bs -> p <> []) -> NoDup (flat_map kids bs).
Proof.
  induction bs as [|[l p] bs IH]; intros ND H; [constructor|]. cbn [flat_map]. inversion ND as [|? ? N1 N2]; subst.
  apply NoDup_app2; [apply kids_NoDup|apply IH; auto; intros l1 p1 H1; apply (H l1 p1); right; auto|].
  intros [l' q] H1 H2. apply in_flat_map in H2 as ([l1 p1] & Hb & H2).
  apply kids_In in H1; [|apply (H l p); left; auto]. apply kids_In in H2; [|apply (H l1 p1); right; auto].
  destruct H1 as (E1 & _ & E2), H2 as (E3 & _ & E4). assert (l = l1) by lia. subst. auto.
Qed.

Lemma vol_S : forall n l, (vol n l == vol n (S l) * inject_Z (2 ^ Z.of_nat (S n)))%Q.
Proof.
  intros n l. unfold vol. replace (Z.of_nat (S n * S l)) with (Z.of_nat (S n * l) + Z.of_nat (S n)) by lia. rewrite Z.pow_add_r by lia. rewrite inject_Z_mult.
  assert (forall k, ~ inject_Z (2 ^ Z.of_nat k) == 0)%Q.
  { intros k E. change 0%Q with (inject_Z 0) in E. apply (proj1 (inject_Z_injective _ _)) in E. pose proof (Z.pow_pos_nonneg 2 (Z.of_nat k)). lia. }
  field. split; auto.
Qed.

(** The integral over the children of a cell. *)
Lemma integral_kids : forall n w l x y, (integral n w (kids (l, x :: y)) == qsum (map (fun c => w (S l) (fst c) (snd c)) (children x y)) * vol n (S l))%Q.
Proof.
  intros n w l x y. unfold integral, kids. cbn [fst snd]. rewrite map_map. induction (children x y) as [|[a b] cs IH]; [cbn; ring|].
  cbn [map qsum fold_right fst snd]. change (fold_right Qplus 0%Q) with qsum. cbn [fst snd] in IH. rewrite IH. ring.
Qed.

Lemma integral_flat : forall n w w' bs,
  (forall l x y, In (l, x :: y) bs -> (integral n w (kids (l, x :: y)) == w' l x y * vol n l)%Q) -> (forall l p, In (l, p) bs -> p <> []) ->
  (integral n w (flat_map kids bs) == integral n w' bs)%Q.
Proof.
  intros n w w' bs. induction bs as [|[l p] bs IH]; intros H Hp; [reflexivity|]. cbn [flat_map]. rewrite integral_app.
  destruct p as [|x y]; [destruct (Hp l []); [left; auto|auto]|].
  rewrite IH; [|intros l1 x1 y1 H1; apply H; right; auto|intros l1 p1 H1; apply (Hp l1); right; auto]. rewrite (H l x y) by (left; auto). unfold integral at 2. cbn [map qsum fold_right]. reflexivity.
Qed.

(** The sum of the predicted values of the children. *)
Lemma predicted_mean : forall order (u w : field) x y, (length y <= 2)%nat ->
  (forall cx cy, In (cx, cy) (children x y) -> is_predicted order u cx cy (w cx cy)) ->
  (qsum (map (fun c => w (fst c) (snd c)) (children x y)) == u x y * inject_Z (2 ^ Z.of_nat (S (length y))))%Q.
Proof.
  intros order u w x y Hl H. pose proof (prediction_true_spec order u (mk x (x + 1)) y eq_refl) as E.
  set (ws := flat_map _ _) in E.
  assert (HW : forall cx cy q, In (cx, cy, q) ws -> w cx cy = q).
  { intros cx cy q Hin. subst ws. apply in_flat_map in Hin as (par & Hpar & Hin). rewrite strided_one in Hin. destruct Hin as [Ein|[]]. injection Ein as <- <- <-.
    destruct (predicted_cell order u par x y Hpar) as [_ Hc]. destruct (H _ _ Hc) as (ws' & E' & Hin').
    apply children_In in Hc as (Ec1 & Ec2 & Ec3). rewrite Ec1, Ec3 in E'. rewrite E in E'. apply Some_inv in E'. subst ws'.
    apply in_flat_map in Hin' as (par' & Hpar' & Hin'). rewrite strided_one in Hin'. destruct Hin' as [Ein|[]].
    apply pair_equal_spec in Ein as [Ein <-]. apply pair_equal_spec in Ein as [Ea Eb].
    assert (par' = par); [|congruence]. apply parities_In in Hpar, Hpar'. destruct par as [|b par], par' as [|b' par']; try discriminate.
    unfold finer in Ea. cbn [hd tl length] in *. f_equal; [destruct b, b'; cbn [bz] in Ea; auto; lia|].
    assert (L1 : length par = length y) by lia. assert (L2 : length par' = length y) by lia. clear - Eb L1 L2. revert par par' L1 L2 Eb.
    induction y as [|z y IH]; intros [|b par] [|b' par'] L1 L2 Eb; try discriminate; auto. cbn in Eb. injection Eb as E1 E2.
    f_equal; [destruct b, b'; cbn [bz] in E1; auto; lia|]. apply IH; auto. }
  destruct (C36_projection_of_prediction order u w (mk x (x + 1)) y ws eq_refl Hl E HW) as (ps & Ep & Fp & Vp).
  destruct (C36_projection_is_mean w (mk x (x + 1)) y eq_refl Hl) as (ps' & Ep' & _ & Vp'). rewrite Ep in Ep'. injection Ep' as <-.
  rewrite strided_one in Fp. destruct ps as [|[[x0 y0] q] [|]]; try discriminate. cbn [map fst] in Fp. injection Fp as -> ->.
  rewrite <- (Vp x y q) by (left; auto). rewrite (Vp' x y q) by (left; auto). unfold children. rewrite map_map. reflexivity.
Qed.

Definition is_stay (a : action) : bool := match a with Stay => true | _ => false end.
Definition is_refine (a : action) : bool := match a with Refine => true | _ => false end.
Definition is_coarsen (a : action) : bool := match a with Coarsen => true | _ => false end.

Lemma sorted_leaves_NoDup : forall n c cs, ca_enumeration n c cs -> NoDup cs.
Proof. intros n c cs [H _]. apply (sorted_NoDup _ lc_lt); auto. apply lc_lt_irrefl. Qed.

Lemma leaf_dec : forall a b : nat * list Z, {a = b} + {a <> b}.
Proof. decide equality; [apply list_eq_dec; apply Z.eq_dec|apply Nat.eq_dec]. Qed.

(** The leaves of both meshes, sorted by what happens to them. *)
Lemma leaves_split : forall n (old new : nat -> list Z -> Prop) (A : nat -> list Z -> action) os ns K,
  NoDup os -> NoDup ns -> (forall l p, In (l, p) os <-> old l p) -> (forall l p, In (l, p) ns <-> new l p) ->
  (forall l q, old l q -> length q = S n /\ (l <= K)%nat) ->
  (forall l p, new l p <-> exists l0 q, old l0 q /\ length p = S n /\ moves (A l0 q) l0 q l p) ->
  (forall l q, old l q -> A l q = Coarsen -> (0 < l)%nat) ->
  (forall l q, old l q -> A l q <> Drop) ->
  (forall l q q', old l q -> A l q = Coarsen -> length q' = S n -> ancestor 1 q' = ancestor 1 q -> old l q' /\ A l q' = Coarsen) ->
  (forall l l' p q, old l p -> old l' q -> (l <= l')%nat -> ancestor (l' - l) q = p -> l = l') ->
  exists stay ref par, Permutation os (stay ++ ref ++ flat_map kids par) /\ Permutation ns (stay ++ flat_map kids ref ++ par) /\
    (forall l p, In (l, p) stay \/ In (l, p) ref -> old l p) /\
    (forall l p, In (l, p) ref <-> old l p /\ A l p = Refine) /\ (forall l p, In (l, p) par -> exists q, old (S l) q /\ A (S l) q = Coarsen) /\
    (forall l p, In (l, p) par -> length p = S n /\ forall q, length q = S n -> ancestor 1 q = p -> old (S l) q).
Proof.
  intros n old new A os ns K NDo NDn Io In_ Hlen Hnew Hco Hdr Hsib HD.
  set (stay := filter (fun '(l, q) => is_stay (A l q)) os). set (ref := filter (fun '(l, q) => is_refine (A l q)) os).
  set (co := filter (fun '(l, q) => is_coarsen (A l q)) os).
  set (par := nodup leaf_dec (map (fun '(l, q) => (Nat.pred l, ancestor 1 q)) co)).
  assert (Is : forall l q, In (l, q) stay <-> old l q /\ A l q = Stay).
  { intros l q. unfold stay. rewrite filter_In, Io. destruct (A l q); cbn [is_stay]; split; intros [? ?]; split; auto; discriminate. }
  assert (Ir : forall l q, In (l, q) ref <-> old l q /\ A l q = Refine).
  { intros l q. unfold ref. rewrite filter_In, Io. destruct (A l q); cbn [is_refine]; split; intros [? ?]; split; auto; discriminate. }
  assert (Ip : forall l p, In (l, p) par <-> exists q, old (S l) q /\ A (S l) q = Coarsen /\ ancestor 1 q = p).
  { intros l p. unfold par. rewrite nodup_In, in_map_iff. split.
    - intros ([l' q] & E & H). apply pair_equal_spec in E as [<- <-]. unfold co in H. rewrite filter_In, Io in H. destruct H as [Ho Ha].
      destruct (A l' q) eqn:Ea; try discriminate. pose proof (Hco _ _ Ho Ea). replace (S (Nat.pred l')) with l' by lia. exists q. auto.
    - intros (q & Ho & Ha & <-). exists (S l, q). split; auto. unfold co. rewrite filter_In, Io, Ha. auto. }
  assert (Pn : forall l p, In (l, p) par -> length p = S n).
  { intros l p H. apply Ip in H as (q & Ho & _ & <-). rewrite ancestor_length. apply (Hlen _ _ Ho). }
  assert (Pk : forall l p, In (l, p) par -> forall q, length q = S n -> ancestor 1 q = p -> old (S l) q /\ A (S l) q = Coarsen).
  { intros l p H q Hq Eq. apply Ip in H as (q0 & Ho & Ha & E0). apply (Hsib (S l) q0 q); auto. congruence. }
  assert (Pne : forall l p, In (l, p) par -> p <> []) by (intros l p H E; apply Pn in H; subst; discriminate).
  assert (Rne : forall l p, In (l, p) ref -> p <> []) by (intros l p H E; apply Ir in H as [H _]; apply Hlen in H as [H _]; subst; discriminate).
  assert (HD1 : forall l q, old l (ancestor 1 q) -> old (S l) q -> False).
  { intros l q H1 H2. assert (l = S l); [|lia]. apply (HD l (S l) (ancestor 1 q) q); auto. replace (S l - l)%nat with 1%nat by lia. auto. }
  exists stay, ref, par. spl.
  - apply NoDup_Permutation; auto.
    + apply NoDup_app2; [apply NoDup_filter; auto|apply NoDup_app2; [apply NoDup_filter; auto|apply flat_kids_NoDup; [apply NoDup_nodup|auto]|]|].
      * intros [l q] H1 H2. apply in_flat_map in H2 as ([l1 p1] & H2 & H3). apply kids_In in H3; [|eauto]. destruct H3 as (-> & L & E).
        apply Ir in H1 as [_ H1]. destruct (Pk _ _ H2 q) as [_ H4]; [rewrite L; eauto|auto|congruence].
      * intros [l q] H1 H2. apply Is in H1 as [H0 H1]. apply in_app_iff in H2 as [H2|H2]; [apply Ir in H2 as [_ H2]; congruence|].
        apply in_flat_map in H2 as ([l1 p1] & H2 & H3). apply kids_In in H3; [|eauto]. destruct H3 as (-> & L & E).
        destruct (Pk _ _ H2 q) as [_ H4]; [rewrite L; eauto|auto|congruence].
    + intros [l q]. rewrite Io, !in_app_iff, Is, Ir, in_flat_map. split.
      * intros H. destruct (A l q) eqn:Ea; auto.
        { right; right. exists (Nat.pred l, ancestor 1 q). pose proof (Hco _ _ H Ea). split; [apply Ip; exists q; replace (S (Nat.pred l)) with l by lia; auto|].
          apply kids_In; [intros E; apply (f_equal (@length Z)) in E; rewrite ancestor_length in E; rewrite (proj1 (Hlen _ _ H)) in E; discriminate|].
          rewrite ancestor_length. spl; auto; lia. }
        destruct (Hdr _ _ H Ea).
      * intros [[H _]|[[H _]|([l1 p1] & H2 & H3)]]; auto. apply kids_In in H3; [|eauto]. destruct H3 as (-> & L & E).
        apply (Pk _ _ H2); auto. rewrite L. eauto.
  - apply NoDup_Permutation; auto.
    + apply NoDup_app2; [apply NoDup_filter; auto|apply NoDup_app2; [apply flat_kids_NoDup; [apply NoDup_filter; auto|auto]|apply NoDup_nodup|]|].
      * intros [l q] H1 H2. apply in_flat_map in H1 as ([l1 p1] & H1 & H3). apply kids_In in H3; [|eauto]. destruct H3 as (-> & L & <-).
        apply Ip in H2 as (q2 & H2 & _ & <-). apply Ir in H1 as [H1 _]. assert (l1 = S (S l1)); [|lia].
        apply (HD l1 (S (S l1)) _ _ H1 H2); [lia|]. rewrite ancestor_add. f_equal. lia.
      * intros [l q] H1 H2. apply Is in H1 as [H0 H1]. apply in_app_iff in H2 as [H2|H2].
        { apply in_flat_map in H2 as ([l1 p1] & H2 & H3). apply kids_In in H3; [|eauto]. destruct H3 as (-> & L & <-). apply Ir in H2 as [H2 _]. eauto. }
        apply Ip in H2 as (q2 & H2 & _ & <-). eauto.
    + intros [l q]. rewrite In_, Hnew, !in_app_iff, Is, in_flat_map, Ip. split.
      * intros (l0 & q0 & Ho & L & Hm). destruct (A l0 q0) eqn:Ea; cbn [moves] in Hm.
        { right; left. exists (l0, q0). split; [apply Ir; auto|]. destruct (Hlen _ _ Ho) as [L0 _].
          apply kids_In; [intros ->; discriminate|]. spl; try tauto. lia. }
        { destruct Hm as [-> ->]. auto. }
        { destruct Hm as [<- ->]. right; right. exists q0. auto. }
        destruct Hm.
      * intros [[H Ea]|[([l1 p1] & H2 & H3)|(q2 & H2 & Ea & <-)]].
        { exists l, q. spl; auto; [apply (Hlen _ _ H)|]. rewrite Ea. cbn [moves]. auto. }
        { apply kids_In in H3; [|eauto]. destruct H3 as (-> & L & <-). apply Ir in H2 as [H2 Ea]. exists l1, (ancestor 1 q). spl; auto.
          - rewrite L. apply (Hlen _ _ H2).
          - rewrite Ea. cbn [moves]. auto. }
        { exists (S l), q2. rewrite ancestor_length. spl; auto; [apply (Hlen _ _ H2)|]. rewrite Ea. cbn [moves]. auto. }
  - intros l p [H|H]; [apply Is in H|apply Ir in H]; apply H.
  - intros l p. apply Ir.
  - intros l p H. apply Ip in H as (q & H1 & H2 & _). eauto.
  - intros l p H. split; [eauto|]. intros q L E. apply (Pk _ _ H); auto.
Qed.

(** The integral is preserved by an adaptation from consistent tags. *)
Theorem C40_integral : forall n order minl maxl old tag u, (n <= 2)%nat -> (minl <= maxl)%nat ->
  mesh_ok n minl maxl old -> no_overlap n old -> consistent n minl old tag ->
  (forall l q k, ca_mem n old l q -> (k <= n)%nat -> 2 * nth k q 0 + 4 < 2 ^ 31 - 1) ->
  exists new v os ns, update_cells n minl maxl old tag = Some new /\ update_fields n order minl maxl old new u = Some v /\
    ca_for_each_cell n old = Some os /\ ca_for_each_cell n new = Some ns /\
    (integral n v (leaf_cells ns) == integral n u (leaf_cells os))%Q.
Proof.
  intros n order minl maxl old tag u Hn Hmm Ho HD HC HB.
  pose proof Ho as (W & Hm & Lv & B).
  destruct (update_cells_spec n minl maxl old tag W Hm) as (new & E & Mn & Wn & Ln & M).
  destruct (cover_hyps n minl maxl old tag maxl W Hm (le_n _)) with (new := new) as (H1 & H2 & H3 & H4 & H5 & H6); auto.
  { intros l q Hq. apply (B l q Hq). }
  assert (Hnew : mesh_ok n minl maxl new).
  { split; [exact Wn|]. split; [lia|]. split; [intros l Hl; apply Ln; lia|]. intros l p Hp. split.
    - apply (C32_levels_within_bounds n minl maxl old tag new W Hm) with (p := p); auto. intros l0 q Hq. apply (B l0 q Hq).
    - intros k Hk. apply H3 in Hp as (l0 & q & Hq & Lp & Hmv). pose proof (HB l0 q k Hq Hk). pose proof (proj2 (B l0 q Hq) k Hk).
      destruct (action_of n minl maxl old tag l0 q); cbn [moves] in Hmv; [destruct Hmv as [_ <-]|destruct Hmv as [_ ->]|destruct Hmv as [_ ->]|destruct Hmv]; auto.
      + rewrite nth_ancestor in H by (rewrite ?Lp; lia). change (2 ^ Z.of_nat 1) with 2 in H. pose proof (Z.div_mod (nth k p 0) 2). pose proof (Z.mod_pos_bound (nth k p 0) 2). lia.
      + destruct (H1 _ _ Hq) as [Lq _]. rewrite nth_ancestor by (rewrite ?Lq; lia). change (2 ^ Z.of_nat 1) with 2. pose proof (Z.div_mod (nth k q 0) 2). pose proof (Z.mod_pos_bound (nth k q 0) 2). lia. }
  destruct (C40_values n order minl maxl old new u Hn Hmm Ho Hnew HD) as (v & Ev & V).
  destruct (ca_for_each_cell_spec n old W) as (os & Eo & ENo & _). destruct (ca_for_each_cell_spec n new Wn) as (ns & En & ENn & _).
  exists new, v, os, ns. spl; auto.
  destruct (leaves_split n (ca_mem n old) (ca_mem n new) (action_of n minl maxl old tag) (leaf_cells os) (leaf_cells ns) maxl) as (stay & ref & par & PO & PN & Hold & _ & _ & Hpar); auto.
  { eapply sorted_leaves_NoDup; eauto. } { eapply sorted_leaves_NoDup; eauto. } { apply ENo. } { apply ENn. }
  assert (Inew : forall l p, In (l, p) (stay ++ flat_map kids ref ++ par) -> ca_mem n new l p).
  { intros l p H. apply ENn. eapply Permutation_in; [apply Permutation_sym; exact PN|auto]. }
  assert (Rne : forall l p, In (l, p) ref -> p <> []).
  { intros l p H E0. subst. destruct (H1 l []) as [H7 _]; [apply Hold; auto|discriminate]. }
  assert (Pne : forall l p, In (l, p) par -> p <> []).
  { intros l p H E0. subst. destruct (Hpar l [] H) as [H7 _]. discriminate. }
  rewrite (integral_perm _ _ _ _ PO), (integral_perm _ _ _ _ PN), !integral_app.
  rewrite (integral_ext n v u stay). 2:{ intros l x y H. rewrite (proj1 (V l x y (Inew l _ (in_or_app _ _ _ (or_introl H))))); [reflexivity|]. apply Hold. auto. }
  rewrite (integral_flat n v u ref); [|clear Pne|exact Rne]; cycle 1.
  { intros l x y H. rewrite integral_kids. destruct (H1 l (x :: y)) as [L _]; [apply Hold; auto|]. cbn [length] in L.
    rewrite (predicted_mean order (u l) (v (S l)) x y); [|lia|].
    - rewrite (vol_S n l). replace (length y) with n by lia. ring.
    - intros cx cy Hc.
      assert (Hkid : In (S l, cx :: cy) (kids (l, x :: y))) by (unfold kids; cbn [fst snd]; apply in_map_iff; exists (cx, cy); auto).
      assert (Hin : ca_mem n new (S l) (cx :: cy)).
      { apply Inew. apply in_or_app. right. apply in_or_app. left. apply in_flat_map. exists (l, x :: y). auto. }
      destruct (V (S l) cx cy Hin) as (_ & _ & HP & _). apply (HP l); auto. apply kids_In in Hkid as (_ & _ & ->); [|discriminate]. apply Hold. auto. }
  rewrite (integral_flat n u v par); [reflexivity| |exact Pne].
  intros l x y H. rewrite integral_kids. destruct (Hpar _ _ H) as [L Hk]. 
  assert (Hin : ca_mem n new l (x :: y)) by (apply Inew; apply in_or_app; right; apply in_or_app; right; auto).
  destruct (V l x y Hin) as (_ & HM & _). rewrite <- HM.
  - rewrite (vol_S n l). ring.
  - destruct (descend 1 (x :: y)) as (q & Lq & Eq). exists q. split; auto. apply Hk; auto. lia.
Qed.

(** ** Example *)
Definition mesh_okb (n minl maxl : nat) (cs : list (nat * list Z)) : bool :=
  forallb (fun '(l, q) => Nat.leb minl l && Nat.leb l maxl && forallb (fun x => 2 * x + 6 <? 2 ^ 31 - 1) q) cs.

Lemma exMesh_ok : mesh_ok 1 1 3 exMesh /\ forall l q k, ca_mem 1 exMesh l q -> (k <= 1)%nat -> 2 * nth k q 0 + 4 < 2 ^ 31 - 1.
Proof.
  destruct (ca_for_each_cell_spec 1 exMesh exMesh_wf) as (cs & E & [_ EN] & _).
  assert (H : mesh_okb 1 1 3 (leaf_cells cs) = true).
  { assert (E' : option_map (fun cs => mesh_okb 1 1 3 (leaf_cells cs)) (ca_for_each_cell 1 exMesh) = Some true) by (vm_compute; reflexivity).
    rewrite E in E'. cbn [option_map] in E'. congruence. }
  assert (G : forall l q, ca_mem 1 exMesh l q -> (1 <= l <= 3)%nat /\ forall k, (k <= 1)%nat -> 2 * nth k q 0 + 6 < 2 ^ 31 - 1).
  { intros l q Hq. pose proof Hq as [_ [Lq _]]. apply EN in Hq. unfold mesh_okb in H. rewrite forallb_forall in H. specialize (H _ Hq). cbv beta iota in H.
    rewrite !andb_true_iff, !Nat.leb_le, forallb_forall in H. destruct H as [[H1 H2] H3]. split; [lia|]. intros k Hk.
    assert (Hn : In (nth k q 0) q) by (apply nth_In; lia). specialize (H3 _ Hn). apply Z.ltb_lt in H3. lia. }
  split.
  - split; [exact exMesh_wf|]. split; [vm_compute; lia|]. split.
    + intros l Hl. assert (C : l = 0%nat \/ l = 1%nat \/ l = 2%nat \/ l = 3%nat) by lia. destruct C as [->|[->|[->| ->]]]; vm_compute; reflexivity.
    + intros l q Hq. destruct (G l q Hq) as [H1 H2]. split; auto. intros k Hk. specialize (H2 k Hk).
      destruct (Z_lt_le_dec (nth k q 0) 0); lia.
  - intros l q k Hq Hk. destruct (G l q Hq) as [_ H2]. specialize (H2 k Hk). lia.
Qed.

Definition exU : lfield := fun l x y => inject_Z (Z.of_nat l * 100 + x * x + 3 * hd 0 y).
Definition exNew : ca := match update_cells 1 1 3 exMesh exTag with Some c => c | None => exMesh end.
Definition exV : lfield := match update_fields 1 1 1 3 exMesh exNew exU with Some v => v | None => fun _ _ _ => 0%Q end.
Definition exLeaves (c : ca) : list (nat * list Z) := match ca_for_each_cell 1 c with Some cs => leaf_cells cs | None => [] end.

(** The leaf (0, 0) of level 1 is refined, four leaves of level 3 (values 354, 367,
    357, 370) are coarsened, the others are kept. *)
Example C40_example : (forall l q, ca_mem 1 exMesh l q -> (1 <= l <= 3)%nat) /\
  map (fun '(l, p) => Qred (exV l (hd 0 p) (tl p))) (exLeaves exNew) =
    [101 # 1; 103 # 1; 397 # 4; 397 # 4; 403 # 4; 403 # 4; 210 # 1; 215 # 1; 213 # 1; 362 # 1]%Q /\
  Qeq_bool (integral 1 exV (exLeaves exNew)) (integral 1 exU (exLeaves exMesh)) = true.
Proof.
  split; [intros l q H; apply exMesh_ok in H; tauto|]. split; vm_compute; reflexivity.
Qed.

Print Assumptions C40_values.
Print Assumptions C40_integral.
