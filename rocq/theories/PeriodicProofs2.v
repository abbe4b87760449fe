(** Proofs about the ghosts of the periodic directions in the mesh. *)
From Coq Require Import QArith.
From Verif Require Import Base IntervalModel Spec IntervalProofs LoiModel LcaModel LcaSpec InitProofs LcaProofs LcaProofs2 LcaProofs3 RowsProofs CellArrayModel CellArrayProofs PropsLca PropsCellArray
  SubsetModel TreeProofs SubsetSpec SubsetProofs2 PropsSubset StencilModel NumberingProofs StencilProofs PropsStencil MeshModel MeshProofs
  NumModel NumProofs NumSpec PropsNum AdaptModel AdaptProofs TagProofs PropsAdapt TransferProofs PropsTransfer GradModel GradProofs PropsGrad InterfaceModel PropsInterface MrModel MrProofs PropsMr
  GhostModel GhostProofs PropsGhost BcProofs HartenModel HartenProofs HartenProofs2 PeriodicModel PeriodicProofs PropsPeriodic.
Open Scope Z_scope.

(** ** Cells moved by a period *)

(** [p] is the cell [q], close to a side of the box in direction [d], moved by one period
    to the other side. *)
Definition across (n : nat) (low high : list Z) (gw : Z) (d : nat) (q p : list Z) : Prop :=
  length p = S n /\ (forall k, (k <= n)%nat -> k <> d -> nth k p 0 = nth k q 0 /\ nth k low 0 - gw <= nth k q 0 < nth k high 0 + gw) /\
  ((nth d low 0 - gw <= nth d q 0 < nth d low 0 + gw /\ nth d p 0 = nth d q 0 + (nth d high 0 - nth d low 0)) \/
   (nth d high 0 - gw <= nth d q 0 < nth d high 0 + gw /\ nth d p 0 = nth d q 0 - (nth d high 0 - nth d low 0))).
Definition with_images (n : nat) (low high : list Z) (gw : Z) (d : nat) (A : list Z -> Prop) (p : list Z) : Prop :=
  A p \/ exists q, A q /\ across n low high gw d q p.
(** The images in the directions [ds], one direction after the other. *)
Fixpoint images_of (n : nat) (periodic : list bool) (low high : list Z) (gw : Z) (ds : list nat) (A : list Z -> Prop) : list Z -> Prop :=
  match ds with
  | [] => A
  | d :: ds => images_of n periodic low high gw ds (if nth d periodic false then with_images n low high gw d A else A)
  end.

Lemma across_ext : forall n low high low' high' gw d q p, (forall k, (k <= n)%nat -> nth k low 0 = nth k low' 0 /\ nth k high 0 = nth k high' 0) -> (d <= n)%nat ->
  across n low high gw d q p -> across n low' high' gw d q p.
Proof.
  intros n low high low' high' gw d q p H Hd (L & A & B). split; auto. destruct (H d Hd) as [<- <-]. split; auto.
  intros k Hk Hkd. destruct (H k Hk) as [<- <-]. auto.
Qed.

Lemma images_of_ext : forall n periodic low high low' high' gw ds A B, (forall k, (k <= n)%nat -> nth k low 0 = nth k low' 0 /\ nth k high 0 = nth k high' 0) ->
  (forall d, In d ds -> (d <= n)%nat) -> (forall p, A p <-> B p) -> forall p, images_of n periodic low high gw ds A p <-> images_of n periodic low' high' gw ds B p.
Proof.
  intros n periodic low high low' high' gw ds. induction ds as [|d ds IH]; intros A B H Hd HAB p; cbn [images_of]; auto.
  apply IH; auto; [intros; apply Hd; right; auto|]. assert (D : (d <= n)%nat) by (apply Hd; left; auto). intros x. destruct (nth d periodic false); auto. unfold with_images.
  assert (H' : forall k, (k <= n)%nat -> nth k low' 0 = nth k low 0 /\ nth k high' 0 = nth k high 0) by (intros k Hk; destruct (H k Hk); auto).
  split; (intros [X|(q & X & Y)]; [left; apply HAB; auto|right; exists q; split; [apply HAB; auto|]]); [eapply across_ext; [exact H|auto|exact Y]|eapply across_ext; [exact H'|auto|exact Y]].
Qed.

Lemma images_of_incl : forall n periodic low high gw ds (A : list Z -> Prop) p, A p -> images_of n periodic low high gw ds A p.
Proof. intros n periodic low high gw ds. induction ds as [|d ds IH]; intros A p H; auto. cbn. apply IH. destruct (nth d periodic false); auto. left. auto. Qed.
Lemma images_of_mono : forall n periodic low high gw ds (A B : list Z -> Prop), (forall p, A p -> B p) -> forall p, images_of n periodic low high gw ds A p -> images_of n periodic low high gw ds B p.
Proof.
  intros n periodic low high gw ds. induction ds as [|d ds IH]; intros A B H p; cbn [images_of]; auto. apply IH. intros q. destruct (nth d periodic false); auto.
  intros [X|(r & X & Y)]; [left; auto|right; exists r; auto].
Qed.
Lemma images_of_none : forall n periodic low high gw ds A, (forall d, In d ds -> nth d periodic false = false) -> forall p, images_of n periodic low high gw ds A p <-> A p.
Proof. intros n periodic low high gw ds. induction ds as [|d ds IH]; intros A H p; cbn [images_of]; [tauto|]. rewrite (H d (or_introl eq_refl)). apply IH. intros; apply H; right; auto. Qed.

Lemma across_same : forall n periodic low high gw d q p, (d <= n)%nat -> nth d periodic false = true -> length q = S n -> across n low high gw d q p ->
  same_image n (fun k => nth k periodic false) low high q p.
Proof.
  intros n periodic low high gw d q p Hd Pd Lq (Lp & A & B). split; auto. split; auto. intros k Hk. destruct (Nat.eq_dec k d) as [->|Hkd].
  - destruct B as [[_ B]|[_ B]]; [exists 1|exists (-1)]; (split; [lia|congruence]).
  - exists 0. destruct (A k Hk Hkd) as [-> _]. split; [lia|auto].
Qed.
Lemma images_of_same : forall n periodic low high gw ds (A : list Z -> Prop), (forall d, In d ds -> (d <= n)%nat) -> (forall q, A q -> length q = S n) ->
  forall p, images_of n periodic low high gw ds A p -> exists q, A q /\ same_image n (fun k => nth k periodic false) low high q p.
Proof.
  intros n periodic low high gw ds. induction ds as [|d ds IH]; intros A Hd HL p H; cbn [images_of] in H.
  - exists p. split; auto. apply same_refl. auto.
  - assert (D : (d <= n)%nat) by (apply Hd; left; auto). destruct (nth d periodic false) eqn:Pd; [|apply IH; auto; intros; apply Hd; right; auto].
    destruct (IH (with_images n low high gw d A)) with (p := p) as (q & [X|(r & X & Y)] & Z); auto.
    + intros; apply Hd; right; auto.
    + intros q [X|(r & X & Y)]; auto. apply Y.
    + exists q. auto.
    + exists r. split; auto. eapply same_trans; [eapply across_same; eauto|exact Z].
Qed.
Lemma images_of_length : forall n periodic low high gw ds (A : list Z -> Prop), (forall d, In d ds -> (d <= n)%nat) -> (forall q, A q -> length q = S n) ->
  forall p, images_of n periodic low high gw ds A p -> length p = S n.
Proof. intros n periodic low high gw ds A Hd HL p H. destruct (images_of_same n periodic low high gw ds A Hd HL p H) as (q & _ & _ & L & _). auto. Qed.

(** The image of every ghost is there. *)
Definition closed_in (n : nat) (low high : list Z) (gw : Z) (d : nat) (A : list Z -> Prop) : Prop :=
  forall p q, A p -> fat n low high gw p -> length q = S n -> (forall k, (k <= n)%nat -> k <> d -> nth k q 0 = nth k p 0) ->
    (nth d p 0 < nth d low 0 /\ nth d q 0 = nth d p 0 + (nth d high 0 - nth d low 0)) \/
    (nth d high 0 <= nth d p 0 /\ nth d q 0 = nth d p 0 - (nth d high 0 - nth d low 0)) -> A q.

Lemma closed_now : forall n low high gw d (A : list Z -> Prop), (d <= n)%nat -> 1 <= gw <= nth d high 0 - nth d low 0 -> (forall q, A q -> length q = S n) ->
  closed_in n low high gw d (with_images n low high gw d A).
Proof.
  intros n low high gw d A Hd HN HL p q [X|(r & X & (Lp & Y & Z))] [L F] Lq E C.
  - right. exists p. split; auto. split; auto. split; [intros k Hk Hkd; split; auto|]. pose proof (F d Hd). destruct C as [[C1 C2]|[C1 C2]]; [left|right]; lia.
  - left. replace q with r; auto. apply (list_ext n); auto. intros k Hk. destruct (Nat.eq_dec k d) as [->|Hkd]; [lia|]. rewrite E by auto. destruct (Y k Hk Hkd). auto.
Qed.
Lemma closed_later : forall n low high gw d d' (A : list Z -> Prop), (d <= n)%nat -> (d' <= n)%nat -> d <> d' -> 1 <= gw <= nth d high 0 - nth d low 0 -> nth d' low 0 < nth d' high 0 ->
  (forall q, A q -> length q = S n) -> closed_in n low high gw d A -> closed_in n low high gw d (with_images n low high gw d' A).
Proof.
  intros n low high gw d d' A Hd Hd' Hdd HN HN' HL HC p q [X|(r & X & (Lp & Y & Z))] F Lq E C.
  - left. eapply HC; eauto.
  - (* the image of [r] in direction [d], then in direction [d'] *)
    pose proof (proj2 F) as F'. set (r' := map (fun k => if Nat.eqb k d then nth d q 0 else nth k r 0) (seq 0 (S n))).
    assert (Rd : nth d r' 0 = nth d q 0). { unfold r'. rewrite nth_map_seq by lia. rewrite Nat.eqb_refl. auto. }
    assert (Rk : forall k, (k <= n)%nat -> k <> d -> nth k r' 0 = nth k r 0). { intros k Hk Hkd. unfold r'. rewrite nth_map_seq by lia. destruct (Nat.eqb_spec k d); [congruence|auto]. }
    assert (Lr' : length r' = S n) by (unfold r'; rewrite map_length, seq_length; auto).
    assert (Pd : nth d p 0 = nth d r 0) by (apply (Y d); auto).
    assert (Fr : fat n low high gw r).
    { split; auto. intros k Hk. destruct (Nat.eq_dec k d') as [->|Hkd]; [|apply Y; auto]. lia. }
    right. exists r'. split.
    + apply (HC r r' X Fr Lr'); auto. rewrite Rd, <- Pd. auto.
    + split; auto. split.
      * intros k Hk Hkd. destruct (Nat.eq_dec k d) as [->|Hk'].
        -- rewrite Rd. pose proof (F' d Hd). lia.
        -- rewrite Rk, E by auto. apply Y; auto.
      * rewrite Rk by auto. rewrite E by auto. auto.
Qed.

Lemma images_of_closed : forall n periodic low high gw ds (A : list Z -> Prop), (forall d, In d ds -> (d <= n)%nat) -> NoDup ds -> 1 <= gw ->
  (forall k, (k <= n)%nat -> nth k low 0 < nth k high 0 /\ (nth k periodic false = true -> gw <= nth k high 0 - nth k low 0)) -> (forall q, A q -> length q = S n) ->
  forall d, (d <= n)%nat -> nth d periodic false = true -> In d ds \/ closed_in n low high gw d A -> closed_in n low high gw d (images_of n periodic low high gw ds A).
Proof.
  intros n periodic low high gw ds. induction ds as [|e ds IH]; intros A Hd ND Hg HN HL d Hdn Pd H; cbn [images_of].
  - destruct H as [[]|H]; auto.
  - assert (De : (e <= n)%nat) by (apply Hd; left; auto). inversion ND as [|? ? N1 N2]; subst. destruct (HN d Hdn) as [B1 B2]. specialize (B2 Pd).
    assert (HL' : forall q, (if nth e periodic false then with_images n low high gw e A else A) q -> length q = S n).
    { intros q. destruct (nth e periodic false); auto. intros [X|(r & X & Y)]; auto. apply Y. }
    apply IH; auto; [intros; apply Hd; right; auto|].
    destruct (Nat.eq_dec e d) as [->|Hed].
    + right. rewrite Pd. apply closed_now; auto.
    + destruct H as [[->|H]|H]; [congruence|left; auto|right]. destruct (nth e periodic false); auto. apply closed_later; auto. apply HN; auto.
Qed.

(** From the closure in every periodic direction: the image inside the box is there. *)
Lemma closed_wrap : forall n periodic low high gw (A : list Z -> Prop), 1 <= gw ->
  (forall k, (k <= n)%nat -> nth k low 0 < nth k high 0 /\ (nth k periodic false = true -> gw <= nth k high 0 - nth k low 0)) ->
  (forall d, (d <= n)%nat -> nth d periodic false = true -> closed_in n low high gw d A) ->
  forall p, A p -> fat n low high gw p -> forall m, (m <= S n)%nat -> A (wrap n (upto periodic m) low high p).
Proof.
  intros n periodic low high gw A Hg HN HC p Ap F m. induction m as [|m IH]; intros Hm.
  - pose proof (wrap_none n periodic (mkExt low high []) p (proj1 F)) as E. cbn [e_low e_high] in E. rewrite E. auto.
  - specialize (IH ltac:(lia)). pose proof (proj2 F) as F'.
    destruct (nth m periodic false) eqn:Pm.
    2:{ replace (wrap n (upto periodic (S m)) low high p) with (wrap n (upto periodic m) low high p); auto.
        apply (wrap_ext n (mkExt low high [])). intros k Hk. symmetry. apply upto_skip. auto. }
    destruct (HN m ltac:(lia)) as [N1 N2]. specialize (N2 Pm). pose proof (F' m ltac:(lia)) as Fm.
    set (x := wrap n (upto periodic m) low high p) in *.
    set (y := wrap n (upto periodic (S m)) low high p).
    assert (Xm : nth m x 0 = nth m p 0). { unfold x. rewrite nth_wrap by lia. unfold upto. rewrite Nat.ltb_irrefl. auto. }
    assert (Ym : nth m y 0 = nth m low 0 + (nth m p 0 - nth m low 0) mod (nth m high 0 - nth m low 0)).
    { unfold y. rewrite nth_wrap by lia. unfold upto. replace (m <? S m)%nat with true by (symmetry; apply Nat.ltb_lt; lia). rewrite Pm. auto. }
    assert (Yk : forall k, (k <= n)%nat -> k <> m -> nth k y 0 = nth k x 0).
    { intros k Hk Hkm. unfold x, y. rewrite !nth_wrap by lia. unfold upto. replace (k <? S m)%nat with (k <? m)%nat; auto.
      destruct (Nat.ltb_spec k m), (Nat.ltb_spec k (S m)); auto; lia. }
    assert (Fx : fat n low high gw x).
    { split; [apply wrap_length|]. intros k Hk. unfold x. rewrite nth_wrap by lia. destruct (upto _ m k) eqn:U; [|apply F'; auto].
      destruct (HN k Hk) as [K1 K2]. assert (K3 : nth k periodic false = true) by (unfold upto in U; apply andb_true_iff in U as [_ U]; exact U). specialize (K2 K3). pose proof (Z.mod_pos_bound (nth k p 0 - nth k low 0) (nth k high 0 - nth k low 0) ltac:(lia)). lia. }
    destruct (Z_lt_dec (nth m p 0) (nth m low 0)) as [C|C]; [|destruct (Z_le_dec (nth m high 0) (nth m p 0)) as [C'|C']].
    + apply (HC m ltac:(lia) Pm x y); auto; [apply wrap_length|]. left. rewrite Xm, Ym. split; auto.
      rewrite <- (Z.mod_unique_pos (nth m p 0 - nth m low 0) (nth m high 0 - nth m low 0) (-1) (nth m p 0 - nth m low 0 + (nth m high 0 - nth m low 0))); lia.
    + apply (HC m ltac:(lia) Pm x y); auto; [apply wrap_length|]. right. rewrite Xm, Ym. split; auto.
      rewrite <- (Z.mod_unique_pos (nth m p 0 - nth m low 0) (nth m high 0 - nth m low 0) 1 (nth m p 0 - nth m low 0 - (nth m high 0 - nth m low 0))); lia.
    + replace y with x; auto. apply (list_ext n); [apply wrap_length|apply wrap_length|]. intros k Hk. destruct (Nat.eq_dec k m) as [->|Hkm]; [|symmetry; auto].
      rewrite Xm, Ym, Z.mod_small by lia. lia.
Qed.

(** ** The code *)

Lemma image_spreads : forall n t, length t = S n -> spreads n (fun i yz => [AddI (add_vec yz (tl t)) (iadd i (hd 0 t))]) (fun q p => p = add_vec q t).
Proof.
  intros n t Lt i yz Hn Hi. destruct t as [|t0 t]; [discriminate|]. cbn [tl hd]. assert (L' : length t = n) by (cbn in Lt; lia).
  assert (LA : length (add_vec yz t) = n) by (unfold add_vec; rewrite map_length, combine_length; lia).
  split.
  - split; repeat constructor; auto. destruct i. cbn in *. lia.
  - intros p Hp. destruct p as [|x yp]; [discriminate|]. split.
    + intros (c & [<-|[]] & Ha). cbn [added tl nth] in Ha. destruct Ha as [-> Hx]. exists (x - t0). split; [destruct i; unfold in_i, iadd in *; cbn in *; lia|].
      unfold add_vec. cbn [combine map]. f_equal. lia.
    + intros (y & Hy & E). unfold add_vec in E. cbn [combine map] in E. injection E as -> ->. eexists. split; [left; reflexivity|]. cbn [added tl nth]. split; auto.
      destruct i; unfold in_i, iadd in *; cbn in *; lia.
Qed.

Lemma image_calls_flat : forall t calls, image_calls t calls = flat_map (fun '(i, yz) => [AddI (add_vec yz (tl t)) (iadd i (hd 0 t))]) calls.
Proof. intros t calls. induction calls as [|[i yz] calls IH]; auto. cbn [image_calls map flat_map app]. f_equal. auto. Qed.

(** A list of calls and its level cell array. *)
Definition stored_by (n l : nat) (cs : list lcl_call) (a : lca) : Prop :=
  calls_ok n cs /\ wf n a /\ a_level a = l /\ forall p, lca_mem n a p <-> length p = S n /\ adds cs p.
Lemma stored_calls : forall n l cs, calls_ok n cs -> stored_by n l cs (lca_of_lcl (lcl_run n l cs)).
Proof. intros n l cs H. split; auto. apply (list_lca n (fun _ => cs) l). intros ?. auto. Qed.

Section Images.
  Variables (n l : nat) (periodic : list bool) (e : extent) (gw : Z).
  Hypothesis HE : forall k, (k <= n)%nat -> nth k (e_low e) 0 < nth k (e_high e) 0 /\ nth k (e_period e) 0 = nth k (e_high e) 0 - nth k (e_low e) 0.
  Hypothesis HG : 1 <= gw.
  Hypothesis HB : forall k, (k <= n)%nat -> nth k (e_high e) 0 + gw + 3 < 2 ^ 31 - 1.

  Lemma periodic_images_spec : forall d a, (d <= n)%nat -> wf n a -> a_level a = l -> below_max n a ->
    exists added, periodic_images n l e gw d a = Some added /\ calls_ok n added /\
      forall p, length p = S n -> (adds added p <-> exists q, lca_mem n a q /\ across n (e_low e) (e_high e) gw d q p).
  Proof.
    intros d a Hd W EL BM. pose proof (proj1 (HE d Hd)) as LH. unfold periodic_images.
    destruct (slab_valid n l (mkCa 0 (fun _ => a)) e gw HE HG HB W EL BM d (nth d (e_low e) 0 - gw) (nth d (e_low e) 0 + gw) Hd ltac:(lia) ltac:(lia)) as (c1 & E1 & V1 & _ & M1).
    destruct (slab_valid n l (mkCa 0 (fun _ => a)) e gw HE HG HB W EL BM d (nth d (e_high e) 0 - gw) (nth d (e_high e) 0 + gw) Hd ltac:(lia) ltac:(lia)) as (c2 & E2 & V2 & _ & M2).
    cbn [c_at] in *. rewrite E1, E2. eexists. split; [reflexivity|]. rewrite !image_calls_flat.
    assert (T : length (period_vector n e d) = S n) by apply period_length.
    assert (T' : length (opposite (period_vector n e d)) = S n) by (rewrite opposite_length; auto).
    destruct (spread_calls n _ _ c1 (image_spreads n _ T)) as [S1 S2]; [intros i yz Hin; destruct (V1 i yz Hin) as (? & ? & _); auto|].
    destruct (spread_calls n _ _ c2 (image_spreads n _ T')) as [S3 S4]; [intros i yz Hin; destruct (V2 i yz Hin) as (? & ? & _); auto|].
    split; [apply calls_ok_app; auto|]. intros p Lp. rewrite adds_app, S2, S4 by auto. split.
    - intros [(q & A & ->)|(q & A & ->)]; exists q.
      + apply M1 in A as (A1 & A2 & A3). assert (Lq : length q = S n) by apply A1. split; auto. split; auto. split.
        * intros k Hk Hkd. rewrite (nth_plus n e HE) by auto. destruct (Nat.eqb_spec k d); [contradiction|]. split; [lia|auto].
        * left. split; auto. rewrite (nth_plus n e HE), Nat.eqb_refl by auto. auto.
      + apply M2 in A as (A1 & A2 & A3). assert (Lq : length q = S n) by apply A1. split; auto. split; auto. split.
        * intros k Hk Hkd. rewrite (nth_minus n e HE) by auto. destruct (Nat.eqb_spec k d); [contradiction|]. split; [lia|auto].
        * right. split; auto. rewrite (nth_minus n e HE), Nat.eqb_refl by auto. auto.
    - intros (q & A & (_ & B & C)). assert (Lq : length q = S n) by apply A. destruct C as [[C1 C2]|[C1 C2]]; [left|right]; exists q.
      + split; [apply M1; split; auto; split; auto; intros k Hk Hkd; apply B; auto|]. apply (list_ext n); auto; [apply plus_length; auto|].
        intros k Hk. rewrite (nth_plus n e HE) by auto. destruct (Nat.eqb_spec k d) as [->|Hkd]; auto. destruct (B k Hk Hkd). lia.
      + split; [apply M2; split; auto; split; auto; intros k Hk Hkd; apply B; auto|]. apply (list_ext n); auto; [apply minus_length; auto|].
        intros k Hk. rewrite (nth_minus n e HE) by auto. destruct (Nat.eqb_spec k d) as [->|Hkd]; auto. destruct (B k Hk Hkd). lia.
  Qed.

  Lemma periodic_ghosts_fold : forall ds cs a, (forall d, In d ds -> (d <= n)%nat) -> stored_by n l cs a -> below_max n a ->
    exists cs' a', fold_tags (fun '(cs, all) d =>
      if nth d periodic false then
        let* added := periodic_images n l e gw d all in
        let cs := cs ++ added in
        Some (cs, lca_of_lcl (lcl_run n l cs))
      else Some (cs, all)) ds (cs, a) = Some (cs', a') /\ stored_by n l cs' a' /\ below_max n a' /\
      forall p, lca_mem n a' p <-> images_of n periodic (e_low e) (e_high e) gw ds (lca_mem n a) p.
  Proof.
    induction ds as [|d ds IH]; intros cs a Hd S B; cbn [fold_tags images_of].
    - exists cs, a. split; auto. split; auto. split; auto. tauto.
    - assert (D : (d <= n)%nat) by (apply Hd; left; auto). destruct (nth d periodic false) eqn:Pd.
      2:{ apply IH; auto. intros; apply Hd; right; auto. }
      destruct S as (OK & W & EL & M). destruct (periodic_images_spec d a D W EL B) as (added & E & OA & MA). rewrite E.
      pose proof (stored_calls n l (cs ++ added) (calls_ok_app _ _ _ OK OA)) as S'. set (a1 := lca_of_lcl (lcl_run n l (cs ++ added))) in *.
      assert (M' : forall p, lca_mem n a1 p <-> with_images n (e_low e) (e_high e) gw d (lca_mem n a) p).
      { intros p. destruct S' as (_ & _ & _ & M'). rewrite M', adds_app. unfold with_images. split.
        - intros (Lp & [X|X]); [left; apply M; auto|right; apply MA; auto].
        - intros [X|X]; [apply M in X; tauto|]. assert (Lp : length p = S n) by (destruct X as (q & _ & X & _); auto). split; auto. right. apply MA; auto. }
      assert (B' : below_max n a1).
      { intros p k Hp Hk. apply M' in Hp as [X|(q & X & (_ & Y & Z))]; [apply (B p k X Hk)|]. pose proof (HE d D) as [LH _]. pose proof (HB d D). pose proof (B q k X Hk).
        destruct (Nat.eq_dec k d) as [->|Hkd]; [lia|]. destruct (Y k Hk Hkd). lia. }
      destruct (IH (cs ++ added) a1) as (cs' & a' & E' & R1 & R2 & R3); auto; [intros; apply Hd; right; auto|].
      exists cs', a'. split; auto. split; auto. split; auto. intros p. rewrite R3. apply images_of_ext; auto. intros; apply Hd; right; auto.
  Qed.
End Images.

(** The loop over the levels. *)
Lemma periodic_loop_spec : forall n periodic domain L lo hi gw ls cl at_, domain_box n domain L lo hi -> 1 <= gw -> NoDup ls ->
  (forall l, In l ls -> (l <= L)%nat /\ (forall k, (k <= n)%nat -> nth k hi 0 * 2 ^ Z.of_nat l + gw + 3 < 2 ^ 31 - 1) /\ below_max n (at_ l)) ->
  (forall l, stored_by n l (cl l) (at_ l)) ->
  exists cl' at', periodic_loop n periodic domain gw ls cl at_ = Some (cl', at') /\ (forall l, stored_by n l (cl' l) (at' l)) /\
    (forall l p, In l ls -> (lca_mem n (at' l) p <-> images_of n periodic (scaled lo l) (scaled hi l) gw (seq 0 (S n)) (lca_mem n (at_ l)) p)) /\
    (forall l p, ~ In l ls -> (lca_mem n (at' l) p <-> lca_mem n (at_ l) p)).
Proof.
  intros n periodic domain L lo hi gw ls. unfold periodic_loop.
  induction ls as [|l ls IH]; intros cl at_ HD HG ND HL HS; cbn [fold_tags].
  - exists cl, at_. split; auto. split; auto. split; [intros l p []|tauto].
  - destruct (HL l (or_introl eq_refl)) as (L1 & L2 & L3). destruct HD as (W & EL & HH & HX).
    destruct (extent_spec n domain L lo hi l W EL HH HX L1) as (e & E & X). assert (P : 0 < 2 ^ Z.of_nat l) by (apply Z.pow_pos_nonneg; lia).
    destruct (periodic_ghosts_fold n l periodic e gw) with (ds := seq 0 (S n)) (cs := cl l) (a := at_ l) as (cs' & a' & E' & S' & B' & M'); auto.
    { intros k Hk. destruct (X k Hk) as (-> & -> & ->). pose proof (HH k Hk). split; [nia|ring]. }
    { intros k Hk. destruct (X k Hk) as (_ & -> & _). auto. }
    { intros d Hd. apply in_seq in Hd. lia. }
    assert (G : periodic_ghosts n periodic domain gw l (cl l) (at_ l) = Some (cs', a')) by (unfold periodic_ghosts; rewrite E; exact E').
    rewrite G. inversion ND as [|? ? N1 N2]; subst.
    destruct (IH (upd cl l cs') (upd at_ l a')) as (cl' & at' & E2 & R1 & R2 & R3); auto.
    { split; auto. }
    { intros j Hj. rewrite upd_other by congruence. apply HL. right. auto. }
    { intros j. destruct (Nat.eq_dec j l) as [->|Hne]; [rewrite !upd_same; auto|rewrite !upd_other; auto]. }
    exists cl', at'. split; auto. split; auto. split.
    + intros j p [<-|Hj].
      * rewrite R3, upd_same, M' by auto. apply images_of_ext; [|intros d Hd; apply in_seq in Hd; lia|tauto].
        intros k Hk. rewrite !nth_scaled. destruct (X k Hk) as (-> & -> & _). auto.
      * rewrite R2 by auto. rewrite upd_other by congruence. tauto.
    + intros j p Hj. rewrite R3 by (intros Y; apply Hj; right; auto). rewrite upd_other; [tauto|]. intros ->. apply Hj. left. auto.
Qed.

(** ** The last loop of the construction, for any base *)
Inductive grown_from (n minl : nat) (cells : ca) (B : nat -> list Z -> Prop) : nat -> list Z -> Prop :=
| grown_base : forall l p, B l p -> grown_from n minl cells B l p
| grown_child : forall l p, length p = S n -> grown_from n minl cells B l (ancestor 1 p) -> refined n minl cells l (ancestor 1 p) -> grown_from n minl cells B (S l) p.

Section Grown.
  Variables (n m minl maxl : nat) (w s : Z) (cells : ca) (B : nat -> list Z -> Prop).
  Hypothesis In_ok : mr_input n m minl maxl w s cells.
  Hypothesis BL : forall l p, B l p -> length p = S n.
  Hypothesis BB : forall l p k, B l p -> (k <= n)%nat -> nth k p 0 + 3 < 2 ^ 31 - 1.
  Notation refd := (refined n minl cells).
  Notation wtd := (grown_from n minl cells B).

  Lemma grown_length : forall l p, wtd l p -> length p = S n.
  Proof. intros l p [? ? X|? ? X _ _]; auto. eapply BL; eauto. Qed.
  Lemma grown_bound : forall l p k, wtd l p -> (k <= n)%nat -> nth k p 0 + 3 < 2 ^ 31 - 1.
  Proof.
    pose proof (in_small n m minl maxl w s cells In_ok) as SM. pose proof (in_w n m minl maxl w s cells In_ok). pose proof (in_s n m minl maxl w s cells In_ok).
    intros l p k X Hk. destruct X as [l p X|l p Lp _ (Hl & l' & q & Hl' & X & E)]; [eapply BB; eauto|].
    pose proof (SM _ q k X Hk). apply (f_equal (fun z => nth k z 0)) in E. rewrite !nth_ancestor in E.
    change (2 ^ Z.of_nat 1) with 2 in E. replace (l' - l)%nat with (S (l' - l - 1)) in E by lia.
    rewrite Nat2Z.inj_succ, Z.pow_succ_r in E by lia. assert (P : 0 < 2 ^ Z.of_nat (l' - l - 1)) by (apply Z.pow_pos_nonneg; lia).
    set (Q := 2 ^ Z.of_nat (l' - l - 1)) in *. pose proof (Z.div_mod (nth k p 0) 2 ltac:(lia)). pose proof (Z.mod_pos_bound (nth k p 0) 2 ltac:(lia)).
    assert (0 < 2 * Q) by lia. pose proof (Z.mul_div_le (nth k q 0) (2 * Q) ltac:(lia)). rewrite <- E in *. nia.
  Qed.
  Lemma grown_0 : forall p, wtd 0 p <-> B 0 p.
  Proof. intros p. split; [intros X; inversion X; auto|apply grown_base]. Qed.
  Lemma grown_S : forall l p, wtd (S l) p <-> B (S l) p \/ (length p = S n /\ wtd l (ancestor 1 p) /\ refd l (ancestor 1 p)).
  Proof. intros l p. split; [intros X; inversion X; auto|]. intros [X|(X & Y & Z)]; [apply grown_base; auto|apply grown_child; auto]. Qed.

  Lemma grown_spec : forall u k a cl at_ pr,
    (forall l, wf n (u l) /\ a_level (u l) = l) -> (forall l p, lca_mem n (u l) p <-> refd l p) ->
    list_ok n cl -> (forall l p, (a < l)%nat -> length p = S n -> (adds (cl l) p <-> B l p)) ->
    (forall l, wf n (at_ l) /\ a_level (at_ l) = l) ->
    (forall l p, (l <= a)%nat -> (lca_mem n (at_ l) p <-> wtd l p)) ->
    (forall l p, (a < l)%nat -> (lca_mem n (at_ l) p <-> B l p)) ->
    (forall l, wf n (pr l) /\ a_level (pr l) = l) ->
    (forall l p, lca_mem n (pr l) p <-> (l < a)%nat /\ wtd l p /\ refd l p) ->
    exists at' pr', proj_loop n u (seq a k) cl at_ pr = Some (at', pr') /\
      (forall l, wf n (at' l) /\ a_level (at' l) = l) /\
      (forall l p, (l <= a + k)%nat -> (lca_mem n (at' l) p <-> wtd l p)) /\
      (forall l p, (a + k < l)%nat -> (lca_mem n (at' l) p <-> B l p)) /\
      (forall l, wf n (pr' l) /\ a_level (pr' l) = l) /\
      (forall l p, lca_mem n (pr' l) p <-> (l < a + k)%nat /\ wtd l p /\ refd l p).
  Proof.
    intros u k. induction k as [|k IH]; intros a cl at_ pr HU MU Hcl Mcl HA MA1 MA2 HP MP; cbn [seq proj_loop].
    - rewrite Nat.add_0_r. exists at_, pr. auto 10.
    - destruct (HA a) as [WA EA]. destruct (HU a) as [WU EU].
      assert (BA : below_max n (at_ a)).
      { intros q j Hq Hj. apply MA1 in Hq; [|lia]. apply (grown_bound a q j Hq Hj). }
      assert (BU : below_max n (u a)).
      { intros q j Hq Hj. apply MU in Hq. pose proof (refined_bound n m minl maxl w s cells In_ok a q j Hq Hj). lia. }
      destruct (inter_calls n (at_ a) (u a) a WA WU EA EU BA BU) as (calls & E & V & C). rewrite E.
      destruct (spread_calls n _ _ calls (child_spreads n) V) as [S1 S2].
      set (f1 := flat_map (fun '(i, yz) => subdomain_calls n 1 i yz) calls) in *.
      destruct (spread_calls n _ _ calls (self_spreads n) V) as [T1 T2].
      assert (EQ : map (fun '(i, yz) => AddI yz i) calls = flat_map (fun '(i, yz) => [AddI yz i]) calls).
      { clear. induction calls as [|[i yz] calls IH]; auto. cbn [map flat_map app]. f_equal. auto. }
      rewrite EQ. set (f2 := flat_map (fun '(i, yz) => [AddI yz i]) calls) in *. clear EQ.
      set (cl1 := add_calls cl (S a) f1). assert (G1 : list_ok n cl1) by (apply add_calls_ok; auto).
      destruct (list_lca n cl1 (S a) G1) as (W1 & L1 & M1).
      assert (M1' : forall p, lca_mem n (client_lca n (S a) (cl1 (S a))) p <-> wtd (S a) p).
      { intros p. rewrite M1, grown_S. unfold cl1. rewrite add_calls_adds. split.
        - intros (Lp & [A|[_ A]]); [left; apply Mcl in A; auto|]. right. apply S2 in A as (q & Hq & <-); auto.
          apply C in Hq as [A1 A2]. apply MA1 in A1; auto. apply MU in A2. auto.
        - intros [A|(Lp & A1 & A2)].
          + assert (Lp : length p = S n) by (eapply BL; eauto). split; auto. left. apply Mcl; auto.
          + split; auto. right. split; auto. apply S2; auto. exists (ancestor 1 p). split; auto. apply C. rewrite MA1, MU by auto. auto. }
      set (g2 := fun _ : nat => f2). assert (G2 : list_ok n g2) by (intros l; exact T1).
      destruct (list_lca n g2 a G2) as (W2 & L2 & M2). unfold g2 in W2, L2, M2.
      assert (M2' : forall p, lca_mem n (client_lca n a f2) p <-> wtd a p /\ refd a p).
      { intros p. rewrite M2. split.
        - intros (Lp & A). apply T2 in A as (q & Hq & ->); auto. apply C in Hq as [A1 A2]. apply MA1 in A1; auto. apply MU in A2. auto.
        - intros [A1 A2]. assert (Lp : length p = S n) by (eapply grown_length; eauto). split; auto. apply T2; auto. exists p. split; auto.
          apply C. rewrite MA1, MU by auto. auto. }
      fold (client_lca n (S a) (cl1 (S a))). fold (client_lca n a f2).
      destruct (IH (S a) cl1 (upd at_ (S a) (client_lca n (S a) (cl1 (S a)))) (upd pr a (client_lca n a f2))) as (at' & pr' & R); auto.
      + intros l p Hl Hp. unfold cl1. rewrite add_calls_adds, Mcl by (auto; lia). split; auto. intros [A|[-> _]]; auto. lia.
      + intros l. destruct (Nat.eq_dec l (S a)) as [->|Hne]; [rewrite upd_same; auto|rewrite upd_other; auto].
      + intros l p Hl. destruct (Nat.eq_dec l (S a)) as [->|Hne]; [rewrite upd_same; auto|rewrite upd_other by auto; apply MA1; lia].
      + intros l p Hl. rewrite upd_other by lia. apply MA2. lia.
      + intros l. destruct (Nat.eq_dec l a) as [->|Hne]; [rewrite upd_same; auto|rewrite upd_other; auto].
      + intros l p. destruct (Nat.eq_dec l a) as [->|Hne].
        * rewrite upd_same, M2'. split; [intros; split; [lia|auto]|tauto].
        * rewrite upd_other, MP by auto. split; intros (A1 & A2); split; auto; lia.
      + exists at', pr'. replace (a + S k)%nat with (S a + k)%nat by lia. exact R.
  Qed.
End Grown.
