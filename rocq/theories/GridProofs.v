(** Cell lists: nested maps built by any client history. *)
From Verif Require Import Base IntervalModel Spec LoiModel LoiProofs LcaModel LcaSpec.
Open Scope Z_scope.

Definition keys_sorted {V} (m : list (Z * V)) : Prop := StronglySorted (fun a b => fst a < fst b) m.

Fixpoint grid_ok (n : nat) : grid n -> Prop :=
  match n with
  | O => fun l => normal l
  | S m => fun g => keys_sorted g /\ Forall (fun kv => grid_ok m (snd kv)) g
  end.

(** No row below is empty. *)
Fixpoint grid_full (n : nat) : grid n -> Prop :=
  match n with
  | O => fun _ => True
  | S m => fun g => Forall (fun kv => grid_is_empty m (snd kv) = false /\ grid_full m (snd kv)) g
  end.

Lemma map_update_spec : forall V (d : V) k f m,
  keys_sorted m ->
  exists v0, (In (k, v0) m \/ (v0 = d /\ forall v, ~ In (k, v) m)) /\
    keys_sorted (map_update d k f m) /\
    forall k' v', In (k', v') (map_update d k f m) <->
                  (k' = k /\ v' = f v0) \/ (k' <> k /\ In (k', v') m).
Proof.
  intros V d k f m. induction m as [|[k1 v1] m IH]; intros Hs; simpl.
  - exists d. split; [right; split; [auto|intros v []]|]. split.
    + repeat constructor.
    + intros k' v'. split.
      * intros [E|[]]. inv E. auto.
      * intros [[-> ->]|[_ []]]. auto.
  - inv Hs. rename H1 into Hs, H2 into Hf.
    rewrite Forall_forall in Hf.
    destruct (Z.ltb_spec k k1).
    + exists d. split.
      { right. split; auto. intros v [E|Hin]; [inv E; lia|]. apply Hf in Hin. simpl in *; lia. }
      split.
      { constructor; [constructor; auto; rewrite Forall_forall; auto|].
        constructor; simpl; auto. rewrite Forall_forall. intros x Hx. apply Hf in Hx. simpl in *. lia. }
      intros k' v'. simpl. split.
      * intros [E|[E|Hin]].
        -- inv E; auto.
        -- inv E. right. split; [lia|auto].
        -- right. split; [|auto]. apply Hf in Hin. simpl in *. lia.
      * intros [[-> ->]|[_ H']]; auto.
    + destruct (Z.eqb_spec k k1).
      * subst k1. exists v1. split; [left; left; auto|]. split.
        { constructor; auto. rewrite Forall_forall. intros x Hx. apply Hf in Hx. auto. }
        intros k' v'. simpl. split.
        -- intros [E|Hin]; [inv E; auto|]. right. split; auto.
           apply Hf in Hin. simpl in *. lia.
        -- intros [[-> ->]|[Hn [E|Hin]]]; auto. inv E. lia.
      * destruct (IH Hs) as (v0 & Hv0 & Hs' & HI). exists v0. split.
        { destruct Hv0 as [Hin|[-> Hn]]; [left; right; auto|].
          right. split; auto. intros v [E|Hin]; [inv E; lia|]. eapply Hn; eauto. }
        split.
        { constructor; auto. rewrite Forall_forall. intros [k' v'] Hx. simpl.
          apply HI in Hx as [[-> ->]|[_ Hx]]; [lia|]. apply Hf in Hx. auto. }
        intros k' v'. simpl. rewrite HI. split.
        -- intros [E|[H'|[Hn H']]]; [inv E; right; split; [lia|auto]|auto|auto].
        -- intros [[-> ->]|[Hn [E|Hin]]]; auto.
Qed.

Lemma grid_empty_ok : forall n, grid_ok n (grid_empty n).
Proof.
  destruct n; simpl. - apply normal_nil. - split; constructor.
Qed.

Lemma grid_empty_mem : forall n p, ~ grid_mem n (grid_empty n) p.
Proof.
  destruct n; simpl; intros p H. - apply covers_nil in H; auto. - destruct H as (s & [] & _).
Qed.

Lemma grid_empty_full : forall n, grid_full n (grid_empty n).
Proof. destruct n; simpl; auto. Qed.

Lemma keys_unique : forall V (m : list (Z * V)) k v1 v2,
  keys_sorted m -> In (k, v1) m -> In (k, v2) m -> v1 = v2.
Proof.
  induction m as [|[k0 v0] m IH]; intros k v1 v2 Hs H1 H2; [destruct H1|].
  inv Hs. rewrite Forall_forall in H4. destruct H1 as [E1|H1], H2 as [E2|H2].
  - congruence.
  - inv E1. apply H4 in H2. simpl in H2; lia.
  - inv E2. apply H4 in H1. simpl in H1; lia.
  - eauto.
Qed.

Lemma grid_update_spec : forall n (g : grid n) yz f Q,
  grid_ok n g ->
  (forall l, normal l -> normal (f l)) ->
  (forall l x, normal l -> (covers (f l) x <-> covers l x \/ Q x)) ->
  grid_ok n (grid_update n yz f g) /\
  forall p, grid_mem n (grid_update n yz f g) p <->
    grid_mem n g p \/
    (Q (nth 0 p 0) /\ forall k, (k < n)%nat -> nth (S k) p 0 = nth k yz 0).
Proof.
  induction n as [|n IH]; intros g yz f Q Hg Hn Hc.
  - simpl in *. split; auto. intros p. rewrite Hc; auto.
    split; intros [H|H]; auto; [right; split; auto; intros; lia | tauto].
  - simpl in Hg. destruct Hg as [Hs Hf]. cbn [grid_update].
    destruct (map_update_spec _ (grid_empty n) (nth n yz 0) (grid_update n yz f) g Hs)
      as (v0 & Hv0 & Hs' & HI).
    assert (Hv0ok : grid_ok n v0).
    { destruct Hv0 as [Hin|[-> _]]; [|apply grid_empty_ok].
      rewrite Forall_forall in Hf. apply Hf in Hin. auto. }
    destruct (IH v0 yz f Q Hv0ok Hn Hc) as [Hok Hmem].
    split.
    + simpl. split; auto. rewrite Forall_forall. intros [k v] Hin. simpl.
      apply HI in Hin as [[-> ->]|[_ Hin]]; auto.
      rewrite Forall_forall in Hf. apply Hf in Hin; auto.
    + intros p. simpl. split.
      * intros (sub & Hin & Hm). apply HI in Hin as [[Hk ->]|[Hk Hin]].
        -- apply Hmem in Hm as [Hm|[Hq Hall]].
           ++ left. destruct Hv0 as [Hin|[-> _]].
              ** exists v0. rewrite Hk. auto.
              ** exfalso. eapply grid_empty_mem; eauto.
           ++ right. split; auto. intros k Hlt.
              destruct (Nat.eq_dec k n) as [->|]; auto. apply Hall; lia.
        -- left. exists sub. auto.
      * intros [(sub & Hin & Hm)|[Hq Hall]].
        -- destruct (Z.eq_dec (nth (S n) p 0) (nth n yz 0)) as [E|E].
           ++ exists (grid_update n yz f v0). split.
              ** apply HI. auto.
              ** apply Hmem. left. rewrite E in Hin.
                 destruct Hv0 as [Hin0|[-> Hno]]; [|exfalso; eapply Hno; eauto].
                 rewrite (keys_unique _ g _ v0 sub Hs Hin0 Hin). auto.
           ++ exists sub. split; auto. apply HI. auto.
        -- exists (grid_update n yz f v0). split.
           ++ apply HI. left. split; auto.
           ++ apply Hmem. right. split; auto.
Qed.

Lemma map_update_nonnil : forall V (d : V) k f m, map_update d k f m <> [].
Proof.
  intros V d k f [|[k' v'] m]; simpl; try discriminate.
  destruct (k <? k'); try discriminate. destruct (k =? k'); discriminate.
Qed.

Lemma map_update_forall : forall V (P : V -> Prop) d k f m,
  P (f d) -> (forall v, P v -> P (f v)) -> Forall (fun kv => P (snd kv)) m ->
  Forall (fun kv => P (snd kv)) (map_update d k f m).
Proof.
  intros V P d k f m Hd Hf. induction 1 as [|[k' v'] m Hv Hm IH]; simpl.
  - constructor; auto.
  - destruct (k <? k'); [constructor; auto|]. destruct (k =? k'); constructor; auto; simpl; auto.
Qed.

Lemma grid_update_full : forall n (g : grid n) yz f,
  (forall l, f l <> []) -> grid_full n g ->
  grid_full n (grid_update n yz f g) /\ grid_is_empty n (grid_update n yz f g) = false.
Proof.
  induction n as [|n IH]; intros g yz f Hf Hg.
  - simpl in *. split; auto. specialize (Hf g). destruct (f g); auto. congruence.
  - cbn [grid_update]. split.
    + simpl in *.
      apply (map_update_forall _ (fun v => grid_is_empty n v = false /\ grid_full n v)); auto.
      * destruct (IH (grid_empty n) yz f Hf (grid_empty_full n)). auto.
      * intros v [_ Hv]. destruct (IH v yz f Hf Hv). auto.
    + simpl. destruct (map_update _ _ _ _) eqn:E; auto.
      apply map_update_nonnil in E; tauto.
Qed.

Lemma add_valid_nonnil : forall i l, add_valid i l <> [].
Proof.
  intros i [|v l]; simpl; [discriminate|].
  destruct (istart i <=? iend v); [|discriminate]. destruct (iend i <? istart v); [discriminate|].
  generalize (mkI (Z.min (istart v) (istart i)) (Z.max (iend v) (iend i)) (istep v) (iindex v)).
  induction l as [|b l IH]; simpl; intros c; [discriminate|]. destruct (_ <=? _); [apply IH|discriminate].
Qed.

Lemma add_interval_nonnil : forall i l, istart i < iend i -> add_interval l i <> [].
Proof.
  intros i l H. unfold add_interval, is_valid. rewrite (proj2 (Z.ltb_lt _ _) H).
  apply add_valid_nonnil.
Qed.

Lemma nth_ext_eq : forall (l1 l2 : list Z), length l1 = length l2 ->
  (forall k, (k < length l1)%nat -> nth k l1 0 = nth k l2 0) -> l1 = l2.
Proof. intros. eapply nth_ext; eauto. Qed.

Lemma tl_nth : forall (p yz : list Z) n, length p = S n -> length yz = n ->
  (tl p = yz <-> forall k, (k < n)%nat -> nth (S k) p 0 = nth k yz 0).
Proof.
  intros [|x p] yz n Hp Hyz; simpl in *; [discriminate|]. split.
  - intros -> k _. reflexivity.
  - intros H. apply nth_ext_eq; [lia|]. intros; apply H; lia.
Qed.

Lemma grid_step_spec : forall n g c, grid_ok n g -> call_dim n c ->
  grid_ok n (grid_step n g c) /\
  forall p, length p = S n -> (grid_mem n (grid_step n g c) p <-> grid_mem n g p \/ added c p).
Proof.
  intros n g c Hg Hd.
  assert (H1 : forall x p0 : Z, in_i (mk p0 (p0 + 1)) x <-> x = p0).
  { intros; unfold in_i; simpl; lia. }
  destruct c as [yz|yz i|yz p0|cell]; simpl in *.
  - destruct (grid_update_spec n g yz (fun l => l) (fun _ => False)) as [A B]; auto.
    { intros. tauto. }
    split; auto. intros p Hp. rewrite B. tauto.
  - destruct (grid_update_spec n g yz (fun l => add_interval l i) (in_i i)) as [A B]; auto.
    { intros; apply add_interval_normal; auto. }
    { intros; apply add_interval_covers; auto. }
    split; auto. intros p Hp. rewrite B. rewrite (tl_nth p yz n Hp Hd). tauto.
  - destruct (grid_update_spec n g yz (fun l => add_point l p0) (fun x => x = p0)) as [A B]; auto.
    { intros; apply add_interval_normal; auto. }
    { intros. unfold add_point. rewrite add_interval_covers, H1; auto. tauto. }
    split; auto. intros p Hp. rewrite B. rewrite <- (tl_nth p yz n Hp Hd).
    destruct p as [|x p]; [discriminate|]. simpl. split; intros [H|H]; auto.
    + destruct H as [-> ->]. auto.
    + inv H. auto.
  - destruct (grid_update_spec n g (tl cell) (fun l => add_point l (nth 0 cell 0))
                (fun x => x = nth 0 cell 0)) as [A B]; auto.
    { intros; apply add_interval_normal; auto. }
    { intros. unfold add_point. rewrite add_interval_covers, H1; auto. tauto. }
    split; auto. intros p Hp. rewrite B.
    destruct cell as [|c0 cell]; [discriminate|]. simpl in *.
    rewrite <- (tl_nth p cell n) by lia.
    destruct p as [|x p]; [discriminate|]. simpl. split; intros [H|H]; auto.
    + destruct H as [-> ->]. auto.
    + inv H. auto.
Qed.

Lemma grid_run_spec : forall n cs g, grid_ok n g -> Forall (call_dim n) cs ->
  grid_ok n (fold_left (grid_step n) cs g) /\
  forall p, length p = S n ->
    (grid_mem n (fold_left (grid_step n) cs g) p <-> grid_mem n g p \/ exists c, In c cs /\ added c p).
Proof.
  induction cs as [|c cs IH]; intros g Hg Hd; simpl.
  - split; auto. intros p _. split; auto. intros [H|(c & [] & _)]; auto.
  - inv Hd. destruct (grid_step_spec n g c Hg H1) as [A B].
    destruct (IH _ A H2) as [C D]. split; auto. intros p Hp. rewrite D, B by auto. split.
    + intros [[H|H]|(c' & H & K)]; eauto.
    + intros [H|(c' & [->|H] & K)]; eauto.
Qed.

Lemma grid_run_full : forall n cs g, grid_full n g -> Forall call_adds cs ->
  grid_full n (fold_left (grid_step n) cs g).
Proof.
  induction cs as [|c cs IH]; intros g Hg Hd; simpl; auto.
  inv Hd. apply IH; auto.
  destruct c as [yz|yz i|yz p0|cell]; simpl in *; try tauto; apply grid_update_full; auto;
    intros; unfold add_point; apply add_interval_nonnil; simpl; lia.
Qed.

(** Emptiness: no row at all iff no call was made on a cell list (dim >= 2). *)
Lemma grid_full_nonempty_mem : forall n (g : grid n), grid_ok n g -> grid_full n g ->
  grid_is_empty n g = false -> exists p, length p = S n /\ grid_mem n g p.
Proof.
  induction n as [|n IH]; intros g Hok Hf He; simpl in *.
  - destruct g as [|i l]; [discriminate|]. apply normal_cons in Hok as (Hv & _ & _).
    exists [istart i]. simpl. split; auto. apply covers_cons. left. unfold in_i. lia.
  - destruct g as [|[k v] g]; [discriminate|]. inv Hf. simpl in *. destruct H1 as [He' Hf'].
    destruct Hok as [_ Hok]. inv Hok. simpl in *.
    destruct (IH v) as (p & Hp & Hm); auto.
    exists (p ++ [k]). rewrite app_length, Hp. split; [simpl; lia|].
    exists v. split.
    + left. f_equal. rewrite app_nth2 by lia. replace (S n - length p)%nat with 0%nat by lia. reflexivity.
    + clear - Hp Hm. revert v Hm.
      assert (G : forall m (v : grid m), (m <= n)%nat -> grid_mem m v p -> grid_mem m v (p ++ [k])).
      { induction m as [|m IHm]; simpl; intros v Hle H.
        - rewrite app_nth1 by lia. auto.
        - destruct H as (s & Hin & Hm). exists s. rewrite app_nth1 by lia. split; auto. apply IHm; auto; lia. }
      intros; apply G; auto.
Qed.
