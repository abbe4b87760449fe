From Verif Require Import Base IntervalModel LoiModel Spec.
Open Scope Z_scope.

Lemma covers_nil : forall x, covers [] x <-> False.
Proof. unfold covers; split; [intros (i & [] & _) | tauto]. Qed.

Lemma covers_cons : forall i l x, covers (i :: l) x <-> in_i i x \/ covers l x.
Proof.
  unfold covers; split.
  - intros (j & [<-|H] & K); eauto.
  - intros [H|(j & H & K)]; eexists; simpl; eauto.
Qed.

Lemma covers_app : forall l1 l2 x, covers (l1 ++ l2) x <-> covers l1 x \/ covers l2 x.
Proof.
  intros. induction l1; simpl.
  - rewrite covers_nil. tauto.
  - rewrite !covers_cons. tauto.
Qed.

Lemma normal_nil : normal [].
Proof. split; constructor. Qed.

Lemma normal_cons : forall a l,
  normal (a :: l) <->
  istart a < iend a /\ Forall (fun b => iend a < istart b) l /\ normal l.
Proof.
  unfold normal; split.
  - intros [H1 H2]. inv H1; inv H2. tauto.
  - intros (H1 & H2 & H3 & H4). split; constructor; auto.
Qed.

(** What the erase loop does: [cur] absorbs the elements it reaches. *)
Lemma merge_loop_spec : forall i rest cur,
  istart i < iend i ->
  normal rest ->
  istart cur <= istart i -> iend i <= iend cur -> istart cur < iend cur ->
  Forall (fun b => iend cur < istart b \/ (iend cur = iend i /\ istart cur < istart b)) rest ->
  normal (merge_loop i cur rest) /\
  (forall x, covers (merge_loop i cur rest) x <-> in_i cur x \/ covers rest x) /\
  (forall lo, lo < istart cur -> Forall (fun b => lo < istart b) (merge_loop i cur rest)).
Proof.
  intros i rest. induction rest as [|n rest IH]; intros cur Hi Hn Hs He Hv Hf; simpl.
  - split; [|split].
    + apply normal_cons. repeat split; auto; constructor.
    + intros x. rewrite covers_cons, covers_nil. tauto.
    + intros lo Hlo. constructor; auto.
  - apply normal_cons in Hn as (Hvn & Hfn & Hn'). inv Hf.
    destruct (Z.leb_spec (istart n) (iend i)) as [Hle|Hgt].
    + edestruct (IH (mkI (istart cur) (Z.max (iend n) (iend i)) (istep cur) (iindex cur)))
        as (N & C & L); simpl; auto; try lia.
      { rewrite Forall_forall in *. intros b Hb.
        specialize (Hfn b Hb). simpl in Hfn. lia. }
      split; auto. split.
      * intros x. rewrite C, covers_cons. unfold in_i; simpl.
        assert (istart cur <= x < Z.max (iend n) (iend i) <->
                istart cur <= x < iend cur \/ istart n <= x < iend n) by lia.
        tauto.
      * intros lo Hlo. apply L. simpl. auto.
    + split; [|split].
      * apply normal_cons. split; auto. split.
        -- constructor; [destruct H1; lia|].
           rewrite Forall_forall in *. intros b Hb. specialize (H2 b Hb). specialize (Hfn b Hb).
           simpl in *. lia.
        -- apply normal_cons. auto.
      * intros x. rewrite !covers_cons. tauto.
      * intros lo Hlo. constructor; auto. constructor; [destruct H1; lia|].
        rewrite Forall_forall in *. intros b Hb. specialize (Hfn b Hb). simpl in *. destruct H1; lia.
Qed.

Lemma add_valid_spec : forall i l,
  istart i < iend i -> normal l ->
  normal (add_valid i l) /\
  (forall x, covers (add_valid i l) x <-> in_i i x \/ covers l x) /\
  (forall lo, lo < istart i -> Forall (fun b => lo < istart b) l ->
     Forall (fun b => lo < istart b) (add_valid i l)).
Proof.
  intros i l Hi. induction l as [|v tl IH]; intros Hn; simpl.
  - split; [|split].
    + apply normal_cons. repeat split; auto; constructor.
    + intros x. rewrite covers_cons. tauto.
    + intros lo Hlo _. constructor; auto.
  - assert (Hn0 := Hn).
    apply normal_cons in Hn as (Hv & Hf & Hn).
    destruct (Z.leb_spec (istart i) (iend v)) as [Hle|Hgt].
    + destruct (Z.ltb_spec (iend i) (istart v)) as [Hlt|Hge].
      * split; [|split].
        -- apply normal_cons. split; auto. split; auto.
           constructor; auto. rewrite Forall_forall in *. intros b Hb. specialize (Hf b Hb).
           simpl in *. lia.
        -- intros x. rewrite !covers_cons. tauto.
        -- intros lo Hlo H. constructor; auto.
      * edestruct (merge_loop_spec i tl
           (mkI (Z.min (istart v) (istart i)) (Z.max (iend v) (iend i)) (istep v) (iindex v)))
          as (N & C & L); simpl; auto; try lia.
        { rewrite Forall_forall in *. intros b Hb. specialize (Hf b Hb). simpl in *. lia. }
        split; auto. split.
        -- intros x. rewrite C, covers_cons. unfold in_i; simpl.
           assert (Z.min (istart v) (istart i) <= x < Z.max (iend v) (iend i) <->
                   istart i <= x < iend i \/ istart v <= x < iend v) by lia.
           tauto.
        -- intros lo Hlo H. inv H. apply L. simpl. lia.
    + destruct (IH Hn) as (N & C & L). split; [|split].
      * apply normal_cons. split; auto.
      * intros x. rewrite !covers_cons, C. tauto.
      * intros lo Hlo H. inv H. constructor; auto.
Qed.

Lemma add_interval_normal : forall l i, normal l -> normal (add_interval l i).
Proof.
  intros. unfold add_interval, is_valid.
  destruct (Z.ltb_spec (istart i) (iend i)); auto. apply add_valid_spec; auto.
Qed.

Lemma add_interval_covers : forall l i x, normal l ->
  (covers (add_interval l i) x <-> covers l x \/ in_i i x).
Proof.
  intros. unfold add_interval, is_valid.
  destruct (Z.ltb_spec (istart i) (iend i)).
  - destruct (add_valid_spec i l) as (_ & C & _); auto. rewrite C. tauto.
  - unfold in_i. split; [tauto|]. intros [?|?]; auto; lia.
Qed.

Lemma fold_add_spec : forall is l, normal l ->
  normal (fold_left add_interval is l) /\
  (forall x, covers (fold_left add_interval is l) x <-> covers l x \/ covers is x).
Proof.
  induction is as [|i is IH]; intros l Hn; simpl.
  - split; auto. intros x. rewrite covers_nil. tauto.
  - destruct (IH (add_interval l i)) as (N & C); [apply add_interval_normal; auto|].
    split; auto. intros x. rewrite C, add_interval_covers, covers_cons by auto. tauto.
Qed.

(** Normal lists are determined by the set they cover. *)
Lemma normal_head_lower : forall a l x, normal (a :: l) -> covers (a :: l) x -> istart a <= x.
Proof.
  intros a l x Hn Hc. apply normal_cons in Hn as (Hv & Hf & Hn).
  apply covers_cons in Hc as [H|(j & Hj & H)]; unfold in_i in *; [lia|].
  rewrite Forall_forall in Hf. specialize (Hf j Hj). simpl in Hf. lia.
Qed.

Lemma normal_canonical : forall l1 l2, normal l1 -> normal l2 ->
  (forall x, covers l1 x <-> covers l2 x) -> bounds l1 = bounds l2.
Proof.
  induction l1 as [|a l1 IH]; intros l2 H1 H2 E.
  - destruct l2 as [|b l2]; auto. exfalso.
    apply normal_cons in H2 as (Hv & _ & _).
    destruct (E (istart b)) as [_ E']. apply covers_nil with (x := istart b). apply E'.
    apply covers_cons. left. unfold in_i. lia.
  - destruct l2 as [|b l2].
    + exfalso. apply normal_cons in H1 as (Hv & _ & _).
      apply covers_nil with (x := istart a). apply E.
      apply covers_cons. left. unfold in_i. lia.
    + assert (N1 := H1). assert (N2 := H2).
      apply normal_cons in H1 as (Hv1 & Hf1 & H1).
      apply normal_cons in H2 as (Hv2 & Hf2 & H2).
      assert (istart b <= istart a).
      { apply (normal_head_lower b l2); auto. apply E. apply covers_cons; left; unfold in_i; lia. }
      assert (istart a <= istart b).
      { apply (normal_head_lower a l1); auto. apply E. apply covers_cons; left; unfold in_i; lia. }
      assert (istart a = istart b) as Es by lia.
      assert (Hout1 : forall x, iend a <= x -> covers (a :: l1) x -> iend a < x).
      { intros x Hx Hc. apply covers_cons in Hc as [Hc|(j & Hj & Hc)]; unfold in_i in *; [lia|].
        rewrite Forall_forall in Hf1. specialize (Hf1 j Hj). simpl in Hf1. lia. }
      assert (Hout2 : forall x, iend b <= x -> covers (b :: l2) x -> iend b < x).
      { intros x Hx Hc. apply covers_cons in Hc as [Hc|(j & Hj & Hc)]; unfold in_i in *; [lia|].
        rewrite Forall_forall in Hf2. specialize (Hf2 j Hj). simpl in Hf2. lia. }
      assert (iend a = iend b) as Ee.
      { destruct (Z.lt_trichotomy (iend a) (iend b)) as [Hlt|[He|Hgt]]; auto; exfalso.
        - assert (covers (a :: l1) (iend a)) as Hc.
          { apply E. apply covers_cons; left; unfold in_i; lia. }
          apply Hout1 in Hc; lia.
        - assert (covers (b :: l2) (iend b)) as Hc.
          { apply E. apply covers_cons; left; unfold in_i; lia. }
          apply Hout2 in Hc; lia. }
      simpl. rewrite Es, Ee. f_equal. apply IH; auto.
      intros x. specialize (E x). rewrite !covers_cons in E.
      split; intros Hc.
      * assert (iend a < x).
        { destruct Hc as (j & Hj & Hc). unfold in_i in Hc.
          rewrite Forall_forall in Hf1. specialize (Hf1 j Hj). simpl in Hf1. lia. }
        destruct E as [E _]. destruct E as [E|E]; auto. unfold in_i in E. lia.
      * assert (iend b < x).
        { destruct Hc as (j & Hj & Hc). unfold in_i in Hc.
          rewrite Forall_forall in Hf2. specialize (Hf2 j Hj). simpl in Hf2. lia. }
        destruct E as [_ E]. destruct E as [E|E]; auto. unfold in_i in E. lia.
Qed.

Lemma normal_sub_app : forall l1 l2, normal (l1 ++ l2) -> normal l1 /\ normal l2.
Proof.
  unfold normal; intros l1 l2 [H1 H2]. apply Forall_app in H1 as [A B].
  apply StronglySorted_app_inv in H2 as (C & D & _). tauto.
Qed.

Lemma bounds_covers : forall l1 l2, bounds l1 = bounds l2 -> forall x, covers l1 x <-> covers l2 x.
Proof.
  induction l1; destruct l2; simpl; intros H x; try discriminate; [tauto|].
  injection H as Ha Hb Hl. rewrite !covers_cons. rewrite (IHl1 l2 Hl x).
  unfold in_i. rewrite Ha, Hb. tauto.
Qed.
