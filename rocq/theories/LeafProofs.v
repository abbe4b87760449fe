(** Refinement of one leaf (subset_node over a mesh or a translated mesh). *)
From Verif Require Import Base IntervalModel Spec LoiModel LoiProofs IntervalProofs LcaModel LcaSpec GridProofs InitProofs SearchProofs LcaProofs LcaProofs2 CellArrayModel CellArrayProofs SubsetModel TreeProofs ScanProofs.
Open Scope Z_scope.

(** ** Projection to a coarser level, merging what touches *)

Definition pstart (m : Z) (i : interval) : Z := Z.shiftr (istart i) m.
Definition pend (m : Z) (i : interval) : Z := Z.shiftr (iend i - 1) m + 1.

Fixpoint pm_go (m s v : Z) (l : list interval) : list interval :=
  match l with
  | [] => [mk s v]
  | j :: l => if pstart m j <=? v then pm_go m s (pend m j) l
              else mk s v :: pm_go m (pstart m j) (pend m j) l
  end.
Definition pm (m : Z) (l : list interval) : list interval :=
  match l with [] => [] | i :: l => pm_go m (pstart m i) (pend m i) l end.

Lemma pm_go_cons : forall m s v l, exists v' l', pm_go m s v l = mk s v' :: l'.
Proof.
  intros m s v l. revert v. induction l as [|j l IH]; intros v; simpl; eauto. destruct (pstart m j <=? v); eauto.
Qed.

Lemma shiftr_mono : forall m x y, 0 <= m -> x <= y -> Z.shiftr x m <= Z.shiftr y m.
Proof. intros. rewrite !Z.shiftr_div_pow2 by lia. apply Z.div_le_mono; [apply pow2_pos|]; lia. Qed.

Lemma pstart_lt_pend : forall m i, 0 <= m -> istart i < iend i -> pstart m i < pend m i.
Proof. intros. unfold pstart, pend. pose proof (shiftr_mono m (istart i) (iend i - 1)). lia. Qed.

Lemma pm_go_spec : forall m, 0 <= m -> forall l s v, normal l -> s < v ->
  Forall (fun j => s <= pstart m j /\ v <= pend m j) l ->
  normal (pm_go m s v l) /\
  (forall x, covers (pm_go m s v l) x <-> s <= x < v \/ exists j, In j l /\ pstart m j <= x < pend m j) /\
  Forall (fun b => s <= istart b) (pm_go m s v l) /\
  (length (pm_go m s v l) <= S (length l))%nat.
Proof.
  intros m Hm. induction l as [|j l IH]; intros s v N Hv F; simpl.
  - spl.
    + apply normal_cons. spl; auto; apply normal_nil.
    + intros x. rewrite covers_cons, covers_nil. unfold in_i. simpl. split.
      * intros [?|[]]; auto.
      * intros [?|(j & [] & _)]; auto.
    + repeat constructor. simpl. lia.
    + lia.
  - apply normal_cons in N as (Hj & Hf & N). inversion F as [|? ? [F1 F2] F']; subst.
    assert (Fj : Forall (fun j' => pstart m j <= pstart m j' /\ pend m j <= pend m j') l).
    { rewrite Forall_forall in *. intros j' Hj'. specialize (Hf j' Hj'). simpl in Hf.
      destruct N as [N _]. rewrite Forall_forall in N. specialize (N j' Hj'). simpl in N. unfold pstart, pend.
      pose proof (shiftr_mono m (istart j) (istart j') Hm). pose proof (shiftr_mono m (iend j - 1) (iend j' - 1) Hm). lia. }
    pose proof (pstart_lt_pend m j Hm Hj) as Hpj.
    destruct (Z.leb_spec (pstart m j) v) as [Hle|Hle].
    + destruct (IH s (pend m j)) as (I1 & I2 & I3 & I4); auto; [lia| |].
      { rewrite Forall_forall in *. intros j' Hj'. specialize (Fj j' Hj'). simpl in Fj. lia. }
      spl; auto.
      intros x. rewrite I2. split.
      * intros [Hx|(j' & Hj' & Hx)].
        -- destruct (Z_lt_ge_dec x v); [left; lia|]. right. exists j. split; [left; auto|]. lia.
        -- right. exists j'. split; [right; auto|lia].
      * intros [Hx|(j' & [<-|Hj'] & Hx)]; [left; lia|left; lia|]. right. exists j'. auto.
    + destruct (IH (pstart m j) (pend m j)) as (I1 & I2 & I3 & I4); auto.
      spl.
      * apply normal_cons. simpl. spl; auto. rewrite Forall_forall in *. intros b Hb. specialize (I3 b Hb). simpl in I3. lia.
      * intros x. rewrite covers_cons, I2. unfold in_i. simpl. split.
        -- intros [Hx|[Hx|(j' & Hj' & Hx)]]; auto.
           ++ right. exists j. auto.
           ++ right. exists j'. auto.
        -- intros [Hx|(j' & [<-|Hj'] & Hx)]; auto. right; right. exists j'. auto.
      * constructor; [simpl; lia|]. rewrite Forall_forall in *. intros b Hb. specialize (I3 b Hb). simpl in I3. lia.
      * simpl. lia.
Qed.

Lemma pproj_spec : forall m i x, 0 <= m -> istart i < iend i ->
  (pstart m i <= x < pend m i <-> exists y, in_i i y /\ Z.shiftr y m = x).
Proof.
  intros m i x Hm Hi. unfold pstart, pend. rewrite !Z.shiftr_div_pow2 by lia.
  rewrite div_range by (try apply pow2_pos; lia). unfold in_i. split.
  - intros (f & H1 & H2). exists f. rewrite Z.shiftr_div_pow2 by lia. auto.
  - intros (f & H1 & H2). exists f. rewrite Z.shiftr_div_pow2 in H2 by lia. auto.
Qed.

Lemma pm_spec : forall m l, 0 <= m -> normal l ->
  normal (pm m l) /\
  (forall x, covers (pm m l) x <-> exists y, covers l y /\ Z.shiftr y m = x) /\
  (length (pm m l) <= length l)%nat /\ (pm m l = [] <-> l = []).
Proof.
  intros m [|i l] Hm N; simpl.
  - spl; [apply normal_nil| |lia|tauto]. intros x. rewrite covers_nil. split; [tauto|].
    intros (y & Hy & _). apply covers_nil in Hy. auto.
  - pose proof N as N0. apply normal_cons in N as (Hi & Hf & N).
    destruct (pm_go_spec m Hm l (pstart m i) (pend m i)) as (I1 & I2 & _ & I4); auto.
    + apply pstart_lt_pend; auto.
    + rewrite Forall_forall in *. intros j Hj. specialize (Hf j Hj). simpl in Hf.
      destruct N as [N _]. rewrite Forall_forall in N. specialize (N j Hj). simpl in N. unfold pstart, pend.
      pose proof (shiftr_mono m (istart i) (istart j) Hm). pose proof (shiftr_mono m (iend i - 1) (iend j - 1) Hm). lia.
    + spl; auto.
      * intros x. rewrite I2. split.
        -- intros [Hx|(j & Hj & Hx)].
           ++ apply pproj_spec in Hx as (y & H1 & H2); auto. exists y. split; auto. apply covers_cons. auto.
           ++ destruct N as [N _]. rewrite Forall_forall in N. apply pproj_spec in Hx as (y & H1 & H2); auto.
              exists y. split; auto. exists j. simpl. auto.
        -- intros (y & (j & [<-|Hj] & Hy) & <-).
           ++ left. apply pproj_spec; eauto.
           ++ right. exists j. split; auto. apply pproj_spec; eauto. destruct N as [N _]. rewrite Forall_forall in N. auto.
      * destruct (pm_go_cons m (pstart m i) (pend m i) l) as (v' & l' & ->). split; discriminate.
Qed.

(** ** Refinement to a finer level *)

Definition pd (s : Z) (l : list interval) : list interval :=
  map (fun i => mk (Z.shiftl (istart i) s) (Z.shiftl (iend i) s)) l.

Lemma pd_spec : forall s l, 0 <= s -> normal l ->
  normal (pd s l) /\ (forall x, covers (pd s l) x <-> covers l (Z.shiftr x s)) /\ length (pd s l) = length l.
Proof.
  intros s l Hs. unfold pd. induction l as [|i l IH]; intros N; simpl.
  - spl; [apply normal_nil| |auto]. intros x. rewrite !covers_nil. tauto.
  - apply normal_cons in N as (Hi & Hf & N). destruct (IH N) as (I1 & I2 & I3).
    pose proof (pow2_pos s Hs) as Hp. spl.
    + apply normal_cons. cbn [istart iend mk]. rewrite !Z.shiftl_mul_pow2 by lia. spl; auto; [nia|].
      rewrite Forall_forall in *. intros b Hb. apply in_map_iff in Hb as (j & <- & Hj). specialize (Hf j Hj). simpl in Hf.
      cbn [istart iend mk]. rewrite !Z.shiftl_mul_pow2 by lia. nia.
    + intros x. rewrite !covers_cons, I2.
      pose proof (ishl_spec i s x Hs) as K. rewrite <- Z.shiftr_div_pow2 in K by lia. 
      rewrite <- K. unfold in_i, ishl. simpl. tauto.
    + rewrite I3. auto.
Qed.

Lemma slice_map : forall A B (f : A -> B) l lo hi, slice lo hi (map f l) = map f (slice lo hi l).
Proof. intros. unfold slice. rewrite skipn_map, firstn_map. auto. Qed.

Lemma slice_cons : forall A (l : list A) lo hi x, (lo < hi)%nat -> nth_error l lo = Some x ->
  slice lo hi l = x :: slice (S lo) hi l.
Proof.
  intros A l lo hi x Hl H. unfold slice. 
  rewrite (firstn_skipn_nth_error l lo x H) at 1.
  assert (Hn : (lo < length l)%nat) by (apply nth_error_Some; congruence).
  rewrite skipn_app. rewrite firstn_length_le by lia.
  rewrite skipn_all2 by (rewrite firstn_length_le; lia). rewrite Nat.sub_diag. simpl.
  replace (hi - lo)%nat with (S (hi - S lo)) by lia. reflexivity.
Qed.

Lemma slice_nil : forall A (l : list A) lo hi, (hi <= lo)%nat -> slice lo hi l = [].
Proof. intros. unfold slice. replace (hi - lo)%nat with 0%nat by lia. auto. Qed.

(** ** One leaf *)

Definition base_node (nd : node) (a : lca) (t : list Z) : Prop :=
  (nd = NMesh a /\ t = []) \/ nd = NTrans t (NMesh a).

(** Cells of dimension [d], translated. *)
Definition tcells (a : lca) (t : list Z) (d : nat) : list interval :=
  map (fun i => mk (istart i + nth d t 0) (iend i + nth d t 0)) (a_cells a d).

(** [x] at the working level and [q] at the leaf's level designate overlapping cells. *)
Definition rel (s q x : Z) : Prop := if 0 <=? s then Z.shiftr x s = q else Z.shiftr q (- s) = x.

Section Leaf.
  Variables (n : nat) (a : lca) (t : list Z) (s : Z).

  Definition off (d r : nat) : nat := nth r (offs n a d) 0%nat.
  Definition trow (d r : nat) : list interval := slice (off d r) (off d (S r)) (tcells a t d).
  (** values covered by the rows [R] of dimension [d], at the working level *)
  Definition lcov (d : nat) (R : list nat) (x : Z) : Prop :=
    exists r, In r R /\ exists y, covers (trow d r) y /\ rel s y x.

  Definition fits (d : nat) : Prop :=
    forall i, In i (tcells a t d) -> (iend i + 1) * 2 ^ (Z.max 0 s) + 1 < INT_MAX.

  Definition proj_list (l : list interval) : list interval := if 0 <=? s then pd s l else pm (- s) l.

  Lemma proj_list_spec : forall l, normal l ->
    normal (proj_list l) /\ (forall x, covers (proj_list l) x <-> exists y, covers l y /\ rel s y x) /\
    (length (proj_list l) <= length l)%nat /\ (proj_list l = [] <-> l = []).
  Proof.
    intros l N. unfold proj_list, rel. destruct (Z.leb_spec 0 s).
    - destruct (pd_spec s l H N) as (H1 & H2 & H3). spl; [auto| |lia|].
      + intros x. rewrite H2. split; [intros; eauto|]. intros (y & Hy & <-). auto.
      + unfold pd. destruct l; simpl; split; congruence.
    - destruct (pm_spec (- s) l ltac:(lia) N) as (H1 & H2 & H3 & H4). auto.
  Qed.

  (** Static part of the invariant: which rows the cursor of dimension [d] covers. *)
  Definition static (d : nat) (R : list nat) (P : list interval) (lf : leaf) : Prop :=
    base_node (l_node lf) a t /\ l_shift lf = s /\ (d <= n)%nat /\
    (forall r, In r R -> wf_full n a /\ (S r < length (offs n a d))%nat) /\
    normal P /\ (forall x, covers P x <-> lcov d R x) /\ (R <> [] -> P <> []) /\
    let c := l_cs lf d in
    match R with
    | [] => c_start c = 0%nat /\ c_end c = 0%nat
    | r :: R' =>
        if (0 <=? s) || Nat.eqb d n then
          R' = [] /\ c_start c = off d r /\ c_end c = off d (S r) /\
          c_soff c = off d r /\ c_eoff c = off d (S r) /\ P = proj_list (trow d r)
        else c_start c = 0%nat /\ c_end c = length P /\ c_work c = P /\
             c_woffs c = map (fun r => (off d r, off d (S r))) R
    end.

  (** Dynamic part: position in the list. *)
  Definition dynamic (d : nat) (R : list nat) (P rest : list interval) (ip : bool) (c : cursor) : Prop :=
    match R with
    | [] => rest = []
    | r :: _ =>
        if (0 <=? s) || negb (Nat.eqb d n) then (c_start c <= c_index c)%nat /\ rest = skipn (c_index c - c_start c) P
        else if ip then
          (c_index c < c_end c)%nat /\ exists i s0, nth_error (tcells a t d) (c_index c) = Some i /\
            rest = mk s0 (pend (- s) i) :: pm (- s) (slice (S (c_index c)) (c_end c) (tcells a t d))
        else rest = pm (- s) (slice (c_index c) (c_end c) (tcells a t d))
    end.

  Definition LInv (d : nat) (snt : Z) (R : list nat) (P rest : list interval) (ip : bool) (lf : leaf) : Prop :=
    static d R P lf /\ dynamic d R P rest ip (l_cs lf d) /\
    c_cur (l_cs lf d) = curv snt P rest ip /\ c_ipos (l_cs lf d) = ip.

  (** ** Accessors *)

  Lemma node_data_base : forall nd, base_node nd a t -> node_data nd = a.
  Proof. intros nd [[-> _]| ->]; auto. Qed.
  
  Lemma node_start_base : forall nd d k, base_node nd a t -> lca_is_empty a = false ->
    node_start nd d k = option_map istart (nth_error (tcells a t d) k).
  Proof.
    intros nd d k [[-> ->]| ->] He; simpl; rewrite He; unfold tcells; rewrite nth_error_map;
      destruct (nth_error (a_cells a d) k); simpl; auto. f_equal. destruct d; simpl; lia.
  Qed.
  Lemma node_end_base : forall nd d k, base_node nd a t -> lca_is_empty a = false ->
    node_end nd d k = option_map iend (nth_error (tcells a t d) k).
  Proof.
    intros nd d k [[-> ->]| ->] He; simpl; rewrite He; unfold tcells; rewrite nth_error_map;
      destruct (nth_error (a_cells a d) k); simpl; auto. f_equal. destruct d; simpl; lia.
  Qed.
  Lemma node_transform_base : forall nd d y, base_node nd a t -> node_transform nd d y = y - nth d t 0.
  Proof. intros nd d y [[-> ->]| ->]; simpl; auto. destruct d; lia. Qed.

  Lemma full_not_empty : wf_full n a -> lca_is_empty a = false.
  Proof.
    intros W. destruct (lca_is_empty a) eqn:E; auto. exfalso.
    apply (empty_iff n a (or_intror W)) in E. pose proof (wf_full_cells_n _ _ W) as K.
    destruct E as [E _]. rewrite E in K by lia. simpl in K. lia.
  Qed.

  (** ** Rows *)

  Lemma tcells_len : forall d, length (tcells a t d) = length (a_cells a d).
  Proof. intros. unfold tcells. apply map_length. Qed.

  Lemma trow_facts : forall d r, wf_full n a -> (d <= n)%nat -> (S r < length (offs n a d))%nat ->
    (off d r < off d (S r) <= length (tcells a t d))%nat /\
    nth_error (offs n a d) r = Some (off d r) /\ nth_error (offs n a d) (S r) = Some (off d (S r)) /\
    normal (trow d r) /\ (forall y, covers (trow d r) y <-> covers (row n a d r) (y - nth d t 0)) /\
    length (trow d r) = (off d (S r) - off d r)%nat /\ trow d r <> [].
  Proof.
    intros d r W Hd Hr. destruct (row_offs true n a W d r Hd Hr) as (lo & hi & E1 & E2 & L1 & L2 & HR).
    assert (O1 : off d r = lo) by (unfold off; apply nth_error_nth; auto).
    assert (O2 : off d (S r) = hi) by (unfold off; apply nth_error_nth; auto).
    assert (L : (lo < hi)%nat) by (apply (wf_mono _ _ _ W d r lo hi Hd E1 E2); auto).
    unfold trow. rewrite O1, O2, tcells_len.
    assert (N : normal (slice lo hi (a_cells a d))) by (rewrite <- HR; apply (wf_normal _ _ _ W); auto).
    assert (Len : length (slice lo hi (tcells a t d)) = (hi - lo)%nat).
    { apply slice_len. rewrite tcells_len. auto. }
    spl; auto.
    - unfold tcells. rewrite slice_map. destruct N as [N1 N2]. split.
      + apply Forall_map. simpl. rewrite Forall_forall in *. intros i Hi. specialize (N1 i Hi). simpl in *. lia.
      + apply StronglySorted_map. eapply StronglySorted_impl; [|exact N2]. intros; simpl in *. lia.
    - intros y. rewrite HR. unfold tcells. rewrite slice_map. unfold covers. split.
      + intros (i & Hi & Hy). apply in_map_iff in Hi as (j & <- & Hj). exists j. split; auto.
        unfold in_i in *. simpl in Hy. lia.
      + intros (j & Hj & Hy). eexists. split; [apply in_map; exact Hj|]. unfold in_i in *. simpl. lia.
    - intros E. rewrite E in Len. simpl in Len. lia.
  Qed.

  Lemma LInv_P : forall d snt R P rest ip lf, LInv d snt R P rest ip lf -> normal P.
  Proof. intros d snt R P rest ip lf ((_ & _ & _ & _ & H & _) & _). auto. Qed.

  Lemma static_empty : forall d P lf, static d [] P lf -> P = [].
  Proof.
    intros d P lf (_ & _ & _ & _ & N & C & _). destruct P as [|i P]; auto. exfalso.
    apply normal_cons in N as (Hi & _ & _).
    destruct (C (istart i)) as [K _]. destruct K as (r & [] & _). exists i. split; [left; auto|]. unfold in_i. lia.
  Qed.

  Lemma static_valid : forall d R P lf, static d R P lf ->
    cursor_is_valid (l_cs lf d) = match P with [] => false | _ => true end.
  Proof.
    intros d R P lf HS. pose proof HS as HS0. destruct HS as (HB & Hs & Hd & HR & N & C & NE & K).
    unfold cursor_is_valid. destruct R as [|r R'].
    - rewrite (static_empty _ _ _ HS0). cbv zeta in K. destruct K as [-> ->]. auto.
    - assert (P <> []) by (apply NE; discriminate). destruct P as [|i P]; [tauto|].
      destruct (HR r (or_introl eq_refl)) as [W Hr]. destruct (trow_facts d r W Hd Hr) as (L & _).
      cbv zeta in K. destruct ((0 <=? s) || Nat.eqb d n).
      + destruct K as (_ & -> & -> & _). destruct (Nat.eqb_spec (off d (S r)) (off d r)); auto. lia.
      + destruct K as (-> & -> & _). reflexivity.
  Qed.

  Lemma skipn_cons_nth : forall A (l : list A) k x rest, skipn k l = x :: rest ->
    nth_error l k = Some x /\ rest = skipn (S k) l.
  Proof.
    induction l as [|y l IH]; intros k x rest H.
    - rewrite skipn_nil in H. discriminate.
    - destruct k as [|k]; simpl in H.
      + injection H as -> ->. auto.
      + apply IH in H as [H1 H2]. auto.
  Qed.

  Lemma merge_next_spec : forall nd d, base_node nd a t -> lca_is_empty a = false -> s < 0 ->
    forall fuel index end_ v s0, (end_ - index <= fuel)%nat -> (index < end_ <= length (tcells a t d))%nat ->
    forall i, nth_error (tcells a t d) index = Some i -> v = pend (- s) i ->
    exists k' i', merge_next fuel nd d s index end_ v = Some (k', pend (- s) i') /\ (index <= k' < end_)%nat /\
      nth_error (tcells a t d) k' = Some i' /\
      pm_go (- s) s0 v (slice (S index) end_ (tcells a t d)) =
        mk s0 (pend (- s) i') :: pm (- s) (slice (S k') end_ (tcells a t d)).
  Proof.
    intros nd d HB He Hs. induction fuel as [|fuel IH]; intros index end_ v s0 Hf Hi i Hn Hv; [lia|].
    assert (SV : forall z, shift_value z s = Z.shiftr z (- s)).
    { intros z. unfold shift_value. destruct (Z.leb_spec 0 s); auto. lia. }
    cbn [merge_next]. destruct (Nat.ltb_spec (index + 1) end_).
    - rewrite node_start_base, node_end_base by auto.
      destruct (nth_error (tcells a t d) (index + 1)) as [j|] eqn:Hj; [|apply nth_error_None in Hj; lia].
      cbn [option_map]. rewrite !SV.
      rewrite (slice_cons _ _ (S index) end_ j) by (auto; rewrite <- Nat.add_1_r; auto). cbn [pm_go].
      fold (pstart (- s) j). change (Z.shiftr (iend j - 1) (- s) + 1) with (pend (- s) j).
      destruct (Z.leb_spec (pstart (- s) j) v).
      + replace (index + 1)%nat with (S index) in * by lia.
        destruct (IH (S index) end_ (pend (- s) j) s0 ltac:(lia) ltac:(lia) j Hj eq_refl) as (k' & i' & H1 & H2 & H3 & H4).
        exists k', i'. spl; auto; lia.
      + exists index, i. subst v. spl; auto; try lia.
        rewrite (slice_cons _ _ (S index) end_ j) by (auto; rewrite <- Nat.add_1_r; auto). reflexivity.
    - exists index, i. subst v. spl; auto; try lia. rewrite slice_nil by lia. reflexivity.
  Qed.

  Lemma set_cursor_at : forall lf d c, l_cs (set_cursor lf d c) d = c.
  Proof. intros. unfold set_cursor. simpl. apply upd_same. Qed.

  Lemma static_set : forall d R P lf c, static d R P lf ->
    c_start c = c_start (l_cs lf d) -> c_end c = c_end (l_cs lf d) -> c_soff c = c_soff (l_cs lf d) ->
    c_eoff c = c_eoff (l_cs lf d) -> c_work c = c_work (l_cs lf d) -> c_woffs c = c_woffs (l_cs lf d) ->
    static d R P (set_cursor lf d c).
  Proof.
    intros d R P lf c HS E1 E2 E3 E4 E5 E6. unfold static in *. rewrite set_cursor_at. unfold set_cursor. simpl.
    rewrite E1, E2, E3, E4, E5, E6. exact HS.
  Qed.

  Lemma LInv_keep : forall d snt R P rest ip lf lf', keep d lf lf' -> LInv d snt R P rest ip lf -> LInv d snt R P rest ip lf'.
  Proof.
    intros d snt R P rest ip lf lf' (K1 & K2 & K3) H. unfold LInv, static in *. rewrite K1, K2, (K3 d) by lia. exact H.
  Qed.

  Lemma LInv_step : forall d snt R P i rest ip lf, LInv d snt R P (i :: rest) ip lf ->
    exists lf', leaf_update n d (if ip then iend i else istart i) snt lf = Some lf' /\
      LInv d snt R P (if ip then rest else i :: rest) (negb ip) lf'.
  Proof.
    intros d snt R P i rest ip lf (HS & HD & HC & HI). pose proof HS as HS0.
    destruct HS as (HB & Hs & Hd & HR & N & C & NE & K). cbv zeta in K.
    destruct R as [|r R']; [discriminate|].
    destruct (HR r (or_introl eq_refl)) as [W Hr]. pose proof (full_not_empty W) as He.
    destruct (trow_facts d r W Hd Hr) as (L & _ & _ & NT & _ & LT & _).
    assert (HPne : P <> []) by (apply NE; discriminate).
    assert (Hcurv : forall ip', curv snt P rest ip' = match rest with [] => snt | j :: _ => if ip' then iend j else istart j end).
    { intros ip'. unfold curv. destruct rest; auto. destruct P; auto. tauto. }
    unfold leaf_update. rewrite HC, HI, Hs. simpl curv. rewrite Z.eqb_refl.
    destruct ip; simpl negb; cbv iota beta.
    - (* end of an interval: move to the next one *)
      destruct ((0 <=? s) || negb (Nat.eqb d n)) eqn:EM.
      + (* direct or work list *)
        unfold dynamic in HD. rewrite EM in HD. destruct HD as [HD1 HD]. symmetry in HD.
        apply skipn_cons_nth in HD as [Hn Hrest].
        assert (HLP : c_end (l_cs lf d) = (c_start (l_cs lf d) + length P)%nat).
        { destruct ((0 <=? s) || Nat.eqb d n) eqn:EM2.
          - destruct K as (_ & -> & -> & _ & _ & ->). unfold proj_list. destruct (0 <=? s) eqn:E0.
            + unfold pd. rewrite map_length, LT. lia.
            + simpl in *. destruct (Nat.eqb d n); discriminate.
          - destruct K as (-> & -> & _). lia. }
        assert (Hk : (c_index (l_cs lf d) - c_start (l_cs lf d) < length P)%nat) by (apply nth_error_Some; congruence).
        assert (GOAL : exists cur, (if Nat.leb (c_end (l_cs lf d)) (S (c_index (l_cs lf d))) then Some snt
            else if (0 <=? s) || Nat.eqb d n
                 then option_map (fun v => shift_value v s) (node_start (l_node lf) d (S (c_index (l_cs lf d))))
                 else option_map istart (nth_error (c_work (l_cs lf d)) (S (c_index (l_cs lf d))))) = Some cur /\
            cur = curv snt P rest false).
        { rewrite Hcurv. destruct (Nat.leb_spec (c_end (l_cs lf d)) (S (c_index (l_cs lf d)))).
          - exists snt. split; auto. rewrite Hrest. rewrite skipn_all2 by lia. auto.
          - destruct (nth_error P (S (c_index (l_cs lf d) - c_start (l_cs lf d)))) as [j|] eqn:Ej; [|apply nth_error_None in Ej; lia].
            assert (Hj : exists tl, rest = j :: tl).
            { rewrite Hrest. eexists. rewrite (firstn_skipn_nth_error P _ j Ej) at 1.
              rewrite skipn_app, firstn_length_le by lia. rewrite Nat.sub_diag.
              rewrite skipn_all2 by (rewrite firstn_length_le; lia). reflexivity. }
            destruct Hj as (tl & Hj). rewrite Hj.
            destruct ((0 <=? s) || Nat.eqb d n) eqn:EM2.
            + destruct K as (_ & K1 & K2 & _ & _ & K3).
              assert (E0 : (0 <=? s) = true). { destruct (0 <=? s); auto. simpl in *. destruct (Nat.eqb d n); discriminate. }
              unfold proj_list in K3. rewrite E0 in K3. rewrite node_start_base by auto.
              unfold pd in K3. rewrite K3, nth_error_map in Ej. unfold trow in Ej. rewrite slice_nth in Ej by lia.
              replace (off d r + S (c_index (l_cs lf d) - c_start (l_cs lf d)))%nat with (S (c_index (l_cs lf d))) in Ej by lia.
              destruct (nth_error (tcells a t d) (S (c_index (l_cs lf d)))) as [i0|]; [|discriminate].
              injection Ej as <-. cbn [option_map]. eexists. split; [reflexivity|].
              unfold shift_value. rewrite E0. reflexivity.
            + destruct K as (K1 & K2 & K3 & _). rewrite K3. rewrite K1 in Ej. rewrite Nat.sub_0_r in Ej. rewrite Ej.
              simpl. eauto. }
        destruct GOAL as (cur & -> & Hcur). eexists. split; [reflexivity|]. unfold LInv. rewrite set_cursor_at. simpl c_cur. simpl c_ipos.
        spl; auto.
        * apply static_set; auto.
        * unfold dynamic. rewrite EM. cbn [c_index c_start]. split; [lia|]. rewrite Hrest. f_equal. lia.
      + (* top dimension, merging *)
        unfold dynamic in HD. rewrite EM in HD. destruct HD as (HD1 & i0 & s0 & Hn & HD2). injection HD2 as Hi Hrest.
        apply orb_false_iff in EM as [E0 En]. apply negb_false_iff in En. rewrite E0, En in *. simpl in K.
        destruct K as (_ & K1 & K2 & _ & _ & K3). simpl orb.
        assert (GOAL : exists cur, (if Nat.leb (c_end (l_cs lf d)) (S (c_index (l_cs lf d))) then Some snt
             else option_map (fun v => shift_value v s) (node_start (l_node lf) d (S (c_index (l_cs lf d))))) = Some cur /\
            cur = curv snt P rest false).
        { rewrite Hcurv. destruct (Nat.leb_spec (c_end (l_cs lf d)) (S (c_index (l_cs lf d)))).
          - exists snt. split; auto. rewrite Hrest, slice_nil by lia. auto.
          - rewrite node_start_base by auto.
            destruct (nth_error (tcells a t d) (S (c_index (l_cs lf d)))) as [j|] eqn:Ej; [|apply nth_error_None in Ej; lia].
            simpl. eexists. split; [reflexivity|]. rewrite Hrest.
            rewrite (slice_cons _ _ _ _ j) by (auto; lia). cbn [pm].
            destruct (pm_go_cons (- s) (pstart (- s) j) (pend (- s) j) (slice (S (S (c_index (l_cs lf d)))) (c_end (l_cs lf d)) (tcells a t d))) as (v' & l' & ->).
            simpl. unfold shift_value. rewrite E0. reflexivity. }
        destruct GOAL as (cur & -> & Hcur). eexists. split; [reflexivity|]. unfold LInv. rewrite set_cursor_at. simpl c_cur. simpl c_ipos.
        spl; auto.
        * apply static_set; auto.
        * unfold dynamic. rewrite E0, En. simpl. auto.
    - (* start of an interval: wait for its end *)
      destruct ((0 <=? s) || negb (Nat.eqb d n)) eqn:EM.
      + unfold dynamic in HD. rewrite EM in HD. destruct HD as [HD1 HD]. pose proof HD as HD0. symmetry in HD.
        apply skipn_cons_nth in HD as [Hn Hrest].
        assert (Hk : (c_index (l_cs lf d) - c_start (l_cs lf d) < length P)%nat) by (apply nth_error_Some; congruence).
        assert (GOAL : (if 0 <=? s then option_map (fun v => (c_index (l_cs lf d), shift_value v s)) (node_end (l_node lf) d (c_index (l_cs lf d)))
            else if Nat.eqb d n then
               (let* e := node_end (l_node lf) d (c_index (l_cs lf d)) in
                merge_next (c_end (l_cs lf d)) (l_node lf) d s (c_index (l_cs lf d)) (c_end (l_cs lf d))
                  (if istart i =? shift_value (e - 1) s + 1 then shift_value (e - 1) s + 1 + 1 else shift_value (e - 1) s + 1))
            else option_map (fun i0 => (c_index (l_cs lf d), iend i0)) (nth_error (c_work (l_cs lf d)) (c_index (l_cs lf d))))
            = Some (c_index (l_cs lf d), iend i)).
        { destruct (0 <=? s) eqn:E0.
          - simpl in K. destruct K as (_ & K1 & K2 & _ & _ & K3). unfold proj_list in K3. rewrite E0 in K3.
            rewrite node_end_base by auto. unfold pd in K3. rewrite K3, nth_error_map in Hn. unfold trow in Hn.
            rewrite K3 in Hk. unfold pd in Hk. rewrite map_length, LT in Hk. rewrite slice_nth in Hn by lia.
            replace (off d r + (c_index (l_cs lf d) - c_start (l_cs lf d)))%nat with (c_index (l_cs lf d)) in Hn by lia.
            destruct (nth_error (tcells a t d) (c_index (l_cs lf d))) as [i0|]; [|discriminate].
            injection Hn as <-. cbn [option_map]. unfold shift_value. rewrite E0. reflexivity.
          - destruct (Nat.eqb d n); [discriminate|]. simpl in K. destruct K as (K1 & K2 & K3 & _).
            rewrite K3. rewrite K1, Nat.sub_0_r in Hn. rewrite Hn. reflexivity. }
        cbv zeta. rewrite GOAL. eexists. split; [reflexivity|]. unfold LInv. rewrite set_cursor_at. simpl c_cur. simpl c_ipos.
        spl; auto.
        * apply static_set; auto.
        * unfold dynamic. rewrite EM. simpl. split; auto.
      + unfold dynamic in HD. rewrite EM in HD.
        apply orb_false_iff in EM as [E0 En]. apply negb_false_iff in En. rewrite E0, En in *. simpl in K.
        destruct K as (_ & K1 & K2 & _ & _ & K3). cbv zeta.
        assert (Hix : (c_index (l_cs lf d) < c_end (l_cs lf d))%nat).
        { destruct (le_lt_dec (c_end (l_cs lf d)) (c_index (l_cs lf d))); auto. rewrite slice_nil in HD by lia. discriminate. }
        rewrite node_end_base by auto.
        destruct (nth_error (tcells a t d) (c_index (l_cs lf d))) as [j|] eqn:Ej; [|apply nth_error_None in Ej; lia].
        cbn [option_map]. rewrite (slice_cons _ _ _ _ j) in HD by auto. cbn [pm] in HD.
        pose proof (pm_go_cons (- s) (pstart (- s) j) (pend (- s) j) (slice (S (c_index (l_cs lf d))) (c_end (l_cs lf d)) (tcells a t d))) as (v' & l' & Epm).
        assert (Hsi : istart i = pstart (- s) j). { rewrite Epm in HD. injection HD as -> _. reflexivity. }
        assert (Hjv : istart j < iend j).
        { assert (In j (tcells a t d)) by (eapply nth_error_In; eauto). unfold tcells in H. apply in_map_iff in H as (j0 & <- & Hj0).
          assert (istart j0 < iend j0) by (eapply (wf_valid true n a d); eauto). simpl. lia. }
        assert (SV : shift_value (iend j - 1) s + 1 = pend (- s) j).
        { unfold shift_value. rewrite E0. reflexivity. }
        rewrite SV, Hsi. apply Z.leb_gt in E0. pose proof (pstart_lt_pend (- s) j ltac:(lia) Hjv) as Hlt.
        destruct (Z.eqb_spec (pstart (- s) j) (pend (- s) j)); [lia|].
        destruct (merge_next_spec (l_node lf) d HB He E0 (c_end (l_cs lf d)) (c_index (l_cs lf d)) (c_end (l_cs lf d)) (pend (- s) j) (pstart (- s) j))
          with (i := j) as (k' & i' & M1 & M2 & M3 & M4); auto; try lia.
        rewrite M1. eexists. split; [reflexivity|]. unfold LInv. rewrite set_cursor_at. simpl c_cur. simpl c_ipos.
        rewrite M4 in HD. injection HD as Hi Hrest. spl; auto.
        * apply static_set; auto.
        * unfold dynamic. destruct (Z.leb_spec 0 s); [lia|]. rewrite En. simpl. split; [lia|].
          exists i', (pstart (- s) j). split; auto. rewrite Hi, Hrest. reflexivity.
        * rewrite Hi. reflexivity.
  Qed.

  (** ** reset *)

  Lemma LInv_reset : forall lf snt, base_node (l_node lf) a t -> l_shift lf = s -> wf n a ->
    exists lf' R P, leaf_reset n lf = Some lf' /\ LInv n snt R P P false lf' /\
      (R = [] /\ lca_no_cells n a \/ R = [0%nat] /\ wf_full n a) /\ keep (S n) lf lf'.
  Proof.
    intros lf snt HB Hs HW. unfold leaf_reset, node_size. rewrite (node_data_base _ HB).
    destruct (lca_is_empty a) eqn:He.
    - apply (empty_iff n a HW) in He. destruct He as [He1 He2]. rewrite He1 by lia. simpl.
      eexists _, [], []. split; [reflexivity|]. unfold LInv, static, dynamic. rewrite set_cursor_at. simpl. spl; auto.
      + intros r [].
      + apply normal_nil.
      + intros x. rewrite covers_nil. unfold lcov. split; [tauto|]. intros (r & [] & _).
      + left. split; auto. split; auto.
      + apply keep_set.
    - pose proof (nonempty_full n a HW He) as W. pose proof (wf_full_cells_n _ _ W) as Hc.
      assert (Hr : (1 < length (offs n a n))%nat) by (rewrite offs_n; simpl; lia).
      destruct (trow_facts n 0 W (le_n n) Hr) as (L & _ & _ & NT & _ & LT & NE).
      assert (O0 : off n 0 = 0%nat) by (unfold off; rewrite offs_n; auto).
      assert (O1 : off n 1 = length (a_cells a n)) by (unfold off; rewrite offs_n; auto).
      destruct (Nat.eqb_spec 0 (length (a_cells a n))); [lia|].
      rewrite node_start_base by auto.
      destruct (nth_error (tcells a t n) 0) as [i|] eqn:Ei; [|apply nth_error_None in Ei; rewrite tcells_len in Ei; lia].
      cbn [option_map]. destruct (proj_list_spec (trow n 0) NT) as (P1 & P2 & P3 & P4).
      eexists _, [0%nat], (proj_list (trow n 0)). split; [reflexivity|].
      unfold LInv, static. rewrite set_cursor_at. simpl c_cur. simpl c_ipos. spl; auto.
      + intros r [<-|[]]. auto.
      + intros x. rewrite P2. unfold lcov. split.
        * intros (y & H1 & H2). exists 0%nat. split; [left; auto|]. eauto.
        * intros (r & [<-|[]] & y & H1 & H2). eauto.
      + intros _ E. apply P4 in E. auto.
      + cbv zeta. rewrite Nat.eqb_refl, orb_true_r. simpl. rewrite O0, O1. spl; auto.
      + unfold dynamic. simpl. rewrite Nat.eqb_refl. rewrite orb_false_r. destruct (Z.leb_spec 0 s) as [H|H]; [auto|].
        unfold trow, proj_list. destruct (Z.leb_spec 0 s); [lia|]. rewrite O0, O1. auto.
      + unfold trow. rewrite (slice_cons _ _ _ _ i) by (rewrite ?O0; auto; lia).
        unfold proj_list, shift_value. rewrite Hs. destruct (Z.leb_spec 0 s); simpl; auto.
        destruct (pm_go_cons (- s) (pstart (- s) i) (pend (- s) i) (slice (S (off n 0)) (off n 1) (tcells a t n))) as (v' & l' & ->).
        reflexivity.
      + apply keep_set.
  Qed.
End Leaf.
