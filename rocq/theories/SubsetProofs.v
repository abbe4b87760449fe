(** Evaluation of a subset operator: the main induction over the dimensions. *)
From Verif Require Import Base IntervalModel Spec LoiModel LoiProofs IntervalProofs LcaModel LcaSpec GridProofs InitProofs SearchProofs IterProofs LcaProofs LcaProofs2 CellArrayModel CellArrayProofs SubsetModel TreeProofs ScanProofs LeafProofs LeafProofs2.
Open Scope Z_scope.

(** ** General lemmas *)

Lemma trel_in_r : forall A B (P Q : A -> B -> Prop) t u, (forall x y, tin y u -> P x y -> Q x y) ->
  trel P t u -> trel Q t u.
Proof.
  intros A B P Q t u H HT. apply trel_sym. apply (proj1 (trel_impl_ _ _ (fun y x => P x y) _)); [|apply trel_sym; exact HT].
  intros; auto.
Qed.

Lemma trel_tin_r : forall A B (P : A -> B -> Prop) t u y, trel P t u -> tin y u -> exists x, tin x t /\ P x y.
Proof. intros A B P t u y HT Hy. apply (trel_tin _ _ _ _ _ y (trel_sym _ _ _ _ _ HT) Hy). Qed.

Lemma tsum_trel_ : forall A B (f : A -> nat) (g : B -> nat),
  (forall t u, trel (fun x y => (f x < g y)%nat) t u -> (tsum (tmap f t) < tsum (tmap g u))%nat) /\
  (forall t u, arel (fun x y => (f x < g y)%nat) t u -> (asum (amap f t) < asum (amap g u))%nat).
Proof.
  intros A B f g. trees.
  - intros x [y|h es]; simpl; [auto|tauto].
  - intros h es IH [y|h' es']; simpl; [tauto|]. intros [_ H]. auto.
  - intros e IH [e'|e' es']; simpl; [auto|tauto].
  - intros e IH es IHs [e'|e' es']; simpl; [tauto|]. intros [H1 H2]. apply IH in H1. apply IHs in H2. lia.
Qed.

Lemma teval_over_ : forall d,
  (forall u t, trel (fun (Q : Prop) b => Q -> b = true) u t -> tsem u -> teval (S d) t = true) /\
  (forall u t, arel (fun (Q : Prop) b => Q -> b = true) u t ->
     (aall u -> Forall (fun b => b = true) (aeval (S d) t)) /\
     (aany u -> Exists (fun b => b = true) (aeval (S d) t)) /\
     (match u with One e => tsem e | More e es => tsem e /\ ~ aany es end -> fn_eval Difference (S d) (aeval (S d) t) = true)).
Proof.
  intros d. trees.
  - intros Q [b|f es]; simpl; [auto|tauto].
  - intros f es IH [b|g es']; simpl; [tauto|]. intros [-> H] E. destruct (IH _ H) as (H1 & H2 & H3).
    destruct g; simpl in *; [apply and_all_spec; auto|apply or_all_spec; auto|auto].
  - intros e IH [e'|e' es']; simpl; [|tauto]. intros H. pose proof (IH _ H) as K. spl; auto. intros. rewrite K; auto.
  - intros e IH es IHs [e'|e' es']; simpl; [tauto|]. intros [H H'].
    pose proof (IH _ H) as K. destruct (IHs _ H') as (K1 & K2 & _). spl.
    + intros [? ?]; auto.
    + intros [?|?]; [apply Exists_cons_hd|apply Exists_cons_tl]; auto.
    + intros [? _]. rewrite K; auto.
Qed.
Lemma teval_over : forall d u t, trel (fun (Q : Prop) b => Q -> b = true) u t -> tsem u -> teval (S d) t = true.
Proof. apply teval_over_. Qed.

(** Order of the calls: by row, and separated inside a row. *)
Definition call_lt (c c' : call) : Prop :=
  lex_lt (snd c) (snd c') \/ (snd c = snd c' /\ iend (fst c) < istart (fst c')).

Lemma cells_sorted : forall raw, StronglySorted call_lt raw -> StronglySorted lex_lt (cells_of_calls raw).
Proof.
  intros raw H. apply sorted_flat_map.
  - intros [i yz] _. apply StronglySorted_map. eapply StronglySorted_impl; [|apply zrange_sorted].
    intros x y _ _ K. simpl. auto.
  - intros j k [i yz] [i' yz'] Hjk Hj Hk x y Hx Hy.
    apply in_map_iff in Hx as (x0 & <- & Hx). apply in_map_iff in Hy as (y0 & <- & Hy).
    apply zrange_In in Hx. apply zrange_In in Hy.
    pose proof (sorted_nth _ _ _ H j k _ _ Hjk Hj Hk) as [K|[K1 K2]]; simpl in *; auto. right. split; auto. lia.
Qed.

Lemma lex_lt_at : forall k p q, length p = length q -> (k < length p)%nat -> skipn (S k) p = skipn (S k) q ->
  nth k p 0 < nth k q 0 -> lex_lt p q.
Proof.
  induction k as [|k IH]; intros [|x p] [|y q] HL Hk HS Hn; simpl in *; try lia.
  - right. auto.
  - left. apply IH; auto; lia.
Qed.

Lemma nth_skipn_cons : forall (p : list Z) d, (d < length p)%nat -> skipn d p = nth d p 0 :: skipn (S d) p.
Proof.
  induction p as [|x p IH]; intros d Hd; simpl in *; [lia|]. destruct d; auto. apply IH. lia.
Qed.

Lemma flat_map_app' : forall A B (f : A -> list B) l1 l2, flat_map f (l1 ++ l2) = flat_map f l1 ++ flat_map f l2.
Proof. intros. apply flat_map_app. Qed.

Lemma cells_app : forall l1 l2, cells_of_calls (l1 ++ l2) = cells_of_calls l1 ++ cells_of_calls l2.
Proof. intros. apply flat_map_app. Qed.

Lemma sorted_app2 : forall A (R : A -> A -> Prop) l1 l2, StronglySorted R l1 -> StronglySorted R l2 ->
  (forall x y, In x l1 -> In y l2 -> R x y) -> StronglySorted R (l1 ++ l2).
Proof.
  induction l1 as [|x l1 IH]; intros l2 H1 H2 H; simpl; auto.
  inv H1. constructor; [apply IH; auto; intros; apply H; simpl; auto|].
  apply Forall_app. split; auto. apply Forall_forall. intros y Hy. apply H; simpl; auto.
Qed.

Lemma leaf_decrement_keep : forall n m i lf lf', leaf_decrement n m i lf = Some lf' -> keep (S m) lf lf'.
Proof.
  intros n m i lf lf'. unfold leaf_decrement. destruct (_ =? INT_MAX).
  - intros H; injection H as <-. apply keep_set.
  - destruct (0 <=? l_shift lf).
    + destruct (child_row _ _ _ _ _) as [[[o1 o2]|]|]; [|intros H; injection H as <-; apply keep_set|discriminate].
      destruct (node_start _ _ _); [|discriminate]. intros H; injection H as <-. apply keep_set.
    + match goal with |- context [match ?e with Some _ => _ | None => _ end] => destruct e as [[woffs work]|] end; [|discriminate].
      destruct work; intros H; injection H as <-; apply keep_set.
Qed.

(** ** What a leaf denotes *)

Record ldata := LD { x_a : lca; x_t : list Z; x_s : Z; x_R : list nat; x_P : list interval }.

Section Main.
  Variables (n ref : nat).

  Fixpoint lmr (a : lca) (t : list Z) (s : Z) (d r : nat) (p : list Z) : Prop :=
    exists i, In i (row n a d r) /\ exists y, in_i i y /\ rel s (y + nth d t 0) (nth d p 0) /\
      match d with
      | O => True
      | S m => lmr a t s m (Z.to_nat (iindex i + y)) p
      end.
  Definition lm (d : nat) (p : list Z) (x : ldata) : Prop := exists r, In r (x_R x) /\ lmr (x_a x) (x_t x) (x_s x) d r p.

  Definition LI (d : nat) (lf : leaf) (x : ldata) : Prop :=
    (forall snt, LInv n (x_a x) (x_t x) (x_s x) d snt (x_R x) (x_P x) (x_P x) false lf) /\
    (forall k, (k <= d)%nat -> fits (x_a x) (x_t x) (x_s x) k).

  Lemma lm_step : forall m p x R' P', (forall r', In r' R' <-> sees n (x_a x) (x_t x) (x_s x) m (x_R x) (nth (S m) p 0) r') ->
    (lm (S m) p x <-> lm m p (LD (x_a x) (x_t x) (x_s x) R' P')).
  Proof.
    intros m p x R' P' H. unfold lm at 2. simpl x_R. simpl x_a. simpl x_t. simpl x_s. split.
    - intros (r & Hr & i & Hi & y & Hy & Hrel & Hm). exists (Z.to_nat (iindex i + y)). split; auto.
      apply H. exists r. split; auto. exists (y + nth (S m) (x_t x) 0). split; auto. exists i.
      replace (y + nth (S m) (x_t x) 0 - nth (S m) (x_t x) 0) with y by lia. auto.
    - intros (r' & Hr' & Hm). apply H in Hr' as (r & Hr & y & Hrel & i & Hi & Hy & ->).
      exists r. split; auto. cbn [lmr]. exists i. split; auto. exists (y - nth (S m) (x_t x) 0).
      replace (y - nth (S m) (x_t x) 0 + nth (S m) (x_t x) 0) with y by lia. auto.
  Qed.

  Lemma lm_cov : forall d p x lf, LI d lf x -> lm d p x -> covers (x_P x) (nth d p 0).
  Proof.
    intros d p x lf [HI _] (r & Hr & Hm). destruct (HI 0) as ((_ & _ & Hd & HR & _ & C & _) & _).
    apply C. exists r. split; auto. destruct (HR r Hr) as [W Hr'].
    destruct (trow_facts n (x_a x) (x_t x) d r W Hd Hr') as (_ & _ & _ & _ & CT & _).
    assert (HH : exists i, In i (row n (x_a x) d r) /\ exists y, in_i i y /\ rel (x_s x) (y + nth d (x_t x) 0) (nth d p 0)).
    { destruct d; cbn [lmr] in Hm; destruct Hm as (i & Hi & y & Hy & Hrel & _); exists i; split; eauto. }
    destruct HH as (i & Hi & y & Hy & Hrel). exists (y + nth d (x_t x) 0). split; auto. apply CT. exists i. split; auto.
    replace (y + nth d (x_t x) 0 - nth d (x_t x) 0) with y by lia. auto.
  Qed.

  Lemma lm_cov0 : forall p x lf, LI 0 lf x -> (covers (x_P x) (nth 0 p 0) <-> lm 0 p x).
  Proof.
    intros p x lf HL. split; [|eapply lm_cov; eauto]. destruct HL as [HI _]. 
    destruct (HI 0) as ((_ & _ & Hd & HR & _ & C & _) & _). intros H. apply C in H as (r & Hr & y & Hy & Hrel).
    exists r. split; auto. destruct (HR r Hr) as [W Hr'].
    destruct (trow_facts n (x_a x) (x_t x) 0 r W Hd Hr') as (_ & _ & _ & _ & CT & _).
    apply CT in Hy as (i & Hi & Hy). cbn [lmr]. exists i. split; auto. exists (y - nth 0 (x_t x) 0).
    replace (y - nth 0 (x_t x) 0 + nth 0 (x_t x) 0) with y by lia. auto.
  Qed.

  Lemma LI_empty : forall d lf x p, LI d lf x -> node_is_empty (l_node lf) = true -> ~ lm d p x.
  Proof.
    intros d lf x p [HI _] He (r & Hr & _). destruct (HI 0) as ((HB & _ & _ & HR & _) & _).
    destruct (HR r Hr) as [W _]. unfold node_is_empty in He. rewrite (node_data_base _ _ _ HB) in He.
    rewrite (full_not_empty _ _ W) in He. discriminate.
  Qed.

  Definition common (u : tree ldata) : nat := tlevel (tmap (fun x => a_level (x_a x)) u).

  Definition emit1 (cm : nat) (c : call) : list call := emit n ref cm (fst c) (snd c).

  Lemma common_eq : forall (K : leaf -> ldata -> Prop) t u,
    (forall lf x, K lf x -> base_node (l_node lf) (x_a x) (x_t x)) -> trel K t u -> common_level t = common u.
  Proof.
    intros K t u HK HT. unfold common_level, common. f_equal. apply tmap_trel.
    eapply trel_impl; [|exact HT]. intros lf x H. apply HK in H as [[-> _]| ->]; auto.
  Qed.

  (** What evaluating dimensions d, ..., 0 gives; [yz] are the coordinates above. *)
  Definition good (d : nat) (yz : list Z) (c : call) : Prop :=
    (istart (fst c) < iend (fst c) /\ fst c = mk (istart (fst c)) (iend (fst c))) /\ length (snd c) = n /\ skipn d (snd c) = yz.
  Definition result (d : nat) (yz : list Z) (u : tree ldata) (t t' : tree leaf) (raw : list call) : Prop :=
    trel (keep (S d)) t t' /\ StronglySorted call_lt raw /\ Forall (good d yz) raw /\
    forall p, length p = S n -> skipn (S d) p = yz ->
      (In p (cells_of_calls raw) <-> tsem (tmap (lm d p) u)).

  Definition apply_ok (d : nat) : Prop := forall yz t u cm, (d <= n)%nat -> length yz = (n - d)%nat ->
    trel (LI d) t u -> cm = common u ->
    exists t' raw, apply n ref d yz t = Some (t', flat_map (emit1 cm) raw) /\ result d yz u t t' raw.

  (** The state of a leaf during the scan. *)
  Definition SI (d : nat) (snt : Z) (x : ldata) (rest : list interval) (ip : bool) (lf : leaf) : Prop :=
    LInv n (x_a x) (x_t x) (x_s x) d snt (x_R x) (x_P x) rest ip lf /\ incl rest (x_P x) /\
    Forall (fun i => iend i < snt) (x_P x) /\ (forall k, (k <= d)%nat -> fits (x_a x) (x_t x) (x_s x) k).

  Lemma good_row : forall m yz y c, good m (y :: yz) c -> (S m <= n)%nat ->
    good (S m) yz c /\ nth m (snd c) 0 = y.
  Proof.
    intros m yz y c (H1 & H2 & H3) Hm. assert (K := nth_skipn_cons (snd c) m ltac:(lia)).
    rewrite H3 in K. injection K as K1 K2. unfold good. auto.
  Qed.

  Lemma sub_loop_spec : forall m snt yz cm, (S m <= n)%nat -> length yz = (n - S m)%nat -> snt < INT_MAX ->
    apply_ok m -> forall u, cm = common u -> forall is, StronglySorted Z.lt is -> forall t v,
    trel (Inv' ldata (SI (S m) snt)) t v -> tmap fst v = u ->
    exists t' raw, sub_loop n m (apply n ref m) yz is t = Some (t', flat_map (emit1 cm) raw) /\
      trel (keep (S m)) t t' /\ StronglySorted call_lt raw /\
      Forall (fun c => good (S m) yz c /\ In (nth m (snd c) 0) is) raw /\
      forall p, length p = S n -> skipn (S (S m)) p = yz ->
        (In p (cells_of_calls raw) <-> In (nth (S m) p 0) is /\ tsem (tmap (lm (S m) p) u)).
  Proof.
    intros m snt yz cm Hm Hyz Hsnt HA u Hcm. induction is as [|i is IH]; intros HS t v HT Hu.
    - exists t, []. simpl. spl; auto.
      + apply trel_refl. intros; apply keep_refl.
      + constructor.
      + intros p _ _. tauto.
    - apply StronglySorted_inv in HS as [H1 H2]. cbn [sub_loop].
      (* decrement *)
      assert (D : exists t1, tmapM (leaf_decrement n m i) t = Some t1 /\
                trel (fun lf' z => exists w, 
                        LI m lf' (LD (x_a (fst z)) (x_t (fst z)) (x_s (fst z)) (fst w) (snd w)) /\
                        (forall r', In r' (fst w) <-> sees n (x_a (fst z)) (x_t (fst z)) (x_s (fst z)) m (x_R (fst z)) i r')) t1 v).
      { apply (trel_mapM _ _ _ (Inv' ldata (SI (S m) snt))); [|exact HT].
        intros lf [x [rest ip]] HI. unfold Inv' in HI. simpl in HI. destruct HI as (HI & Hin & HF & HFit).
        destruct (LInv_decrement n (x_a x) (x_t x) (x_s x) m snt _ _ _ _ lf i Hm HI Hin HF Hsnt) as (lf' & R' & P' & E & HI' & K & HR').
        exists lf'. split; auto. exists (R', P'). simpl. spl; auto. unfold LI. simpl. split; auto. }
      destruct D as (t1 & E1 & HT1). rewrite E1.
      assert (K1 : trel (keep (S m)) t t1).
      { apply (trel_mapM_keep (leaf_decrement n m i)); [|exact E1]. intros; eapply leaf_decrement_keep; eauto. }
      apply trel_ex in HT1 as (w & HT1 & Hw).
      set (u1 := tmap (fun z => LD (x_a (fst (fst z))) (x_t (fst (fst z))) (x_s (fst (fst z))) (fst (snd z)) (snd (snd z))) w).
      assert (HT1' : trel (LI m) t1 u1).
      { unfold u1. apply trel_map_r. eapply trel_impl; [|exact HT1]. intros lf z [H _]. exact H. }
      assert (Hu1 : u = tmap (fun z => fst (fst z)) w) by (rewrite <- Hu, <- Hw, tmap_tmap; auto).
      assert (Hcm1 : cm = common u1).
      { rewrite Hcm, Hu1. unfold common, u1. f_equal. rewrite !tmap_tmap. auto. }
      assert (Hsem : forall p, nth (S m) p 0 = i -> (tsem (tmap (lm m p) u1) <-> tsem (tmap (lm (S m) p) u))).
      { intros p Hp. apply tsem_iff. unfold u1. rewrite Hu1, !tmap_tmap. apply trel_map_l, trel_map_r. apply trel_refl.
        intros z Hz. destruct (trel_tin_r _ _ _ _ _ z HT1 Hz) as (lf' & _ & _ & HR'). symmetry. apply lm_step. rewrite Hp. exact HR'. }
      destruct (HA (i :: yz) t1 u1 cm ltac:(lia) ltac:(simpl; lia) HT1' Hcm1) as (t2 & raw1 & -> & K2 & S2 & G2 & C2).
      assert (K12 : trel (keep (S m)) t t2) by (eapply trel_keep_trans; eauto).
      assert (HT2 : trel (Inv' ldata (SI (S m) snt)) t2 v).
      { apply (trel_pull _ _ _ (Inv' ldata (SI (S m) snt)) (fun c a => keep (S m) a c)) with (t := t); [|exact HT|apply trel_sym; exact K12].
        intros lf z lf1 (H3 & H4) Hk. split; auto. eapply LInv_keep; eauto. }
      destruct (IH H1 t2 v HT2 Hu) as (t3 & raw2 & -> & K3 & S3 & G3 & C3).
      exists t3, (raw1 ++ raw2). rewrite flat_map_app. spl; auto.
      + eapply trel_keep_trans; eauto.
      + apply sorted_app2; auto. rewrite Forall_forall in G2, G3, H2.
        intros c c' Hc Hc'. destruct (good_row m yz i c (G2 c Hc) Hm) as [(_ & L1 & SK1) N1].
        destruct (G3 c' Hc') as [(_ & L2 & SK2) N2]. left. apply (lex_lt_at m); try congruence; [lia|].
        rewrite N1. apply H2. auto.
      + apply Forall_app. rewrite !Forall_forall. rewrite Forall_forall in G2, G3. split.
        * intros c Hc. destruct (good_row m yz i c (G2 c Hc) Hm) as [Hg N1]. split; auto. left; auto.
        * intros c Hc. destruct (G3 c Hc) as [Hg N1]. split; auto. right; auto.
      + intros p Hp Hs. rewrite cells_app, in_app_iff, C3 by auto. simpl.
        pose proof (nth_skipn_cons p (S m) ltac:(lia)) as Hsk. rewrite Hs in Hsk.
        split.
        * intros [Hin|[Hin Hsm]]; [|auto].
          assert (E : nth (S m) p 0 = i).
          { destruct p as [|x p]; [simpl in Hp; lia|]. apply cells_of_calls_In in Hin as (j & Hj & _).
            rewrite Forall_forall in G2. apply (good_row m yz i _ (G2 _ Hj) Hm). }
          split; [left; auto|]. apply Hsem; auto. apply C2; auto. rewrite Hsk, E. auto.
        * intros [[E|Hin] Hsm]; [left|right; auto].
          apply C2; auto; [rewrite Hsk, E; auto|]. apply Hsem; auto.
  Qed.

  (** Reading the segments of the scan back as raw calls. *)
  Lemma segs_raw : forall (Qr : interval -> list call -> Prop) cm segs,
    Forall (fun seg => exists raw, snd seg = flat_map (emit1 cm) raw /\ Qr (fst seg) raw) segs ->
    exists rs : list (interval * list call), map fst rs = map fst segs /\
      flat_map snd segs = flat_map (emit1 cm) (flat_map snd rs) /\ Forall (fun seg => Qr (fst seg) (snd seg)) rs.
  Proof.
    intros Qr cm segs H. induction H as [|seg segs (raw & E & HQ) H IH].
    - exists []. auto.
    - destruct IH as (rs & E1 & E2 & HQ'). exists ((fst seg, raw) :: rs). simpl. rewrite E, E1, E2, flat_map_app. auto.
  Qed.

  Lemma min_first : forall d lf x y, LI d lf x -> covers (x_P x) y -> leaf_min d lf <= y.
  Proof.
    intros d lf x y [HI _] Hy. destruct (HI 0) as (HS & _ & HC & _). unfold leaf_min. rewrite HC. unfold curv.
    destruct HS as (_ & _ & _ & _ & N & _). destruct (x_P x) as [|i P].
    - apply covers_nil in Hy. tauto.
    - apply normal_cons in N as (Hv & Hf & _). apply covers_cons in Hy as [Hy|(j & Hj & Hy)].
      + unfold in_i in Hy. lia.
      + rewrite Forall_forall in Hf. specialize (Hf j Hj). simpl in Hf. unfold in_i in Hy. lia.
  Qed.

  Lemma apply_spec : forall d, apply_ok d.
  Proof.
    induction d as [d IHd] using (well_founded_induction lt_wf). intros yz t u cm Hd Hyz HT Hcm.
    assert (Happ : apply n ref d yz t =
      if tempty (tmap (fun lf => node_is_empty (l_node lf)) t) then Some (t, [])
      else let sub result t := match d with
             | O => Some (t, emit n ref (common_level t) result yz)
             | S m => sub_loop n m (apply n ref m) yz (zrange (istart result) (iend result)) t end in
           let* ms := tmapM (leaf_max n d) t in
           scan_loop (scan_fuel d t) n d sub (tmax ms + 1) (tmin (tmap (leaf_min d) t)) None t).
    { destruct d; reflexivity. }
    rewrite Happ. clear Happ.
    destruct (tempty _) eqn:He.
    - exists t, []. split; auto. unfold result. spl; auto.
      + apply trel_refl. intros; apply keep_refl.
      + constructor.
      + intros p _ _. simpl. split; [tauto|]. apply tempty_sem with (t := tmap (fun lf => node_is_empty (l_node lf)) t); auto.
        apply trel_map_l, trel_map_r. eapply trel_impl; [|exact HT]. intros lf x HI E. eapply LI_empty; eauto.
    - cbv zeta.
      (* the maxima *)
      assert (MX : exists ms, tmapM (leaf_max n d) t = Some ms /\
                trel (fun v x => Forall (fun i => iend i <= v) (x_P x) /\ v + 1 < INT_MAX) ms u).
      { apply (trel_mapM _ _ _ (LI d)); [|exact HT]. intros lf x [HI HF].
        destruct (LInv_max n (x_a x) (x_t x) (x_s x) d 0 _ _ _ _ lf (HI 0) (HF d ltac:(lia))) as (v & H1 & H2 & H3). eauto. }
      destruct MX as (ms & -> & HM).
      set (snt := tmax ms + 1).
      assert (Hsnt : snt < INT_MAX).
      { unfold snt. destruct (trel_tin _ _ _ _ _ (tmax ms) HM (tmax_in ms)) as (x & _ & _ & H). auto. }
      assert (HF : forall x, tin x u -> Forall (fun i => iend i < snt) (x_P x)).
      { intros x Hx. destruct (trel_tin_r _ _ _ _ _ x HM Hx) as (v & Hv & H & _). apply tmax_le in Hv.
        eapply Forall_impl; [|exact H]. intros i Hi. simpl in *. unfold snt. lia. }
      set (v := tmap (fun x => (x, (x_P x, false))) u).
      assert (Hu : tmap fst v = u).
      { unfold v. rewrite tmap_tmap. simpl. apply trel_eq. apply trel_map_l. apply trel_refl. auto. }
      set (lo := tmin (tmap (leaf_min d) t) - 1).
      assert (Hlo : forall x y, tin x u -> covers (x_P x) y -> lo < y).
      { intros x y Hx Hy. destruct (trel_tin_r _ _ _ _ _ x HT Hx) as (lf & Hlf & HI).
        pose proof (min_first d lf x y HI Hy). unfold lo.
        assert (tmin (tmap (leaf_min d) t) <= leaf_min d lf) by (apply tmin_le, tin_map; eauto). lia. }
      assert (HV : trel (fun lf z => Inv' ldata (SI d snt) lf z /\ ap ldata x_P lo z) t v).
      { unfold v. apply trel_map_r. apply (trel_in_r _ _ (LI d)); [|exact HT]. intros lf x Hx [HI HFit]. split.
        - unfold Inv', SI. simpl. spl; auto. apply incl_refl.
        - unfold ap, apos. simpl. exists []. spl; auto. destruct (x_P x) as [|i P] eqn:EP; auto.
          apply (Hlo x); auto. rewrite EP. exists i. split; [left; auto|].
          destruct (HI 0) as ((_ & _ & _ & _ & N & _) & _). rewrite ?EP in N. apply normal_cons in N as (Hv & _). unfold in_i. lia. }
      assert (HinS : inS d ldata x_P u lo = false).
      { apply teval_false. intros b Hb. apply tin_map in Hb as (x & Hx & ->).
        destruct (coversb (x_P x) lo) eqn:E; auto. apply coversb_spec in E. apply (Hlo x lo Hx) in E. lia. }
      assert (Hcl : forall t1 v1, trel (Inv' ldata (SI d snt)) t1 v1 -> tmap fst v1 = u -> common_level t1 = cm).
      { intros t1 v1 HT1 Hv1. rewrite Hcm. apply (common_eq (fun lf x => base_node (l_node lf) (x_a x) (x_t x))); auto.
        rewrite <- Hv1. apply trel_map_r. eapply trel_impl; [|exact HT1]. intros lf z (((HB & _) & _) & _). exact HB. }
      set (sub := fun (result : interval) (t : tree leaf) => match d with
             | O => Some (t, emit n ref (common_level t) result yz)
             | S m => sub_loop n m (apply n ref m) yz (zrange (istart result) (iend result)) t end).
      set (Qr := fun (res : interval) (raw : list call) => StronglySorted call_lt raw /\
             Forall (fun c => good d yz c /\ match d with O => fst c = res | S m => in_i res (nth m (snd c) 0) end) raw /\
             forall p, length p = S n -> skipn (S d) p = yz ->
               (In p (cells_of_calls raw) <-> in_i res (nth d p 0) /\ match d with O => True | S _ => tsem (tmap (lm d p) u) end)).
      destruct (scan_loop_spec n d ldata x_P snt (SI d snt) Hsnt) with (u := u) (sub := sub)
         (Q := fun res calls => exists raw, calls = flat_map (emit1 cm) raw /\ Qr res raw)
         (fuel := scan_fuel d t) (t := t) (v := v) (lo := lo) (r := @None Z) as (t' & segs & E & K & HQ & HN & HC); auto.
      + intros x rest ip lf (HI & _ & HF' & _). split; auto. eapply LInv_P; eauto.
      + intros x rest ip lf ((HS & HD & H1 & H2) & _). spl; auto. eapply static_valid; eauto.
      + intros x i rest ip lf (HI & Hin & HF' & HFit). destruct (LInv_step _ _ _ _ _ _ _ _ _ _ _ _ HI) as (lf' & H1 & H2).
        exists lf'. split; auto. unfold SI. spl; auto. destruct ip; auto. intros j Hj. apply Hin. right; auto.
      + intros x rest ip lf lf' Hk (HI & H). split; auto. eapply LInv_keep; eauto.
      + intros res t1 v1 Hres Hmk HT1 Hv1. unfold sub. destruct d as [|m].
        * exists t1, (emit n ref (common_level t1) res yz). spl; auto; [apply trel_refl; intros; apply keep_refl|].
          exists [(res, yz)]. split; [simpl; rewrite app_nil_r, (Hcl t1 v1 HT1 Hv1); auto|]. unfold Qr. spl.
          -- repeat constructor.
          -- constructor; [|constructor]. unfold good. simpl. spl; auto. lia.
          -- intros [|x p] Hp Hs; [simpl in Hp; lia|]. rewrite cells_of_calls_In. simpl in *. subst yz. split.
             ++ intros (i & [Hi|[]] & Hx). injection Hi as <-. auto.
             ++ intros [Hx _]. eauto.
        * destruct (sub_loop_spec m snt yz cm Hd Hyz Hsnt (IHd m ltac:(lia)) u Hcm (zrange (istart res) (iend res)) (zrange_sorted _ _) t1 v1 HT1 Hv1)
            as (t2 & raw & E2 & K2 & S2 & G2 & C2).
          exists t2, (flat_map (emit1 cm) raw). spl; auto. exists raw. split; auto. unfold Qr. spl; auto.
          -- eapply Forall_impl; [|exact G2]. intros c [Hg Hin]. split; auto. apply zrange_In in Hin. exact Hin.
          -- intros p Hp Hs. rewrite C2, zrange_In by auto. reflexivity.
      + unfold scan_fuel. apply (tsum_trel_ _ _ (mz ldata) (fun lf => (2 * (c_end (l_cs lf d) - c_start (l_cs lf d)) + 1)%nat)).
        unfold v. apply trel_map_l. apply trel_sym. eapply trel_impl; [|exact HT]. intros lf x [HI _].
        pose proof (LInv_fuel _ _ _ _ _ _ _ _ _ _ _ (HI 0)). unfold mz. simpl. lia.
      + apply segs_raw in HQ as (rs & R1 & R2 & R3). fold sub. rewrite E, R2. exists t', (flat_map snd rs). split; auto.
        rewrite <- R1 in HN, HC. clear R1 R2 E segs. unfold result.
        assert (SEP : forall j k (s1 s2 : interval * list call), (j < k)%nat -> nth_error rs j = Some s1 -> nth_error rs k = Some s2 ->
                  iend (fst s1) < istart (fst s2)).
        { intros j k s1 s2 Hjk H1 H2. destruct HN as [_ HN].
          apply (sorted_nth _ _ _ HN j k); auto; rewrite nth_error_map; [rewrite H1|rewrite H2]; auto. }
        rewrite Forall_forall in R3. spl; auto.
        * apply sorted_flat_map.
          -- intros s1 H1. apply (R3 s1 H1).
          -- intros j k s1 s2 Hjk H1 H2 c c' Hc Hc'. pose proof (SEP j k s1 s2 Hjk H1 H2) as HH.
             apply nth_error_In in H1, H2. destruct (R3 s1 H1) as (_ & G1 & _). destruct (R3 s2 H2) as (_ & G2 & _).
             rewrite Forall_forall in G1, G2. destruct (G1 c Hc) as [(_ & L1 & SK1) Q1]. destruct (G2 c' Hc') as [(_ & L2 & SK2) Q2].
             destruct d as [|m].
             ++ right. simpl in SK1, SK2. split; [congruence|]. rewrite Q1, Q2. auto.
             ++ left. apply (lex_lt_at m); try congruence; [lia|]. unfold in_i in *. lia.
        * rewrite Forall_forall. intros c Hc. apply in_flat_map in Hc as (s1 & H1 & Hc). destruct (R3 s1 H1) as (_ & G1 & _).
          rewrite Forall_forall in G1. apply (G1 c Hc).
        * intros p Hp Hs.
          assert (CC : In p (cells_of_calls (flat_map snd rs)) <-> 
                    covers (map fst rs) (nth d p 0) /\ match d with O => True | S _ => tsem (tmap (lm d p) u) end).
          { unfold cells_of_calls. rewrite in_flat_map. split.
            - intros (c & Hc & Hin). apply in_flat_map in Hc as (s1 & H1 & Hc). destruct (R3 s1 H1) as (_ & _ & C1).
              destruct (C1 p Hp Hs) as [C2 _]. destruct C2 as [C2 C3]; [unfold cells_of_calls; apply in_flat_map; eauto|].
              split; auto. exists (fst s1). split; auto. apply in_map; auto.
            - intros [(i & Hi & Hx) Hm]. apply in_map_iff in Hi as (s1 & <- & H1). destruct (R3 s1 H1) as (_ & _ & C1).
              destruct (C1 p Hp Hs) as [_ C2]. specialize (C2 (conj Hx Hm)). unfold cells_of_calls in C2.
              apply in_flat_map in C2 as (c & Hc & Hin). exists c. split; auto. apply in_flat_map. eauto. }
          rewrite CC, HC. clear CC. unfold from.
          assert (Hpos : inS d ldata x_P u (nth d p 0) = true -> lo + 1 <= nth d p 0).
          { intros HS. destruct (Z_le_gt_dec (lo + 1) (nth d p 0)); auto. exfalso.
            enough (inS d ldata x_P u (nth d p 0) = false) by congruence.
            apply teval_false. intros b Hb. apply tin_map in Hb as (x & Hx & ->).
            destruct (coversb (x_P x) (nth d p 0)) eqn:E; auto. apply coversb_spec in E. apply (Hlo x _ Hx) in E. lia. }
          unfold inS in *. destruct d as [|m].
          -- assert (EV : teval 0 (tmap (fun z => coversb (x_P z) (nth 0 p 0)) u) = true <-> tsem (tmap (lm 0 p) u)).
             { apply teval0. apply trel_map_l, trel_map_r. apply trel_refl. intros x Hx.
               destruct (trel_tin_r _ _ _ _ _ x HT Hx) as (lf & _ & HI). rewrite coversb_spec. eapply lm_cov0; eauto. }
             rewrite <- EV. tauto.
          -- split; [tauto|]. intros HS.
             assert (EV : teval (S m) (tmap (fun z => coversb (x_P z) (nth (S m) p 0)) u) = true); [|tauto].
             apply (teval_over m (tmap (lm (S m) p) u)); auto. apply trel_map_l, trel_map_r. apply trel_refl.
             intros x Hx Hx'. destruct (trel_tin_r _ _ _ _ _ x HT Hx) as (lf & _ & HI).
             apply coversb_spec. eapply lm_cov; eauto.
  Qed.
End Main.
