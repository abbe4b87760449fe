(** The transfer of a field between two meshes: property C75. *)
From Coq Require Import QArith Qfield Permutation.
From Verif Require Import Base IntervalModel Spec LoiModel LcaModel LcaSpec RowsProofs LcaProofs CellArrayModel CellArrayProofs SubsetModel StencilModel MeshProofs AdaptModel AdaptProofs
  NumModel NumProofs TransferProofs MrModel MrProofs GhostModel GhostProofs NumSpec PolyProofs PropsNum FluxProofs TagProofs PropsLca PropsCellArray PropsAdapt PropsGrad PropsMr
  PropsPeriodic PropsPeriodic2 PropsTransfer ReconModel ReconProofs ReconProofs2 PropsRecon ReconProofs3 PropsRecon2 MeshTransferModel MeshTransferProofs MeshTransferProofs2.
Open Scope Z_scope.

(** ** The static map *)
Lemma transfer_reached : forall n order mins maxs mind maxd cs rs cd rd u values v values', reached values ->
  transfer n order mins maxs mind maxd cs rs cd rd u values = Some (v, values') -> reached values'.
Proof.
  intros n order mins maxs mind maxd cs rs cd rd u values v values' H E. unfold transfer in E.
  apply (fold_opt_keeps _ _ (fun st => reached (snd st))) in E; auto. clear. intros [v values] l st' H E. destruct (transfer_level _ _ _ _ _ _ _ _ _ _ l) as [[d values1]|] eqn:E1; [|discriminate].
  injection E as <-. cbn [snd] in *. unfold transfer_level in E1. destruct (subset_calls n _) as [same|]; [|discriminate]. 
  match type of E1 with context [fold_opt ?f same ?d] => destruct (fold_opt f same d) as [d0|]; [|discriminate] end.
  match type of E1 with context [fold_opt ?f (seq (S l) (maxs - l)) d0] => destruct (fold_opt f (seq (S l) (maxs - l)) d0) as [d1|]; [|discriminate] end. apply (fold_opt_keeps _ _ (fun st => reached (snd st))) in E1; auto.
  clear. intros st ls st' H E. destruct (subset_calls n _) as [calls|]; [|discriminate]. apply (fold_opt_keeps _ _ (fun st => reached (snd st))) in E; auto.
  clear. intros st [i yz] st' H E. unfold pred_op in E. destruct (Nat.ltb _ _); cbn [checked] in E; [|discriminate]. apply (fold_opt_keeps _ _ (fun st => reached (snd st))) in E; auto.
  clear. intros [d values] x st' H E. cbn [snd] in H.
  match type of E with context [prediction order ?a ?b values] => pose proof (reached_call values order a b H) as G; destruct (prediction order a b values) as [m v1] end.
  destruct (_ && _); cbn [checked] in E; [|discriminate]. injection E as <-. exact G.
Qed.

(** ** C75 *)
(** The transfer runs, whatever was predicted before. A leaf of the destination gets: the
    value of the same leaf of the source; or the value predicted from the level of the
    coarser leaf of the source that contains it; or the mean of the finer leaves of the source in
    it. The other cells of the destination get 0. *)
Theorem C75_values : forall n m order w s mins maxs cs w' s' mind maxd cd lo hi rs rd u values, transfer_input n m order w s mins maxs cs w' s' mind maxd cd lo hi ->
  update_sub_mesh n m mins maxs w s cs = Some rs -> update_sub_mesh n m mind maxd w' s' cd = Some rd -> reached values ->
  exists v values', transfer n order mins maxs mind maxd cs (r_all rs) cd (r_all rd) u values = Some (v, values') /\ reached values' /\
    forall l c, (~ ca_mem n cd l c -> (v l c == 0)%Q) /\ (ca_mem n cd l c ->
      ((exists ls, (ls <= l)%nat /\ ca_mem n cs ls (ancestor (l - ls) c)) \/ split_at n cs l c) /\
      (ca_mem n cs l c -> (v l c == u l c)%Q) /\
      (forall ls, (ls < l)%nat -> ca_mem n cs ls (ancestor (l - ls) c) -> (v l c == iterated order (l - ls) (u ls) c)%Q) /\
      (split_at n cs l c -> forall qs, NoDup qs -> (forall ls q, In (ls, q) qs <-> (l < ls)%nat /\ ca_mem n cs ls q /\ ancestor (ls - l) q = c) ->
         (v l c == qsum (map (fun '(ls, q) => u ls q / inject_Z (2 ^ Z.of_nat ((ls - l) * S n))) qs))%Q)).
Proof.
  intros n m order w s mins maxs cs w' s' mind maxd cd lo hi rs rd u values HI HRs HRd Hv.
  destruct (transfer_levels n m order w s mins maxs cs w' s' mind maxd cd lo hi rs rd HI HRs HRd u (seq mind (S maxd - mind)) (fun _ _ => 0%Q) values) as (v & values' & E & _ & P1 & P2).
  { apply seq_NoDup. } { intros l Hl. apply in_seq in Hl. lia. } { apply reached_good. auto. }
  exists v, values'. split; [exact E|]. split; [eapply transfer_reached; [exact Hv|exact E]|]. intros l c. pose proof HI as (HS & HD & TS & TD & _).
  destruct (in_dec Nat.eq_dec l (seq mind (S maxd - mind))) as [Hin|Hout].
  - destruct (P2 l Hin c) as [A B]. split; auto. intros Hd. destruct (B Hd) as (B1 & B2 & B3). split; [|auto].
    apply (trichotomy n mins maxs cs lo hi TS (in_range n m mins maxs w s cs HS)). apply TD. auto.
  - split; [intros _; rewrite (P1 l Hout); reflexivity|]. intros Hd. exfalso. apply Hout. apply in_seq. apply (in_range n m mind maxd w' s' cd HD) in Hd. lia.
Qed.

(** ** The transfer and the finest level *)
Definition kids (n K l : nat) (p : list Z) : list (list Z) := map (subcell (K - l) p) (block (repeat (0, 2 ^ Z.of_nat (K - l)) (S n))).

Lemma kids_In : forall n K l p c, length p = S n -> (In c (kids n K l p) <-> length c = S n /\ ancestor (K - l) c = p).
Proof.
  intros n K l p c Lp. unfold kids. rewrite in_map_iff. split.
  - intros (sb & <- & Hs). apply block_In in Hs as [S1 S2]; [|apply Z.pow_nonneg; lia]. rewrite subcell_length by congruence. split; auto. apply subcell_ancestor; auto. congruence.
  - intros [Lc <-]. destruct (subcell_of (K - l) c) as (sb & S1 & S2 & S3). exists sb. split; auto. apply block_In; [apply Z.pow_nonneg; lia|]. split; auto. congruence.
Qed.
Lemma kids_NoDup : forall n K l p, length p = S n -> NoDup (kids n K l p).
Proof.
  intros n K l p Lp. unfold kids.
  assert (Lb : forall q, In q (block (repeat (0, 2 ^ Z.of_nat (K - l)) (S n))) -> length q = S n) by (intros q Hq; apply block_In in Hq; [apply Hq|apply Z.pow_nonneg; lia]).
  generalize (block_NoDup (repeat (0, 2 ^ Z.of_nat (K - l)) (S n))). revert Lb. generalize (block (repeat (0, 2 ^ Z.of_nat (K - l)) (S n))). intros b Lb Hb.
  induction Hb as [|q b Hq Hb IHb]; cbn [map]; constructor; [|apply IHb; intros; apply Lb; right; auto]. intros Hc. apply in_map_iff in Hc as (q' & Eq & Hq').
  apply subcell_inj in Eq; [subst; auto|rewrite Lp; symmetry; apply Lb; right; auto|rewrite Lp; symmetry; apply Lb; left; auto].
Qed.

Lemma sum_leaves : forall n (cells : ca) K f qs fine, no_overlap n cells -> NoDup qs -> (forall l q, In (l, q) qs -> ca_mem n cells l q /\ (l <= K)%nat /\ length q = S n) -> NoDup fine ->
  (forall z, In z fine <-> length z = S n /\ exists l, In (l, ancestor (K - l) z) qs) ->
  (sum_over f fine == sum_over (fun '(l, q) => sum_over f (kids n K l q)) qs)%Q.
Proof.
  intros n cells K f qs fine NO N1 H1 N2 H2. rewrite (sum_perm _ f fine (flat_map (fun '(l, q) => kids n K l q) qs)).
  { rewrite sum_flat. apply sum_ext. intros [l q] _. reflexivity. }
  apply NoDup_Permutation; auto.
  - clear H2 N2. induction qs as [|[l p] qs IH]; cbn [flat_map]; [constructor|]. apply NoDup_cons_iff in N1 as [Hn N1]. destruct (H1 l p (or_introl eq_refl)) as (Hp & Hl & Lp). apply NoDup_app2.
    + apply kids_NoDup. auto.
    + apply IH; auto. intros; apply H1; right; auto.
    + intros c Hc Hc'. apply in_flat_map in Hc' as ([l' p'] & Hlp & Hc'). destruct (H1 l' p' (or_intror Hlp)) as (Hp' & Hl' & Lp'). apply kids_In in Hc as [Lc Ec]; auto. apply kids_In in Hc' as [_ Ec']; auto.
      assert (l = l') by (destruct (Nat.le_ge_cases l l') as [Hle|Hle]; [apply (NO l l' p p' Hp Hp' Hle)|symmetry; apply (NO l' l p' p Hp' Hp Hle)]; subst; rewrite ancestor_add; f_equal; lia).
      subst l'. rewrite Ec in Ec'. subst p'. auto.
  - intros z. rewrite H2, in_flat_map. split.
    + intros (Lz & l & Hl). exists (l, ancestor (K - l) z). split; auto. apply kids_In; [rewrite ancestor_length; auto|auto].
    + intros ([l q] & Hlq & Hz). destruct (H1 l q Hlq) as (_ & _ & Lq). apply kids_In in Hz as [Lz <-]; auto. split; eauto.
Qed.

Lemma iterated_add : forall s a b u, iterated s (b + a) u = iterated s b (iterated s a u).
Proof. intros s a b u. induction b as [|b IH]; [reflexivity|]. cbn [Nat.add]. change (iterated s (S (b + a)) u) with (interpolated s (iterated s (b + a) u)). rewrite IH. reflexivity. Qed.

(** The sum over the sub-cells of a cell of the interpolated values. *)
Lemma kids_mean : forall n order K l p g, (order <= 5)%nat -> length p = S n -> (sum_over (iterated order (K - l) g) (kids n K l p) == inject_Z (2 ^ Z.of_nat (S n * (K - l))) * g p)%Q.
Proof.
  intros n order K l p g Ho Lp. pose proof (C72_mean (fun _ => []) order g p (K - l) (fun _ => reached_nil) Ho) as CM. rewrite Lp in CM. rewrite <- CM.
  unfold kids. rewrite sum_map. match goal with |- (_ == qsum (map ?f ?b))%Q => fold (sum_over f b) end. apply sum_ext. intros sb Hsb.
  apply block_In in Hsb as [S1 S2]; [|apply Z.pow_nonneg; lia]. rewrite portion_is by (auto; try constructor; congruence). reflexivity.
Qed.

(** Lists of the leaves. *)
Lemma leaves_list : forall n c, ca_wf n c -> exists qs : list (nat * list Z), NoDup qs /\ forall l q, In (l, q) qs <-> ca_mem n c l q.
Proof.
  intros n c W. destruct (ca_for_each_cell_spec n c W) as (cs & _ & EN & _). exists (leaf_cells cs). split; [apply (sorted_leaves_NoDup n c); auto|apply EN].
Qed.

Section Fine.
  Variables (n m order : nat) (w s : Z) (mins maxs : nat) (cs : ca) (w' s' : Z) (mind maxd : nat) (cd : ca) (lo hi : list Z) (rs rd : mr_mesh).
  Hypothesis HI : transfer_input n m order w s mins maxs cs w' s' mind maxd cd lo hi.
  Hypothesis HRs : update_sub_mesh n m mins maxs w s cs = Some rs.
  Hypothesis HRd : update_sub_mesh n m mind maxd w' s' cd = Some rd.
  Variables (u : nat -> cfield) (values : memo) (v : nat -> cfield) (values' : memo).
  Hypothesis Hv : reached values.
  Hypothesis HE : transfer n order mins maxs mind maxd cs (r_all rs) cd (r_all rd) u values = Some (v, values').
  Variables (K : nat) (f : list Z -> Q).
  Hypothesis HKs : (maxs <= K)%nat.
  Hypothesis HKd : (maxd <= K)%nat.
  Hypothesis Hf : forall z, inside n lo hi K z -> forall ls, (ls <= K)%nat -> ca_mem n cs ls (ancestor (K - ls) z) -> (f z == iterated order (K - ls) (u ls) z)%Q.

  Lemma fine_order : (order <= 5)%nat. Proof. apply HI. Qed.
  Lemma src_mem_len : forall l p, ca_mem n cs l p -> length p = S n /\ inside n lo hi l p /\ (l <= K)%nat.
  Proof.
    intros l p H. destruct HI as (HS & _ & (_ & Hin & _) & _). pose proof (Hin l p H) as X. pose proof (in_range n m mins maxs w s cs HS l p H). split; [apply X|split; [auto|lia]].
  Qed.
  Lemma dst_mem_len : forall l p, ca_mem n cd l p -> length p = S n /\ inside n lo hi l p /\ (l <= K)%nat.
  Proof.
    intros l p H. destruct HI as (_ & HD & _ & (_ & Hin & _) & _). pose proof (Hin l p H) as X. pose proof (in_range n m mind maxd w' s' cd HD l p H). split; [apply X|split; [auto|lia]].
  Qed.
  Lemma kid_inside : forall l p z, inside n lo hi l p -> (l <= K)%nat -> In z (kids n K l p) -> inside n lo hi K z.
  Proof.
    intros l p z Hp Hl Hz. apply kids_In in Hz as [Lz Ez]; [|apply Hp]. replace K with (l + (K - l))%nat by lia. apply inside_ancestor. split; auto. rewrite Ez. auto.
  Qed.

  (** Sum over the sub-cells of a leaf of the source. *)
  Lemma src_sum : forall l p, ca_mem n cs l p -> (sum_over f (kids n K l p) == inject_Z (2 ^ Z.of_nat (S n * (K - l))) * u l p)%Q.
  Proof.
    intros l p Hp. destruct (src_mem_len l p Hp) as (Lp & Ip & Hl). rewrite <- (kids_mean n order K l p (u l) fine_order Lp). apply sum_ext. intros z Hz.
    apply Hf; auto; [apply (kid_inside l p); auto|]. apply kids_In in Hz as [Lz Ez]; auto. rewrite Ez. auto.
  Qed.

  Lemma pow_split : forall l ls, (l <= ls <= K)%nat -> (inject_Z (2 ^ Z.of_nat (S n * (K - l))) == inject_Z (2 ^ Z.of_nat (S n * (K - ls))) * inject_Z (2 ^ Z.of_nat ((ls - l) * S n)))%Q.
  Proof. intros l ls H. rewrite <- inject_Z_mult, <- Z.pow_add_r by apply Nat2Z.is_nonneg. rewrite <- Nat2Z.inj_add. replace (S n * (K - ls) + (ls - l) * S n)%nat with (S n * (K - l))%nat by nia. reflexivity. Qed.

  Lemma dst_sum : forall l c, ca_mem n cd l c -> (sum_over f (kids n K l c) == inject_Z (2 ^ Z.of_nat (S n * (K - l))) * v l c)%Q.
  Proof.
    intros l c Hc. destruct (dst_mem_len l c Hc) as (Lc & Ic & Hl).
    destruct (C75_values n m order w s mins maxs cs w' s' mind maxd cd lo hi rs rd u values HI HRs HRd Hv) as (v1 & values1 & E1 & _ & P). rewrite HE in E1. injection E1 as <- <-.
    destruct (P l c) as [_ Q1]. destruct (Q1 Hc) as (Tri & V1 & V2 & V3). destruct Tri as [(ls & Hls & Hs)|Hs].
    - assert (Vc : (v l c == iterated order (l - ls) (u ls) c)%Q).
      { destruct (Nat.eq_dec ls l) as [->|Ne]; [rewrite Nat.sub_diag, ancestor_0 in *; rewrite V1; auto; reflexivity|apply V2; auto; lia]. }
      rewrite Vc. rewrite <- (kids_mean n order K l c (iterated order (l - ls) (u ls)) fine_order Lc). apply sum_ext. intros z Hz.
      rewrite <- iterated_add. replace (K - l + (l - ls))%nat with (K - ls)%nat by lia. pose proof (kid_inside l c z Ic Hl Hz) as Iz.
      apply Hf; auto; [lia|]. apply kids_In in Hz as [Lz Ez]; auto. rewrite <- Ez, ancestor_add in Hs. replace (l - ls + (K - l))%nat with (K - ls)%nat in Hs by lia. auto.
    - pose proof HI as (HS & _ & (NO & _ & Cov) & _). destruct (leaves_list n cs (in_wf n m mins maxs w s cs HS)) as (all & NA & MA).
      set (qs := filter (fun '(ls, q) => Nat.ltb l ls && zlist_eqb (ancestor (ls - l) q) c) all).
      assert (MQ : forall ls q, In (ls, q) qs <-> (l < ls)%nat /\ ca_mem n cs ls q /\ ancestor (ls - l) q = c).
      { intros ls q. unfold qs. rewrite filter_In, MA, andb_true_iff, Nat.ltb_lt, zlist_eqb_eq. tauto. }
      assert (NQ : NoDup qs) by (apply NoDup_filter; auto). rewrite (V3 Hs qs NQ MQ).
      rewrite (sum_leaves n cs K f qs (kids n K l c) NO NQ); [|intros ls q Hq; apply MQ in Hq as (_ & Hq & _); destruct (src_mem_len ls q Hq) as (X & _ & Y); auto|apply kids_NoDup; auto|].
      + match goal with |- context [qsum (map ?g qs)] => fold (sum_over g qs) end. rewrite <- sum_scale. apply sum_ext. intros [ls q] Hq. apply MQ in Hq as (Hq1 & Hq2 & _).
        rewrite (src_sum ls q Hq2). destruct (src_mem_len ls q Hq2) as (_ & _ & Hk). rewrite (pow_split l ls) by lia. field. apply pow2_nz.
      + intros z. rewrite kids_In by auto. split.
        * intros [Lz Ez]. split; auto. assert (Iz : inside n lo hi K z) by (replace K with (l + (K - l))%nat by lia; apply inside_ancestor; rewrite Ez; auto).
          destruct (Cov K z) as (ls & Hk & Hm); [intros a q Hq; apply (src_mem_len a q Hq)|auto|]. exists ls. apply MQ.
          assert (Hgt : (l < ls)%nat).
          { destruct (Nat.le_gt_cases ls l) as [Hle|Hgt]; auto. exfalso. destruct Hs as (l' & q' & Hl' & Hq' & Ec). destruct (src_mem_len l' q' Hq') as (_ & _ & Hk').
            assert (ls = l'); [|lia]. apply (NO ls l' (ancestor (K - ls) z) q' Hm Hq'); [lia|]. transitivity (ancestor (l - ls) c).
            - rewrite Ec, ancestor_add. f_equal. lia.
            - rewrite <- Ez, ancestor_add. f_equal. lia. }
          split; auto. split; auto. rewrite ancestor_add. rewrite <- Ez. f_equal. lia.
        * intros (Lz & ls & Hq). apply MQ in Hq as (Hq1 & Hq2 & Hq3). split; auto. destruct (src_mem_len _ _ Hq2) as (_ & _ & Hk). rewrite ancestor_add in Hq3. rewrite <- Hq3. f_equal. lia.
  Qed.
End Fine.

(** The transfer is the mean, over the sub-cells of each leaf of the destination, of the
    reconstruction of the source on a level at least as fine as both meshes. *)
Theorem C75_projection : forall n m order w s mins maxs cs w' s' mind maxd cd lo hi rs rd u values v values' domain K f values0 values1,
  transfer_input n m order w s mins maxs cs w' s' mind maxd cd lo hi ->
  update_sub_mesh n m mins maxs w s cs = Some rs -> update_sub_mesh n m mind maxd w' s' cd = Some rd -> reached values ->
  transfer n order mins maxs mind maxd cs (r_all rs) cd (r_all rd) u values = Some (v, values') ->
  recon_input n m mins maxs w s order cs domain K lo hi -> (maxd <= K)%nat -> reached values0 -> reconstruction n order cs (r_all rs) domain u values0 = Some (f, values1) ->
  forall l c, ca_mem n cd l c -> (qsum (map f (map (subcell (K - l) c) (block (repeat (0, 2 ^ Z.of_nat (K - l))%Z (S n))))) == inject_Z (2 ^ Z.of_nat (S n * (K - l))) * v l c)%Q.
Proof.
  intros n m order w s mins maxs cs w' s' mind maxd cd lo hi rs rd u values v values' domain K f values0 values1 HI HRs HRd Hv HE HR HK Hv0 ER l c Hc.
  destruct (C74_values n m mins maxs w s order cs domain K lo hi rs u values0 HR HRs Hv0) as (f1 & v1 & E1 & _ & P). rewrite ER in E1. injection E1 as <- <-.
  apply (dst_sum n m order w s mins maxs cs w' s' mind maxd cd lo hi rs rd HI HRs HRd u values v values' Hv HE K f); auto; [apply HR|].
  intros z Hz ls Hls Hm. apply P; auto.
Qed.

(** The total is kept. *)
Theorem C75_conserved : forall n m order w s mins maxs cs w' s' mind maxd cd lo hi rs rd u values v values' leaves leaves',
  transfer_input n m order w s mins maxs cs w' s' mind maxd cd lo hi ->
  update_sub_mesh n m mins maxs w s cs = Some rs -> update_sub_mesh n m mind maxd w' s' cd = Some rd -> reached values ->
  transfer n order mins maxs mind maxd cs (r_all rs) cd (r_all rd) u values = Some (v, values') ->
  NoDup leaves -> (forall l p, In (l, p) leaves <-> ca_mem n cs l p) -> NoDup leaves' -> (forall l p, In (l, p) leaves' <-> ca_mem n cd l p) ->
  (qsum (map (fun '(l, p) => v l p / inject_Z (2 ^ Z.of_nat (S n * l))) leaves') == qsum (map (fun '(l, p) => u l p / inject_Z (2 ^ Z.of_nat (S n * l))) leaves))%Q.
Proof.
  intros n m order w s mins maxs cs w' s' mind maxd cd lo hi rs rd u values v values' leaves leaves' HI HRs HRd Hv HE N1 M1 N2 M2.
  set (K := Nat.max maxs maxd). pose proof HI as (HS & HD & TS & TD & _).
  set (f := fun z => match List.find (fun ls => stored n cs ls (ancestor (K - ls) z)) (seq 0 (S maxs)) with Some ls => iterated order (K - ls) (u ls) z | None => 0%Q end).
  assert (Rs : forall l p, ca_mem n cs l p -> (l <= maxs)%nat /\ (l <= K)%nat /\ length p = S n /\ inside n lo hi l p).
  { intros l p H. pose proof (in_range n m mins maxs w s cs HS l p H). pose proof (proj1 (proj2 TS) l p H) as X. split; [lia|]. split; [lia|]. split; [apply X|auto]. }
  assert (Rd : forall l p, ca_mem n cd l p -> (l <= K)%nat /\ length p = S n /\ inside n lo hi l p).
  { intros l p H. pose proof (in_range n m mind maxd w' s' cd HD l p H). pose proof (proj1 (proj2 TD) l p H) as X. split; [lia|]. split; [apply X|auto]. }
  assert (Hmax : c_max cs = m) by apply HS. assert (Htop : (maxs <= m)%nat) by apply HS. pose proof (in_wf n m mins maxs w s cs HS) as WS.
  assert (Hf : forall z, inside n lo hi K z -> forall ls, (ls <= K)%nat -> ca_mem n cs ls (ancestor (K - ls) z) -> (f z == iterated order (K - ls) (u ls) z)%Q).
  { intros z Hz ls Hls Hm. unfold f. destruct (List.find _ _) as [l1|] eqn:F.
    - apply find_some in F as [F1 F2]. apply in_seq in F1. apply stored_mem in F2; [|apply WS; lia|rewrite ancestor_length; apply Hz].
      assert (Hm1 : ca_mem n cs l1 (ancestor (K - l1) z)) by (split; [lia|auto]). assert (l1 = ls); [|subst; reflexivity].
      destruct TS as (NO & _). destruct (Nat.le_ge_cases l1 ls) as [Hle|Hle]; [apply (NO _ _ _ _ Hm1 Hm Hle)|symmetry; apply (NO _ _ _ _ Hm Hm1 Hle)]; rewrite ancestor_add; f_equal; lia.
    - exfalso. destruct (Rs _ _ Hm) as (R1 & _). pose proof (find_none _ _ F ls ltac:(apply in_seq; lia)) as X. cbv beta in X.
      rewrite (proj2 (stored_mem n cs ls (ancestor (K - ls) z) (WS ls ltac:(lia)) ltac:(rewrite ancestor_length; apply Hz))) in X by apply Hm. discriminate. }
  set (fine := flat_map (fun '(l, q) => kids n K l q) leaves).
  assert (Cover : forall cells, tiles n cells lo hi -> (forall l p, ca_mem n cells l p -> (l <= K)%nat /\ length p = S n /\ inside n lo hi l p) ->
    forall ls, (forall l p, In (l, p) ls <-> ca_mem n cells l p) -> forall z, inside n lo hi K z <-> length z = S n /\ exists l, In (l, ancestor (K - l) z) ls).
  { intros cells T R ls M z. split.
    - intros Hz. split; [apply Hz|]. destruct T as (_ & _ & Cov). destruct (Cov K z) as (l & _ & Hm); [intros l q Hq; apply (R l q Hq)|auto|]. exists l. apply M. auto.
    - intros (Lz & l & Hl). apply M in Hl. destruct (R _ _ Hl) as (Hk & _ & Hin). replace K with (l + (K - l))%nat by lia. apply inside_ancestor. auto. }
  assert (Pr : forall l p z, length p = S n -> (In z (kids n K l p) <-> length z = S n /\ ancestor (K - l) z = p)) by (intros; apply kids_In; auto).
  assert (MF : forall z, In z fine <-> inside n lo hi K z).
  { intros z. rewrite (Cover cs TS (fun l p H => conj (proj1 (proj2 (Rs l p H))) (proj2 (proj2 (Rs l p H)))) leaves M1). unfold fine. rewrite in_flat_map. split.
    - intros ([l q] & Hlq & Hz). apply M1 in Hlq as Hq. apply Pr in Hz as [Lz <-]; [|apply (Rs l q Hq)]. split; eauto.
    - intros (Lz & l & Hl). exists (l, ancestor (K - l) z). split; auto. apply Pr; [rewrite ancestor_length; auto|auto]. }
  set (fine' := nodup (list_eq_dec Z.eq_dec) fine). assert (NF : NoDup fine') by apply NoDup_nodup.
  assert (MF' : forall z, In z fine' <-> inside n lo hi K z) by (intros z; unfold fine'; rewrite nodup_In; apply MF).
  assert (E1 : (sum_over f fine' == sum_over (fun '(l, p) => inject_Z (2 ^ Z.of_nat (S n * K)) * (u l p / inject_Z (2 ^ Z.of_nat (S n * l)))) leaves)%Q).
  { rewrite (sum_leaves n cs K f leaves fine'); auto.
    - apply sum_ext. intros [l p] Hp. apply M1 in Hp. rewrite (src_sum n m order w s mins maxs cs w' s' mind maxd cd lo hi HI u K f) by (auto; unfold K; lia).
      destruct (Rs l p Hp) as (_ & Hk & _). replace (S n * K)%nat with (S n * (K - l) + S n * l)%nat by nia. rewrite Nat2Z.inj_add, Z.pow_add_r, inject_Z_mult by apply Nat2Z.is_nonneg. field. apply pow2_nz.
    - apply TS.
    - intros l q Hq. apply M1 in Hq. destruct (Rs l q Hq) as (_ & X & Y & _). auto.
    - intros z. rewrite MF'. apply (Cover cs TS (fun l p H => conj (proj1 (proj2 (Rs l p H))) (proj2 (proj2 (Rs l p H)))) leaves M1). }
  assert (E2 : (sum_over f fine' == sum_over (fun '(l, p) => inject_Z (2 ^ Z.of_nat (S n * K)) * (v l p / inject_Z (2 ^ Z.of_nat (S n * l)))) leaves')%Q).
  { rewrite (sum_leaves n cd K f leaves' fine'); auto.
    - apply sum_ext. intros [l p] Hp. apply M2 in Hp.
      rewrite (dst_sum n m order w s mins maxs cs w' s' mind maxd cd lo hi rs rd HI HRs HRd u values v values' Hv HE K f) by (auto; unfold K; lia).
      destruct (Rd l p Hp) as (Hk & _). replace (S n * K)%nat with (S n * (K - l) + S n * l)%nat by nia. rewrite Nat2Z.inj_add, Z.pow_add_r, inject_Z_mult by apply Nat2Z.is_nonneg. field. apply pow2_nz.
    - apply TD.
    - intros l q Hq. apply M2 in Hq. destruct (Rd l q Hq) as (X & Y & _). auto.
    - intros z. rewrite MF'. apply (Cover cd TD Rd leaves' M2). }
  assert (E3 : (inject_Z (2 ^ Z.of_nat (S n * K)) * sum_over (fun '(l, p) => v l p / inject_Z (2 ^ Z.of_nat (S n * l))) leaves' ==
                inject_Z (2 ^ Z.of_nat (S n * K)) * sum_over (fun '(l, p) => u l p / inject_Z (2 ^ Z.of_nat (S n * l))) leaves)%Q).
  { rewrite <- !sum_scale. transitivity (sum_over f fine'); [rewrite E2; apply sum_ext; intros [l p] _; reflexivity|rewrite E1; apply sum_ext; intros [l p] _; reflexivity]. }
  apply Qmult_inj_l in E3; [exact E3|apply pow2_nz].
Qed.

(** Functions of degree at most [2 order] in each direction are transferred exactly. *)
Theorem C75_exact : forall n m order w s mins maxs cs w' s' mind maxd cd lo hi rs rd u values v values' (terms : list (Q * list (list Q))) h,
  transfer_input n m order w s mins maxs cs w' s' mind maxd cd lo hi ->
  update_sub_mesh n m mins maxs w s cs = Some rs -> update_sub_mesh n m mind maxd w' s' cd = Some rd -> reached values -> ~ (h == 0)%Q ->
  transfer n order mins maxs mind maxd cs (r_all rs) cd (r_all rd) u values = Some (v, values') ->
  (forall c ps, In (c, ps) terms -> length ps = S n /\ Forall (fun P => length P <= 2 * order + 1)%nat ps) ->
  (forall l q, length q = S n -> (u l q == qsum (map (fun '(c, ps) => c * tensor_avg ps (h / inject_Z (2 ^ Z.of_nat l)) q) terms))%Q) ->
  forall l c, ca_mem n cd l c -> (v l c == qsum (map (fun '(a, ps) => a * tensor_avg ps (h / inject_Z (2 ^ Z.of_nat l)) c) terms))%Q.
Proof.
  intros n m order w s mins maxs cs w' s' mind maxd cd lo hi rs rd u values v values' terms h HI HRs HRd Hv Hh HE Ht Hu l c Hc.
  set (K := Nat.max maxs maxd). set (F := fun l q => sum_over (fun '(a, ps) => a * tensor_avg ps (h / inject_Z (2 ^ Z.of_nat l)) q)%Q terms).
  assert (Ho : (order <= 5)%nat) by apply HI.
  assert (Up : forall ls z, (ls <= K)%nat -> length z = S n -> (iterated order (K - ls) (F ls) z == F K z)%Q).
  { intros ls z Hls Lz. unfold F.
    rewrite (iterated_ext order (K - ls) z _ (fun q => sum_over (fun j => (fst j * tensor_avg (snd j) (h / inject_Z (2 ^ Z.of_nat ls)) q)%Q) terms)) by (intros q _; apply sum_ext; intros [a ps] _; reflexivity).
    rewrite (iterated_sum _ order (K - ls) (fun j q => (fst j * tensor_avg (snd j) (h / inject_Z (2 ^ Z.of_nat ls)) q)%Q) terms z). apply sum_ext. intros [a ps] Hin. cbn [fst snd].
    destruct (Ht a ps Hin) as [L1 F1]. rewrite iterated_scale. rewrite iterated_poly; auto; [|intros Hz|congruence].
    - rewrite (tensor_avg_ext ps _ (h / inject_Z (2 ^ Z.of_nat K)) z); [reflexivity|]. replace (Z.of_nat K) with (Z.of_nat ls + Z.of_nat (K - ls)) by lia.
      rewrite Z.pow_add_r by lia. rewrite inject_Z_mult. field. split; apply pow2_nz.
    - apply Hh. setoid_replace h with (h / inject_Z (2 ^ Z.of_nat ls) * inject_Z (2 ^ Z.of_nat ls))%Q by (field; apply pow2_nz). rewrite Hz. ring. }
  pose proof HI as (HS & HD & TS & TD & _). pose proof (in_range n m mind maxd w' s' cd HD l c Hc) as Hl. assert (Lc : length c = S n) by (apply TD in Hc; apply Hc).
  assert (E : (sum_over (F K) (kids n K l c) == inject_Z (2 ^ Z.of_nat (S n * (K - l))) * v l c)%Q).
  { apply (dst_sum n m order w s mins maxs cs w' s' mind maxd cd lo hi rs rd HI HRs HRd u values v values' Hv HE K (F K)); auto; try (unfold K; lia).
    intros z Hz ls Hls Hm. rewrite <- (Up ls z Hls (proj1 Hz)). apply iterated_ext. intros q Hq. symmetry. apply Hu. rewrite Hq. apply Hz. }
  assert (E' : (sum_over (F K) (kids n K l c) == inject_Z (2 ^ Z.of_nat (S n * (K - l))) * F l c)%Q).
  { rewrite <- (kids_mean n order K l c (F l) Ho Lc). apply sum_ext. intros z Hz. symmetry. apply Up; [unfold K; lia|]. apply kids_In in Hz as [Lz _]; auto. }
  rewrite E in E'. apply Qmult_inj_l in E'; [exact E'|apply pow2_nz].
Qed.

(** ** A case: from the unit square refined toward a corner (leaves of levels 1 to 3) to the
    one refined toward the opposite corner, order 1 and margin 2. *)
Definition otherTree (l : nat) : list lcl_call :=
  match l with
  | 1%nat => [AddI [0] (mk 1 2); AddI [1] (mk 0 2)]
  | 2%nat => [AddI [0] (mk 1 2); AddI [1] (mk 0 2)]
  | 3%nat => [AddI [0] (mk 0 2); AddI [1] (mk 0 2)]
  | _ => []
  end.
Definition otherMesh : ca := client_ca 1 4 otherTree true.
Lemma otherMesh_wf : ca_wf 1 otherMesh.
Proof.
  assert (G : good_hist 1 4 otherTree).
  { intros l Hl. split; [|apply adds_filled]; destruct l as [|[|[|[|l]]]]; repeat constructor; simpl; lia. }
  destruct (ca_update_index_spec 1 (client_ca 1 4 otherTree false) (raw_wf _ _ _ G)) as (cs & _ & W & _). exact W.
Qed.
Lemma otherMesh_levels : forall l, (l <= 4)%nat -> a_level (c_at otherMesh l) = l.
Proof. intros l Hl. destruct l as [|[|[|[|[|l]]]]]; [vm_compute; reflexivity..|lia]. Qed.
Lemma otherMesh_input : mr_input 1 4 1 3 1 1 otherMesh /\ tiles 1 otherMesh [0; 0] [1; 1].
Proof.
  assert (T : tiles 1 otherMesh [0; 0] [1; 1] /\ forall l q, ca_mem 1 otherMesh l q -> (l <= 3)%nat).
  { eapply tiles_check; [exact otherMesh_wf|vm_compute; reflexivity|reflexivity|reflexivity|vm_compute; reflexivity]. }
  destruct T as [T TL]. split; [|exact T].
  split; [exact otherMesh_wf|]. split; [reflexivity|]. split; [lia|]. split; [exact otherMesh_levels|]. split; [lia|]. split; [lia|].
  assert (X : forall l q, ca_mem 1 otherMesh l q -> (1 <= l)%nat).
  { intros l q Hq. destruct (min_level_spec otherMesh) as (A & _). destruct Hq as [Hl Hq].
    change 1%nat with (min_level otherMesh). apply A; auto. apply (nonempty_mem 1); [apply otherMesh_wf; auto|eauto]. }
  split; [intros l q Hq; split; [apply (X l q Hq)|apply (TL l q Hq)]|].
  intros l q k Hq Hk. pose proof (TL _ _ Hq) as Hl. apply T in Hq as [_ Hq]. specialize (Hq k Hk).
  assert (nth k [1; 1] 0 = 1) as E1 by (destruct k as [|[|k]]; [reflexivity|reflexivity|lia]). rewrite E1 in Hq.
  assert (2 ^ Z.of_nat l <= 2 ^ 3) by (apply Z.pow_le_mono_r; lia). lia.
Qed.

Lemma square_small : forall k, (k <= 1)%nat -> (Z.max 0 (nth k [1; 1] 0) + 1) * 2 ^ Z.of_nat (Nat.max 3 3) + 1 < 2 ^ 31 - 1.
Proof. intros k Hk. destruct k as [|[|k]]; [reflexivity|reflexivity|lia]. Qed.
Example C75_case : transfer_input 1 4 1 2 1 1 3 PropsAdapt.exMesh 1 1 1 3 otherMesh [0; 0] [1; 1].
Proof.
  destruct (square_input 2 ltac:(lia)) as (A & B & _ & _). destruct otherMesh_input as [C D].
  split; [exact A|]. split; [exact C|]. split; [exact B|]. split; [exact D|]. split; [lia|]. split; [lia|]. split; [lia|]. split; [lia|exact square_small].
Qed.

Notation squareTransfer w u := (let* rs := update_sub_mesh 1 4 1 3 w 1 PropsAdapt.exMesh in let* rd := update_sub_mesh 1 4 1 3 1 1 otherMesh in
  transfer 1 1 1 3 1 3 PropsAdapt.exMesh (r_all rs) otherMesh (r_all rd) u []).
Notation otherLeaves := [(1%nat, [1; 0]); (1%nat, [1; 1]); (2%nat, [1; 0]); (2%nat, [1; 1]); (3%nat, [0; 0]); (3%nat, [1; 0])].

(** The leaves x + 2 y (in cells of level 3): the same function on the other mesh. *)
Example C75_example : option_map (fun '(v, _) => map (fun '(l, p) => Qred (v l p)) otherLeaves)
    (squareTransfer 2 (fun l p => Qmake (2 ^ (3 - Z.of_nat l) * (2 * nth 0 p 0 + 1 + 2 * (2 * nth 1 p 0 + 1))) 2)) =
  Some [10; 18; 5; 9; 3 # 2; 5 # 2]%Q.
Proof. vm_compute. reflexivity. Qed.
(** Values of no polynomial of degree 2. *)
Example C75_example_rough : option_map (fun '(v, _) => map (fun '(l, p) => Qred (v l p)) otherLeaves)
    (squareTransfer 2 (fun l p => if zlist_eqb p [0; 0] then 64%Q else if Nat.eqb l 3 then 16%Q else if Nat.eqb l 2 then 4%Q else 0%Q)) = Some [0; 7; 64; 64; 3249 # 64; 4047 # 64]%Q.
Proof. vm_compute. reflexivity. Qed.

(** With a margin of 1 and order 1, the defaults, a leaf two levels below a leaf of the
    source reads a cell at a distance of two, which is not stored. *)
Theorem C75_margin_refuted : exists rs rd, mr_input 1 4 1 3 1 1 PropsAdapt.exMesh /\ mr_input 1 4 1 3 1 1 otherMesh /\ tiles 1 PropsAdapt.exMesh [0; 0] [1; 1] /\ tiles 1 otherMesh [0; 0] [1; 1] /\
  update_sub_mesh 1 4 1 3 1 1 PropsAdapt.exMesh = Some rs /\ update_sub_mesh 1 4 1 3 1 1 otherMesh = Some rd /\
  transfer 1 1 1 3 1 3 PropsAdapt.exMesh (r_all rs) otherMesh (r_all rd) (fun _ _ => 1%Q) [] = None.
Proof.
  destruct (square_input 1 ltac:(lia)) as (A & B & _ & _). destruct otherMesh_input as [C D].
  destruct (C54_contents 1 4 1 3 1 1 PropsAdapt.exMesh A) as (rs & E & _). destruct (C54_contents 1 4 1 3 1 1 otherMesh C) as (rd & F & _). exists rs, rd.
  split; [exact A|]. split; [exact C|]. split; [exact B|]. split; [exact D|]. split; [exact E|]. split; [exact F|].
  assert (X : squareTransfer 1 (fun _ _ => 1%Q) = None) by (vm_compute; reflexivity). rewrite E, F in X. exact X.
Qed.

Print Assumptions C75_values.
Print Assumptions C75_projection.
Print Assumptions C75_conserved.
Print Assumptions C75_exact.
Print Assumptions C75_margin_refuted.
