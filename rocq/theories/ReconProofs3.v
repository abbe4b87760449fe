(** The reconstruction of a field on the finest level. *)
From Coq Require Import QArith Qfield.
From Verif Require Import Base IntervalModel Spec LoiModel LcaModel LcaSpec LcaProofs CellArrayModel SubsetModel StencilModel MeshProofs AdaptModel AdaptProofs NumModel NumProofs
  TransferProofs MrModel MrProofs GhostModel GhostProofs PropsNum FluxProofs TagProofs CellArrayProofs PropsAdapt PropsMr ReconModel ReconProofs ReconProofs2 PropsRecon.
Open Scope Z_scope.

(** ** Lists *)
Lemma Forall2_size : forall (A B : Type) (R : A -> B -> Prop) xs ys, Forall2 R xs ys -> length xs = length ys.
Proof. intros A B R xs ys H. induction H; simpl; auto. Qed.
Lemma add_cells_other : forall cs d c, ~ In c (map fst cs) -> add_cells d cs c = d c.
Proof.
  unfold add_cells. induction cs as [|[c0 q0] cs IH]; intros d c H; cbn [fold_left]; auto. rewrite IH by (intros Hin; apply H; right; auto).
  destruct (zlist_eqb c c0) eqn:E; auto. apply zlist_eqb_eq in E. subst. exfalso. apply H. left. auto.
Qed.
Lemma add_cells_hit : forall cs d c q, NoDup (map fst cs) -> In (c, q) cs -> (add_cells d cs c == d c + q)%Q.
Proof.
  induction cs as [|[c0 q0] cs IH]; intros d c q Hn Hin; [destruct Hin|]. inversion Hn as [|a b Hc Hd]; subst. unfold add_cells. cbn [fold_left].
  fold (add_cells (fun c' => if zlist_eqb c' c0 then (d c' + q0)%Q else d c') cs). destruct Hin as [E|Hin].
  - injection E as -> ->. rewrite add_cells_other by auto. rewrite (proj2 (zlist_eqb_eq c c) eq_refl). reflexivity.
  - rewrite (IH _ c q) by auto. destruct (zlist_eqb c c0) eqn:E; [|reflexivity]. apply zlist_eqb_eq in E. subst. exfalso. apply Hc.
    apply in_map_iff. exists (c0, q). auto.
Qed.
Lemma set_cells_spec : forall (src : cfield) ps d c, (In c ps -> set_cells d (map (fun p => (p, src p)) ps) c = src c) /\ (~ In c ps -> set_cells d (map (fun p => (p, src p)) ps) c = d c).
Proof.
  intros src. unfold set_cells. induction ps as [|p ps IH]; intros d c; cbn [map fold_left]; [split; [intros []|auto]|].
  destruct (IH (fun c' => if zlist_eqb c' p then src p else d c') c) as [H1 H2]. destruct (in_dec (list_eq_dec Z.eq_dec) c ps) as [Hin|Hout].
  - split; auto. intros Hn. exfalso. apply Hn. right. auto.
  - rewrite H2 by auto. destruct (zlist_eqb c p) eqn:E.
    + apply zlist_eqb_eq in E. subst. split; auto. intros Hn. exfalso. apply Hn. left. auto.
    + split; auto. intros [->|Hin]; [|contradiction]. rewrite (proj2 (zlist_eqb_eq c c) eq_refl) in E. discriminate.
Qed.

Lemma combine_maps : forall (A B C : Type) (f : A -> B) (g : A -> C) l, combine (map f l) (map g l) = map (fun x => (f x, g x)) l.
Proof. intros A B C f g l. induction l; cbn; congruence. Qed.

Lemma range_In : forall m a x, In x (range_from m a 1) <-> a <= x < a + Z.of_nat m.
Proof.
  induction m as [|m IH]; intros a x; cbn [range_from In]; [lia|]. rewrite IH. lia.
Qed.
Lemma range_NoDup : forall m a, NoDup (range_from m a 1).
Proof. induction m as [|m IH]; intros a; cbn [range_from]; constructor; auto. rewrite range_In. lia. Qed.

Lemma block_In : forall N d q, 0 <= N -> (In q (block (repeat (0, N) d)) <-> length q = d /\ Forall (fun x => 0 <= x < N) q).
Proof.
  intros N d q HN. revert q. induction d as [|d IH]; intros q; cbn [repeat block].
  - split; [intros [<-|[]]; auto|]. intros [H _]. destruct q; try discriminate. left; auto.
  - rewrite in_flat_map. split.
    + intros (x & Hx & Hq). apply in_map_iff in Hq as (q' & <- & Hq). apply IH in Hq as [H1 H2]. apply range_In in Hx. split; [simpl; auto|]. constructor; auto. lia.
    + intros [H1 H2]. destruct q as [|x q]; try discriminate. inversion H2; subst. exists x. rewrite range_In. split; [lia|]. apply in_map. apply IH. simpl in H1. split; auto.
Qed.
Lemma block_NoDup : forall ii, NoDup (block ii).
Proof.
  induction ii as [|[a b] ii IH]; cbn [block]; [constructor; auto; constructor|]. generalize (range_NoDup (Z.to_nat (b - a)) a). generalize (range_from (Z.to_nat (b - a)) a 1).
  intros l. induction l as [|x l IHl]; intros H; cbn [flat_map]; [constructor|]. inversion H as [|? ? Hx Hl]; subst. apply NoDup_app2; auto.
  - clear - IH. induction IH as [|q l Hq Hl IHl]; cbn [map]; constructor; auto. intros Hin. apply in_map_iff in Hin as (q' & E & Hin). injection E as ->. auto.
  - intros q H1 H2. apply in_map_iff in H1 as (q1 & <- & _). apply in_flat_map in H2 as (y & Hy & H2). apply in_map_iff in H2 as (q2 & E & _). injection E as -> _. auto.
Qed.

Definition small (dl : nat) (s : list Z) : Prop := Forall (fun x => 0 <= x < 2 ^ Z.of_nat dl) s.

Lemma subs_In : forall dl d q, In q (map (@rev Z) (block (repeat (0, Z.shiftl 1 (Z.of_nat dl)) d))) <-> length q = d /\ small dl q.
Proof.
  intros dl d q. rewrite Z.shiftl_1_l. rewrite in_map_iff. split.
  - intros (p & <- & Hp). apply block_In in Hp as [H1 H2]; [|apply Z.pow_nonneg; lia]. rewrite rev_length. split; auto. apply Forall_rev. auto.
  - intros [H1 H2]. exists (rev q). rewrite rev_involutive. split; auto. apply block_In; [apply Z.pow_nonneg; lia|]. rewrite rev_length. split; auto. apply Forall_rev. auto.
Qed.
Lemma subs_NoDup : forall dl d, NoDup (map (@rev Z) (block (repeat (0, Z.shiftl 1 (Z.of_nat dl)) d))).
Proof.
  intros dl d. generalize (block_NoDup (repeat (0, Z.shiftl 1 (Z.of_nat dl)) d)). generalize (block (repeat (0, Z.shiftl 1 (Z.of_nat dl)) d)).
  intros l H. induction H as [|p l Hp Hl IH]; cbn [map]; constructor; auto. intros Hin. apply in_map_iff in Hin as (p' & E & Hin).
  apply (f_equal (@rev Z)) in E. rewrite !rev_involutive in E. subst. auto.
Qed.

(** ** Sub-cells *)
Lemma subcell_cons : forall dl x p i s, subcell dl (x :: p) (i :: s) = (2 ^ Z.of_nat dl * x + i) :: subcell dl p s.
Proof. reflexivity. Qed.
Lemma subcell_ancestor : forall dl p s, length p = length s -> small dl s -> ancestor dl (subcell dl p s) = p.
Proof.
  intros dl p. induction p as [|x p IH]; intros [|i s] Hl Hs; try discriminate; [reflexivity|]. rewrite subcell_cons. cbn [ancestor map].
  inversion Hs; subst. f_equal; [|apply IH; auto]. rewrite Z.add_comm, Z.mul_comm, Z.div_add by lia. rewrite Z.div_small by lia. lia.
Qed.
Lemma subcell_inj : forall dl p s s', length p = length s -> length p = length s' -> subcell dl p s = subcell dl p s' -> s = s'.
Proof.
  intros dl p. induction p as [|x p IH]; intros [|i s] [|i' s'] H1 H2 E; try discriminate; auto. rewrite !subcell_cons in E. injection E as E1 E2.
  f_equal; [lia|]. apply IH; auto.
Qed.
(** Every cell is a sub-cell of its ancestor. *)
Lemma subcell_of : forall dl c, exists s, length s = length c /\ small dl s /\ c = subcell dl (ancestor dl c) s.
Proof.
  intros dl c. assert (0 < 2 ^ Z.of_nat dl) by (apply Z.pow_pos_nonneg; lia). induction c as [|x c (s & H1 & H2 & H3)]; [exists []; repeat constructor|].
  exists (x mod 2 ^ Z.of_nat dl :: s). split; [simpl; auto|]. split; [constructor; auto; apply Z.mod_pos_bound; auto|].
  cbn [ancestor map]. rewrite subcell_cons. f_equal; auto. apply Z.div_mod. lia.
Qed.

Lemma fine_cells_eq : forall n dl i yz sub, istep i = 1 -> length yz = n -> length sub = S n ->
  fine_cells dl i yz sub = map (fun x => subcell dl (x :: yz) sub) (strided i).
Proof.
  intros n dl [a b st ix] yz [|s0 sub] Hs Hy Hl; try discriminate. cbn [istep] in Hs. subst st. unfold fine_cells, row_cells, ishl, iadd. cbn [istart iend istep iindex hd tl].
  rewrite Z.shiftl_1_l, !Z.shiftl_mul_pow2 by lia. assert (0 < 2 ^ Z.of_nat dl) by (apply Z.pow_pos_nonneg; lia).
  rewrite !(Z.mul_comm _ (2 ^ Z.of_nat dl)).
  replace {| istart := 2 ^ Z.of_nat dl * a + s0; iend := 2 ^ Z.of_nat dl * b + s0; istep := 2 ^ Z.of_nat dl; iindex := ix |}
    with {| istart := 2 ^ Z.of_nat dl * a + s0; iend := 2 ^ Z.of_nat dl * b + s0; istep := 2 ^ Z.of_nat dl * 1; iindex := ix |} by (f_equal; lia).
  rewrite (strided_scale a b 1 ix (2 ^ Z.of_nat dl) s0) by lia. rewrite map_map. apply map_ext. intros x. rewrite subcell_cons. f_equal.
  unfold subcell. f_equal. apply map_ext. intros y. rewrite Z.shiftl_mul_pow2 by lia. lia.
Qed.

Lemma from_cells_eq : forall i yz k, length k = S (length yz) -> row_cells (iadd i (hd 0 k)) (add_vec yz (tl k)) = map (fun x => add_vec (x :: yz) k) (strided i).
Proof.
  intros i yz [|k0 k] H; try discriminate. cbn [hd tl]. unfold row_cells. rewrite strided_iadd, map_map. apply map_ext. intros x. reflexivity.
Qed.

Lemma add_vec_zero : forall p, add_vec p (repeat 0 (length p)) = p.
Proof. induction p as [|a p IH]; auto. cbn [length repeat]. unfold add_vec in *. cbn [combine map]. rewrite IH. f_equal. lia. Qed.

(** ** One call of the operator *)
Section Op.
  Variables (n order : nat) (reference : ca) (domain : lca).
  Notation L := (a_level domain).
  Variable leaf : nat -> list Z -> Prop.
  Hypothesis Ho : (order <= 5)%nat.
  Hypothesis Hlvl : forall l p, leaf l p -> (l <= L)%nat /\ (L - l < 31)%nat.
  Hypothesis Hread : forall l p k, leaf l p -> length k = S n -> (forall j, (j <= n)%nat -> Z.abs (nth j k 0) <= 2 * Z.of_nat order) -> stored n reference l (add_vec p k) = true.
  Hypothesis Hplace : forall l p c, leaf l p -> length c = S n -> ancestor (L - l) c = p -> placed n domain c = true.

  Section Call.
    Variables (level : nat) (src : cfield) (i : interval) (yz : list Z).
    Hypothesis Hstep : istep i = 1.
    Hypothesis Hyz : length yz = n.
    Hypothesis Hrow : forall x, In x (strided i) -> leaf level (x :: yz).
    Notation dl := (L - level)%nat.

    Lemma dest_nodup : forall sub, length sub = S n -> small dl sub -> NoDup (map (fun x => subcell dl (x :: yz) sub) (strided i)).
    Proof.
      intros sub Hl Hs. generalize (strided_NoDup i ltac:(lia)). generalize (strided i). intros l H. induction H as [|x l Hx Hn IH]; cbn [map]; constructor; auto.
      intros Hin. apply in_map_iff in Hin as (y & E & Hy). apply (f_equal (ancestor dl)) in E. rewrite !subcell_ancestor in E by (simpl; auto; lia).
      injection E as ->. auto.
    Qed.

    Lemma recon_add_spec : forall sub k q d, length sub = S n -> small dl sub -> length k = S n -> (forall j, (j <= n)%nat -> Z.abs (nth j k 0) <= 2 * Z.of_nat order) ->
      exists d', recon_add n reference domain level dl src i yz sub d (k, q) = Some d' /\ forall c,
        (forall x, In x (strided i) -> c = subcell dl (x :: yz) sub -> (d' c == d c + q * src (add_vec (x :: yz) k))%Q) /\
        (~ In c (map (fun x => subcell dl (x :: yz) sub) (strided i)) -> d' c = d c).
    Proof.
      intros sub k q d Hl Hs Hk Hn. unfold recon_add. rewrite (fine_cells_eq n) by auto. rewrite from_cells_eq by (rewrite Hyz; auto).
      rewrite !map_length, Nat.eqb_refl. cbn [andb].
      rewrite (proj2 (forallb_forall _ _)); [|intros c Hc; apply in_map_iff in Hc as (x & <- & Hx); apply (Hplace level (x :: yz));
        [auto|rewrite subcell_length by (simpl; lia); auto|apply subcell_ancestor; auto; simpl; lia]].
      rewrite (proj2 (forallb_forall _ _)); [|intros c Hc; apply in_map_iff in Hc as (x & <- & Hx); apply Hread; auto]. cbn [andb checked].
      rewrite map_map, combine_maps. eexists. split; [reflexivity|]. intros c.
      assert (M : map fst (map (fun x => (subcell dl (x :: yz) sub, q * src (add_vec (x :: yz) k))%Q) (strided i)) = map (fun x => subcell dl (x :: yz) sub) (strided i))
        by (rewrite map_map; apply map_ext; auto).
      split.
      - intros x Hx ->. apply add_cells_hit; [rewrite M; apply dest_nodup; auto|]. apply in_map_iff. exists x. auto.
      - intros Hc. apply add_cells_other. rewrite M. auto.
    Qed.

    Lemma recon_map_spec : forall sub m d, length sub = S n -> small dl sub ->
      (forall k q, In (k, q) m -> length k = S n /\ forall j, (j <= n)%nat -> Z.abs (nth j k 0) <= 2 * Z.of_nat order) ->
      exists d', fold_opt (recon_add n reference domain level dl src i yz sub) m d = Some d' /\ forall c,
        (forall x, In x (strided i) -> c = subcell dl (x :: yz) sub -> (d' c == d c + pm_sum m (fun k => src (add_vec (x :: yz) k)))%Q) /\
        (~ In c (map (fun x => subcell dl (x :: yz) sub) (strided i)) -> d' c = d c).
    Proof.
      intros sub m d Hl Hs. revert d. induction m as [|[k q] m IH]; intros d Hm; cbn [fold_opt].
      - exists d. split; auto. intros c. split; auto. intros x _ _. unfold pm_sum. rewrite sum_nil. ring.
      - destruct (Hm k q) as [Hk Hn]; [left; auto|]. destruct (recon_add_spec sub k q d Hl Hs Hk Hn) as (d1 & E1 & P1). rewrite E1.
        destruct (IH d1) as (d2 & E2 & P2); [intros; apply (Hm k0 q0); right; auto|]. exists d2. split; auto. intros c. destruct (P1 c) as [A1 B1]. destruct (P2 c) as [A2 B2]. split.
        + intros x Hx Ex. rewrite (A2 x Hx Ex), (A1 x Hx Ex). unfold pm_sum. rewrite sum_cons. ring.
        + intros Hc. rewrite B2, B1; auto.
    Qed.

    Lemma recon_sub_spec : forall sub d values, length sub = S n -> small dl sub -> good values ->
      exists d' values', recon_sub n order reference domain level dl src i yz (d, values) sub = Some (d', values') /\ good values' /\ forall c,
        (In c (map (fun x => subcell dl (x :: yz) sub) (strided i)) -> (d' c == d c + iterated order dl src c)%Q) /\
        (~ In c (map (fun x => subcell dl (x :: yz) sub) (strided i)) -> d' c = d c).
    Proof.
      intros sub d values Hl Hs G. unfold recon_sub. destruct (memo_good dl order sub values G) as [E G']. destruct (prediction order dl sub values) as [m values'].
      cbn [fst snd] in E, G'. subst m. destruct (recon_map_spec sub (pure order dl sub) d Hl Hs) as (d' & E & P).
      { intros k q Hin. apply (in_map fst) in Hin. apply pure_keys in Hin; auto. cbn [fst] in Hin. split; [rewrite <- (Forall2_size _ _ _ _ _ Hin); auto|].
        revert Hl Hs. clear - Hin. intros Hl Hs. assert (W : forall j, (j < length sub)%nat -> Z.abs (nth j k 0) <= 2 * Z.of_nat order); [|intros j Hj; apply W; lia].
        clear Hl. induction Hin as [|a b sub k Hw Hin IH]; intros j Hj; [simpl in Hj; lia|]. inversion Hs; subst. destruct j as [|j]; cbn [nth].
        - apply window_within in Hw; [|lia]. rewrite Z.div_small in Hw by lia. rewrite Z.sub_0_r in Hw. auto.
        - apply IH; auto. simpl in Hj. lia. }
      rewrite E. exists d', values'. split; auto. split; auto. intros c. destruct (P c) as [A B]. split; auto.
      intros Hin. apply in_map_iff in Hin as (x & <- & Hx). rewrite (A x Hx eq_refl). rewrite pure_sum by auto. rewrite iterated_shift by (simpl; lia). reflexivity.
    Qed.

    Lemma recon_subs_spec : forall subs d values, NoDup subs -> (forall s, In s subs -> length s = S n /\ small dl s) -> good values ->
      exists d' values', fold_opt (recon_sub n order reference domain level dl src i yz) subs (d, values) = Some (d', values') /\ good values' /\ forall c,
        ((exists x s, In x (strided i) /\ In s subs /\ c = subcell dl (x :: yz) s) -> (d' c == d c + iterated order dl src c)%Q) /\
        (~ (exists x s, In x (strided i) /\ In s subs /\ c = subcell dl (x :: yz) s) -> d' c = d c).
    Proof.
      induction subs as [|s subs IH]; intros d values Hn Hs G; cbn [fold_opt].
      - exists d, values. split; auto. split; auto. intros c. split; auto. intros (x & s & _ & [] & _).
      - apply NoDup_cons_iff in Hn as [Hs0 Hn']. destruct (Hs s) as [Hl Hm]; [left; auto|].
        destruct (recon_sub_spec s d values Hl Hm G) as (d1 & v1 & E1 & G1 & P1). rewrite E1.
        destruct (IH d1 v1 Hn') as (d2 & v2 & E2 & G2 & P2); auto; [intros; apply Hs; right; auto|]. exists d2, v2. split; auto. split; auto. intros c.
        destruct (P1 c) as [A1 B1]. destruct (P2 c) as [A2 B2].
        destruct (in_dec (list_eq_dec Z.eq_dec) c (map (fun x => subcell dl (x :: yz) s) (strided i))) as [Hin|Hout].
        + assert (N2 : ~ (exists x s0, In x (strided i) /\ In s0 subs /\ c = subcell dl (x :: yz) s0)).
          { intros (x' & s' & Hx' & Hs' & E'). apply in_map_iff in Hin as (x & E & Hx). rewrite E' in E. destruct (Hs s') as [Hl' Hm']; [right; auto|].
            assert (Ea := f_equal (ancestor dl) E). rewrite !subcell_ancestor in Ea by (auto; simpl; lia). injection Ea as ->.
            apply subcell_inj in E; try (simpl; lia). subst. auto. }
          split; [intros _; rewrite (B2 N2); apply A1; auto|]. intros Hn2. exfalso. apply Hn2. apply in_map_iff in Hin as (x & <- & Hx). exists x, s. split; auto. split; auto. left; auto.
        + specialize (B1 Hout). split.
          * intros (x & s' & Hx & [->|Hs'] & E); [exfalso; apply Hout; apply in_map_iff; eauto|]. rewrite A2 by eauto. rewrite B1. reflexivity.
          * intros Hn2. rewrite B2; auto. intros (x & s' & Hx & Hs' & E). apply Hn2. exists x, s'. split; auto. split; auto. right; auto.
    Qed.

    Lemma op_spec : forall d values, strided i <> [] -> good values ->
      exists d' values', reconstruction_op n order reference domain level src (d, values) (i, yz) = Some (d', values') /\ good values' /\ forall c, length c = S n ->
        (In (ancestor dl c) (row_cells i yz) -> (d c == 0)%Q -> (d' c == iterated order dl src c)%Q) /\
        (~ In (ancestor dl c) (row_cells i yz) -> d' c = d c).
    Proof.
      intros d values Hne G. assert (Hl : (level <= L)%nat /\ (dl < 31)%nat).
      { destruct (strided i) as [|x l] eqn:E; [contradiction|]. apply (Hlvl level (x :: yz)). apply Hrow. left. auto. }
      unfold reconstruction_op. rewrite (proj2 (Nat.leb_le _ _)) by apply Hl. rewrite (proj2 (Nat.ltb_lt _ _)) by apply Hl. cbn [andb checked].
      destruct (Nat.eqb dl 0) eqn:E0.
      - apply Nat.eqb_eq in E0. rewrite E0. rewrite (proj2 (forallb_forall _ _)).
        2: { intros c Hc. apply in_map_iff in Hc as (x & <- & Hx). apply (Hplace level (x :: yz)); auto; [simpl; auto|]. rewrite E0. apply ancestor_0. }
        rewrite (proj2 (forallb_forall _ _)).
        2: { intros c Hc. apply in_map_iff in Hc as (x & <- & Hx). replace (x :: yz) with (add_vec (x :: yz) (repeat 0 (S n))).
          - apply Hread; auto; [apply repeat_length|]. intros j _. rewrite nth_repeat. lia.
          - rewrite <- Hyz. apply (add_vec_zero (x :: yz)). }
        cbn [andb checked fst snd]. do 2 eexists. split; [reflexivity|]. split; auto. intros c Hc. rewrite ancestor_0. cbn [iterated].
        destruct (set_cells_spec src (row_cells i yz) d c) as [A B]. split; auto. intros Hin _. rewrite A by auto. reflexivity.
      - destruct (recon_subs_spec (map (@rev Z) (block (repeat (0, Z.shiftl 1 (Z.of_nat dl)) (S n)))) d values) as (d' & v' & E & G' & P); auto.
        { apply subs_NoDup. } { intros s Hs. apply subs_In in Hs. auto. }
        exists d', v'. split; auto. split; auto. intros c Hc. destruct (P c) as [A B]. split.
        + intros Hin Hz. apply in_map_iff in Hin as (x & Ex & Hx). destruct (subcell_of dl c) as (s & H1 & H2 & H3). rewrite A.
          * rewrite Hz. ring.
          * exists x, s. split; auto. split; [apply subs_In; split; auto; lia|]. rewrite Ex. auto.
        + intros Hn. apply B. intros (x & s & Hx & Hs & ->). apply subs_In in Hs as [H1 H2]. apply Hn. rewrite subcell_ancestor by (auto; simpl; lia). apply in_map_iff. eauto.
    Qed.
  End Call.

  Lemma row_of_calls : forall i yz calls, istep i = 1 -> forall p, In p (cells_of_calls ((i, yz) :: calls)) <-> In p (row_cells i yz) \/ In p (cells_of_calls calls).
  Proof.
    intros i yz calls Hs p. unfold cells_of_calls. cbn [flat_map]. rewrite in_app_iff. unfold row_cells. rewrite !in_map_iff.
    split; (intros [(x & E & Hx)|H]; [left; exists x; split; auto|right; auto]); [apply strided_In; auto; apply zrange_In in Hx; exact Hx|apply zrange_In; apply strided_In in Hx; auto].
  Qed.

  Lemma calls_spec : forall level src calls d values, (forall i yz, In (i, yz) calls -> length yz = n /\ istart i < iend i /\ istep i = 1) ->
    NoDup (cells_of_calls calls) -> (forall p, In p (cells_of_calls calls) -> leaf level p) -> good values ->
    exists d' values', fold_opt (reconstruction_op n order reference domain level src) calls (d, values) = Some (d', values') /\ good values' /\ forall c, length c = S n ->
      (In (ancestor (L - level) c) (cells_of_calls calls) -> (d c == 0)%Q -> (d' c == iterated order (L - level) src c)%Q) /\
      (~ In (ancestor (L - level) c) (cells_of_calls calls) -> d' c = d c).
  Proof.
    intros level src. induction calls as [|[i yz] calls IH]; intros d values Hv Hn Hc G; cbn [fold_opt].
    - exists d, values. split; auto. split; auto. intros c _. split; auto. intros [].
    - destruct (Hv i yz) as (Hy & Hi & Hs); [left; auto|].
      destruct (op_spec level src i yz Hs Hy) with (d := d) (values := values) as (d1 & v1 & E1 & G1 & P1); auto.
      { intros x Hx. apply Hc. apply row_of_calls; auto. left. apply in_map_iff. eauto. }
      { intros E. assert (Hin : In (istart i) (strided i)) by (apply strided_In; auto; unfold in_i; lia). rewrite E in Hin. destruct Hin. }
      rewrite E1. destruct (IH d1 v1) as (d2 & v2 & E2 & G2 & P2); auto.
      { intros; apply Hv; right; auto. } { unfold cells_of_calls in Hn. cbn [flat_map] in Hn. apply NoDup_app_inv2 in Hn. apply Hn. }
      { intros p Hp. apply Hc. apply row_of_calls; auto. }
      exists d2, v2. split; auto. split; auto. intros c Lc. destruct (P1 c Lc) as [A1 B1]. destruct (P2 c Lc) as [A2 B2]. rewrite row_of_calls by auto.
      destruct (in_dec (list_eq_dec Z.eq_dec) (ancestor (L - level) c) (row_cells i yz)) as [Hin|Hout].
      + assert (N2 : ~ In (ancestor (L - level) c) (cells_of_calls calls)).
        { intros H2. unfold cells_of_calls in Hn. cbn [flat_map] in Hn. revert Hin H2 Hn. generalize (ancestor (L - level) c). intros p Hin H2 Hn.
          apply NoDup_app_inv2 in Hn as (_ & _ & Hd). apply (Hd p); [|exact H2].
          apply in_map_iff in Hin as (x & <- & Hx). apply in_map_iff. exists x. split; auto. apply zrange_In. apply strided_In in Hx; auto. }
        split; [|tauto]. intros _ Hz. rewrite (B2 N2). auto.
      + rewrite (B1 Hout) in *. split; [|intros H; apply B2; tauto]. intros [H|H] Hz; [contradiction|]. auto.
  Qed.
End Op.

(** ** The loop over the levels *)
Section Levels.
  Variables (n order : nat) (cells reference : ca) (domain : lca) (u : nat -> cfield).
  Notation L := (a_level domain).
  Notation leaf := (ca_mem n cells).
  Hypothesis Ho : (order <= 5)%nat.
  Hypothesis Hlvl : forall l p, leaf l p -> (l <= L)%nat /\ (L - l < 31)%nat.
  Hypothesis Hread : forall l p k, leaf l p -> length k = S n -> (forall j, (j <= n)%nat -> Z.abs (nth j k 0) <= 2 * Z.of_nat order) -> stored n reference l (add_vec p k) = true.
  Hypothesis Hplace : forall l p c, leaf l p -> length c = S n -> ancestor (L - l) c = p -> placed n domain c = true.
  Hypothesis Huniq : forall l l' c, length c = S n -> leaf l (ancestor (L - l) c) -> leaf l' (ancestor (L - l') c) -> l = l'.
  Hypothesis Hdec : forall l p, length p = S n -> leaf l p \/ ~ leaf l p.

  Lemma levels_spec : forall ls d values, NoDup ls ->
    (forall l, In l ls -> exists calls, subset_calls n (on (inter (c_at cells l) domain) l) = Some calls /\
       (forall i yz, In (i, yz) calls -> length yz = n /\ istart i < iend i /\ istep i = 1) /\ NoDup (cells_of_calls calls) /\
       forall p, In p (cells_of_calls calls) <-> leaf l p) -> good values ->
    exists d' values', fold_opt (fun st level => let* calls := subset_calls n (on (inter (c_at cells level) domain) level) in
        fold_opt (reconstruction_op n order reference domain level (u level)) calls st) ls (d, values) = Some (d', values') /\ good values' /\
      forall c, length c = S n ->
        (forall l, In l ls -> leaf l (ancestor (L - l) c) -> (d c == 0)%Q -> (d' c == iterated order (L - l) (u l) c)%Q) /\
        ((forall l, In l ls -> ~ leaf l (ancestor (L - l) c)) -> d' c = d c).
  Proof.
    induction ls as [|l ls IH]; intros d values Hn Hls G; cbn [fold_opt].
    - exists d, values. split; auto. split; auto. intros c _. split; auto. intros l [].
    - apply NoDup_cons_iff in Hn as [Hl Hn']. destruct (Hls l) as (calls & E & V & N & M); [left; auto|]. rewrite E.
      destruct (calls_spec n order reference domain (ca_mem n cells) Ho Hlvl Hread Hplace l (u l) calls d values V N) as (d1 & v1 & E1 & G1 & P1); auto; [intros p Hp; apply M; auto|].
      rewrite E1. destruct (IH d1 v1 Hn') as (d2 & v2 & E2 & G2 & P2); auto; [intros; apply Hls; right; auto|]. exists d2, v2. split; auto. split; auto.
      intros c Lc. destruct (P1 c Lc) as [A1 B1]. destruct (P2 c Lc) as [A2 B2]. rewrite !M in A1, B1. destruct (Hdec l (ancestor (L - l) c)) as [Hin|Hout]; [rewrite ancestor_length; auto| |].
      + assert (N2 : forall l', In l' ls -> ~ leaf l' (ancestor (L - l') c)) by (intros l' Hl' H; rewrite (Huniq l l' c Lc Hin H) in *; auto).
        split; [|intros H; exfalso; apply (H l); auto; left; auto]. intros l' [<-|Hl'] H Hz; [rewrite (B2 N2); auto|exfalso; apply (N2 l'); auto].
      + rewrite (B1 Hout) in *. split; [|intros H; apply B2; intros; apply H; right; auto]. intros l' [<-|Hl'] H Hz; [contradiction|auto].
  Qed.
End Levels.
