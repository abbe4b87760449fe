(** Property C54: the ghosts of a multiresolution mesh. *)
From Verif Require Import Base IntervalModel Spec LoiModel LoiProofs IntervalProofs LcaModel LcaSpec GridProofs
  InitProofs SearchProofs IterProofs LcaProofs LcaProofs2 LcaProofs3 RowsProofs CellArrayModel CellArrayProofs
  PropsLca PropsCellArray SubsetModel TreeProofs SubsetSpec SubsetProofs2 PropsSubset StencilModel NumberingProofs
  StencilProofs MeshModel MeshProofs PropsMesh AdaptModel AdaptProofs TagProofs PropsAdapt GradModel GradProofs PropsGrad MrModel MrProofs.
Open Scope Z_scope.

(** ** What the reference mesh should hold *)

(** Cells of level [l] that contain a leaf strictly finer, for the levels handled. *)
Definition refined (n minl : nat) (cells : ca) (l : nat) (p : list Z) : Prop :=
  (Nat.pred minl <= l)%nat /\ exists l' q, (l < l')%nat /\ ca_mem n cells l' q /\ p = ancestor (l' - l) q.

(** Cells at most [w] cells away from a leaf of the same level. *)
Definition margin (n : nat) (w : Z) (cells : ca) (l : nat) (p : list Z) : Prop :=
  length p = S n /\ exists q, ca_mem n cells l q /\ near n w p q.

(** The cells of the reference. A cell is wanted because it is in the margin of a leaf,
    because it helps predicting a cell [h] of a margin (one level finer), because it is
    around the ancestor two levels below a leaf, or because its parent is wanted and
    contains finer leaves. *)
Inductive wanted (n minl : nat) (w s : Z) (cells : ca) : nat -> list Z -> Prop :=
| wanted_margin : forall l p, margin n w cells l p -> wanted n minl w s cells l p
| wanted_parent : forall l p h, length p = S n -> margin n w cells (S l) h -> ~ refined n minl cells (S l) h ->
    near n s p (ancestor 1 h) -> wanted n minl w s cells l p
| wanted_grand : forall l p q, length p = S n -> ca_mem n cells (S (S l)) q -> near n s p (ancestor 2 q) ->
    wanted n minl w s cells l p
| wanted_child : forall l p, length p = S n -> wanted n minl w s cells l (ancestor 1 p) -> refined n minl cells l (ancestor 1 p) ->
    wanted n minl w s cells (S l) p.

(** ** Hypotheses: leaves between the bounds of the mesh, coordinates away from the
    largest integer. *)
Definition mr_input (n m minl maxl : nat) (w s : Z) (cells : ca) : Prop :=
  ca_wf n cells /\ c_max cells = m /\ (maxl <= m)%nat /\ (forall l, (l <= m)%nat -> a_level (c_at cells l) = l) /\
  0 <= w /\ 0 <= s /\
  (forall l q, ca_mem n cells l q -> (minl <= l <= maxl)%nat) /\
  (forall l q k, ca_mem n cells l q -> (k <= n)%nat -> Z.max 0 (nth k q 0) + w + s + 8 < 2 ^ 31 - 1).

Section Mesh.
  Variables (n m minl maxl : nat) (w s : Z) (cells : ca).
  Hypothesis In_ok : mr_input n m minl maxl w s cells.

  Lemma in_wf : ca_wf n cells.
  Proof. exact (proj1 In_ok). Qed.
  Lemma in_max : c_max cells = m.
  Proof. exact (proj1 (proj2 In_ok)). Qed.
  Lemma in_top : (maxl <= m)%nat.
  Proof. exact (proj1 (proj2 (proj2 In_ok))). Qed.
  Lemma in_level : forall l, (l <= m)%nat -> a_level (c_at cells l) = l.
  Proof. exact (proj1 (proj2 (proj2 (proj2 In_ok)))). Qed.
  Lemma in_w : 0 <= w.
  Proof. exact (proj1 (proj2 (proj2 (proj2 (proj2 In_ok))))). Qed.
  Lemma in_s : 0 <= s.
  Proof. exact (proj1 (proj2 (proj2 (proj2 (proj2 (proj2 In_ok)))))). Qed.
  Lemma in_range : forall l q, ca_mem n cells l q -> (minl <= l <= maxl)%nat.
  Proof. exact (proj1 (proj2 (proj2 (proj2 (proj2 (proj2 (proj2 In_ok))))))). Qed.
  Lemma in_small : forall l q k, ca_mem n cells l q -> (k <= n)%nat -> Z.max 0 (nth k q 0) + w + s + 8 < 2 ^ 31 - 1.
  Proof. exact (proj2 (proj2 (proj2 (proj2 (proj2 (proj2 (proj2 In_ok))))))). Qed.

  Ltac facts := pose proof in_max as Hmax; pose proof in_top as Htop; pose proof in_w as Hw; pose proof in_s as Hs.

  Notation refd := (refined n minl cells).
  Notation wtd := (wanted n minl w s cells).

  Lemma leaf_levels : forall l q, ca_mem n cells l q -> (min_level cells <= l <= max_level cells)%nat /\ (max_level cells <= m)%nat.
  Proof. facts.
    intros l q [H1 H2]. assert (E : lca_is_empty (c_at cells l) = false) by (apply (nonempty_mem n); [apply in_wf; auto|eauto]).
    destruct (min_level_spec cells) as (A & _). destruct (max_level_spec cells) as (B & _).
    pose proof (A l H1 E). pose proof (B l H1 E) as [B1 _]. lia.
  Qed.

  Lemma max_level_m : (max_level cells <= m)%nat.
  Proof.
    rewrite <- in_max. unfold max_level. generalize (c_max cells). intros M.
    induction M as [|M IH]; cbn [max_level_from]; destruct (negb _); lia.
  Qed.

  Lemma anc_le : forall j q k, nth k (ancestor j q) 0 <= Z.max 0 (nth k q 0).
  Proof.
    intros j q k. rewrite nth_ancestor. assert (P : 0 < 2 ^ Z.of_nat j) by (apply Z.pow_pos_nonneg; lia).
    pose proof (proj1 (div_iff (nth k q 0) _ _ P) eq_refl). nia.
  Qed.

  Lemma refined_bound : forall l p k, refd l p -> (k <= n)%nat -> nth k p 0 + 8 < 2 ^ 31 - 1.
  Proof. facts.
    intros l p k (_ & l' & q & _ & Hq & ->) Hk. pose proof (anc_le (l' - l) q k). pose proof (in_small l' q k Hq Hk). lia.
  Qed.
  Lemma margin_bound : forall l p k, margin n w cells l p -> (k <= n)%nat -> Z.max 0 (nth k p 0) + s + 8 < 2 ^ 31 - 1.
  Proof. facts.
    intros l p k (_ & q & Hq & H) Hk. pose proof (in_small l q k Hq Hk). specialize (H k Hk). lia.
  Qed.
  Lemma wanted_bound : forall l p k, wtd l p -> (k <= n)%nat -> nth k p 0 + 3 < 2 ^ 31 - 1.
  Proof. facts.
    intros l p k H Hk. destruct H as [l p H|l p h Lp H _ N|l p q Lp H N|l p Lp _ (Hl & l' & q & Hl' & H & E)].
    - pose proof (margin_bound l p k H Hk). lia.
    - pose proof (margin_bound _ h k H Hk). specialize (N k Hk). pose proof (anc_le 1 h k). lia.
    - pose proof (in_small _ q k H Hk). specialize (N k Hk). pose proof (anc_le 2 q k). lia.
    - pose proof (in_small _ q k H Hk). apply (f_equal (fun z => nth k z 0)) in E. rewrite !nth_ancestor in E.
      change (2 ^ Z.of_nat 1) with 2 in E. replace (l' - l)%nat with (S (l' - l - 1)) in E by lia.
      rewrite Nat2Z.inj_succ, Z.pow_succ_r in E by lia. assert (P : 0 < 2 ^ Z.of_nat (l' - l - 1)) by (apply Z.pow_pos_nonneg; lia).
      set (Q := 2 ^ Z.of_nat (l' - l - 1)) in *. pose proof (Z.div_mod (nth k p 0) 2 ltac:(lia)). pose proof (Z.mod_pos_bound (nth k p 0) 2 ltac:(lia)).
      assert (0 < 2 * Q) by lia. pose proof (Z.mul_div_le (nth k q 0) (2 * Q) ltac:(lia)). rewrite <- E in *. nia.
  Qed.

  Lemma wanted_length : forall l p, wtd l p -> length p = S n.
  Proof. intros l p [? ? [? _]|? ? ? ? _ _ _|? ? ? ? _ _|? ? ? _ _]; auto. Qed.

  (** The cells wanted by the first three rules. *)
  Definition base (l : nat) (p : list Z) : Prop := length p = S n /\
    (margin n w cells l p \/
     (exists h, margin n w cells (S l) h /\ ~ refd (S l) h /\ near n s p (ancestor 1 h)) \/
     (exists q, ca_mem n cells (S (S l)) q /\ near n s p (ancestor 2 q))).

  Lemma wanted_0 : forall p, wtd 0 p <-> base 0 p.
  Proof.
    intros p. split.
    - intros H. inversion H as [l p' H1|l p' h Lp H1 H2 H3|l p' q Lp H1 H2|]; subst; (split; [try apply H1; auto|]); [left|right; left; exists h|right; right; exists q]; auto.
    - intros (Lp & [H|[(h & H1 & H2 & H3)|(q & H1 & H2)]]); [apply wanted_margin; auto|eapply wanted_parent; eauto|eapply wanted_grand; eauto].
  Qed.
  Lemma wanted_S : forall l p, wtd (S l) p <-> base (S l) p \/ (length p = S n /\ wtd l (ancestor 1 p) /\ refd l (ancestor 1 p)).
  Proof.
    intros l p. split.
    - intros H. inversion H as [l' p' H1|l' p' h Lp H1 H2 H3|l' p' q Lp H1 H2|]; subst; [left|left|left|right; auto]; (split; [try apply H1; auto|]); [left|right; left; exists h|right; right; exists q]; auto.
    - intros [(Lp & [H|[(h & H1 & H2 & H3)|(q & H1 & H2)]])|(Lp & H1 & H2)];
        [apply wanted_margin; auto|eapply wanted_parent; eauto|eapply wanted_grand; eauto|apply wanted_child; auto].
  Qed.
  Lemma base_wanted : forall l p, base l p -> wtd l p.
  Proof. intros [|l] p H; [apply wanted_0; auto|apply wanted_S; auto]. Qed.

  (** ** The first loop *)
  Lemma mra_spec : forall ghosts u ls cl,
    (forall l, In l ls -> (l <= m)%nat /\ wf n (c_at ghosts l) /\ a_level (c_at ghosts l) = l /\ forall p, lca_mem n (c_at ghosts l) p <-> margin n w cells l p) ->
    (forall l, wf n (u l) /\ a_level (u l) = l) -> (forall l p, lca_mem n (u l) p <-> refd l p) ->
    list_ok n cl ->
    exists cl', mra_loop n s cells ghosts u ls cl = Some cl' /\ list_ok n cl' /\
      forall l p, length p = S n -> (adds (cl' l) p <-> adds (cl l) p \/
        (exists level, In level ls /\ l = Nat.pred level /\ exists h, margin n w cells level h /\ ~ refd level h /\ near n s p (ancestor 1 h)) \/
        (exists level, In level ls /\ (2 <= level)%nat /\ l = (level - 2)%nat /\ exists q, ca_mem n cells level q /\ near n s p (ancestor 2 q))).
  Proof. facts.
    intros ghosts u ls. induction ls as [|L ls IH]; intros cl HG HU MU Hcl; cbn [mra_loop].
    - exists cl. split; auto. split; auto. intros l p Hp. split; auto. intros [A|[(? & [] & _)|(? & [] & _)]]; auto.
    - destruct (HG L (or_introl eq_refl)) as (LM & WG & EG & MG). destruct (HU L) as [WU EU].
      assert (BG : below_max n (c_at ghosts L)).
      { intros q k Hq Hk. apply MG in Hq. pose proof (margin_bound L q k Hq Hk). lia. }
      assert (BU : below_max n (u L)).
      { intros q k Hq Hk. apply MU in Hq. pose proof (refined_bound L q k Hq Hk). lia. }
      destruct (uncovered_calls n (c_at ghosts L) (u L) L WG WU EG EU BG BU) as (calls & E & V & C).
      assert (WC : wf n (c_at cells L)) by (apply in_wf; lia).
      assert (BC : below_max n (c_at cells L)).
      { intros q k Hq Hk. assert (LC : (L <= c_max cells)%nat) by lia. pose proof (in_small L q k (conj LC Hq) Hk). lia. }
      destruct (inter_calls n (c_at cells L) (c_at cells L) L WC WC (in_level L LM) (in_level L LM) BC BC) as (calls2 & E2 & V2 & C2).
      unfold mra_step. rewrite E, E2.
      destruct (spread_calls n _ _ calls (below_spreads n s 1 in_s) V) as [S1 S2]. change (Z.of_nat 1) with 1 in S1, S2.
      destruct (spread_calls n _ _ calls2 (below_spreads n s 2 in_s) V2) as [T1 T2]. change (Z.of_nat 2) with 2 in T1, T2.
      set (f1 := flat_map (fun '(i, yz) => below_calls n s 1 i yz) calls) in *.
      set (f2 := flat_map (fun '(i, yz) => below_calls n s 2 i yz) calls2) in *.
      set (cl1 := if Nat.ltb 0 (Nat.pred L) then add_calls (add_calls cl (Nat.pred L) f1) (Nat.pred (Nat.pred L)) f2 else add_calls cl (Nat.pred L) f1).
      assert (G1 : list_ok n cl1).
      { unfold cl1. destruct (Nat.ltb 0 (Nat.pred L)); repeat apply add_calls_ok; auto. }
      assert (G2 : forall l p, length p = S n -> (adds (cl1 l) p <-> adds (cl l) p \/
         (l = Nat.pred L /\ exists h, margin n w cells L h /\ ~ refd L h /\ near n s p (ancestor 1 h)) \/
         ((2 <= L)%nat /\ l = (L - 2)%nat /\ exists q, ca_mem n cells L q /\ near n s p (ancestor 2 q)))).
      { intros l p Hp.
        assert (X1 : adds f1 p <-> exists h, margin n w cells L h /\ ~ refd L h /\ near n s p (ancestor 1 h)).
        { rewrite S2 by auto. split; intros (h & A); exists h; rewrite C, MG, MU in *; tauto. }
        assert (X2 : adds f2 p <-> exists q, ca_mem n cells L q /\ near n s p (ancestor 2 q)).
        { rewrite T2 by auto. split; intros (h & A); exists h; rewrite C2 in *; unfold ca_mem in *; rewrite Hmax in *; tauto. }
        rewrite <- X1, <- X2. unfold cl1. destruct (Nat.ltb_spec 0 (Nat.pred L)) as [Hl|Hl]; rewrite !add_calls_adds.
        - replace (Nat.pred (Nat.pred L)) with (L - 2)%nat by lia. assert (2 <= L)%nat by lia. tauto.
        - assert (~ (2 <= L)%nat) by lia. tauto. }
      destruct (IH cl1) as (cl' & EL & OL & ML); auto; [intros l Hl; apply HG; right; auto|].
      exists cl'. split; [exact EL|]. split; [exact OL|]. intros l p Hp. rewrite ML, G2 by auto. split.
      + intros [[A|[(A1 & A2)|(A1 & A2 & A3)]]|[(level & A1 & A2)|(level & A1 & A2)]]; auto; right.
        * left. exists L. split; [left; auto|]. auto.
        * right. exists L. split; [left; auto|]. auto.
        * left. exists level. split; [right; auto|]. auto.
        * right. exists level. split; [right; auto|]. auto.
      + intros [A|[(level & [<-|A1] & A2)|(level & [<-|A1] & A2)]]; auto.
        * right. left. exists level. auto.
        * right. right. exists level. auto.
  Qed.

  (** ** The second loop *)
  Lemma proj_spec : forall u k a cl at_ pr,
    (forall l, wf n (u l) /\ a_level (u l) = l) -> (forall l p, lca_mem n (u l) p <-> refd l p) ->
    list_ok n cl -> (forall l p, (a < l)%nat -> length p = S n -> (adds (cl l) p <-> base l p)) ->
    (forall l, wf n (at_ l) /\ a_level (at_ l) = l) ->
    (forall l p, (l <= a)%nat -> (lca_mem n (at_ l) p <-> wtd l p)) ->
    (forall l p, (a < l)%nat -> (lca_mem n (at_ l) p <-> base l p)) ->
    (forall l, wf n (pr l) /\ a_level (pr l) = l) ->
    (forall l p, lca_mem n (pr l) p <-> (l < a)%nat /\ wtd l p /\ refd l p) ->
    exists at' pr', proj_loop n u (seq a k) cl at_ pr = Some (at', pr') /\
      (forall l, wf n (at' l) /\ a_level (at' l) = l) /\
      (forall l p, (l <= a + k)%nat -> (lca_mem n (at' l) p <-> wtd l p)) /\
      (forall l p, (a + k < l)%nat -> (lca_mem n (at' l) p <-> base l p)) /\
      (forall l, wf n (pr' l) /\ a_level (pr' l) = l) /\
      (forall l p, lca_mem n (pr' l) p <-> (l < a + k)%nat /\ wtd l p /\ refd l p).
  Proof. facts.
    intros u k. induction k as [|k IH]; intros a cl at_ pr HU MU Hcl Mcl HA MA1 MA2 HP MP; cbn [seq proj_loop].
    - rewrite Nat.add_0_r. exists at_, pr. auto 10.
    - destruct (HA a) as [WA EA]. destruct (HU a) as [WU EU].
      assert (BA : below_max n (at_ a)).
      { intros q j Hq Hj. apply MA1 in Hq; [|lia]. apply (wanted_bound a q j Hq Hj). }
      assert (BU : below_max n (u a)).
      { intros q j Hq Hj. apply MU in Hq. pose proof (refined_bound a q j Hq Hj). lia. }
      destruct (inter_calls n (at_ a) (u a) a WA WU EA EU BA BU) as (calls & E & V & C). rewrite E.
      destruct (spread_calls n _ _ calls (child_spreads n) V) as [S1 S2].
      set (f1 := flat_map (fun '(i, yz) => subdomain_calls n 1 i yz) calls) in *.
      destruct (spread_calls n _ _ calls (self_spreads n) V) as [T1 T2].
      assert (EQ : map (fun '(i, yz) => AddI yz i) calls = flat_map (fun '(i, yz) => [AddI yz i]) calls).
      { clear. induction calls as [|[i yz] calls IH]; auto. cbn [map flat_map app]. f_equal. auto. }
      rewrite EQ. set (f2 := flat_map (fun '(i, yz) => [AddI yz i]) calls) in *. clear EQ.
      set (cl1 := add_calls cl (S a) f1). assert (G1 : list_ok n cl1) by (apply add_calls_ok; auto).
      destruct (list_lca n cl1 (S a) G1) as (W1 & L1 & M1).
      assert (M1' : forall p, lca_mem n (client_lca n (S a) (cl1 (S a))) p <-> wtd (S a) p).
      { intros p. rewrite M1, wanted_S. unfold cl1. rewrite add_calls_adds. split.
        - intros (Lp & [A|[_ A]]); [left; apply Mcl in A; auto|]. right. apply S2 in A as (q & Hq & <-); auto.
          apply C in Hq as [A1 A2]. apply MA1 in A1; auto. apply MU in A2. auto.
        - intros [A|(Lp & A1 & A2)].
          + assert (Lp : length p = S n) by apply A. split; auto. left. apply Mcl; auto.
          + split; auto. right. split; auto. apply S2; auto. exists (ancestor 1 p). split; auto. apply C. rewrite MA1, MU by auto. auto. }
      set (g2 := fun _ : nat => f2). assert (G2 : list_ok n g2) by (intros l; exact T1).
      destruct (list_lca n g2 a G2) as (W2 & L2 & M2). unfold g2 in W2, L2, M2.
      assert (M2' : forall p, lca_mem n (client_lca n a f2) p <-> wtd a p /\ refd a p).
      { intros p. rewrite M2. split.
        - intros (Lp & A). apply T2 in A as (q & Hq & ->); auto. apply C in Hq as [A1 A2]. apply MA1 in A1; auto. apply MU in A2. auto.
        - intros [A1 A2]. assert (Lp : length p = S n) by (eapply wanted_length; eauto). split; auto. apply T2; auto. exists p. split; auto.
          apply C. rewrite MA1, MU by auto. auto. }
      fold (client_lca n (S a) (cl1 (S a))). fold (client_lca n a f2).
      destruct (IH (S a) cl1 (upd at_ (S a) (client_lca n (S a) (cl1 (S a)))) (upd pr a (client_lca n a f2))) as (at' & pr' & R); auto.
      + intros l p Hl Hp. unfold cl1. rewrite add_calls_adds, Mcl by (auto; lia). split; auto. intros [A|[-> _]]; auto. lia.
      + intros l. destruct (Nat.eq_dec l (S a)) as [->|Hne]; [rewrite upd_same; auto|rewrite upd_other; auto].
      + intros l p Hl. destruct (Nat.eq_dec l (S a)) as [->|Hne]; [rewrite upd_same; auto|rewrite upd_other by auto; apply MA1; lia].
      + intros l p Hl. rewrite upd_other by lia. apply MA2. lia.
      + intros l. destruct (Nat.eq_dec l a) as [->|Hne]; [rewrite upd_same; auto|rewrite upd_other; auto].
      + intros l p. destruct (Nat.eq_dec l a) as [->|Hne].
        * rewrite upd_same, M2'. split; [intros; split; [lia|auto]|tauto].
        * rewrite upd_other, MP by auto. split; intros (A1 & A2); split; auto; lia.
      + exists at', pr'. replace (a + S k)%nat with (S a + k)%nat by lia. exact R.
  Qed.
End Mesh.

(** ** C54: the contents of the sub-meshes *)
Theorem C54_contents : forall n m minl maxl w s cells, mr_input n m minl maxl w s cells ->
  exists r, update_sub_mesh n m minl maxl w s cells = Some r /\
    (forall c, c = r_ghosts r \/ c = r_proj r \/ c = r_all r ->
       ca_wf n c /\ c_max c = m /\ forall l, (l <= m)%nat -> a_level (c_at c l) = l) /\
    (forall l p, ca_mem n (r_ghosts r) l p <-> margin n w cells l p) /\
    (maxl <> minl -> forall l p,
       (ca_mem n (r_all r) l p <-> wanted n minl w s cells l p) /\
       (ca_mem n (r_proj r) l p <-> wanted n minl w s cells l p /\ refined n minl cells l p)) /\
    (maxl = minl -> forall l p, (ca_mem n (r_all r) l p <-> margin n w cells l p) /\ ~ ca_mem n (r_proj r) l p).
Proof.
  intros n m minl maxl w s cells H. pose proof H as (HW & Hm & Hmm & HL & Hw & Hs & HR & HB).
  unfold update_sub_mesh. destruct (ca_calls_spec n cells HW) as (calls & E & V & M). rewrite E.
  destruct (add_ghosts_spec n w calls (fun _ => []) Hw V) as [G1 G2]; [intros l; apply calls_ok_nil|].
  set (cl0 := add_ghosts n w calls (fun _ => [])) in *.
  assert (G3 : forall l p, length p = S n -> (adds (cl0 l) p <-> margin n w cells l p)).
  { intros l p Hp. rewrite G2 by auto. split.
    - intros [A|(i & yz & x & Hin & Hx & HN)]; [destruct (adds_nil p A)|]. split; auto. exists (x :: yz). split; auto. apply M. eauto.
    - intros (_ & q & Hq & HN). right. destruct q as [|x yz]; [destruct Hq as [_ [Hq _]]; discriminate|].
      apply M in Hq as (i & Hin & Hx). eauto 6. }
  assert (LV : forall l q, ca_mem n cells l q -> (min_level cells <= l <= max_level cells)%nat /\ (l <= maxl)%nat).
  { intros l q Hq. split; [apply (leaf_levels n m minl maxl w s cells H l q Hq)|apply (HR l q Hq)]. }
  assert (GG : forall l, wf n (client_lca n l (cl0 l)) /\ a_level (client_lca n l (cl0 l)) = l /\
     forall p, lca_mem n (client_lca n l (cl0 l)) p <-> margin n w cells l p).
  { intros l. destruct (list_lca n cl0 l G1) as (A1 & A2 & A3). split; auto. split; auto. intros p. rewrite A3.
    split; [intros [Hp A]; apply G3; auto|intros A; assert (Hp : length p = S n) by apply A; split; auto; apply G3; auto]. }
  set (ghosts := ca_of_cl n m (cl_run n cl0) false).
  assert (GW : ca_wf n ghosts /\ c_max ghosts = m /\ forall l, (l <= m)%nat -> a_level (c_at ghosts l) = l).
  { split; [intros l Hl; apply (GG l)|]. split; [reflexivity|]. intros l Hl. apply (GG l). }
  assert (ML : forall l p, margin n w cells l p -> (l <= m)%nat) by (intros l p (_ & q & Hq & _); apply HR in Hq; lia).
  assert (GM : forall l p, ca_mem n ghosts l p <-> margin n w cells l p).
  { intros l p. unfold ca_mem. change (c_at ghosts l) with (client_lca n l (cl0 l)). change (c_max ghosts) with m.
    rewrite (proj2 (proj2 (GG l))). split; [tauto|intros A; split; eauto]. }
  assert (EM : forall l, wf n (lca_empty l) /\ a_level (lca_empty l) = l /\ forall p, ~ lca_mem n (lca_empty l) p).
  { intros l. assert (N : lca_no_cells n (lca_empty l)) by (split; auto). split; [left; auto|]. split; auto.
    intros p. apply no_cells_mem. auto. }
  destruct (Nat.eqb_spec maxl minl) as [Heq|Hne].
  - eexists. split; [reflexivity|]. cbn [r_ghosts r_proj r_all]. split; [|split; [exact GM|split; [contradiction|]]].
    + intros c [->|[->| ->]]; auto. split; [intros l Hl; apply (EM l)|]. split; [reflexivity|]. intros l Hl. apply (EM l).
    + intros _ l p. split; [apply GM|]. intros [_ A]. apply (EM l) in A. auto.
  - destruct (C25_union n minl maxl cells) as (u & EU & HU & MU).
    { intros l Hl. split; [apply HW; lia|apply HL; lia]. }
    { intros l q k Hl Hq Hk. assert (LC : (l <= c_max cells)%nat) by lia. pose proof (HB l q k (conj LC Hq) Hk). lia. }
    rewrite EU.
    assert (MU' : forall l p, lca_mem n (u l) p <-> refined n minl cells l p).
    { intros l p. rewrite MU. unfold refined. split; intros (A & l' & q & Hl' & Hq & ->); (split; [exact A|]); exists l', q.
      - split; [lia|]. split; auto. split; auto. lia.
      - pose proof (HR l' q Hq). split; [lia|]. split; auto. apply Hq. }
    destruct (mra_spec n m minl maxl w s cells H ghosts u (union_levels (min_level cells) (max_level cells)) cl0) as (cl1 & E1 & O1 & M1); auto.
    { intros l Hl. pose proof (max_level_m n m minl maxl w s cells H) as MX. assert (l <= m)%nat.
      { unfold union_levels in Hl. apply in_rev, in_seq in Hl. lia. }
      split; auto. apply (GG l). }
    rewrite E1.
    assert (IL : forall l, In l (union_levels (min_level cells) (max_level cells)) <-> (1 <= l)%nat /\ (min_level cells <= l <= max_level cells)%nat).
    { intros l. unfold union_levels. rewrite <- in_rev, in_seq. destruct (Nat.eqb_spec (min_level cells) 0); lia. }
    assert (B1 : forall l p, length p = S n -> (adds (cl1 l) p <-> base n minl w s cells l p)).
    { intros l p Hp. rewrite M1, G3 by auto. unfold base. split.
      - intros [A|[(level & A1 & -> & A2)|(level & A1 & A2 & -> & A3)]]; (split; [exact Hp|]); auto.
        + apply IL in A1. replace (S (Nat.pred level)) with level by lia. auto.
        + replace (S (S (level - 2))) with level by lia. auto.
      - intros (_ & [A|[(h & A1 & A2 & A3)|(q & A1 & A2)]]); auto; right.
        + left. exists (S l). pose proof A1 as (_ & q & Hq & _). apply LV in Hq as [Hq _]. split; [apply IL; lia|]. split; [reflexivity|]. exists h. auto.
        + right. exists (S (S l)). pose proof (LV _ _ A1) as [Hq _]. split; [apply IL; lia|]. split; [lia|]. split; [lia|]. exists q. auto. }
    assert (LB : forall l p, lca_mem n (client_lca n l (cl1 l)) p <-> base n minl w s cells l p).
    { intros l p. destruct (list_lca n cl1 l O1) as (_ & _ & A). rewrite A.
      split; [intros [Hp X]; apply B1; auto|intros X; assert (Hp : length p = S n) by apply X; split; auto; apply B1; auto]. }
    destruct (proj_spec n m minl maxl w s cells H u (max_level cells) 0 cl1 (c_at (ca_of_cl n m (cl_run n cl1) false)) lca_empty)
      as (at' & pr' & E2 & A1 & A2 & A3 & P1 & P2); auto.
    { intros l. destruct (list_lca n cl1 l O1) as (X1 & X2 & _). split; [exact X1|exact X2]. }
    { intros l p Hl. assert (l = 0)%nat as -> by lia. rewrite (wanted_0 n minl w s cells p). apply LB. }
    { intros l p Hl. apply LB. }
    { intros l. split; apply (EM l). }
    { intros l p. split; [intros X; destruct (proj2 (proj2 (EM l)) p X)|intros [X _]; lia]. }
    rewrite E2. rewrite Nat.add_0_l in *.
    assert (RL : forall l p, refined n minl cells l p -> (l < max_level cells)%nat).
    { intros l p (_ & l' & q & Hl' & Hq & _). apply LV in Hq. lia. }
    assert (WB : forall l p, (max_level cells < l)%nat -> (wanted n minl w s cells l p <-> base n minl w s cells l p)).
    { intros [|l] p Hl; [lia|]. rewrite (wanted_S n minl w s cells). split; auto. intros [X|(_ & _ & X)]; auto. apply RL in X. lia. }
    assert (WM : forall l p, wanted n minl w s cells l p -> (l <= m)%nat).
    { intros l p X. destruct X as [l p X|l p h _ X _ _|l p q _ X _|l p _ _ (_ & l' & q & Hl' & X & _)].
      - eapply ML; eauto.
      - apply ML in X. lia.
      - apply HR in X. lia.
      - apply HR in X. lia. }
    eexists. split; [reflexivity|]. cbn [r_ghosts r_proj r_all]. split; [|split; [exact GM|split; [|contradiction]]].
    + intros c [->|[->| ->]]; auto; (split; [intros l Hl; first [apply (P1 l)|apply (A1 l)]|]); (split; [reflexivity|]); intros l Hl; first [apply (P1 l)|apply (A1 l)].
    + intros _ l p. unfold ca_mem. cbn [c_max c_at].
      assert (AW : lca_mem n (at' l) p <-> wanted n minl w s cells l p).
      { destruct (Nat.le_gt_cases l (max_level cells)) as [Hl|Hl]; [apply A2; auto|rewrite A3, WB by auto; tauto]. }
      rewrite AW, P2. split.
      * split; [tauto|]. intros X. split; eauto.
      * split; [tauto|]. intros [X Y]. split; eauto.
Qed.

(** What the numerical code asks from these meshes: a margin around the leaves, the
    prediction stencils of the leaves and of their parents (details), and sub-meshes of
    the reference, which therefore share its numbering. *)
Theorem C54_leaf_stencils : forall n m minl maxl w s cells r, mr_input n m minl maxl w s cells -> maxl <> minl ->
  update_sub_mesh n m minl maxl w s cells = Some r ->
  forall l q, ca_mem n cells l q -> no_overlap n cells ->
    (forall p, length p = S n -> near n w p q -> ca_mem n (r_all r) l p) /\
    (forall p, length p = S n -> (1 <= l)%nat -> near n s p (ancestor 1 q) -> ca_mem n (r_all r) (l - 1) p) /\
    (forall p, length p = S n -> (2 <= l)%nat -> near n s p (ancestor 2 q) -> ca_mem n (r_all r) (l - 2) p).
Proof.
  intros n m minl maxl w s cells r H Hne E l q Hq HO. destruct (C54_contents n m minl maxl w s cells H) as (r' & E' & _ & _ & M & _).
  rewrite E in E'. injection E' as <-. pose proof H as (_ & _ & _ & _ & Hw & _).
  split; [|split]; intros p Lp; [intros N|intros Hl N|intros Hl N]; apply M; auto.
  - apply wanted_margin. split; eauto.
  - apply (wanted_parent _ _ _ _ _ _ _ q); auto; replace (S (l - 1)) with l by lia.
    + split; [apply Hq|]. exists q. split; auto. intros k _. rewrite Z.sub_diag. cbn. lia.
    + intros (_ & l' & q' & Hl' & Hq' & Eq). assert (l = l') by (apply (HO l l' q q' Hq Hq' ltac:(lia)); auto). lia.
  - apply (wanted_grand _ _ _ _ _ _ _ q); auto. replace (S (S (l - 2))) with l by lia. auto.
Qed.

Theorem C54_numbering : forall n m minl maxl w s cells r, mr_input n m minl maxl w s cells ->
  update_sub_mesh n m minl maxl w s cells = Some r ->
  exists cells' ghosts' proj' none all', mr_renumber n cells r = Some [cells'; ghosts'; proj'; none; all'] /\
    (forall l p, ca_mem n all' l p <-> ca_mem n (r_all r) l p) /\
    (forall l p, ca_mem n all' l p -> exists i, ca_get_index n all' l p = Some i /\ 0 <= i < ca_nb_cells all') /\
    (forall l p l' p' i, ca_mem n all' l p -> ca_mem n all' l' p' -> ca_get_index n all' l p = Some i ->
       ca_get_index n all' l' p' = Some i -> l = l' /\ p = p') /\
    (forall c c', In (c, c') [(cells, cells'); (r_ghosts r, ghosts'); (r_proj r, proj')] ->
       (forall l p, ca_mem n c' l p <-> ca_mem n c l p) /\ (forall l p, ca_mem n c l p -> ca_get_index n c' l p = ca_get_index n all' l p)).
Proof.
  intros n m minl maxl w s cells r H E. destruct (C54_contents n m minl maxl w s cells H) as (r' & E' & W & G & M & M').
  rewrite E in E'. injection E' as <-. pose proof H as (HW & Hm & _ & _ & Hw & _).
  assert (CM : forall l p, ca_mem n cells l p -> margin n w cells l p).
  { intros l p Hp. split; [apply Hp|]. exists p. split; auto. intros k _. rewrite Z.sub_diag. cbn. lia. }
  assert (MA : forall l p, margin n w cells l p -> ca_mem n (r_all r) l p).
  { intros l p Hp. destruct (Nat.eq_dec maxl minl) as [Eq|Ne]; [apply M'; auto|apply M; auto; apply wanted_margin; auto]. }
  unfold mr_renumber.
  destruct (C27_shared_numbering n [cells; r_ghosts r; r_proj r; mkCa (c_max cells) lca_empty; r_all r] 4 (r_all r) eq_refl) as (subs & a & E1 & E2 & E3 & R).
  { destruct (W (r_all r)) as (WA & XA & _); auto. rewrite XA. intros c [<-|[<-|[<-|[<-|[<-|[]]]]]].
    - split; [exact HW|]. split; auto.
    - destruct (W (r_ghosts r)) as (W1 & X1 & _); auto. split; auto. split; auto. intros l p Hp. apply MA. apply G. auto.
    - destruct (W (r_proj r)) as (W1 & X1 & _); auto. split; auto. split; auto. intros l p Hp.
      destruct (Nat.eq_dec maxl minl) as [Eq|Ne]; [destruct (M' Eq l p) as [_ N]; contradiction|apply M; auto; apply M in Hp; tauto].
    - assert (N : forall l, lca_no_cells n (lca_empty l)) by (split; auto). split; [intros l Hl; left; apply N|]. split; [cbn; auto|].
      intros l p [_ Hp]. destruct (no_cells_mem n (lca_empty l) p (N l) Hp).
    - auto. }
  destruct subs as [|c0 [|c1 [|c2 [|c3 [|c4 [|c5 subs]]]]]]; try discriminate E3. cbn [nth_error] in E2. injection E2 as ->.
  destruct R as (R1 & R2 & R3 & R4). exists c0, c1, c2, c3, a. split; [exact E1|]. split; [exact R1|]. split; [exact R2|]. split; [exact R3|].
  intros c c' [X|[X|[X|[]]]]; injection X as <- <-; [apply (R4 0%nat)|apply (R4 1%nat)|apply (R4 2%nat)]; reflexivity.
Qed.

(** ** Meshes that fill a box *)

(** A cell of level [l] in the box [lo, hi[, given in cells of level 0. *)
Definition inside (n : nat) (lo hi : list Z) (l : nat) (p : list Z) : Prop :=
  length p = S n /\ forall k, (k <= n)%nat -> nth k lo 0 * 2 ^ Z.of_nat l <= nth k p 0 < nth k hi 0 * 2 ^ Z.of_nat l.

(** The leaves are in the box, do not overlap and fill it. *)
Definition tiles (n : nat) (cells : ca) (lo hi : list Z) : Prop :=
  no_overlap n cells /\ (forall l q, ca_mem n cells l q -> inside n lo hi l q) /\
  (forall K z, (forall l q, ca_mem n cells l q -> (l <= K)%nat) -> inside n lo hi K z -> covered n cells K z).

(** A cell that contains a strictly finer leaf. *)
Definition split_at (n : nat) (cells : ca) (l : nat) (p : list Z) : Prop :=
  exists l' q, (l < l')%nat /\ ca_mem n cells l' q /\ p = ancestor (l' - l) q.

Lemma inside_ancestor : forall n lo hi l j z, inside n lo hi (l + j) z <-> length z = S n /\ inside n lo hi l (ancestor j z).
Proof.
  intros n lo hi l j z. assert (P : 0 < 2 ^ Z.of_nat j) by (apply Z.pow_pos_nonneg; lia).
  assert (E : forall k, (nth k lo 0 * 2 ^ Z.of_nat (l + j) <= nth k z 0 < nth k hi 0 * 2 ^ Z.of_nat (l + j)) <->
    (nth k lo 0 * 2 ^ Z.of_nat l <= nth k (ancestor j z) 0 < nth k hi 0 * 2 ^ Z.of_nat l)).
  { intros k. rewrite nth_ancestor, Nat2Z.inj_add, Z.pow_add_r by lia. pose proof (proj1 (div_iff (nth k z 0) _ _ P) eq_refl) as D.
    set (Q := 2 ^ Z.of_nat j) in *. set (L := 2 ^ Z.of_nat l). clearbody Q L. set (d := nth k z 0 / Q) in *. clearbody d. nia. }
  unfold inside. rewrite ancestor_length. split.
  - intros [L H]. split; auto. split; auto. intros k Hk. apply E. auto.
  - intros [L [_ H]]. split; auto. intros k Hk. apply E. auto.
Qed.

Section Box.
  Variables (n minl maxl : nat) (cells : ca) (lo hi : list Z).
  Hypothesis HT : tiles n cells lo hi.
  Hypothesis HR : forall l q, ca_mem n cells l q -> (minl <= l <= maxl)%nat.

  Lemma trichotomy : forall l p, inside n lo hi l p ->
    (exists l0, (l0 <= l)%nat /\ ca_mem n cells l0 (ancestor (l - l0) p)) \/ split_at n cells l p.
  Proof.
    intros l p Hp. destruct HT as (_ & _ & HC). set (K := Nat.max l maxl).
    destruct (descend (K - l) p) as (z & Lz & Az).
    destruct (HC K z) as (l0 & Hl0 & H0).
    - intros l' q Hq. apply HR in Hq. lia.
    - replace K with (l + (K - l))%nat by lia. apply inside_ancestor. split; [rewrite Lz; apply Hp|]. rewrite Az. auto.
    - destruct (Nat.le_gt_cases l0 l) as [Hle|Hgt].
      + left. exists l0. split; auto. rewrite <- Az, ancestor_add. replace (l - l0 + (K - l))%nat with (K - l0)%nat by lia. auto.
      + right. exists l0, (ancestor (K - l0) z). split; auto. split; auto. rewrite ancestor_add, <- Az. f_equal. lia.
  Qed.

  (** A leaf does not contain a finer leaf. *)
  Lemma above_not_split : forall l l0 p, (l0 <= l)%nat -> ca_mem n cells l0 (ancestor (l - l0) p) -> split_at n cells l p -> False.
  Proof using HT. clear HR.
    intros l l0 p Hl H0 (l' & q & Hl' & Hq & ->). destruct HT as (HO & _ & _).
    assert (l0 = l'); [|lia]. apply (HO l0 l' _ _ H0 Hq); [lia|]. rewrite ancestor_add. f_equal. lia.
  Qed.

  Lemma split_inside : forall l p, split_at n cells l p -> inside n lo hi l p.
  Proof using HT. clear HR.
    intros l p (l' & q & Hl' & Hq & ->). destruct HT as (_ & HI & _). apply HI in Hq.
    replace l' with (l + (l' - l))%nat in Hq at 1 by lia. apply inside_ancestor in Hq. apply Hq.
  Qed.

  Lemma refined_split : forall l p, (Nat.pred minl <= l)%nat -> (refined n minl cells l p <-> split_at n cells l p).
  Proof. intros l p Hl. unfold refined, split_at. tauto. Qed.

  Lemma child_split : forall l p, split_at n cells l (ancestor 1 p) -> length p = S n -> ca_mem n cells (S l) p \/ split_at n cells (S l) p.
  Proof.
    intros l p Hs Lp. pose proof (split_inside _ _ Hs) as HI.
    destruct (trichotomy (S l) p) as [(l0 & Hl0 & H0)|H]; auto.
    - replace (S l) with (l + 1)%nat by lia. apply inside_ancestor. auto.
    - left. destruct (Nat.eq_dec l0 (S l)) as [->|Hne]; [rewrite Nat.sub_diag, ancestor_0 in H0; auto|]. exfalso.
      apply (above_not_split l l0 (ancestor 1 p)); auto; [lia|]. rewrite ancestor_add. replace (l - l0 + 1)%nat with (S l - l0)%nat by lia. auto.
  Qed.
End Box.

(** Projection: the children of a cell to compute by projection are in the reference,
    and each of them is a leaf or is itself computed by projection. *)
Theorem C54_projection_closed : forall n m minl maxl w s cells r lo hi, mr_input n m minl maxl w s cells -> maxl <> minl ->
  tiles n cells lo hi -> update_sub_mesh n m minl maxl w s cells = Some r ->
  forall l p, ca_mem n (r_proj r) l (ancestor 1 p) -> length p = S n ->
    ca_mem n (r_all r) (S l) p /\ (ca_mem n cells (S l) p \/ ca_mem n (r_proj r) (S l) p).
Proof.
  intros n m minl maxl w s cells r lo hi H Hne HT E l p Hp Lp.
  destruct (C54_contents n m minl maxl w s cells H) as (r' & E' & _ & _ & M & _). rewrite E in E'. injection E' as <-.
  pose proof H as (_ & _ & _ & _ & _ & _ & HR & _).
  apply M in Hp as [Hw Hr]; auto. assert (WS : wanted n minl w s cells (S l) p) by (apply wanted_child; auto).
  split; [apply M; auto|]. assert (Hl : (Nat.pred minl <= l)%nat) by apply Hr. apply refined_split in Hr; auto.
  destruct (child_split n minl maxl cells lo hi HT HR l p Hr Lp) as [Hc|Hc]; auto.
  right. apply M; auto. split; auto. apply refined_split; auto.
Qed.

(** ** Prediction *)

(** Leaves that touch, possibly by a corner, differ by at most one level. *)
Definition graded_box (n : nat) (cells : ca) : Prop :=
  forall l l' p q v, ca_mem n cells l p -> ca_mem n cells l' q -> (l + 2 <= l')%nat ->
    (forall k, (k <= n)%nat -> -1 <= nth k v 0 <= 1) -> ancestor (l' - l) (vadd n q v) <> p.

(** One step from [c] towards [g]. *)
Definition toward (n : nat) (c g : list Z) : list Z := map (fun k => Z.max (-1) (Z.min 1 (nth k g 0 - nth k c 0))) (seq 0 (S n)).
Lemma nth_toward : forall n c g k, (k <= n)%nat -> nth k (toward n c g) 0 = Z.max (-1) (Z.min 1 (nth k g 0 - nth k c 0)).
Proof. intros n c g k Hk. unfold toward. apply (nth_map_seq (S n)). lia. Qed.

Section Graded.
  Variables (n minl maxl : nat) (cells : ca) (lo hi : list Z).
  Hypothesis HT : tiles n cells lo hi.
  Hypothesis HR : forall l q, ca_mem n cells l q -> (minl <= l <= maxl)%nat.
  Hypothesis HG : graded_box n cells.

  (** In a split cell, against the side given by [v], there is a leaf of a finer level
      whose neighbour is in the neighbour of the cell. *)
  Lemma side_leaf : forall l x v, split_at n cells l x -> (forall k, (k <= n)%nat -> -1 <= nth k v 0 <= 1) ->
    exists l1 y, (l < l1)%nat /\ ca_mem n cells l1 y /\ ancestor (l1 - l) y = x /\ ancestor (l1 - l) (vadd n y v) = vadd n x v.
  Proof.
    intros l x v Hx Hv. pose proof (split_inside n cells lo hi HT l x Hx) as HI.
    pose proof Hx as (l' & q & Hl' & Hq & _). pose proof (HR _ _ Hq) as Hlm.
    destruct (corner_point n maxl l x v (proj1 HI) ltac:(lia) Hv) as (z & Lz & Az & Bz).
    destruct HT as (HO & _ & HC). destruct (HC maxl z) as (l1 & Hl1 & H1).
    { intros l2 q2 H2. apply HR in H2. lia. }
    { replace maxl with (l + (maxl - l))%nat by lia. apply inside_ancestor. rewrite Az. auto. }
    assert (l < l1)%nat.
    { destruct (Nat.le_gt_cases l1 l) as [Hle|Hgt]; auto. exfalso.
      apply (above_not_split n cells lo hi HT l l1 x); auto. rewrite <- Az, ancestor_add.
      replace (l - l1 + (maxl - l))%nat with (maxl - l1)%nat by lia. auto. }
    exists l1, (ancestor (maxl - l1) z). split; auto. split; auto. split.
    - rewrite ancestor_add, <- Az. f_equal. lia.
    - apply Bz. lia.
  Qed.

  (** The neighbours of a split cell are not under a coarser leaf. *)
  Lemma beside_split : forall l x v l0, split_at n cells l x -> (forall k, (k <= n)%nat -> -1 <= nth k v 0 <= 1) ->
    (l0 < l)%nat -> ~ ca_mem n cells l0 (ancestor (l - l0) (vadd n x v)).
  Proof.
    intros l x v l0 Hx Hv Hl H0. destruct (side_leaf l x v Hx Hv) as (l1 & y & Hl1 & Hy & _ & E).
    apply (HG l0 l1 _ y v H0 Hy); auto; [lia|]. rewrite <- E, ancestor_add. f_equal. lia.
  Qed.

  Lemma step_toward : forall l c g D, split_at n cells l c -> inside n lo hi l g -> near n (D + 1) g c -> 0 <= D ->
    let x := vadd n c (toward n c g) in
    near n D g x /\ inside n lo hi l x /\ (ca_mem n cells l x \/ split_at n cells l x).
  Proof.
    intros l c g D Hc Hg N HD x. pose proof (split_inside n cells lo hi HT l c Hc) as HI.
    assert (Hx : forall k, (k <= n)%nat -> nth k x 0 = nth k c 0 + Z.max (-1) (Z.min 1 (nth k g 0 - nth k c 0))).
    { intros k Hk. unfold x. rewrite nth_vadd, nth_toward by auto. auto. }
    assert (Ix : inside n lo hi l x).
    { split; [apply vadd_length|]. intros k Hk. rewrite Hx by auto. destruct HI as [_ HI], Hg as [_ Hg].
      specialize (HI k Hk). specialize (Hg k Hk). lia. }
    split; [intros k Hk; rewrite Hx by auto; specialize (N k Hk); lia|]. split; auto.
    destruct (trichotomy n minl maxl cells lo hi HT HR l x Ix) as [(l0 & Hl0 & H0)|H]; auto.
    left. destruct (Nat.eq_dec l0 l) as [->|Hne]; [rewrite Nat.sub_diag, ancestor_0 in H0; auto|]. exfalso.
    apply (beside_split l c (toward n c g) l0); auto; [|lia]. intros k Hk. rewrite nth_toward by auto. lia.
  Qed.

  (** From a split cell to a cell [g] that is neither split nor a leaf, one meets a leaf. *)
  Lemma leaf_between : forall D l c g, split_at n cells l c -> inside n lo hi l g -> near n (Z.of_nat D) g c ->
    ~ ca_mem n cells l g -> ~ split_at n cells l g ->
    exists y, ca_mem n cells l y /\ near n (Z.of_nat D - 1) g y.
  Proof.
    induction D as [|D IH]; intros l c g Hc Hg N N1 N2.
    - exfalso. apply N2. replace g with c; auto. apply (list_ext n); [apply (split_inside n cells lo hi HT l c Hc)|apply Hg|].
      intros k Hk. specialize (N k Hk). lia.
    - destruct (step_toward l c g (Z.of_nat D) Hc Hg) as (S1 & S2 & [S3|S3]); [intros k Hk; specialize (N k Hk); lia|lia| |].
      + exists (vadd n c (toward n c g)). split; auto. intros k Hk. specialize (S1 k Hk). lia.
      + destruct (IH l _ g S3 Hg S1 N1 N2) as (y & Hy & NY). exists y. split; auto. intros k Hk. specialize (NY k Hk). lia.
  Qed.

  (** At most three cells from a split cell, the leaf above [g] is one level coarser and
      touches a leaf of level [l]. *)
  Lemma leaf_above : forall l c g, split_at n cells l c -> inside n lo hi l g -> near n 3 g c ->
    ~ ca_mem n cells l g -> ~ split_at n cells l g ->
    (1 <= l)%nat /\ ca_mem n cells (l - 1) (ancestor 1 g) /\
    exists y h, ca_mem n cells l y /\ length h = S n /\ near n 1 h y /\ ancestor 1 h = ancestor 1 g /\ ~ split_at n cells l h.
  Proof.
    intros l c g Hc Hg N N1 N2.
    destruct (trichotomy n minl maxl cells lo hi HT HR l g Hg) as [(l0 & Hl0 & H0)|H]; [|contradiction].
    assert (l0 <> l) by (intros ->; rewrite Nat.sub_diag, ancestor_0 in H0; contradiction).
    split; [lia|].
    destruct (step_toward l c g 2 Hc Hg) as (S1 & S2 & S3); [exact N|lia|]. set (x := vadd n c (toward n c g)) in *.
    assert (SN : split_at n cells (l - 1) (ancestor 1 x)).
    { destruct S3 as [S3|(l' & q & Hl' & Hq & E)].
      - exists l, x. split; [lia|]. split; auto. f_equal. lia.
      - exists l', q. split; [lia|]. split; auto. rewrite E, ancestor_add. f_equal. lia. }
    set (N0 := ancestor 1 x) in *. set (P := ancestor 1 g) in *.
    set (v := toward n N0 P).
    assert (EP : vadd n N0 v = P).
    { apply (list_ext n); [apply vadd_length|unfold P; rewrite ancestor_length; apply Hg|]. intros k Hk.
      rewrite nth_vadd by auto. unfold v. rewrite nth_toward by auto. unfold N0, P. rewrite !nth_ancestor. change (2 ^ Z.of_nat 1) with 2.
      specialize (S1 k Hk). pose proof (Z.div_mod (nth k x 0) 2 ltac:(lia)). pose proof (Z.mod_pos_bound (nth k x 0) 2 ltac:(lia)).
      pose proof (Z.div_mod (nth k g 0) 2 ltac:(lia)). pose proof (Z.mod_pos_bound (nth k g 0) 2 ltac:(lia)). lia. }
    assert (UV : forall k, (k <= n)%nat -> -1 <= nth k v 0 <= 1) by (intros k Hk; unfold v; rewrite nth_toward by auto; lia).
    assert (LP : ca_mem n cells (l - 1) P).
    { destruct (Nat.eq_dec l0 (l - 1)) as [E0|Hne].
      - rewrite E0 in H0. replace (l - (l - 1))%nat with 1%nat in H0 by lia. exact H0.
      - exfalso. apply (beside_split (l - 1)%nat N0 v l0 SN UV); [lia|]. rewrite EP. unfold P. rewrite ancestor_add.
        replace (l - 1 - l0 + 1)%nat with (l - l0)%nat by lia. auto. }
    split; auto.
    destruct (side_leaf (l - 1)%nat N0 v SN UV) as (l1 & y & Hl1 & Hy & _ & E). rewrite EP in E.
    assert (l1 = l) as ->.
    { destruct (Nat.le_gt_cases l1 l) as [Hle|Hgt]; [lia|]. exfalso. apply (HG (l - 1)%nat l1 P y v LP Hy); auto. lia. }
    exists y, (vadd n y v). split; auto. split; [apply vadd_length|]. split; [|split].
    - intros k Hk. rewrite nth_vadd by auto. specialize (UV k Hk). lia.
    - rewrite <- E. f_equal. lia.
    - intros Hs. apply (above_not_split n cells lo hi HT l (l - 1) (vadd n y v)); auto; [lia|]. rewrite E. auto.
  Qed.
End Graded.

(** Prediction: every cell of the reference, inside the domain, that is neither a leaf
    nor split (so that its value has to be predicted) has the whole prediction stencil
    around its parent in the reference. *)
Theorem C54_prediction_stencils : forall n m minl maxl w s cells r lo hi, mr_input n m minl maxl w s cells -> maxl <> minl ->
  tiles n cells lo hi -> graded_box n cells -> 1 <= w -> s <= 1 + w / 2 \/ s + (w + 1) / 2 <= 3 ->
  update_sub_mesh n m minl maxl w s cells = Some r ->
  forall l g, ca_mem n (r_all r) l g -> inside n lo hi l g -> ~ ca_mem n cells l g -> ~ split_at n cells l g ->
    (minl < l)%nat /\ forall p, length p = S n -> near n s p (ancestor 1 g) -> ca_mem n (r_all r) (l - 1) p.
Proof.
  intros n m minl maxl w s cells r lo hi H Hne HT HG Hw1 Hws E l g Hg HI N1 N2.
  destruct (C54_contents n m minl maxl w s cells H) as (r' & E' & _ & _ & M & _). rewrite E in E'. injection E' as <-.
  pose proof H as (_ & _ & _ & _ & _ & Hs & HR & _).
  assert (Hl : (minl < l)%nat).
  { destruct (trichotomy n minl maxl cells lo hi HT HR l g HI) as [(l0 & Hl0 & H0)|X]; [|contradiction].
    pose proof (HR _ _ H0). destruct (Nat.eq_dec l0 l) as [->|]; [rewrite Nat.sub_diag, ancestor_0 in H0; contradiction|lia]. }
  split; auto. intros p Lp NP. apply M; auto. apply M in Hg; auto.
  assert (NR : forall h, ~ split_at n cells l h -> ~ refined n minl cells l h) by (intros h X Y; apply X; apply refined_split in Y; auto; lia).
  assert (R1 : margin n w cells l g -> wanted n minl w s cells (l - 1) p).
  { intros X. apply (wanted_parent _ _ _ _ _ _ _ g); auto; replace (S (l - 1)) with l by lia; auto. }
  assert (R2 : forall c, split_at n cells l c -> near n (s + (w + 1) / 2) g c -> wanted n minl w s cells (l - 1) p).
  { intros c Hc N. pose proof (Z.div_mod (w + 1) 2 ltac:(lia)). pose proof (Z.mod_pos_bound (w + 1) 2 ltac:(lia)).
    pose proof (Z.div_mod w 2 ltac:(lia)). pose proof (Z.mod_pos_bound w 2 ltac:(lia)). destruct Hws as [Hws|Hws].
    - destruct (leaf_between n minl maxl cells lo hi HT HR HG (Z.to_nat (s + (w + 1) / 2)) l c g Hc HI) as (y & Hy & NY); auto.
      { rewrite Z2Nat.id by lia. auto. }
      apply R1. split; [apply HI|]. exists y. split; auto. intros k Hk. specialize (NY k Hk). rewrite Z2Nat.id in NY by lia. lia.
    - destruct (leaf_above n minl maxl cells lo hi HT HR HG l c g Hc HI) as (_ & _ & y & h & Hy & Lh & NY & EA & NS); auto.
      { intros k Hk. specialize (N k Hk). lia. }
      apply (wanted_parent _ _ _ _ _ _ _ h); auto; [|replace (S (l - 1)) with l by lia; auto|rewrite EA; auto].
      split; auto. exists y. replace (S (l - 1)) with l by lia. split; auto. intros k Hk. specialize (NY k Hk). lia. }
  destruct Hg as [l g X|l g h Lg (Lh & q & Hq & NQ) _ N|l g q Lg Hq N|l g Lg _ X].
  - apply R1. auto.
  - apply (R2 (ancestor 1 q)).
    + exists (S l), q. split; [lia|]. split; auto. f_equal. lia.
    + intros k Hk. specialize (N k Hk). specialize (NQ k Hk). rewrite !nth_ancestor in *. change (2 ^ Z.of_nat 1) with 2 in *.
      pose proof (Z.div_mod (nth k h 0) 2 ltac:(lia)). pose proof (Z.mod_pos_bound (nth k h 0) 2 ltac:(lia)).
      pose proof (Z.div_mod (nth k q 0) 2 ltac:(lia)). pose proof (Z.mod_pos_bound (nth k q 0) 2 ltac:(lia)).
      pose proof (Z.div_mod (w + 1) 2 ltac:(lia)). pose proof (Z.mod_pos_bound (w + 1) 2 ltac:(lia)). lia.
  - apply (R2 (ancestor 2 q)).
    + exists (S (S l)), q. split; [lia|]. split; auto. f_equal. lia.
    + intros k Hk. specialize (N k Hk). assert (0 <= (w + 1) / 2) by (apply Z.div_pos; lia). lia.
  - exfalso. assert (Hl' : (Nat.pred minl <= l)%nat) by apply X. apply refined_split in X; auto.
    destruct (child_split n minl maxl cells lo hi HT HR l g X Lg); contradiction.
Qed.

(** ** Examples *)

(** Checks of the hypotheses on concrete meshes. *)
Fixpoint box_cells (lo hi : list Z) : list (list Z) :=
  match lo, hi with
  | a :: lo, b :: hi => flat_map (fun x => map (cons x) (box_cells lo hi)) (zrange a b)
  | _, _ => [[]]
  end.
Lemma box_cells_In : forall lo hi p, length lo = length p -> length hi = length p ->
  (forall k, (k < length p)%nat -> nth k lo 0 <= nth k p 0 < nth k hi 0) -> In p (box_cells lo hi).
Proof.
  induction lo as [|a lo IH]; intros hi p L1 L2 H.
  - destruct p; [left; auto|discriminate].
  - destruct p as [|x p], hi as [|b hi]; try discriminate. cbn [box_cells]. apply in_flat_map. exists x. split.
    + apply zrange_In. apply (H 0%nat). cbn. lia.
    + apply in_map. apply IH; cbn in *; try lia. intros k Hk. apply (H (S k)). lia.
Qed.

Definition insideb (n : nat) (lo hi : list Z) (l : nat) (p : list Z) : bool :=
  Nat.eqb (length p) (S n) && forallb (fun k => (nth k lo 0 * 2 ^ Z.of_nat l <=? nth k p 0) && (nth k p 0 <? nth k hi 0 * 2 ^ Z.of_nat l)) (seq 0 (S n)).
Lemma insideb_iff : forall n lo hi l p, insideb n lo hi l p = true <-> inside n lo hi l p.
Proof.
  intros. unfold insideb, inside. rewrite andb_true_iff, Nat.eqb_eq, forallb_forall. split; intros [A B]; split; auto; intros k Hk.
  - specialize (B k). rewrite andb_true_iff, Z.leb_le, Z.ltb_lt in B. apply B. apply in_seq. lia.
  - rewrite andb_true_iff, Z.leb_le, Z.ltb_lt. apply B. apply in_seq in Hk. lia.
Qed.

Definition tilesb (n M : nat) (lo hi : list Z) (cs : list (nat * list Z)) : bool :=
  no_overlapb cs && forallb (fun '(l, p) => insideb n lo hi l p && Nat.leb l M) cs && existsb (fun '(l, _) => Nat.eqb l M) cs &&
  forallb (fun z => existsb (fun '(l, p) => zlist_eqb (ancestor (M - l) z) p) cs)
    (box_cells (map (fun a => a * 2 ^ Z.of_nat M) lo) (map (fun b => b * 2 ^ Z.of_nat M) hi)).
Definition graded_boxb (n : nat) (cs : list (nat * list Z)) : bool :=
  forallb (fun '(l, p) => forallb (fun '(l', q) => implb (Nat.leb (l + 2) l')
    (forallb (fun v => negb (zlist_eqb (ancestor (l' - l) (vadd n q v)) p)) (nested_loop (S n) (-1) 2))) cs) cs.

Lemma tiles_check : forall n c cs M lo hi, ca_wf n c -> ca_for_each_cell n c = Some cs -> length lo = S n -> length hi = S n ->
  tilesb n M lo hi (leaf_cells cs) = true -> tiles n c lo hi /\ forall l q, ca_mem n c l q -> (l <= M)%nat.
Proof.
  intros n c cs M lo hi W E L1 L2 H. unfold tilesb in H. rewrite !andb_true_iff in H. destruct H as (((H1 & H2) & H3) & H4).
  destruct (ca_for_each_cell_spec n c W) as (cs' & E' & [_ EN] & _). rewrite E in E'. injection E' as <-.
  rewrite forallb_forall in H2.
  assert (HM : forall l q, ca_mem n c l q -> inside n lo hi l q /\ (l <= M)%nat).
  { intros l q Hq. apply EN in Hq. apply H2 in Hq. apply andb_true_iff in Hq as [A B]. apply insideb_iff in A. apply Nat.leb_le in B. auto. }
  split; [|apply HM]. split; [eapply no_overlap_check; eauto|]. split; [apply HM|].
  intros K z HK Hz. apply existsb_exists in H3 as ([l3 q3] & In3 & E3). apply Nat.eqb_eq in E3 as ->. apply EN in In3. apply HK in In3.
  replace K with (M + (K - M))%nat in Hz by lia. apply inside_ancestor in Hz as [Lz Hz]. rewrite forallb_forall in H4.
  specialize (H4 (ancestor (K - M) z)). destruct Hz as [Lz' Hz].
  assert (X : In (ancestor (K - M) z) (box_cells (map (fun a => a * 2 ^ Z.of_nat M) lo) (map (fun b => b * 2 ^ Z.of_nat M) hi))).
  { apply box_cells_In; rewrite ?map_length; try lia. rewrite Lz'. intros k Hk. specialize (Hz k ltac:(lia)).
    rewrite (nth_indep _ 0 (0 * 2 ^ Z.of_nat M)) by (rewrite map_length; lia).
    rewrite (nth_indep (map _ hi) 0 (0 * 2 ^ Z.of_nat M)) by (rewrite map_length; lia).
    rewrite (map_nth (fun a => a * 2 ^ Z.of_nat M)), (map_nth (fun a => a * 2 ^ Z.of_nat M)). auto. }
  apply H4 in X. apply existsb_exists in X as ([l q] & Hin & Eq). apply zlist_eqb_eq in Eq. apply EN in Hin.
  pose proof (HM _ _ Hin) as [_ HlM]. exists l. split; [lia|]. rewrite ancestor_add in Eq.
  replace (K - l)%nat with (M - l + (K - M))%nat by lia. rewrite Eq. auto.
Qed.

Lemma graded_box_check : forall n c cs, ca_wf n c -> ca_for_each_cell n c = Some cs -> graded_boxb n (leaf_cells cs) = true -> graded_box n c.
Proof.
  intros n c cs W E H l l' p q v Hp Hq Hl Hv Eq. destruct (ca_for_each_cell_spec n c W) as (cs' & E' & [_ EN] & _). rewrite E in E'. injection E' as <-.
  apply EN in Hp, Hq. unfold graded_boxb in H. rewrite forallb_forall in H. specialize (H _ Hp). cbn beta iota in H.
  rewrite forallb_forall in H. specialize (H _ Hq). cbn beta iota in H. apply Nat.leb_le in Hl. rewrite Hl in H. cbn [implb] in H.
  rewrite forallb_forall in H. set (v' := map (fun k => nth k v 0) (seq 0 (S n))).
  assert (N : forall k, (k <= n)%nat -> nth k v' 0 = nth k v 0) by (intros k Hk; apply (nth_map_seq (S n)); lia).
  assert (I : In v' (nested_loop (S n) (-1) 2)).
  { assert (L : length v' = S n) by (unfold v'; rewrite map_length, seq_length; auto). apply nested_loop_In. split; auto.
    apply forall_nth. intros k Hk. rewrite N by lia. specialize (Hv k ltac:(lia)). lia. }
  apply H in I. replace (vadd n q v') with (vadd n q v) in I.
  - rewrite (proj2 (zlist_eqb_eq _ _) Eq) in I. discriminate.
  - apply (list_ext n); try apply vadd_length. intros k Hk. rewrite !nth_vadd, N by auto. auto.
Qed.

Lemma exMesh_levels : forall l, (l <= 4)%nat -> a_level (c_at exMesh l) = l.
Proof. intros l Hl. destruct l as [|[|[|[|[|l]]]]]; [vm_compute; reflexivity..|lia]. Qed.

Example C54_hypotheses : mr_input 1 4 1 3 1 1 exMesh /\ tiles 1 exMesh [0; 0] [1; 1] /\ graded_box 1 exMesh /\ no_overlap 1 exMesh.
Proof.
  assert (T : tiles 1 exMesh [0; 0] [1; 1] /\ forall l q, ca_mem 1 exMesh l q -> (l <= 3)%nat).
  { eapply tiles_check; [exact exMesh_wf|vm_compute; reflexivity|reflexivity|reflexivity|vm_compute; reflexivity]. }
  destruct T as [T TL]. split; [|split; [exact T|split; [|apply T]]].
  - split; [exact exMesh_wf|]. split; [reflexivity|]. split; [lia|]. split; [exact exMesh_levels|]. split; [lia|]. split; [lia|].
    assert (X : forall l q, ca_mem 1 exMesh l q -> (1 <= l)%nat).
    { intros l q Hq. destruct (min_level_spec exMesh) as (A & _). destruct Hq as [Hl Hq].
      change 1%nat with (min_level exMesh). apply A; auto. apply (nonempty_mem 1); [apply exMesh_wf; auto|eauto]. }
    split; [intros l q Hq; split; [apply (X l q Hq)|apply (TL l q Hq)]|].
    intros l q k Hq Hk. pose proof (TL _ _ Hq) as Hl. apply T in Hq as [_ Hq]. specialize (Hq k Hk).
    assert (nth k [1; 1] 0 = 1) as E1 by (destruct k as [|[|k]]; [reflexivity|reflexivity|lia]). rewrite E1 in Hq.
    assert (2 ^ Z.of_nat l <= 2 ^ 3) by (apply Z.pow_le_mono_r; lia). lia.
  - eapply graded_box_check; [exact exMesh_wf|vm_compute; reflexivity|vm_compute; reflexivity].
Qed.

(** The reference (level by level), the cells to project, and the ghosts of level 2. *)
Example C54_example :
  option_map (fun r => (map (fun l => for_each_interval 1 (c_at (r_proj r) l)) [0; 1; 2; 3]%nat,
                        for_each_interval 1 (c_at (r_all r) 0), for_each_interval 1 (c_at (r_all r) 3),
                        for_each_interval 1 (c_at (r_ghosts r) 2))) (update_sub_mesh 1 4 1 3 1 1 exMesh) =
  Some ([Some [(mk 0 1, [0])]; Some [(mk 1 2, [1])]; Some [(mk 3 4, [3])]; Some []],
        Some [(mk (-2) 3, [-2]); (mk (-2) 3, [-1]); (mk (-2) 3, [0]); (mk (-2) 3, [1]); (mk (-2) 2, [2])],
        Some [(mk 5 9, [5]); (mk 5 9, [6]); (mk 5 9, [7]); (mk 5 9, [8])],
        Some [(mk 1 5, [1]); (mk 1 5, [2]); (mk 1 5, [3]); (mk 1 4, [4])]).
Proof. vm_compute. reflexivity. Qed.

(** With a prediction of order 3 and a margin of 1 or 2 cells, the reference lacks cells
    that the prediction reads: here the cell 5 of level 2, for the ghost 4 of level 3,
    which is inside the domain, under a leaf of level 1. *)
Definition wideTree : nat -> list lcl_call := fun l =>
  match l with
  | 1%nat => [AddI [] (mk 1 4)]
  | 2%nat => [AddI [] (mk 1 2)]
  | 3%nat => [AddI [] (mk 1 2)]
  | 4%nat => [AddI [] (mk 0 2)]
  | _ => []
  end.
Definition wideMesh : ca := client_ca 0 4 wideTree false.
Lemma wideMesh_good : good_hist 0 4 wideTree.
Proof. intros l Hl. split; [|apply adds_filled]; destruct l as [|[|[|[|[|l]]]]]; repeat constructor; simpl; lia. Qed.

Theorem C54_wide_prediction_refuted : forall w, w = 1 \/ w = 2 ->
  mr_input 0 4 1 4 w 3 wideMesh /\ tiles 0 wideMesh [0] [2] /\ graded_box 0 wideMesh /\
  exists r, update_sub_mesh 0 4 1 4 w 3 wideMesh = Some r /\
    ca_mem 0 (r_all r) 3 [4] /\ inside 0 [0] [2] 3 [4] /\ ~ ca_mem 0 wideMesh 3 [4] /\ ~ split_at 0 wideMesh 3 [4] /\
    near 0 3 [5] (ancestor 1 [4]) /\ ~ ca_mem 0 (r_all r) 2 [5].
Proof.
  intros w Hw. pose proof (raw_wf 0 4 wideTree wideMesh_good) as W. fold wideMesh in W.
  assert (T : tiles 0 wideMesh [0] [2] /\ forall l q, ca_mem 0 wideMesh l q -> (l <= 4)%nat).
  { eapply tiles_check; [exact W|vm_compute; reflexivity|reflexivity|reflexivity|vm_compute; reflexivity]. }
  destruct T as [T TL].
  assert (MI : mr_input 0 4 1 4 w 3 wideMesh).
  { split; [exact W|]. split; [reflexivity|]. split; [lia|]. split; [intros l Hl; apply client_lca_level; apply wideMesh_good; auto|].
    split; [lia|]. split; [lia|].
    assert (X : forall l q, ca_mem 0 wideMesh l q -> (1 <= l)%nat).
    { intros l q Hq. destruct (min_level_spec wideMesh) as (A & _). destruct Hq as [Hl Hq].
      change 1%nat with (min_level wideMesh). apply A; auto. apply (nonempty_mem 0); [apply W; auto|eauto]. }
    split; [intros l q Hq; split; [apply (X l q Hq)|apply (TL l q Hq)]|].
    intros l q k Hq Hk. pose proof (TL _ _ Hq) as Hl. apply T in Hq as [_ Hq]. specialize (Hq k Hk).
    assert (k = 0%nat) as -> by lia. cbn [nth] in *.
    assert (2 ^ Z.of_nat l <= 2 ^ 4) by (apply Z.pow_le_mono_r; lia). lia. }
  split; [exact MI|]. split; [exact T|].
  split; [eapply graded_box_check; [exact W|vm_compute; reflexivity|vm_compute; reflexivity]|].
  destruct (C54_contents 0 4 1 4 w 3 wideMesh MI) as (r & E & WF & _). exists r. split; [exact E|].
  destruct (WF (r_all r)) as (WA & CA & LA); [auto|].
  assert (G : exists a b, for_each_interval 0 (c_at (r_all r) 3) = Some [(mk a 5, [])] /\ for_each_interval 0 (c_at (r_all r) 2) = Some [(mk b 5, [])] /\ a <= 4).
  { assert (X : exists a b, option_map (fun r => (for_each_interval 0 (c_at (r_all r) 3), for_each_interval 0 (c_at (r_all r) 2)))
        (update_sub_mesh 0 4 1 4 w 3 wideMesh) = Some (Some [(mk a 5, [])], Some [(mk b 5, [])]) /\ a <= 4).
    { destruct Hw as [->| ->]; [exists (-4), (-3)|exists (-4), (-4)]; (split; [vm_compute; reflexivity|lia]). }
    destruct X as (a & b & X & Ha). rewrite E in X. cbn [option_map] in X. exists a, b.
    assert (X1 := f_equal (fun o => match o with Some (x, _) => x | None => None end) X). cbn beta iota in X1.
    assert (X2 := f_equal (fun o => match o with Some (_, x) => x | None => None end) X). cbn beta iota in X2. auto. }
  destruct G as (a & b & G3 & G2 & Ha).
  assert (MM : forall l i x, (l <= 4)%nat -> for_each_interval 0 (c_at (r_all r) l) = Some [(i, [])] -> (ca_mem 0 (r_all r) l [x] <-> in_i i x)).
  { intros l i x Hl X. assert (Wl : wf 0 (c_at (r_all r) l)) by (apply WA; rewrite CA; auto).
    destruct (calls_spec 0 _ Wl) as (calls & E' & _ & _ & M & _). rewrite X in E'. injection E' as <-. unfold ca_mem. rewrite CA, M. split.
    - intros (_ & j & [Ej|[]] & Hj). injection Ej as <-. auto.
    - intros Hi. split; auto. exists i. split; [left; auto|auto]. }
  split; [apply (MM 3%nat _ 4 ltac:(lia) G3); unfold in_i; cbn; lia|].
  split; [apply insideb_iff; vm_compute; reflexivity|].
  assert (LM : forall l, (l <= 4)%nat -> forall x, ca_mem 0 wideMesh l [x] -> exists c, In c (wideTree l) /\ added c [x]).
  { intros l Hl x [_ Hx]. apply client_lca_mem in Hx as [_ Hx]; auto. apply wideMesh_good. auto. }
  split.
  { intros Hc. destruct (LM 3%nat ltac:(lia) 4 Hc) as (c & [<-|[]] & Hx). cbn in Hx. unfold in_i in Hx. cbn in Hx. lia. }
  split.
  { intros (l' & q & Hl' & Hq & Eq). pose proof (TL _ _ Hq). assert (l' = 4)%nat as -> by lia.
    destruct q as [|x [|? ?]]; [discriminate Eq| |discriminate Eq]. cbn in Eq. injection Eq as Eq.
    destruct (LM 4%nat ltac:(lia) x Hq) as (c & [<-|[]] & Hx). cbn in Hx. unfold in_i in Hx. cbn in Hx.
    assert (x = 0 \/ x = 1) as [->| ->] by lia; discriminate Eq. }
  split; [intros k Hk; assert (k = 0%nat) as -> by lia; vm_compute; discriminate|].
  intros Hc. apply (MM 2%nat _ 5 ltac:(lia) G2) in Hc. unfold in_i in Hc. cbn in Hc. lia.
Qed.

Print Assumptions C54_contents.
Print Assumptions C54_leaf_stencils.
Print Assumptions C54_numbering.
Print Assumptions C54_projection_closed.
Print Assumptions C54_prediction_stencils.
Print Assumptions C54_wide_prediction_refuted.
