(** The reconstruction on the finest level: property C74. *)
From Coq Require Import QArith Qfield Permutation.
From Verif Require Import Base IntervalModel Spec LoiModel LcaModel LcaSpec LcaProofs CellArrayModel CellArrayProofs SubsetModel StencilModel MeshProofs AdaptModel AdaptProofs
  NumModel NumProofs TransferProofs MrModel MrProofs GhostModel GhostProofs NumSpec PolyProofs PropsNum FluxProofs TagProofs PropsLca PropsAdapt PropsGrad PropsMr PropsPeriodic PropsPeriodic2
  ReconModel ReconProofs ReconProofs2 PropsRecon ReconProofs3.
Open Scope Z_scope.

(** ** Hypotheses *)

(** The leaves fill the box of the domain, given on a level [L] at least as fine as theirs;
    the margin of the mesh is twice the order of the prediction. *)
Definition recon_input (n m minl maxl : nat) (w s : Z) (order : nat) (cells : ca) (domain : lca) (L : nat) (lo hi : list Z) : Prop :=
  mr_input n m minl maxl w s cells /\ tiles n cells lo hi /\ domain_box n domain L lo hi /\ below_max n domain /\
  (maxl <= L)%nat /\ (L - minl < 31)%nat /\ (order <= 5)%nat /\ 2 * Z.of_nat order <= w.

(** The states of the static map are kept. *)
Lemma recon_sub_reached : forall n order reference domain level dl src i yz st sub st', reached (snd st) ->
  recon_sub n order reference domain level dl src i yz st sub = Some st' -> reached (snd st').
Proof.
  intros n order reference domain level dl src i yz [d values] sub st' H E. unfold recon_sub in E. pose proof (reached_call values order dl sub H) as G.
  destruct (prediction order dl sub values) as [m v]. destruct (fold_opt _ m d); [|discriminate]. injection E as <-. exact G.
Qed.
Lemma fold_opt_keeps : forall (S A : Type) (P : S -> Prop) (f : S -> A -> option S) l s s', (forall s a s', P s -> f s a = Some s' -> P s') -> P s -> fold_opt f l s = Some s' -> P s'.
Proof.
  intros S A P f l. induction l as [|a l IH]; intros s s' Hf Hs E; cbn [fold_opt] in E; [injection E as <-; auto|].
  destruct (f s a) as [s1|] eqn:E1; [|discriminate]. apply (IH s1); auto. apply (Hf s a); auto.
Qed.
Lemma recon_reached : forall n order cells reference domain u values v values', reached values ->
  reconstruction n order cells reference domain u values = Some (v, values') -> reached values'.
Proof.
  intros n order cells reference domain u values v values' H E. unfold reconstruction in E.
  apply (fold_opt_keeps _ _ (fun st => reached (snd st))) in E; auto. intros st level st' Hs E1. destruct (subset_calls n _) as [calls|]; [|discriminate].
  apply (fold_opt_keeps _ _ (fun st => reached (snd st))) in E1; auto. intros st1 [i yz] st2 H1 E2. unfold reconstruction_op in E2.
  destruct (Nat.leb level (a_level domain) && Nat.ltb (a_level domain - level) 31); cbn [checked] in E2; [|discriminate]. destruct (Nat.eqb (a_level domain - level) 0).
  - destruct (_ && _); cbn [checked] in E2; [|discriminate]. injection E2 as <-. auto.
  - apply (fold_opt_keeps _ _ (fun st => reached (snd st))) in E2; auto. intros. eapply recon_sub_reached; eauto.
Qed.

Lemma placed_mem : forall n domain p, wf n domain -> length p = S n -> lca_mem n domain p -> placed n domain p = true.
Proof. intros n domain p W Lp H. apply (stored_mem n (mkCa 0 (fun _ => domain)) 0 p); auto. Qed.

Lemma add_vec_near : forall n p k w, length p = S n -> length k = S n -> (forall j, (j <= n)%nat -> Z.abs (nth j k 0) <= w) -> length (add_vec p k) = S n /\ near n w (add_vec p k) p.
Proof.
  intros n p k w Hp Hk H. split; [unfold add_vec; rewrite map_length, combine_length; lia|]. intros j Hj. rewrite nth_add_vec by congruence. specialize (H j Hj). lia.
Qed.

(** ** C74: the reconstruction runs, whatever was predicted before; a cell of the finest
    level gets the value predicted from the values on the level of the leaf above it,
    which exists and is unique. *)
Theorem C74_values : forall n m minl maxl w s order cells domain L lo hi r u values, recon_input n m minl maxl w s order cells domain L lo hi ->
  update_sub_mesh n m minl maxl w s cells = Some r -> reached values ->
  exists v values', reconstruction n order cells (r_all r) domain u values = Some (v, values') /\ reached values' /\
    forall c, inside n lo hi L c ->
      (exists l, (l <= L)%nat /\ ca_mem n cells l (ancestor (L - l) c)) /\
      forall l, (l <= L)%nat -> ca_mem n cells l (ancestor (L - l) c) -> (v c == iterated order (L - l) (u l) c)%Q.
Proof.
  intros n m minl maxl w s order cells domain L lo hi r u values (HI & HT & (WD & EL & Hlh & HD) & HB & HmL & H31 & Ho & Hw) HR Hv.
  destruct (C54_contents n m minl maxl w s cells HI) as (r' & ER & HC & _ & M1 & M2). rewrite HR in ER. injection ER as <-.
  destruct (HC (r_all r)) as (WA & _ & _); [auto|]. pose proof HI as (WC & Em & Hmm & HLv & Hw0 & Hs0 & HRg & HSm).
  assert (Len : forall l p, ca_mem n cells l p -> length p = S n) by (intros l p H; apply HT in H; apply H).
  assert (A1 : forall l p, ca_mem n cells l p -> (l <= a_level domain)%nat /\ (a_level domain - l < 31)%nat) by (intros l p H; apply HRg in H; lia).
  assert (A2 : forall l p k, ca_mem n cells l p -> length k = S n -> (forall j, (j <= n)%nat -> Z.abs (nth j k 0) <= 2 * Z.of_nat order) -> stored n (r_all r) l (add_vec p k) = true).
  { intros l p k Hp Hk Hn. destruct (add_vec_near n p k w (Len l p Hp) Hk) as [L1 N1]; [intros j Hj; specialize (Hn j Hj); lia|].
    assert (Mg : margin n w cells l (add_vec p k)) by (split; eauto).
    assert (Ma : ca_mem n (r_all r) l (add_vec p k)) by (destruct (Nat.eq_dec maxl minl) as [Eq|Ne]; [apply M2; auto|apply M1; auto; apply wanted_margin; auto]).
    destruct Ma as [X Y]. apply stored_mem; auto. }
  assert (A3 : forall l p c, ca_mem n cells l p -> length c = S n -> ancestor (a_level domain - l) c = p -> placed n domain c = true).
  { intros l p c Hp Lc Ec. apply placed_mem; auto. apply HD. rewrite EL in *. pose proof (HRg _ _ Hp). replace L with (l + (L - l))%nat by lia.
    apply inside_ancestor. split; auto. rewrite Ec. apply HT. auto. }
  assert (A4 : forall l l' c, length c = S n -> ca_mem n cells l (ancestor (a_level domain - l) c) -> ca_mem n cells l' (ancestor (a_level domain - l') c) -> l = l').
  { intros l l' c _ H1 H2. rewrite EL in *. pose proof (HRg _ _ H1). pose proof (HRg _ _ H2). destruct HT as (NO & _). destruct (Nat.le_ge_cases l l') as [Hl|Hl].
    - apply (NO l l' _ _ H1 H2 Hl). rewrite ancestor_add. f_equal. lia.
    - symmetry. apply (NO l' l _ _ H2 H1 Hl). rewrite ancestor_add. f_equal. lia. }
  assert (A5 : forall l p, length p = S n -> ca_mem n cells l p \/ ~ ca_mem n cells l p).
  { intros l p Lp. destruct (Nat.le_gt_cases l (c_max cells)) as [Hl|Hl]; [|right; intros [X _]; lia].
    pose proof (stored_mem n cells l p (WC l Hl) Lp) as X. destruct (stored n cells l p); [left; split; auto; apply X; auto|right; intros [_ Y]; apply X in Y; discriminate]. }
  destruct (levels_spec n order cells (r_all r) domain u Ho A1 A2 A3 A4 A5 (seq (min_level cells) (S (max_level cells) - min_level cells)) (fun _ => 0%Q) values) as (v & values' & E & G & P).
  { apply seq_NoDup. }
  { intros l Hl. apply in_seq in Hl.
    assert (NE : exists l0 p0, ca_mem n cells l0 p0).
    { destruct HT as (_ & _ & Cov). destruct (Cov m (scaled (map (fun k => nth k lo 0) (seq 0 (S n))) m)) as (l0 & _ & H0).
      - intros l0 q H0. apply HRg in H0. lia.
      - split; [unfold scaled; rewrite !map_length, seq_length; auto|]. intros k Hk. rewrite nth_scaled, (nth_map_seq (S n)) by lia. specialize (Hlh k Hk).
        assert (0 < 2 ^ Z.of_nat m) by (apply Z.pow_pos_nonneg; lia). nia.
      - eauto. }
    destruct NE as (l0 & p0 & H0). assert (Hx : (max_level cells <= maxl)%nat).
    { destruct H0 as [C0 D0]. destruct (max_level_spec cells) as (B & _). destruct (B l0 C0) as [[B1 B2] B3]; [apply (nonempty_mem n); [apply WC; auto|eauto]|].
      apply (nonempty_mem n) in B3; [|apply WC; auto]. destruct B3 as (p1 & P1). apply (HRg (max_level cells) p1). split; auto. }
    assert (Hlm : (l <= m)%nat) by lia. assert (El : a_level (c_at cells l) = l) by auto.
    assert (Hlc : (l <= c_max cells)%nat) by (rewrite Em; exact Hlm).
    assert (BL : below_max n (c_at cells l)).
    { intros q k Hq Hk. pose proof (HSm l q k (conj Hlc Hq) Hk) as X. clear - X Hw0 Hs0. lia. }
    destruct (inter_spec n (c_at cells l) domain l) as (calls & E & V & ND & _ & M); [apply WC; auto|exact WD| | |].
    - rewrite El, EL. replace (Nat.min l (Nat.max l L)) with l by lia. apply fits_le; auto. rewrite El. lia.
    - rewrite El, EL. replace (Nat.min l (Nat.max l L)) with l by lia. apply fits_le; auto. rewrite EL. lia.
    - exists calls. split; auto. split; auto. split; auto. intros p. rewrite M. split.
      + intros (Lp & Hp & _). split; [lia|]. apply (same_denotes n (c_at cells l) l p); auto.
      + intros Hp. pose proof (Len _ _ Hp) as Lp. split; auto. split; [apply same_denotes; auto; apply Hp|].
        apply denotes_mesh_coarse; auto; [lia|]. exists (map (Z.mul (2 ^ Z.of_nat (L - l))) p).
        assert (EA : ancestor (L - l) (map (Z.mul (2 ^ Z.of_nat (L - l))) p) = p).
        { unfold ancestor. rewrite map_map. rewrite (map_ext _ id); [apply map_id|]. intros x. unfold id. assert (0 < 2 ^ Z.of_nat (L - l)) by (apply Z.pow_pos_nonneg; lia).
          rewrite Z.mul_comm, Z.div_mul by lia. auto. }
        rewrite EL, EA. split; auto. apply HD. replace L with (l + (L - l))%nat at 1 by lia. apply inside_ancestor. rewrite EA, map_length. split; auto. apply HT. auto. }
  { apply reached_good. auto. }
  exists v, values'. split; [exact E|]. split; [apply (recon_reached n order cells (r_all r) domain u values v values' Hv E)|]. intros c Hc.
  destruct (P c (proj1 Hc)) as [PV _]. rewrite EL in PV. split.
  - destruct HT as (_ & _ & Cov). apply (Cov L c); auto. intros l q Hq. apply HRg in Hq. lia.
  - intros l Hl Hm. apply PV; auto; [|reflexivity]. destruct (leaf_levels n m minl maxl w s cells HI l _ Hm). apply in_seq. lia.
Qed.

(** The means of a function of degree at most [2 order] in each direction on all the cells of
    the mesh give its means on the cells of the finest level. *)
Theorem C74_exact : forall n m minl maxl w s order cells domain L lo hi r u values (terms : list (Q * list (list Q))) h, recon_input n m minl maxl w s order cells domain L lo hi ->
  update_sub_mesh n m minl maxl w s cells = Some r -> reached values -> ~ (h == 0)%Q ->
  (forall c ps, In (c, ps) terms -> length ps = S n /\ Forall (fun P => length P <= 2 * order + 1)%nat ps) ->
  (forall l q, length q = S n -> (u l q == qsum (map (fun '(c, ps) => c * tensor_avg ps (h / inject_Z (2 ^ Z.of_nat l)) q) terms))%Q) ->
  exists v values', reconstruction n order cells (r_all r) domain u values = Some (v, values') /\
    forall c, inside n lo hi L c -> (v c == qsum (map (fun '(a, ps) => a * tensor_avg ps (h / inject_Z (2 ^ Z.of_nat L)) c) terms))%Q.
Proof.
  intros n m minl maxl w s order cells domain L lo hi r u values terms h HI HR Hv Hh Ht Hu. pose proof HI as (_ & _ & _ & _ & _ & _ & Ho & _).
  destruct (C74_values n m minl maxl w s order cells domain L lo hi r u values HI HR Hv) as (v & values' & E & _ & P). exists v, values'. split; auto.
  intros c Hc. destruct (P c Hc) as [(l & Hl & Hm) PV]. rewrite (PV l Hl Hm). destruct (subcell_of (L - l) c) as (sb & S1 & S2 & S3).
  pose proof (proj1 Hc) as Lc. assert (La : length (ancestor (L - l) c) = length sb) by (rewrite ancestor_length; auto).
  rewrite S3 at 1. rewrite <- (portion_is values order (u l) (ancestor (L - l) c) (L - l) sb Hv Ho La).
  rewrite (C72_exact values order terms (h / inject_Z (2 ^ Z.of_nat l)) (u l) (ancestor (L - l) c) (L - l) sb); auto.
  - rewrite <- S3. fold (sum_over (fun '(a, ps) => a * tensor_avg ps (h / inject_Z (2 ^ Z.of_nat L)) c)%Q terms).
    match goal with |- (qsum (map ?f _) == _)%Q => fold (sum_over f terms) end. apply sum_ext. intros [a ps] _.
    rewrite (tensor_avg_ext ps (h / inject_Z (2 ^ Z.of_nat l) / inject_Z (2 ^ Z.of_nat (L - l))) (h / inject_Z (2 ^ Z.of_nat L)) c); [reflexivity|].
    replace (Z.of_nat L) with (Z.of_nat l + Z.of_nat (L - l)) by lia. rewrite Z.pow_add_r by lia. rewrite inject_Z_mult. field. split; apply pow2_nz.
  - intros Hz. apply Hh. setoid_replace h with (h / inject_Z (2 ^ Z.of_nat l) * inject_Z (2 ^ Z.of_nat l))%Q by (field; apply pow2_nz). rewrite Hz. ring.
  - intros a ps Hin. rewrite S1, Lc. apply (Ht a ps Hin).
  - intros q Hq. apply Hu. congruence.
Qed.

(** The mean over the sub-cells of a leaf is the value of the leaf. *)
Theorem C74_mean : forall n m minl maxl w s order cells domain L lo hi r u values v values', recon_input n m minl maxl w s order cells domain L lo hi ->
  update_sub_mesh n m minl maxl w s cells = Some r -> reached values -> reconstruction n order cells (r_all r) domain u values = Some (v, values') ->
  forall l p, ca_mem n cells l p ->
    (qsum (map v (map (subcell (L - l) p) (block (repeat (0, 2 ^ Z.of_nat (L - l))%Z (S n))))) == inject_Z (2 ^ Z.of_nat (S n * (L - l))) * u l p)%Q.
Proof.
  intros n m minl maxl w s order cells domain L lo hi r u values v values' HI HR Hv E l p Hp. pose proof HI as (HM & HT & _ & _ & HmL & _ & Ho & _).
  destruct (C74_values n m minl maxl w s order cells domain L lo hi r u values HI HR Hv) as (v1 & values1 & E1 & _ & P). rewrite E in E1. injection E1 as <- <-.
  pose proof HT as (_ & Hin & _). pose proof (Hin l p Hp) as Ip. pose proof (proj1 Ip) as Lp. assert (Hl : (l <= L)%nat) by (apply (in_range n m minl maxl w s cells HM) in Hp; lia).
  pose proof (C72_mean (fun _ => []) order (u l) p (L - l) (fun _ => reached_nil) Ho) as CM. rewrite Lp in CM. rewrite <- CM. rewrite map_map.
  match goal with |- (qsum (map ?f ?b) == qsum (map ?g ?b))%Q => fold (sum_over f b); fold (sum_over g b) end. apply sum_ext. intros sb Hsb.
  apply block_In in Hsb as [S1 S2]; [|apply Z.pow_nonneg; lia]. rewrite portion_is by (auto; try constructor; congruence).
  assert (EA : ancestor (L - l) (subcell (L - l) p sb) = p) by (apply subcell_ancestor; auto; congruence).
  apply (P (subcell (L - l) p sb)); auto; [|rewrite EA; auto]. replace L with (l + (L - l))%nat at 1 by lia. apply inside_ancestor. rewrite EA.
  split; auto. rewrite subcell_length; congruence.
Qed.

(** The sum over the finest level is the sum over the leaves, weighted by their volumes. *)
Theorem C74_conserved : forall n m minl maxl w s order cells domain L lo hi r u values v values', recon_input n m minl maxl w s order cells domain L lo hi ->
  update_sub_mesh n m minl maxl w s cells = Some r -> reached values -> reconstruction n order cells (r_all r) domain u values = Some (v, values') ->
  forall leaves fine, NoDup leaves -> (forall l p, In (l, p) leaves <-> ca_mem n cells l p) -> NoDup fine -> (forall c, In c fine <-> inside n lo hi L c) ->
    (qsum (map v fine) == qsum (map (fun '(l, p) => inject_Z (2 ^ Z.of_nat (S n * (L - l))) * u l p) leaves))%Q.
Proof.
  intros n m minl maxl w s order cells domain L lo hi r u values v values' HI HR Hv E leaves fine N1 H1 N2 H2. pose proof HI as (HM & HT & _ & _ & HmL & _).
  pose proof HT as (NO & Hin & Cov). assert (Rg : forall l p, ca_mem n cells l p -> (l <= L)%nat) by (intros l p Hp; apply (in_range n m minl maxl w s cells HM) in Hp; lia).
  set (kids := fun lp : nat * list Z => map (subcell (L - fst lp) (snd lp)) (block (repeat (0, 2 ^ Z.of_nat (L - fst lp)) (S n)))).
  assert (K : forall l p c, ca_mem n cells l p -> (In c (kids (l, p)) <-> length c = S n /\ ancestor (L - l) c = p)).
  { intros l p c Hp. pose proof (proj1 (Hin l p Hp)) as Lp. unfold kids. cbn [fst snd]. rewrite in_map_iff. split.
    - intros (sb & <- & Hs). apply block_In in Hs as [S1 S2]; [|apply Z.pow_nonneg; lia]. rewrite subcell_length by congruence. split; auto. apply subcell_ancestor; auto. congruence.
    - intros [Lc <-]. destruct (subcell_of (L - l) c) as (sb & S1 & S2 & S3). exists sb. split; auto. apply block_In; [apply Z.pow_nonneg; lia|]. split; auto. congruence. }
  assert (Pm : Permutation fine (flat_map kids leaves)).
  { apply NoDup_Permutation; auto.
    - assert (Sub : forall l p, In (l, p) leaves -> ca_mem n cells l p) by (intros; apply H1; auto). clear H1. induction leaves as [|[l p] leaves IH]; cbn [flat_map]; [constructor|].
      apply NoDup_cons_iff in N1 as [Hn N1]. pose proof (Sub l p (or_introl eq_refl)) as Hp. apply NoDup_app2.
      + unfold kids. cbn [fst snd]. pose proof (proj1 (Hin l p Hp)) as Lp.
        assert (Lb : forall q, In q (block (repeat (0, 2 ^ Z.of_nat (L - l)) (S n))) -> length q = S n) by (intros q Hq; apply block_In in Hq; [apply Hq|apply Z.pow_nonneg; lia]).
        generalize (block_NoDup (repeat (0, 2 ^ Z.of_nat (L - l)) (S n))). revert Lb. generalize (block (repeat (0, 2 ^ Z.of_nat (L - l)) (S n))). clear - Lp. intros b Lb Hb.
        induction Hb as [|q b Hq Hb IHb]; cbn [map]; constructor; [|apply IHb; intros; apply Lb; right; auto]. intros Hc. apply in_map_iff in Hc as (q' & Eq & Hq').
        apply subcell_inj in Eq; [subst; auto|rewrite Lp; symmetry; apply Lb; right; auto|rewrite Lp; symmetry; apply Lb; left; auto].
      + apply IH; auto. intros; apply Sub; right; auto.
      + intros c Hc Hc'. apply in_flat_map in Hc' as ([l' p'] & Hlp & Hc'). pose proof (Sub l' p' (or_intror Hlp)) as Hp'. apply K in Hc as [Lc Ec]; auto. apply K in Hc' as [_ Ec']; auto.
        pose proof (Rg _ _ Hp). pose proof (Rg _ _ Hp'). assert (l = l').
        { destruct (Nat.le_ge_cases l l') as [Hl|Hl]; [apply (NO l l' p p' Hp Hp' Hl)|symmetry; apply (NO l' l p' p Hp' Hp Hl)]; subst; rewrite ancestor_add; f_equal; lia. }
        subst l'. rewrite Ec in Ec'. subst p'. auto.
    - intros c. rewrite H2, in_flat_map. split.
      + intros Hc. destruct (Cov L c) as (l & Hl & Hm); [intros l q Hq; apply (Rg l q Hq)|auto|]. exists (l, ancestor (L - l) c). split; [apply H1; auto|]. apply K; auto. split; auto. apply Hc.
      + intros ([l p] & Hlp & Hc). apply H1 in Hlp. apply K in Hc as [Lc Ec]; auto. pose proof (Rg _ _ Hlp). replace L with (l + (L - l))%nat by lia. apply inside_ancestor. split; auto.
        rewrite Ec. apply Hin. auto. }
  fold (sum_over v fine). rewrite (sum_perm _ v _ _ Pm), sum_flat.
  match goal with |- (_ == qsum (map ?f ?b))%Q => fold (sum_over f b) end. apply sum_ext. intros [l p] Hlp. apply H1 in Hlp. unfold sum_over, kids. cbn [fst snd].
  apply (C74_mean n m minl maxl w s order cells domain L lo hi r u values v values'); auto.
Qed.

(** ** A case: the unit square with leaves of levels 1 to 3, refined toward a corner, order 1
    and margin 2. *)
Lemma square_input : forall w, 1 <= w <= 2 -> mr_input 1 4 1 3 w 1 PropsAdapt.exMesh /\ tiles 1 PropsAdapt.exMesh [0; 0] [1; 1] /\
  domain_box 1 squareDomain 3 [0; 0] [1; 1] /\ below_max 1 squareDomain.
Proof.
  intros w Hw. destruct C70_case as ((A & B & _) & _). destruct C54_hypotheses as (_ & T & _). split; [|split; [exact T|split; [exact B|]]].
  - pose proof A as (A1 & A2 & A3 & A4 & A5 & A6 & A7 & _). split; [exact A1|]. split; [exact A2|]. split; [exact A3|]. split; [exact A4|].
    split; [lia|]. split; [lia|]. split; [exact A7|]. intros l q k Hq Hk. pose proof (A7 l q Hq) as Hl. apply T in Hq as [_ Hq]. specialize (Hq k Hk).
    assert (nth k [1; 1] 0 = 1) as E1 by (destruct k as [|[|k]]; [reflexivity|reflexivity|lia]). rewrite E1 in Hq.
    assert (2 ^ Z.of_nat l <= 2 ^ 3) by (apply Z.pow_le_mono_r; lia). change (2 ^ 3) with 8 in *. change (2 ^ 31) with 2147483648. lia.
  - destruct B as (_ & _ & _ & M). intros q k Hq Hk. apply M in Hq as [_ Hq]. specialize (Hq k Hk). change (2 ^ Z.of_nat 3) with 8 in Hq. change (2 ^ 31) with 2147483648.
    assert (nth k [1; 1] 0 = 1) as E1 by (destruct k as [|[|k]]; [reflexivity|reflexivity|lia]). rewrite E1 in Hq. lia.
Qed.

Example C74_case : recon_input 1 4 1 3 2 1 1 PropsAdapt.exMesh squareDomain 3 [0; 0] [1; 1].
Proof. destruct (square_input 2 ltac:(lia)) as (A & B & C & D). split; [exact A|]. split; [exact B|]. split; [exact C|]. split; [exact D|]. repeat split; lia. Qed.

Notation squareRecon w u := (let* r := update_sub_mesh 1 4 1 3 w 1 PropsAdapt.exMesh in reconstruction 1 1 PropsAdapt.exMesh (r_all r) squareDomain u []).

(** Leaves at x + 2 y: the cells of level 3 get the same function. *)
Example C74_example : option_map (fun '(v, _) => map (fun p => Qred (v p)) [[0; 0]; [1; 0]; [0; 1]; [5; 2]; [7; 7]])
    (squareRecon 2 (fun l p => Qmake (2 ^ (3 - Z.of_nat l) * (2 * nth 0 p 0 + 1 + 2 * (2 * nth 1 p 0 + 1))) 2)) =
  Some [3 # 2; 5 # 2; 7 # 2; 21 # 2; 45 # 2]%Q.
Proof. vm_compute. reflexivity. Qed.
(** Values of no polynomial of degree 2. *)
Example C74_example_rough : option_map (fun '(v, _) => map (fun p => Qred (v p)) [[0; 0]; [1; 0]; [0; 1]; [5; 2]; [7; 7]])
    (squareRecon 2 (fun l p => if zlist_eqb p [0; 0] then 64%Q else 0%Q)) = Some [3249 # 64; 4047 # 64; 4047 # 64; -71 # 64; 0]%Q.
Proof. vm_compute. reflexivity. Qed.

(** With a margin equal to the order of the prediction, the default of the library, a leaf two
    levels above the finest one reads a cell at a distance of two, which is not stored. *)
Theorem C74_margin_refuted : exists r, mr_input 1 4 1 3 1 1 PropsAdapt.exMesh /\ tiles 1 PropsAdapt.exMesh [0; 0] [1; 1] /\
  domain_box 1 squareDomain 3 [0; 0] [1; 1] /\ below_max 1 squareDomain /\ update_sub_mesh 1 4 1 3 1 1 PropsAdapt.exMesh = Some r /\
  reconstruction 1 1 PropsAdapt.exMesh (r_all r) squareDomain (fun _ _ => 1%Q) [] = None.
Proof.
  destruct (square_input 1 ltac:(lia)) as (A & B & C & D). destruct (C54_contents 1 4 1 3 1 1 PropsAdapt.exMesh A) as (r & E & _). exists r.
  split; [exact A|]. split; [exact B|]. split; [exact C|]. split; [exact D|]. split; [exact E|].
  assert (X : squareRecon 1 (fun _ _ => 1%Q) = None) by (vm_compute; reflexivity). rewrite E in X. exact X.
Qed.

Print Assumptions C74_values.
Print Assumptions C74_exact.
Print Assumptions C74_mean.
Print Assumptions C74_conserved.
Print Assumptions C74_margin_refuted.
