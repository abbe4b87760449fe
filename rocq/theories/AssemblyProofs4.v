(** Proofs about the assembly of the matrix: the rows of the leaves are the explicit scheme (C78). *)
From Coq Require Import QArith.
From Verif Require Import Base IntervalModel Spec LoiModel LcaModel LcaSpec LcaProofs LcaProofs3 RowsProofs CellArrayModel CellArrayProofs
  PropsLca PropsCellArray SubsetModel TreeProofs SubsetSpec SubsetProofs2 PropsSubset StencilModel NumberingProofs StencilProofs PropsStencil
  MeshModel MeshProofs PropsMesh AdaptModel AdaptProofs TagProofs PropsAdapt InterfaceModel InterfaceProofs PropsInterface GeomModel FluxModel BoundaryProofs PropsBoundary FluxProofs NumModel NumProofs GhostModel
  ReconModel ReconProofs PropsFlux LinFluxModel LinFluxProofs LinFluxProofs2 PropsLinFlux AssemblyModel AssemblyProofs AssemblyProofs2 AssemblyProofs3.
Open Scope Z_scope.

Lemma over_levels_match2 : forall (A B : Type) (M : list A -> list B -> Prop) cells (f : nat -> option (list A)) (g : nat -> option (list B)) ls o, M [] [] ->
  (forall a b x y, M a x -> M b y -> M (a ++ b) (x ++ y)) -> over_levels cells g ls = Some o ->
  (forall l x, In l ls -> lca_is_empty (c_at cells l) = false -> g l = Some x -> exists a, f l = Some a /\ M a x) -> exists rs, over_levels cells f ls = Some rs /\ M rs o.
Proof.
  intros A B M cells f g ls o M0 MA. revert o. induction ls as [|l ls IH]; intros o H K; cbn [over_levels] in *; [injection H as <-; exists []; auto|].
  destruct (lca_is_empty (c_at cells l)) eqn:Em.
  - destruct (over_levels cells g ls) as [y|] eqn:Ey; [|discriminate]. injection H as <-. destruct (IH y eq_refl (fun l x Hl => K l x (or_intror Hl))) as (b & -> & Mb). exists b. auto.
  - destruct (g l) as [x|] eqn:Eg; [|discriminate]. destruct (over_levels cells g ls) as [y|] eqn:Ey; [|discriminate]. injection H as <-.
    destruct (K l x (or_introl eq_refl) Em Eg) as (a & -> & Ma). destruct (IH y eq_refl (fun l x Hl => K l x (or_intror Hl))) as (b & -> & Mb). exists (a ++ b). auto.
Qed.
Lemma Forall2_map_same : forall (A B C : Type) (f : A -> B) (g : A -> C) (R : B -> C -> Prop) l, (forall a, In a l -> R (f a) (g a)) -> Forall2 R (map f l) (map g l).
Proof. intros A B C f g R. induction l as [|a l IH]; intros H; cbn [map]; constructor; [apply H; left; auto|apply IH; intros; apply H; right; auto]. Qed.

Section Scheme.
  Context (n m : nat) (hist : nat -> list lcl_call) (maxl : nat) (st : stencil) (cells : ca) (domain : lca) (scaling : Q) (ib : bool) (lfs : nat -> lin_flux).
  Context (LM : lin_mesh n m hist maxl st cells domain scaling ib lfs).
  Notation ref := (client_ca n m hist true).
  Context (y : layout) (HN : ly_cells y = ca_nb_cells ref).
  Let NR : numbered n ref := numbered_client n m hist (lm_hist _ _ _ _ _ _ _ _ _ _ LM).

  Definition is_leaf (c : scell) : Prop := ca_mem n cells (sc_level c) (sc_coord c) /\ cell_is n ref (sc_level c) (sc_coord c) c.
  Lemma is_cellok : forall l p e, ca_mem n ref l p -> cell_is n ref l p e -> cellok y (sc_index e).
  Proof. intros l p e Hp (_ & _ & E). destruct (numbered_index n ref l p NR Hp) as (i & Ei & R). unfold cellok. rewrite HN. congruence. Qed.

  Definition elt_ok (e : iface * (coeffs * coeffs)) : Prop := exists a b, fst (fst e) = [a; b] /\ is_leaf a /\ is_leaf b /\ cellok y (sc_index a) /\ cellok y (sc_index b) /\
    Forall (fun c => cellok y (sc_index c)) (snd (fst e)) /\ length (fst (snd e)) = length (snd (fst e)) /\ length (snd (snd e)) = length (snd (fst e)).
  Definition pairs (os fs : nat) (u : output) (e : iface * (coeffs * coeffs)) (ev : event) : Prop :=
    fst (fst e) = fst ev /\ forall k, (k < os)%nat -> (lin_value fs u (fst (snd e)) (snd (fst e)) k == fst (snd ev) k)%Q /\ (lin_value fs u (snd (snd e)) (snd (fst e)) k == snd (snd ev) k)%Q.

  Lemma iface_pairs : forall os fs u F L ns fc hf hl hr (i : iface) lcs rcs, agrees os fs u F L ns fc -> length (snd i) = ns -> Forall (fun e => sc_level e = L) (snd i) ->
    scaled fs u lcs (ratio n hf hl) fc -> scaled fs u rcs (- ratio n hf hr) fc ->
    pairs os fs u (i, (lcs, rcs)) (interior_event n F hf hl hr i) /\ length lcs = length (snd i) /\ length rcs = length (snd i).
  Proof.
    intros os fs u F L ns fc hf hl hr i lcs rcs [Lf A] Le Fl [L1 S1] [L2 S2]. split; [|split; congruence]. split; [reflexivity|]. intros k Hk. cbn [fst snd]. unfold interior_event. cbn [fst snd]. rewrite !contribution_ratio.
    destruct (A (snd i) Le Fl k Hk) as [A1 A2]. rewrite S1, S2, A1, A2. split; [reflexivity|ring].
  Qed.

  Lemma stencil_facts : forall l z comput es, fits_at n ref comput l z -> Forall2 (fun v e => cell_is n ref l (vadd n z v) e) comput es ->
    length es = length comput /\ Forall (fun e => sc_level e = l) es /\ Forall (fun e => cellok y (sc_index e)) es.
  Proof.
    intros l z comput es [FT _] F. split; [|split].
    - clear FT. induction F; cbn; congruence.
    - apply Forall_forall. intros e He. destruct (Forall2_In_r _ _ _ _ _ _ F He) as (v & _ & (E & _)). exact E.
    - apply Forall_forall. intros e He. destruct (Forall2_In_r _ _ _ _ _ _ F He) as (v & Hv & C). eapply is_cellok; [|exact C]. auto.
  Qed.
  Lemma leaf_cell : forall l p c, ca_mem n cells l p -> cell_is n ref l p c -> is_leaf c /\ cellok y (sc_index c).
  Proof.
    intros l p c Hp C. pose proof C as (C1 & C2 & C3). split; [unfold is_leaf; rewrite C1, C2; auto|]. eapply is_cellok; [|exact C].
    apply (sr_leaves _ _ _ _ _ (lm_room _ _ _ _ _ _ _ _ _ _ LM 0%nat (Nat.le_0_l n))). exact Hp.
  Qed.

  Definition imatch (os fs : nat) (u : output) (L : list (iface * (coeffs * coeffs))) (evs : list event) : Prop := Forall2 (fun e ev => elt_ok e /\ pairs os fs u e ev) L evs.
  Lemma imatch_app : forall os fs u a b x z, imatch os fs u a x -> imatch os fs u b z -> imatch os fs u (a ++ b) (x ++ z).
  Proof. intros. apply Forall2_app; auto. Qed.

  Lemma interior_match : forall os fs u d evs, (d <= n)%nat -> scheme_interior n maxl scaling ref cells d (linear_flux fs scaling u (lfs d)) = Some evs ->
    exists L, lin_interior_cells n maxl scaling ref cells d (lfs d) = Some L /\ imatch os fs u L evs.
  Proof.
    intros os fs u d evs Hd. pose proof LM as [G HS HM HR HB HG HC]. specialize (HM d Hd). specialize (HR d Hd). destruct (HG d Hd) as (G1 & G2 & G3). pose proof (fun h => HC d h Hd) as HCd.
    set (F := flux_function (linear_flux fs scaling u (lfs d))).
    assert (AG : forall L, agrees os fs u F L (length (lf_stencil (lfs d))) (lf_cons (lfs d) (cell_length scaling L))) by (intros L; apply linear_agrees; auto).
    unfold scheme_interior, lin_interior_cells. change (nf_stencil (linear_flux fs scaling u (lfs d))) with (lf_stencil (lfs d)). fold F.
    match goal with |- context [each_level ?g ?ls] => destruct (each_level g ls) as [o1|] eqn:E1; [|discriminate] end.
    match goal with |- context [each_level ?g ?ls] => destruct (each_level g ls) as [o2|] eqn:E2; [|discriminate] end.
    intros H. injection H as <-.
    eapply (each_level_match _ _ (imatch os fs u)) in E1 as (r1 & -> & M1); [|constructor|apply imatch_app|].
    - eapply (each_level_match _ _ (imatch os fs u)) in E2 as (r2 & -> & M2); [|constructor|apply imatch_app|].
      + exists (r1 ++ r2). split; [reflexivity|]. apply imatch_app; auto.
      + intros l x Hl E. cbv zeta in *.
        destruct (level_jump_spec n d maxl st (lf_stencil (lfs d)) ref cells Hd HM HR NR G1 G2 G3 l) as (z1 & a & Ea & _ & Z1 & C1).
        destruct (opposite_spec n d maxl st (lf_stencil (lfs d)) ref cells Hd HM HR NR G1 G2 G3 l) as (z2 & b & Eb & _ & Z2 & C2). rewrite Ea, Eb in E |- *. injection E as <-. eexists. split; [reflexivity|].
        apply imatch_app; apply Forall2_map_same; intros i Hi.
        * destruct (Forall2_In_r _ _ _ _ _ _ C1 Hi) as (z & Hz & (ca0 & cb & Ei & A0 & B0) & FS). apply Z1 in Hz as (Lz & Hp & Hq).
          destruct (stencil_facts _ _ _ _ (sr_jump _ _ _ _ _ HR l z Lz Hp Hq) FS) as (S1 & S2 & S3).
          destruct (iface_pairs os fs u F (S l) _ _ (cell_length scaling (S l)) (cell_length scaling l) (cell_length scaling (S l)) i _ _ (AG (S l)) S1 S2 (scaled_contribution n fs u _ _ _) (scaled_contribution_neg n fs u _ _ _)) as (P & L1 & L2).
          split; [|exact P]. destruct (leaf_cell _ _ _ Hp A0) as [A1 A2]. destruct (leaf_cell _ _ _ Hq B0) as [B1 B2]. exists ca0, cb. cbn [fst snd]. repeat (split; [assumption|]). assumption.
        * destruct (Forall2_In_r _ _ _ _ _ _ C2 Hi) as (z & Hz & (ca0 & cb & Ei & A0 & B0) & FS). apply Z2 in Hz as (Lz & Hp & Hq). rewrite (neg_unit_mult n d 1) in Hq, B0.
          destruct (stencil_facts _ _ _ _ (sr_opposite _ _ _ _ _ HR l z Lz Hp Hq) FS) as (S1 & S2 & S3). rewrite minus_length in S1.
          destruct (iface_pairs os fs u F (S l) _ _ (cell_length scaling (S l)) (cell_length scaling (S l)) (cell_length scaling l) i _ _ (AG (S l)) S1 S2 (scaled_contribution n fs u _ _ _) (scaled_contribution_neg n fs u _ _ _)) as (P & L1 & L2).
          split; [|exact P]. destruct (leaf_cell _ _ _ Hp A0) as [A1 A2]. destruct (leaf_cell _ _ _ Hq B0) as [B1 B2]. exists cb, ca0. cbn [fst snd]. repeat (split; [assumption|]). assumption.
    - intros l x Hl E. cbv zeta in *. change (seq (min_level cells) (S (max_level cells) - min_level cells)) with (levels cells) in Hl. apply (proj1 (proj2 (levels_spec cells))) in Hl.
      destruct (same_level_spec n d maxl st (lf_stencil (lfs d)) ref cells Hd HM HR NR G1 G2 G3 l Hl) as (z1 & a & Ea & _ & Z1 & C1). rewrite Ea in E |- *. injection E as <-. eexists. split; [reflexivity|].
      apply Forall2_map_same. intros i Hi. destruct (Forall2_In_r _ _ _ _ _ _ C1 Hi) as (z & Hz & (ca0 & cb & Ei & A0 & B0) & FS). apply Z1 in Hz as (Hp & Hq).
      destruct (stencil_facts _ _ _ _ (sr_same _ _ _ _ _ HR l z Hp Hq) FS) as (S1 & S2 & S3).
      destruct (iface_pairs os fs u F l _ _ (cell_length scaling l) (cell_length scaling l) (cell_length scaling l) i _ _ (AG l) S1 S2 (scaled_contribution n fs u _ _ _) (scaled_neg_contribution n fs u _ _ _)) as (P & L1 & L2).
      split; [|exact P]. destruct (leaf_cell _ _ _ Hp A0) as [A1 A2]. destruct (leaf_cell _ _ _ Hq B0) as [B1 B2]. exists ca0, cb. cbn [fst snd]. repeat (split; [assumption|]). assumption.
  Qed.

  (** The boundary; [direct]: its stencils contain no ghost to be eliminated. *)
  Definition direct (rec : recursion) : Prop := forall d l p v i, (d <= n)%nat -> ca_mem n cells l p -> In v (lf_stencil (lfs d)) ->
    (outside n domain l (vadd n p (unit_mult n d 1)) -> ca_get_index n ref l (vadd n p v) = Some i -> rec_find i rec = None) /\
    (outside n domain l (vadd n p (unit_mult n d (-1))) -> ca_get_index n ref l (vadd n (vadd n p (unit_mult n d (-1))) v) = Some i -> rec_find i rec = None).
  Definition belt_ok (rec : recursion) (e : iface * coeffs) : Prop := exists a, fst (fst e) = [a] /\ is_leaf a /\ cellok y (sc_index a) /\
    Forall (fun c => cellok y (sc_index c) /\ rec_find (sc_index c) rec = None) (snd (fst e)) /\ length (snd e) = length (snd (fst e)).
  Definition bpairs (os fs : nat) (u : output) (e : iface * coeffs) (ev : list scell * value) : Prop :=
    fst (fst e) = fst ev /\ forall k, (k < os)%nat -> (lin_value fs u (snd e) (snd (fst e)) k == snd ev k)%Q.
  Definition bmatch (rec : recursion) (os fs : nat) (u : output) (L : list (iface * coeffs)) (evs : list (list scell * value)) : Prop := Forall2 (fun e ev => belt_ok rec e /\ bpairs os fs u e ev) L evs.
  Lemma bmatch_app : forall rec os fs u a b x z, bmatch rec os fs u a x -> bmatch rec os fs u b z -> bmatch rec os fs u (a ++ b) (x ++ z).
  Proof. intros. apply Forall2_app; auto. Qed.

  Lemma boundary_match : forall rec os fs u d evs, ib = true -> direct rec -> (d <= n)%nat -> scheme_boundary n scaling ref cells domain d (linear_flux fs scaling u (lfs d)) = Some evs ->
    exists L, lin_boundary_cells n scaling ref cells domain d (lfs d) = Some L /\ bmatch rec os fs u L evs.
  Proof.
    intros rec os fs u d evs Hib HD Hd. pose proof LM as [G HS HM HR HB HG HC]. specialize (HB Hib d Hd). destruct (HG d Hd) as (G1 & G2 & G3). pose proof (fun h => HC d h Hd) as HCd.
    set (F := flux_function (linear_flux fs scaling u (lfs d))).
    assert (AG : forall L, agrees os fs u F L (length (lf_stencil (lfs d))) (lf_cons (lfs d) (cell_length scaling L))) by (intros L; apply linear_agrees; auto).
    unfold scheme_boundary, lin_boundary_cells. change (nf_stencil (linear_flux fs scaling u (lfs d))) with (lf_stencil (lfs d)). fold F. intros H.
    eapply (over_levels_match2 _ _ (bmatch rec os fs u)) in H as (r1 & E1 & M1); [exists r1; split; [exact E1|exact M1]|constructor|apply bmatch_app|].
    intros l x Hl He E. cbv zeta in *.
    pose proof (level_leaf n cells l (bm_wf _ _ _ _ _ _ HB) (bm_level _ _ _ _ _ _ HB) Hl He) as HL.
    destruct (direction_spec n d domain ref cells (lf_stencil (lfs d)) Hd HB NR G1 G2 G3 l HL) as (z1 & a & Ea & _ & Z1 & C1).
    destruct (bopposite_spec n d domain ref cells (lf_stencil (lfs d)) Hd HB NR G1 G3 l HL) as (z2 & b & Eb & _ & Z2 & C2). rewrite Ea, Eb in E |- *. injection E as <-. eexists. split; [reflexivity|].
    assert (NONE : forall z es (comput : stencil), (forall v i, In v comput -> ca_get_index n ref l (vadd n z v) = Some i -> rec_find i rec = None) -> Forall2 (fun v e => cell_is n ref l (vadd n z v) e) comput es ->
      Forall (fun e => cellok y (sc_index e)) es -> Forall (fun c => cellok y (sc_index c) /\ rec_find (sc_index c) rec = None) es).
    { intros z es comput HN0 F0 K. apply Forall_forall. intros e Hin. rewrite Forall_forall in K. split; [auto|]. destruct (Forall2_In_r _ _ _ _ _ _ F0 Hin) as (v & Hv & (_ & _ & Ei)). apply (HN0 v); auto. }
    apply bmatch_app; apply Forall2_map_same; intros i Hi.
    - destruct (Forall2_In_r _ _ _ _ _ _ C1 Hi) as (z & Hz & (c & Ei & A0) & FS). apply Z1 in Hz as (Hp & Ho). destruct (bm_room _ _ _ _ _ _ HB l z Hp Ho) as (_ & _ & FT).
      destruct (stencil_facts _ _ _ _ FT FS) as (S1 & S2 & S3). destruct (leaf_cell _ _ _ Hp A0) as [A1 A2]. destruct (AG l) as [Lf A]. destruct (scaled_contribution n fs u (lf_cons (lfs d) (cell_length scaling l)) (cell_length scaling l) (cell_length scaling l)) as [L1 SC]. split.
      + exists c. cbn [fst snd]. split; [exact Ei|]. split; [exact A1|]. split; [exact A2|]. split; [|congruence]. apply (NONE z _ (lf_stencil (lfs d))); auto. intros v j Hv. apply (HD d l z v j Hd Hp Hv). exact Ho.
      + split; [reflexivity|]. intros k Hk. cbn [fst snd boundary_event]. unfold boundary_event. cbn [snd]. rewrite contribution_ratio. destruct (A (snd i) S1 S2 k Hk) as [Q1 _]. rewrite SC, Q1. reflexivity.
    - destruct (Forall2_In_r _ _ _ _ _ _ C2 Hi) as (z & Hz & (c & Ei & A0) & FS). apply Z2 in Hz as (Hp & Ho). rewrite (neg_unit_mult n d 1) in Ho. destruct (bm_opposite _ _ _ _ _ _ HB l z Hp Ho) as (_ & _ & FT).
      destruct (stencil_facts _ _ _ _ FT FS) as (S1 & S2 & S3). rewrite minus_length in S1. destruct (leaf_cell _ _ _ Hp A0) as [A1 A2]. destruct (AG l) as [Lf A].
      destruct (scaled_contribution_neg n fs u (lf_cons (lfs d) (cell_length scaling l)) (cell_length scaling l) (cell_length scaling l)) as [L1 SC]. split.
      + exists c. cbn [fst snd]. split; [exact Ei|]. split; [exact A1|]. split; [exact A2|]. split; [|congruence]. apply (NONE z _ (stencil_minus (lf_stencil (lfs d)) (unit_mult n d 1))); auto.
        intros v j Hv. apply (minus_In n d (lf_stencil (lfs d)) ref Hd G1 G3) in Hv as (w & Hw & ->). intros Ej. apply (proj2 (HD d l z w j Hd Hp Hw) Ho). rewrite <- Ej. f_equal.
        assert (length z = S n) by apply Hp. apply (list_ext n); try apply vadd_length. intros k Hk. rewrite !nth_vadd by auto. rewrite (neg_unit_mult n d 1). change (- (1)) with (-1). lia.
      + split; [reflexivity|]. intros k Hk. unfold boundary_event. cbn [fst snd]. rewrite contribution_ratio. destruct (A (snd i) S1 S2 k Hk) as [_ Q1]. rewrite SC, Q1. ring.
  Qed.
End Scheme.
