(** Proofs about the algebra of linear schemes: what the intervals of interfaces of a linear
    combination of two schemes add to the output. *)
From Coq Require Import QArith Qpower Permutation.
From Verif Require Import Base IntervalModel Spec LoiModel LcaModel LcaSpec LcaProofs LcaProofs3 RowsProofs CellArrayModel CellArrayProofs
  PropsLca PropsCellArray SubsetModel TreeProofs SubsetSpec SubsetProofs2 PropsSubset StencilModel NumberingProofs StencilProofs PropsStencil
  MeshModel MeshProofs PropsMesh AdaptModel AdaptProofs TagProofs PropsAdapt GradModel GradProofs PropsGrad NumProofs InterfaceModel InterfaceProofs
  PropsInterface GeomModel PropsNum PropsTransfer FluxModel BoundaryProofs PropsBoundary FluxProofs PropsFlux GhostModel ReconModel LinFluxModel LinFluxProofs LinFluxProofs2 PropsLinFlux SumModel.
Open Scope Z_scope.

Inductive Forall3 {A B C : Type} (P : A -> B -> C -> Prop) : list A -> list B -> list C -> Prop :=
| F3_nil : Forall3 P [] [] []
| F3_cons : forall a b c la lb lc, P a b c -> Forall3 P la lb lc -> Forall3 P (a :: la) (b :: lb) (c :: lc).

Lemma F3_app : forall (A B C : Type) (P : A -> B -> C -> Prop) a1 b1 c1 a2 b2 c2, Forall3 P a1 b1 c1 -> Forall3 P a2 b2 c2 -> Forall3 P (a1 ++ a2) (b1 ++ b2) (c1 ++ c2).
Proof. intros A B C P a1 b1 c1 a2 b2 c2 F G. induction F; cbn [app]; [exact G|constructor; auto]. Qed.
Lemma F3_map : forall (A B C X : Type) (P : A -> B -> C -> Prop) (f : X -> A) g h l, (forall x, P (f x) (g x) (h x)) -> Forall3 P (map f l) (map g l) (map h l).
Proof. intros A B C X P f g h l H. induction l; cbn [map]; constructor; auto. Qed.
Lemma F3_sum : forall (A B C : Type) (P : A -> B -> C -> Prop) (f : A -> Q) (g : B -> Q) (h : C -> Q) x y la lb lc, (forall a b c, P a b c -> (h c == x * f a + y * g b)%Q) ->
  Forall3 P la lb lc -> (sum_over h lc == x * sum_over f la + y * sum_over g lb)%Q.
Proof. intros A B C P f g h x y la lb lc H F. induction F; [rewrite !sum_nil; ring|]. rewrite !sum_cons, (H a b c), IHF by auto. ring. Qed.

Lemma each_level_F3 : forall (A B C : Type) (P : A -> B -> C -> Prop) f g h, (forall l a b c, f l = Some a -> g l = Some b -> h l = Some c -> Forall3 P a b c) ->
  forall ls a b c, each_level f ls = Some a -> each_level g ls = Some b -> each_level h ls = Some c -> Forall3 P a b c.
Proof.
  intros A B C P f g h H. induction ls as [|l ls IH]; intros a b c E1 E2 E3; cbn [each_level] in *.
  - injection E1 as <-. injection E2 as <-. injection E3 as <-. constructor.
  - destruct (f l) as [a1|] eqn:F1; [|discriminate]. destruct (g l) as [b1|] eqn:F2; [|discriminate]. destruct (h l) as [c1|] eqn:F3; [|discriminate].
    destruct (each_level f ls) as [a2|]; [|discriminate]. destruct (each_level g ls) as [b2|]; [|discriminate]. destruct (each_level h ls) as [c2|]; [|discriminate].
    injection E1 as <-. injection E2 as <-. injection E3 as <-. apply F3_app; [apply (H l); auto|apply IH; auto].
Qed.
Lemma over_levels_F3 : forall (A B C : Type) (P : A -> B -> C -> Prop) cells f g h, (forall l a b c, f l = Some a -> g l = Some b -> h l = Some c -> Forall3 P a b c) ->
  forall ls a b c, over_levels cells f ls = Some a -> over_levels cells g ls = Some b -> over_levels cells h ls = Some c -> Forall3 P a b c.
Proof.
  intros A B C P cells f g h H. induction ls as [|l ls IH]; intros a b c E1 E2 E3; cbn [over_levels] in *.
  - injection E1 as <-. injection E2 as <-. injection E3 as <-. constructor.
  - destruct (lca_is_empty (c_at cells l)).
    + destruct (over_levels cells f ls) as [a2|]; [|discriminate]. destruct (over_levels cells g ls) as [b2|]; [|discriminate]. destruct (over_levels cells h ls) as [c2|]; [|discriminate].
      injection E1 as <-. injection E2 as <-. injection E3 as <-. cbn [app]. apply IH; auto.
    + destruct (f l) as [a1|] eqn:F1; [|discriminate]. destruct (g l) as [b1|] eqn:F2; [|discriminate]. destruct (h l) as [c1|] eqn:F3; [|discriminate].
      destruct (over_levels cells f ls) as [a2|]; [|discriminate]. destruct (over_levels cells g ls) as [b2|]; [|discriminate]. destruct (over_levels cells h ls) as [c2|]; [|discriminate].
      injection E1 as <-. injection E2 as <-. injection E3 as <-. apply F3_app; [apply (H l); auto|apply IH; auto].
Qed.

(** ** Linear combinations of coefficients *)
Section Comb.
  Context (x y : Q).
  Definition mcomb (m1 m2 m3 : nat -> nat -> Q) : Prop := forall i j, (m3 i j == x * m1 i j + y * m2 i j)%Q.
  Definition ccomb : coeffs -> coeffs -> coeffs -> Prop := Forall3 mcomb.

  Lemma ccomb_map : forall q c1 c2 c3, ccomb c1 c2 c3 ->
    ccomb (map (fun m i j => (q * m i j)%Q) c1) (map (fun m i j => (q * m i j)%Q) c2) (map (fun m i j => (q * m i j)%Q) c3).
  Proof. intros q c1 c2 c3 F. induction F; cbn [map]; constructor; auto. intros i j. cbn beta. rewrite (H i j). ring. Qed.
  Lemma ccomb_contribution : forall n hf hc c1 c2 c3, ccomb c1 c2 c3 -> ccomb (coeff_contribution n c1 hf hc) (coeff_contribution n c2 hf hc) (coeff_contribution n c3 hf hc).
  Proof. intros. apply ccomb_map. auto. Qed.
  Lemma ccomb_neg : forall c1 c2 c3, ccomb c1 c2 c3 -> ccomb (coeff_neg c1) (coeff_neg c2) (coeff_neg c3).
  Proof. intros c1 c2 c3 F. unfold coeff_neg. induction F; cbn [map]; constructor; auto. intros i j. cbn beta. rewrite (H i j). ring. Qed.
  Lemma ccomb_value : forall fs u c1 c2 c3 es k, ccomb c1 c2 c3 -> (lin_value fs u c3 es k == x * lin_value fs u c1 es k + y * lin_value fs u c2 es k)%Q.
  Proof.
    intros fs u c1 c2 c3 es k F. unfold lin_value. rewrite <- !sum_scale, <- sum_plus. apply sum_ext. intros j _. revert es.
    induction F as [|m1 m2 m3 c1 c2 c3 H F IH]; intros es; cbn [combine]; [rewrite !sum_nil; ring|]. destruct es as [|e es]; [rewrite !sum_nil; ring|].
    rewrite !sum_cons, IH, (H k j). ring.
  Qed.

  (** [lf3] is [x * lf1 + y * lf2], with the stencil of both. *)
  Definition lcomb (lf1 lf2 lf3 : lin_flux) : Prop :=
    lf_stencil lf2 = lf_stencil lf1 /\ lf_stencil lf3 = lf_stencil lf1 /\ forall h, ccomb (lf_cons lf1 h) (lf_cons lf2 h) (lf_cons lf3 h).
  Definition rcomb (e1 e2 e3 : run * (coeffs * coeffs)) : Prop :=
    fst e2 = fst e1 /\ fst e3 = fst e1 /\ ccomb (fst (snd e1)) (fst (snd e2)) (fst (snd e3)) /\ ccomb (snd (snd e1)) (snd (snd e2)) (snd (snd e3)).
  Definition bcomb (e1 e2 e3 : run * coeffs) : Prop := fst e2 = fst e1 /\ fst e3 = fst e1 /\ ccomb (snd e1) (snd e2) (snd e3).

  Context (lf1 lf2 lf3 : lin_flux) (H : lcomb lf1 lf2 lf3).

  Lemma interior_comb : forall n maxl scaling ref cells d r1 r2 r3, lin_interior n maxl scaling ref cells d lf1 = Some r1 -> lin_interior n maxl scaling ref cells d lf2 = Some r2 ->
    lin_interior n maxl scaling ref cells d lf3 = Some r3 -> Forall3 rcomb r1 r2 r3.
  Proof.
    intros n maxl scaling ref cells d r1 r2 r3 E1 E2 E3. destruct H as (S2 & S3 & HC). unfold lin_interior in *. rewrite S2 in E2. rewrite S3 in E3.
    match type of E1 with (match ?a with _ => _ end = _) => destruct a as [a1|] eqn:A1; [|discriminate] end.
    match type of E1 with (match ?a with _ => _ end = _) => destruct a as [b1|] eqn:B1; [|discriminate] end.
    match type of E2 with (match ?a with _ => _ end = _) => destruct a as [a2|] eqn:A2; [|discriminate] end.
    match type of E2 with (match ?a with _ => _ end = _) => destruct a as [b2|] eqn:B2; [|discriminate] end.
    match type of E3 with (match ?a with _ => _ end = _) => destruct a as [a3|] eqn:A3; [|discriminate] end.
    match type of E3 with (match ?a with _ => _ end = _) => destruct a as [b3|] eqn:B3; [|discriminate] end.
    injection E1 as <-. injection E2 as <-. injection E3 as <-. apply F3_app.
    - refine (each_level_F3 _ _ _ rcomb _ _ _ _ _ _ _ _ A1 A2 A3). intros l a b c K1 K2 K3. cbv zeta in K1, K2, K3.
      destruct (same_level_runs n ref cells l (unit_mult n d 1) (lf_stencil lf1)) as [o|]; [|discriminate]. injection K1 as <-. injection K2 as <-. injection K3 as <-.
      apply F3_map. intros r. repeat split; cbn [fst snd]; [|apply ccomb_neg]; apply ccomb_contribution, HC.
    - refine (each_level_F3 _ _ _ rcomb _ _ _ _ _ _ _ _ B1 B2 B3). intros l a b c K1 K2 K3. cbv zeta in K1, K2, K3.
      destruct (level_jump_runs n maxl ref cells l (unit_mult n d 1) (lf_stencil lf1)) as [o|]; [|discriminate].
      destruct (level_jump_opposite_runs n maxl ref cells l (unit_mult n d 1) (lf_stencil lf1)) as [o'|]; [|discriminate]. injection K1 as <-. injection K2 as <-. injection K3 as <-.
      apply F3_app; apply F3_map; intros r; repeat split; cbn [fst snd]; apply ccomb_contribution; try apply ccomb_neg; apply HC.
  Qed.
  Lemma boundary_comb : forall n scaling ref cells domain d r1 r2 r3, lin_boundary n scaling ref cells domain d lf1 = Some r1 -> lin_boundary n scaling ref cells domain d lf2 = Some r2 ->
    lin_boundary n scaling ref cells domain d lf3 = Some r3 -> Forall3 bcomb r1 r2 r3.
  Proof.
    intros n scaling ref cells domain d r1 r2 r3 E1 E2 E3. destruct H as (S2 & S3 & HC). unfold lin_boundary in *. rewrite S2 in E2. rewrite S3 in E3. cbv zeta in E1, E2, E3.
    refine (over_levels_F3 _ _ _ bcomb _ _ _ _ _ _ _ _ _ E1 E2 E3). intros l a b c K1 K2 K3.
    destruct (boundary_direction_runs n ref cells domain l (unit_mult n d 1) (lf_stencil lf1)) as [o|]; [|discriminate].
    destruct (boundary_opposite_runs n ref cells domain l (unit_mult n d 1) (lf_stencil lf1)) as [o'|]; [|discriminate]. injection K1 as <-. injection K2 as <-. injection K3 as <-.
    apply F3_app; apply F3_map; intros r; repeat split; cbn [fst snd]; apply ccomb_contribution; try apply ccomb_neg; apply HC.
  Qed.
  Lemma effect_comb : forall os fs u n maxl scaling ref cells domain ib d r1 r2 r3 b1 b2 b3 i k,
    dir_runs n maxl scaling ref cells domain ib d lf1 r1 b1 -> dir_runs n maxl scaling ref cells domain ib d lf2 r2 b2 -> dir_runs n maxl scaling ref cells domain ib d lf3 r3 b3 ->
    (runs_effect os fs u r3 b3 i k == x * runs_effect os fs u r1 b1 i k + y * runs_effect os fs u r2 b2 i k)%Q.
  Proof.
    intros os fs u n maxl scaling ref cells domain ib d r1 r2 r3 b1 b2 b3 i k (E1 & _ & B1) (E2 & _ & B2) (E3 & _ & B3).
    pose proof (interior_comb _ _ _ _ _ _ _ _ _ E1 E2 E3) as F.
    assert (G : Forall3 bcomb b1 b2 b3).
    { destruct ib; [|subst; constructor]. exact (boundary_comb _ _ _ _ _ _ _ _ _ (proj1 B1) (proj1 B2) (proj1 B3)). }
    unfold runs_effect.
    rewrite (F3_sum _ _ _ rcomb (fun e => run_effect os fs u e i k) (fun e => run_effect os fs u e i k) (fun e => run_effect os fs u e i k) x y _ _ _) by
      (first [exact F | intros [r [p1 q1]] [r2' [p2 q2]] [r3' [p3 q3]] (K1 & K2 & K3 & K4); cbn [fst snd] in *; subst; unfold run_effect; destruct (r_cells r) as [|e [|e' [|e'' l]]]; try ring; destruct (Nat.ltb k os); [|ring];
        rewrite <- !sum_scale, <- sum_plus; apply sum_ext; intros ii _; rewrite !(hit_linear _ _ x y _ _ _ (ccomb_value _ _ _ _ _ _ _ K3)), !(hit_linear _ _ x y _ _ _ (ccomb_value _ _ _ _ _ _ _ K4)); ring]).
    rewrite (F3_sum _ _ _ bcomb (fun e => brun_effect os fs u e i k) (fun e => brun_effect os fs u e i k) (fun e => brun_effect os fs u e i k) x y _ _ _) by
      (first [exact G | intros [r p1] [r2' p2] [r3' p3] (K1 & K2 & K3); cbn [fst snd] in *; subst; unfold brun_effect; destruct (r_cells r) as [|e [|e' l]]; try ring; destruct (Nat.ltb k os); [|ring];
        rewrite <- !sum_scale, <- sum_plus; apply sum_ext; intros ii _; rewrite !(hit_linear _ _ x y _ _ _ (ccomb_value _ _ _ _ _ _ _ K3)); ring]).
    ring.
  Qed.
End Comb.

Lemma F3_length : forall (A B C : Type) (P : A -> B -> C -> Prop) a b c, Forall3 P a b c -> length b = length a /\ length c = length a.
Proof. intros A B C P a b c F. induction F; cbn [length]; [auto|]. lia. Qed.

(** The explicit scheme of a linear combination. *)
Lemma comb_apply : forall x y n m hist maxl st cells domain scaling ib lfs1 lfs2 lfs3 debug os fs u,
  lin_mesh n m hist maxl st cells domain scaling ib lfs1 -> lin_mesh n m hist maxl st cells domain scaling ib lfs2 -> lin_mesh n m hist maxl st cells domain scaling ib lfs3 ->
  (forall d, (d <= n)%nat -> lcomb x y (lfs1 d) (lfs2 d) (lfs3 d)) -> let ref := client_ca n m hist true in
  exists o1 o2 o3, lin_apply_to debug n maxl os fs scaling ref cells domain ib u lfs1 = Some o1 /\ lin_apply_to debug n maxl os fs scaling ref cells domain ib u lfs2 = Some o2 /\
    lin_apply_to debug n maxl os fs scaling ref cells domain ib u lfs3 = Some o3 /\ forall i k, (o3 i k == x * o1 i k + y * o2 i k)%Q.
Proof.
  intros x y n m hist maxl st cells domain scaling ib lfs1 lfs2 lfs3 debug os fs u L1 L2 L3 H ref.
  assert (G : forall ds, (forall d, In d ds -> (d <= n)%nat) -> forall ou ov ow, (forall i k, (ow i k == x * ou i k + y * ov i k)%Q) ->
    exists ou' ov' ow', fold_opt (fun out d => lin_apply_dir debug n maxl os fs scaling ref cells domain ib u d (lfs1 d) out) ds ou = Some ou' /\
      fold_opt (fun out d => lin_apply_dir debug n maxl os fs scaling ref cells domain ib u d (lfs2 d) out) ds ov = Some ov' /\
      fold_opt (fun out d => lin_apply_dir debug n maxl os fs scaling ref cells domain ib u d (lfs3 d) out) ds ow = Some ow' /\ forall i k, (ow' i k == x * ou' i k + y * ov' i k)%Q).
  { induction ds as [|d ds IH]; intros Hd ou ov ow E; [exists ou, ov, ow; auto|]. cbn [fold_opt]. pose proof (Hd d (or_introl eq_refl)) as Hd0.
    destruct (all_dir_runs _ _ _ _ _ _ _ _ _ _ L1 d Hd0) as (rs1 & bs1 & R1). destruct (all_dir_runs _ _ _ _ _ _ _ _ _ _ L2 d Hd0) as (rs2 & bs2 & R2).
    destruct (all_dir_runs _ _ _ _ _ _ _ _ _ _ L3 d Hd0) as (rs3 & bs3 & R3).
    destruct (apply_dir_runs debug n maxl os fs scaling ref cells domain ib u d (lfs1 d) rs1 bs1 ou R1) as (o1 & E1 & S1).
    destruct (apply_dir_runs debug n maxl os fs scaling ref cells domain ib u d (lfs2 d) rs2 bs2 ov R2) as (o2 & E2 & S2).
    destruct (apply_dir_runs debug n maxl os fs scaling ref cells domain ib u d (lfs3 d) rs3 bs3 ow R3) as (o3 & E3 & S3). rewrite E1, E2, E3.
    apply IH; [intros d' Hd'; apply Hd; right; auto|]. intros i k.
    rewrite S1, S2, S3, E, (effect_comb x y _ _ _ (H d Hd0) os fs u n maxl scaling ref cells domain ib d rs1 rs2 rs3 bs1 bs2 bs3 i k R1 R2 R3). ring. }
  destruct (G (seq 0 (S n))) with (ou := fun (_ : Z) (_ : nat) => 0%Q) (ov := fun (_ : Z) (_ : nat) => 0%Q) (ow := fun (_ : Z) (_ : nat) => 0%Q) as (ou & ov & ow & E1 & E2 & E3 & S1).
  - intros d Hd. apply in_seq in Hd. lia.
  - intros. ring.
  - exists ou, ov, ow. auto.
Qed.

(** A scheme adds to the output field what it writes into a field filled with 0. *)
Lemma apply_adds : forall n m hist maxl st cells domain scaling ib lfs debug os fs u, lin_mesh n m hist maxl st cells domain scaling ib lfs -> let ref := client_ca n m hist true in
  exists o, lin_apply_to debug n maxl os fs scaling ref cells domain ib u lfs = Some o /\
  forall out, exists o', lin_apply debug n maxl os fs scaling ref cells domain ib u lfs out = Some o' /\ forall i k, (o' i k == out i k + o i k)%Q.
Proof.
  intros n m hist maxl st cells domain scaling ib lfs debug os fs u LM ref.
  assert (G : forall ds, (forall d, In d ds -> (d <= n)%nat) -> exists e : output, forall out,
    exists o', fold_opt (fun out d => lin_apply_dir debug n maxl os fs scaling ref cells domain ib u d (lfs d) out) ds out = Some o' /\ forall i k, (o' i k == out i k + e i k)%Q).
  { induction ds as [|d ds IH]; intros Hd.
    - exists (fun _ _ => 0%Q). intros out. exists out. split; [reflexivity|]. intros i k. ring.
    - destruct (all_dir_runs _ _ _ _ _ _ _ _ _ _ LM d (Hd d (or_introl eq_refl))) as (rs & bs & R).
      destruct IH as (e & IH); [intros d' Hd'; apply Hd; right; auto|]. exists (fun i k => runs_effect os fs u rs bs i k + e i k)%Q. intros out. cbn [fold_opt].
      destruct (apply_dir_runs debug n maxl os fs scaling ref cells domain ib u d (lfs d) rs bs out R) as (o1 & -> & S1).
      destruct (IH o1) as (o2 & E2 & S2). exists o2. split; [exact E2|]. intros i k. rewrite S2, S1. ring. }
  destruct (G (seq 0 (S n))) as (e & He); [intros d Hd; apply in_seq in Hd; lia|].
  destruct (He (fun _ _ => 0%Q)) as (o & E & S0). exists o. split; [exact E|]. intros out. destruct (He out) as (o' & E' & S'). exists o'. split; [exact E'|].
  intros i k. rewrite S', S0. ring.
Qed.

(** ** The combinations of the code *)
Lemma scale_comb : forall q lf, lcomb q 0 lf lf (lf_scale q lf).
Proof.
  intros q lf. split; [reflexivity|]. split; [reflexivity|]. intros h. unfold lf_scale. cbn [lf_cons]. destruct (Qeq_bool q 1) eqn:E.
  - apply Qeq_bool_iff in E. induction (lf_cons lf h); constructor; auto. intros i j. rewrite E. ring.
  - induction (lf_cons lf h); constructor; auto. intros i j. cbn beta. ring.
Qed.
Lemma plus_comb : forall a b, lf_stencil b = lf_stencil a -> (forall h, length (lf_cons a h) = length (lf_cons b h)) -> lcomb 1 1 a b (lf_plus a b).
Proof.
  intros a b H L. split; [exact H|]. split; [reflexivity|]. intros h. specialize (L h). unfold lf_plus. cbn [lf_cons]. revert L. generalize (lf_cons b h).
  induction (lf_cons a h) as [|m1 c1 IH]; intros [|m2 c2] L; try discriminate; cbn [combine map]; [constructor|]. constructor; [intros i j; cbn beta; ring|]. apply IH. injection L. auto.
Qed.
Lemma comb_mesh : forall x y n m hist maxl st cells domain scaling ib lfs1 lfs2 lfs3, lin_mesh n m hist maxl st cells domain scaling ib lfs1 ->
  (forall d, (d <= n)%nat -> lcomb x y (lfs1 d) (lfs2 d) (lfs3 d)) -> lin_mesh n m hist maxl st cells domain scaling ib lfs3.
Proof.
  intros x y n m hist maxl st cells domain scaling ib lfs1 lfs2 lfs3 [G HS HM HR HB HG HC] H. split; auto.
  - intros d Hd. rewrite (proj1 (proj2 (H d Hd))). auto.
  - intros Hb d Hd. rewrite (proj1 (proj2 (H d Hd))). auto.
  - intros d Hd. rewrite (proj1 (proj2 (H d Hd))). auto.
  - intros d h Hd. destruct (H d Hd) as (_ & S3 & F). rewrite S3, <- (HC d h Hd). apply (F3_length _ _ _ _ _ _ _ (F h)).
Qed.

(** ** OperatorSum *)
Fixpoint sum_outs (outs : list output) : output := fun i k => match outs with [] => 0%Q | o :: outs => (o i k + sum_outs outs i k)%Q end.

Lemma sum_apply_spec : forall n m hist maxl st cells domain scaling ib debug os fs u ops, Forall (lin_mesh n m hist maxl st cells domain scaling ib) ops -> let ref := client_ca n m hist true in
  exists outs, Forall2 (fun lfs o => lin_apply_to debug n maxl os fs scaling ref cells domain ib u lfs = Some o) ops outs /\
  forall out, exists o, fold_opt (fun out lfs => lin_apply debug n maxl os fs scaling ref cells domain ib u lfs out) ops out = Some o /\
    forall i k, (o i k == out i k + sum_outs outs i k)%Q.
Proof.
  intros n m hist maxl st cells domain scaling ib debug os fs u ops F ref. induction F as [|lfs ops H F IH].
  - exists []. split; [constructor|]. intros out. exists out. split; [reflexivity|]. intros i k. cbn [sum_outs]. ring.
  - destruct IH as (outs & F2 & IH). destruct (apply_adds n m hist maxl st cells domain scaling ib lfs debug os fs u H) as (o & E & A).
    exists (o :: outs). split; [constructor; auto|]. intros out. destruct (A out) as (o1 & E1 & S1). destruct (IH o1) as (o2 & E2 & S2). exists o2.
    cbn [fold_opt]. fold ref in E1. rewrite E1. split; [exact E2|]. intros i k. rewrite S2, S1. cbn [sum_outs]. ring.
Qed.
