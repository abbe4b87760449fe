(** C68: the time loops of the demos. *)
From Coq Require Import QArith Qpower Qround Qabs Permutation Lqa.
From Verif Require Import Base IntervalModel Spec IntervalProofs LoiModel LcaModel LcaSpec LcaProofs LcaProofs2 LcaProofs3 RowsProofs CellArrayModel CellArrayProofs PropsLca PropsCellArray
  SubsetModel TreeProofs SubsetSpec SubsetProofs2 PropsSubset StencilModel NumberingProofs StencilProofs PropsStencil MeshModel MeshProofs PropsMesh
  NumModel NumProofs NumSpec PropsNum AdaptModel AdaptProofs TagProofs PropsAdapt GradModel GradProofs PropsGrad InterfaceModel InterfaceProofs PropsInterface
  TransferProofs PropsTransfer MrModel MrProofs PropsMr GeomModel GhostModel GhostProofs PropsGhost BcProofs HartenModel HartenProofs HartenProofs2 PropsHarten LoopProofs DetermProofs PropsLoop PropsDeterm
  FluxModel BoundaryProofs PropsBoundary FluxProofs PropsFlux IterProofs AmrModel AmrProofs AmrProofs2 AmrProofs3 PropsAmr PropsAmrGhost AmrLoopModel AmrProofs5 AmrProofs6 PropsAmrLoop
  FvModel FvProofs FvProofs2 FvProofs3 PropsFv TimeModel.
From Verif Require PropsOuter PropsDetail.
Open Scope Z_scope.
Notation stored := GhostModel.stored.

(** ** The clock *)
Lemma clock_cases : forall Tf dt t, let '(dt', t') := clock Tf dt t in
  ((Tf < t + dt)%Q /\ (dt' == Tf - t)%Q /\ t' = Tf) \/ ((t + dt <= Tf)%Q /\ dt' = dt /\ t' = (t + dt)%Q).
Proof.
  intros Tf dt t. unfold clock. destruct (below Tf (t + dt)) eqn:E.
  - left. apply PropsDetail.below_spec in E. split; auto. split; auto. ring.
  - right. split; auto. apply Qnot_lt_le. intros H. apply PropsDetail.below_spec in H. congruence.
Qed.

Lemma ceiling_one : forall x y, (x == y + 1)%Q -> Qceiling x = Qceiling y + 1.
Proof.
  intros x y E. pose proof (Qle_ceiling x). pose proof (Qceiling_lt x). pose proof (Qle_ceiling y). pose proof (Qceiling_lt y).
  assert (Qceiling x - 1 < Qceiling y + 1) by (rewrite Zlt_Qlt, (inject_Z_plus (Qceiling y) 1); change (inject_Z 1) with 1%Q; lra).
  assert (Qceiling y - 1 + 1 < Qceiling x) by (rewrite Zlt_Qlt, (inject_Z_plus _ 1); change (inject_Z 1) with 1%Q; lra). lia.
Qed.

(** ** The loop *)

(** The steps made from dt, t, the leaves and the field, and what is reached: the list has for
    each step its dt, the leaves and the field, ghosts included, that the scheme is applied
    to. *)
Inductive march (adapted : ca -> lfield -> option (bool * (ca * (ca * lfield)))) (scheme : Q -> ca -> ca -> lfield -> lfield -> option lfield) (rest : ca -> lfield -> lfield) (Tf : Q)
  : Q -> Q -> ca -> lfield -> list (Q * (ca * lfield)) -> Q -> ca -> lfield -> Prop :=
| march_end : forall dt t cells u, march adapted scheme rest Tf dt t cells u [] t cells u
| march_cut : forall dt t cells u c r w, adapted cells u = Some (false, (c, (r, w))) -> march adapted scheme rest Tf dt t cells u [] t c w
| march_step : forall dt t cells u c r w dt' t' v steps t2 c2 u2, ~ (t == Tf)%Q -> adapted cells u = Some (true, (c, (r, w))) ->
    clock Tf dt t = (dt', t') -> scheme dt' c r w (rest c w) = Some v -> march adapted scheme rest Tf dt' t' c v steps t2 c2 u2 ->
    march adapted scheme rest Tf dt t cells u ((dt', (c, w)) :: steps) t2 c2 u2.

(** What has left the box. *)
Definition outflow (out : Q -> ca -> lfield -> Q) (steps : list (Q * (ca * lfield))) : Q :=
  sum_over (fun s => fst s * out (fst s) (fst (snd s)) (snd (snd s)))%Q steps.
(** The volume times the value, over the leaves. *)
Definition mass (n : nat) (scaling : Q) (cells : ca) (u : lfield) : Q := fv_total n scaling (leaf_of n cells) u.

Section Loop.
  Variables (n : nat) (scaling : Q) (adapted : ca -> lfield -> option (bool * (ca * (ca * lfield)))) (scheme : Q -> ca -> ca -> lfield -> lfield -> option lfield).
  Variables (Tf : Q) (I : ca -> Prop) (M : ca -> ca -> Prop) (fine : ca -> Prop) (out : Q -> ca -> lfield -> Q).
  Hypothesis HA : forall cells u, I cells -> exists ended c r w, adapted cells u = Some (ended, (c, (r, w))) /\ I c /\ M c r /\ (mass n scaling c w == mass n scaling cells u)%Q.
  Hypothesis HS : forall dt c r w v, M c r -> exists w', scheme dt c r w v = Some w' /\ (fine c -> mass n scaling c w' == mass n scaling c w - dt * out dt c w)%Q.

  Lemma loop_balance : forall rest fuel dt t cells u, I cells ->
    exists ended t' c v steps, time_loop adapted scheme rest Tf fuel dt t cells u = Some (ended, (t', (c, v))) /\ I c /\
      march adapted scheme rest Tf dt t cells u steps t' c v /\ (length steps <= fuel)%nat /\ (t' == t + sum_over fst steps)%Q /\ (ended = true -> t' == Tf)%Q /\
      ((forall s, In s steps -> fine (fst (snd s))) -> (mass n scaling c v == mass n scaling cells u - outflow out steps)%Q).
  Proof.
    intros rest fuel. induction fuel as [|fuel IH]; intros dt t cells u HI; cbn [time_loop]; destruct (Qeq_bool t Tf) eqn:E.
    - apply Qeq_bool_iff in E. exists true, t, cells, u, []. split; auto. split; auto. split; [apply march_end|]. split; auto. split; [unfold sum_over; cbn; ring|]. split; auto. intros _. unfold outflow, sum_over. cbn. ring.
    - exists false, t, cells, u, []. split; auto. split; auto. split; [apply march_end|]. split; auto. split; [unfold sum_over; cbn; ring|]. split; [discriminate|]. intros _. unfold outflow, sum_over. cbn. ring.
    - apply Qeq_bool_iff in E. exists true, t, cells, u, []. split; auto. split; auto. split; [apply march_end|]. split; [cbn; lia|]. split; [unfold sum_over; cbn; ring|]. split; auto. intros _. unfold outflow, sum_over. cbn. ring.
    - assert (NE : ~ (t == Tf)%Q) by (intros H; apply Qeq_bool_iff in H; congruence).
      destruct (HA cells u HI) as (ended & c & r & w & EA & IC & MC & EM). rewrite EA. destruct ended.
      + destruct (clock Tf dt t) as [dt' t'] eqn:EC. destruct (HS dt' c r w (rest c w) MC) as (v & ES & BS). rewrite ES.
        destruct (IH dt' t' c v IC) as (e2 & t2 & c2 & v2 & steps & E2 & I2 & M2 & L2 & T2 & D2 & B2).
        exists e2, t2, c2, v2, ((dt', (c, w)) :: steps). split; auto. split; auto. split; [eapply march_step; eauto|]. split; [cbn; lia|]. split; [|split; auto].
        * rewrite T2, sum_cons. cbn [fst]. pose proof (clock_cases Tf dt t) as CC. rewrite EC in CC. destruct CC as [(_ & -> & ->)|(_ & -> & ->)]; ring.
        * intros HF. rewrite B2 by (intros s Hs; apply HF; right; auto). unfold outflow. rewrite sum_cons. cbn [fst snd].
          rewrite BS by (apply (HF (dt', (c, w))); left; auto). rewrite EM. ring.
      + exists false, t, c, w, []. split; auto. split; auto. split; [eapply march_cut; eauto|]. split; [cbn; lia|]. split; [unfold sum_over; cbn; ring|]. split; [discriminate|].
        intros _. rewrite EM. unfold outflow, sum_over. cbn. ring.
  Qed.

  (** The number of steps when no adaptation is cut. *)
  Hypothesis HE : forall cells u, I cells -> exists c r w, adapted cells u = Some (true, (c, (r, w))).
  Lemma loop_ends : forall rest fuel dt t cells u, I cells -> (0 < dt)%Q -> (t <= Tf)%Q -> (Z.to_nat (Qceiling ((Tf - t) / dt)) <= fuel)%nat ->
    exists t' c v steps, time_loop adapted scheme rest Tf fuel dt t cells u = Some (true, (t', (c, v))) /\ I c /\ march adapted scheme rest Tf dt t cells u steps t' c v /\
      length steps = Z.to_nat (Qceiling ((Tf - t) / dt)) /\ (t' == Tf)%Q /\ forall s, In s steps -> (0 < fst s <= dt)%Q.
  Proof.
    intros rest fuel. induction fuel as [|fuel IH]; intros dt t cells u HI Hdt Ht HF; cbn [time_loop]; destruct (Qeq_bool t Tf) eqn:E.
    1,3: apply Qeq_bool_iff in E; exists t, cells, u, []; split; auto; split; auto; split; [apply march_end|]; split; [|split; auto; intros s []];
      assert (X : ((Tf - t) / dt == 0)%Q) by (rewrite E; field; lra); rewrite (Qceiling_comp _ _ X); reflexivity.
    - exfalso. assert (NE : ~ (t == Tf)%Q) by (intros H; apply Qeq_bool_iff in H; congruence).
      assert (P : (0 < (Tf - t) / dt)%Q) by (apply Qlt_shift_div_l; lra). pose proof (Qle_ceiling ((Tf - t) / dt)) as C.
      assert (0 < Qceiling ((Tf - t) / dt)) by (rewrite Zlt_Qlt; change (inject_Z 0) with 0%Q; lra). lia.
    - assert (NE : ~ (t == Tf)%Q) by (intros H; apply Qeq_bool_iff in H; congruence).
      destruct (HE cells u HI) as (c & r & w & EA). destruct (HA cells u HI) as (ended & c' & r' & w' & EA' & IC & MC & _). rewrite EA in EA'. injection EA' as <- <- <- <-. rewrite EA.
      destruct (clock Tf dt t) as [dt' t'] eqn:EC. destruct (HS dt' c r w (rest c w) MC) as (v & ES & _). rewrite ES.
      pose proof (clock_cases Tf dt t) as CC. rewrite EC in CC. destruct CC as [(C1 & C2 & C3)|(C1 & C2 & C3)].
      + subst t'. assert (X : ((Tf - Tf) / dt' == 0)%Q) by (field; lra). destruct (IH dt' Tf c v IC) as (t2 & c2 & v2 & steps & E2 & I2 & M2 & L2 & T2 & S2); [lra|lra|rewrite (Qceiling_comp _ _ X); cbn; lia|].
        rewrite (Qceiling_comp _ _ X) in L2. destruct steps; [|discriminate L2].
        exists t2, c2, v2, [(dt', (c, w))]. split; auto. split; auto. split; [eapply march_step; eauto|]. split; [|split; auto; intros s [<-|[]]; cbn [fst]; lra].
        assert (Y : Qceiling ((Tf - t) / dt) = 1); [|rewrite Y; reflexivity].
        assert (P : (0 < (Tf - t) / dt)%Q) by (apply Qlt_shift_div_l; lra). assert (P2 : ((Tf - t) / dt < 1)%Q) by (apply Qlt_shift_div_r; lra).
        pose proof (Qle_ceiling ((Tf - t) / dt)) as D1. pose proof (Qceiling_lt ((Tf - t) / dt)) as D2.
        assert (0 < Qceiling ((Tf - t) / dt)) by (rewrite Zlt_Qlt; change (inject_Z 0) with 0%Q; lra).
        assert (Qceiling ((Tf - t) / dt) - 1 < 1) by (rewrite Zlt_Qlt; change (inject_Z 1) with 1%Q; lra). lia.
      + subst dt' t'. assert (Y : Qceiling ((Tf - t) / dt) = Qceiling ((Tf - (t + dt)) / dt) + 1).
        { apply ceiling_one. field. lra. }
        assert (P : 0 <= Qceiling ((Tf - (t + dt)) / dt)).
        { pose proof (Qle_ceiling ((Tf - (t + dt)) / dt)). rewrite Zle_Qle. change (inject_Z 0) with 0%Q. assert (0 <= (Tf - (t + dt)) / dt)%Q by (apply Qle_shift_div_l; lra). lra. }
        destruct (IH dt (t + dt)%Q c v IC) as (t2 & c2 & v2 & steps & E2 & I2 & M2 & L2 & T2 & S2); [lra|lra|lia|].
        exists t2, c2, v2, ((dt, (c, w)) :: steps). split; auto. split; auto. split; [eapply march_step; eauto|]. split; [cbn [length]; lia|]. split; auto.
        intros s [<-|Hs]; [cbn [fst]; lra|]. auto.
  Qed.
End Loop.

(** ** The total of C60 and C66 is the mass *)
Lemma pow_inject : forall z k, 0 <= k -> (inject_Z z ^ k == inject_Z (z ^ k))%Q.
Proof. intros z k Hk. symmetry. apply Zpower_Qpower. auto. Qed.
Lemma volume_vol : forall n scaling l, (volume n scaling l == scaling ^ Z.of_nat (S n) * vol n l)%Q.
Proof.
  intros n scaling l. unfold volume, edge, vol, Qdiv. rewrite Qmult_power, Qinv_power, pow_inject by lia. apply Qmult_comp; [reflexivity|].
  rewrite <- Z.pow_mul_r by lia. replace (Z.of_nat l * Z.of_nat (S n)) with (Z.of_nat (S n * l)) by lia. reflexivity.
Qed.
Lemma mass_integral : forall n scaling cells u, (mass n scaling cells u == scaling ^ Z.of_nat (S n) * integral n u (leaf_of n cells))%Q.
Proof.
  intros n scaling cells u. unfold mass, fv_total, integral. change (qsum (map ?f ?l)) with (sum_over f l). rewrite <- sum_scale. apply sum_ext. intros [l p] _. cbn [fst snd]. rewrite volume_vol.
  destruct p; cbn [cell_value]; ring.
Qed.
Lemma total_mass : forall n scaling cells u c v, ca_wf n cells -> ca_wf n c -> (forall q, total n u cells q <-> total n v c q) -> (mass n scaling c v == mass n scaling cells u)%Q.
Proof.
  intros n scaling cells u c v W W' H. rewrite !mass_integral. apply Qmult_comp; [reflexivity|].
  destruct (ca_for_each_cell_spec n cells W) as (cs & E & _). destruct (H (integral n u (leaf_of n cells))) as [(cs' & E' & Q) _].
  - exists cs. split; auto. unfold leaf_of. rewrite E. reflexivity.
  - unfold leaf_of at 1. rewrite E'. symmetry. auto.
Qed.
Lemma mass_agree : forall n scaling cells u v, ca_wf n cells -> (forall l x y, ca_mem n cells l (x :: y) -> (u l x y == v l x y)%Q) -> (mass n scaling cells u == mass n scaling cells v)%Q.
Proof.
  intros n scaling cells u v W H. apply sum_ext. intros [l p] Hp. apply (leaf_of_leaves n cells W) in Hp. cbn [fst snd]. destruct p as [|x y]; [reflexivity|]. cbn [cell_value]. rewrite (H l x y Hp). reflexivity.
Qed.

(** ** What crosses the faces of the box in one step, with fluxes between two cells *)
Definition crossing_flux (n : nat) (scaling : Q) (lo hi : list Z) (f : Q -> nat -> Q -> Q -> Q) (dt : Q) (c : ca) (w : lfield) : Q :=
  box_out n scaling (leaf_of n c) lo hi (below_flux n (f dt) w) (above_flux n (f dt) w).

Lemma scheme_balance : forall n minl maxl scaling f lo hi dt c r w v, ~ (scaling == 0)%Q -> fv_mesh n minl maxl c r lo hi ->
  exists w', two_point_scheme n minl maxl scaling true f dt c r w v = Some w' /\ (mass n scaling c w' == mass n scaling c w - dt * crossing_flux n scaling lo hi f dt c w)%Q.
Proof.
  intros n minl maxl scaling f lo hi dt c r w v HS HM. destruct (C67_two_point n minl maxl scaling dt (f dt) c r lo hi w v HM HS) as (w' & E & B & _).
  exists w'. split; auto. apply B. apply leaf_of_leaves. apply HM.
Qed.

(** ** AMR *)
Definition amr_reference_of (n : nat) (g : amr_setting) (c reference : ca) : Prop :=
  exists r, amr_sub_mesh n (g_max g) (g_min_level g) (g_max_level g) (g_width g) (Z.of_nat (g_order g)) (g_domain g) c = Some r /\ reference = a_all r.
Lemma amr_adapted_spec : forall n g lo hi scaling early bc criterion fuel cells u, amr_usable n g lo hi cells -> amr_harmless n g lo hi bc -> marking n g lo hi criterion ->
  exists ended c r w, amr_adapted n g early bc criterion fuel cells u = Some (ended, (c, (r, w))) /\ amr_usable n g lo hi c /\
    (amr_usable n g lo hi c /\ amr_reference_of n g c r) /\ (mass n scaling c w == mass n scaling cells u)%Q.
Proof.
  intros n g lo hi scaling early bc criterion fuel cells u HU HB HC. destruct (C66_loop n g lo hi early bc criterion fuel cells u HU HB HC) as (ended & c & v & E & UC & T & _).
  unfold amr_adapted. rewrite E. pose proof (au_sub _ _ _ _ _ UC) as HI. destruct (C64_contents _ _ _ _ _ _ _ _ _ _ _ HI) as (r & HR & _). rewrite HR.
  destruct (update_loose n _ _ _ _ _ _ _ c lo hi r HI HR (au_dim _ _ _ _ _ UC) (bc c (a_all r)) (HB c r UC HR) v) as (w & EU & UL). rewrite EU.
  exists ended, c, (a_all r), w. split; auto. split; auto. split; [split; auto; exists r; auto|].
  destruct (C67_amr_mesh n g lo hi c r UC HR) as [M _]. pose proof (au_sub _ _ _ _ _ HU) as HI0. destruct (C64_contents _ _ _ _ _ _ _ _ _ _ _ HI0) as (r0 & HR0 & _). destruct (C67_amr_mesh n g lo hi cells r0 HU HR0) as [M0 _].
  rewrite <- (total_mass n scaling cells u c v (fm_wf _ _ _ _ _ _ _ M0) (fm_wf _ _ _ _ _ _ _ M) T). apply mass_agree; [apply M|]. intros l x y Hp. rewrite (UL l x y Hp). reflexivity.
Qed.

(** Any fluxes between two cells, corrected: the loop never fails, the meshes stay the ones
    of C66, and the mass only changes by what crosses the faces of the box. *)
Theorem C68_amr : forall n g lo hi scaling early bc criterion fa f rest Tf fuel dt t cells u,
  amr_usable n g lo hi cells -> amr_harmless n g lo hi bc -> marking n g lo hi criterion -> ~ (scaling == 0)%Q ->
  let adapted := amr_adapted n g early bc criterion fa in
  let scheme := two_point_scheme n (g_min_level g) (g_max_level g) scaling true f in
  exists ended t' c v steps, time_loop adapted scheme rest Tf fuel dt t cells u = Some (ended, (t', (c, v))) /\ amr_usable n g lo hi c /\
    march adapted scheme rest Tf dt t cells u steps t' c v /\ (length steps <= fuel)%nat /\ (t' == t + sum_over fst steps)%Q /\ (ended = true -> t' == Tf)%Q /\
    (mass n scaling c v == mass n scaling cells u - outflow (crossing_flux n scaling lo hi f) steps)%Q.
Proof.
  intros n g lo hi scaling early bc criterion fa f rest Tf fuel dt t cells u HU HB HC HS adapted scheme.
  destruct (loop_balance n scaling adapted scheme Tf (amr_usable n g lo hi) (fun c r => amr_usable n g lo hi c /\ amr_reference_of n g c r) (fun _ => True) (crossing_flux n scaling lo hi f))
    with (rest := rest) (fuel := fuel) (dt := dt) (t := t) (cells := cells) (u := u) as (ended & t' & c & v & steps & A & B & C & D & E & F & G); auto.
  - intros; apply amr_adapted_spec; auto.
  - intros dt' c r w v (UC & r' & HR & ->). destruct (C67_amr_mesh n g lo hi c r' UC HR) as [M _]. destruct (scheme_balance n _ _ scaling f lo hi dt' c _ w v HS M) as (w' & E & B). exists w'. auto.
  - exists ended, t', c, v, steps. repeat (split; [assumption|]). apply G. auto.
Qed.

(** *** The loop of AMR_Burgers_Hat.cpp *)
Lemma step_total : forall n minl maxl scaling dt with_correction op op' cells reference lo hi L R L' R' u v, fv_mesh n minl maxl cells reference lo hi ->
  flux_ok n cells op L R -> flux_ok n cells op' L' R' -> exists w, fv_step n minl maxl scaling dt with_correction op op' cells reference u v = Some w.
Proof.
  intros n minl maxl scaling dt cor op op' cells reference lo hi L R L' R' u v [M1 M2 M3 M4 M5 M6 M7 M8 M9 M10] HO HO'. unfold fv_step.
  destruct (fv_update_spec n scaling dt op cells reference u (fun l p => match finite_volume n scaling op l p with Some g => g | None => 0%Q end) M4 M7) with (v := v) as (v1 & E1 & _).
  { intros l p Hp. split; [apply M9; auto|]. destruct (fv_spec n scaling op cells L R HO l p Hp) as (g & E & _). rewrite E. auto. }
  rewrite E1. destruct cor; [|eauto]. destruct (leaf_of_leaves n cells M4) as [_ CE].
  destruct (correction_spec n minl maxl scaling dt op' cells reference lo hi L' R' M1 M2 M3 M4 M5 M6 M8 M9 HO' (leaf_of n cells) CE v1) as (w & E2 & _). eauto.
Qed.

Theorem C68_burgers : forall g lo hi scaling early bc criterion fa rest Tf fuel dt t cells u,
  amr_usable 0 g lo hi cells -> amr_harmless 0 g lo hi bc -> marking 0 g lo hi criterion -> ~ (scaling == 0)%Q ->
  let adapted := amr_adapted 0 g early bc criterion fa in
  let scheme := fun dt => burgers_step (g_max_level g) scaling dt true in
  let f := fun dt (_ : nat) => burgers_flux (cell_length scaling (g_max_level g) / dt) in
  exists ended t' c v steps, time_loop adapted scheme rest Tf fuel dt t cells u = Some (ended, (t', (c, v))) /\ amr_usable 0 g lo hi c /\
    march adapted scheme rest Tf dt t cells u steps t' c v /\ (length steps <= fuel)%nat /\ (t' == t + sum_over fst steps)%Q /\ (ended = true -> t' == Tf)%Q /\
    ((forall s, In s steps -> exists p, ca_mem 0 (fst (snd s)) (g_max_level g) p) ->
     (mass 0 scaling c v == mass 0 scaling cells u - outflow (crossing_flux 0 scaling lo hi f) steps)%Q).
Proof.
  intros g lo hi scaling early bc criterion fa rest Tf fuel dt t cells u HU HB HC HS adapted scheme f.
  destruct (loop_balance 0 scaling adapted scheme Tf (amr_usable 0 g lo hi) (fun c r => amr_usable 0 g lo hi c /\ amr_reference_of 0 g c r)
    (fun c => exists p, ca_mem 0 c (g_max_level g) p) (crossing_flux 0 scaling lo hi f))
    with (rest := rest) (fuel := fuel) (dt := dt) (t := t) (cells := cells) (u := u) as (ended & t' & c & v & steps & A & B & C & D & E & F & G); auto.
  - intros; apply amr_adapted_spec; auto.
  - intros dt' c r w v (UC & r' & HR & ->). destruct (C67_amr_mesh 0 g lo hi c r' UC HR) as [M0 M].
    destruct (step_total 0 (min_level c) (max_level c) scaling dt' true (two_point 0 (a_all r') (fun _ => burgers_flux (cell_length scaling (g_max_level g) / dt')) w)
      (two_point 0 (a_all r') (fun _ => burgers_flux (cell_length scaling (max_level c) / dt')) w) c (a_all r') lo hi _ _ _ _ w v M (two_point_ok 0 _ _ _ _ _ _ _ w M) (two_point_ok 0 _ _ _ _ _ _ _ w M)) as (w' & E).
    exists w'. split; [exact E|]. intros (p & Hp).
    assert (EM : max_level c = g_max_level g).
    { pose proof (fm_range _ _ _ _ _ _ _ M _ _ Hp) as R1. assert (E1 : lca_is_empty (c_at c (g_max_level g)) = false) by (apply (nonempty_mem 0); [apply (fm_wf _ _ _ _ _ _ _ M), Hp|exists p; apply Hp]).
      destruct (max_level_spec c) as [S1 _]. destruct (S1 _ (proj1 Hp) E1) as [S2 S3]. apply (nonempty_mem 0) in S3 as (q & Hq); [|apply (fm_wf _ _ _ _ _ _ _ M); lia].
      assert (Hq' : ca_mem 0 c (max_level c) q) by (split; [lia|auto]). apply (fm_range _ _ _ _ _ _ _ M0) in Hq'. lia. }
    destruct (C67_burgers (g_max_level g) scaling dt' c (a_all r') lo hi w v (leaf_of 0 c) M HS (leaf_of_leaves 0 c (fm_wf _ _ _ _ _ _ _ M)) EM) as (w2 & E2 & B). pose proof (eq_trans (eq_sym E) E2) as Q. injection Q as ->. exact B.
  - exists ended, t', c, v, steps. repeat (split; [assumption|]). exact G.
Qed.

(** ** Multiresolution *)
Definition mr_usable (n : nat) (g : setting) (lo hi : list Z) (cells : ca) : Prop := usable n g lo hi cells /\ steps_one cells.
Definition mr_reference_of (n : nat) (g : setting) (c reference : ca) : Prop :=
  exists r, update_sub_mesh n (h_max g) (h_min_level g) (h_max_level g) (h_width g) (Z.of_nat (h_order g)) c = Some r /\ reference = r_all r.
Lemma adapt_steps : forall n g lo hi bc cells u next v, usable n g lo hi cells -> harmless n g lo hi bc -> steps_one cells -> adapt n g bc cells u = Some (next, v) -> steps_one next.
Proof.
  intros n g lo hi bc cells u next v HU HB H1. unfold adapt. destruct (Nat.eqb (h_min_level g) (h_max_level g)); [intros E; injection E as <- _; auto|].
  generalize (h_max_level g - h_min_level g)%nat 0%nat. intros k. revert cells u HU H1. induction k as [|k IH]; intros cells u HU H1 ite; cbn [adapt_loop]; [intros E; injection E as <- _; auto|].
  destruct (C60_iteration n g lo hi bc ite cells u HU HB) as (r & u' & d & same & c & w & E & UN & _). rewrite E.
  destruct (C62_unchanged n g lo hi bc ite cells u same c w HU HB H1 E) as [SN _]. destruct same; [intros Q; injection Q as <- _; auto|]. cbn [fst snd]. apply IH; auto.
Qed.
Lemma mr_adapted_spec : forall n g lo hi scaling bc cells u, mr_usable n g lo hi cells -> harmless n g lo hi bc ->
  exists c r w, mr_adapted n g bc cells u = Some (true, (c, (r, w))) /\ mr_usable n g lo hi c /\ mr_reference_of n g c r /\ (mass n scaling c w == mass n scaling cells u)%Q.
Proof.
  intros n g lo hi scaling bc cells u [HU H1] HB. destruct (C60_adapt n g lo hi bc cells u HU HB) as (c & v & E & UC & T). pose proof (adapt_steps n g lo hi bc cells u c v HU HB H1 E) as SC.
  unfold mr_adapted. rewrite E. pose proof UC as (HI & _). destruct (C54_contents _ _ _ _ _ _ _ (gi_in _ _ _ _ _ _ _ _ _ HI)) as (r & HR & _). rewrite HR.
  destruct (subdomain_total n g lo hi c UC) as (sub & ES). rewrite ES.
  destruct (C55_update n _ _ _ _ _ c lo hi r sub (bc c (r_all r)) HI HR ES (HB c r UC HR) v) as (w & EU & UL & _). rewrite EU.
  exists c, (r_all r), w. split; auto. split; [split; auto|]. split; [exists r; auto|].
  pose proof (C67_mr_mesh n _ _ _ _ _ c lo hi r HI SC HR) as M. destruct (C54_contents _ _ _ _ _ _ _ (gi_in _ _ _ _ _ _ _ _ _ (proj1 HU))) as (r0 & HR0 & _).
  pose proof (C67_mr_mesh n _ _ _ _ _ cells lo hi r0 (proj1 HU) H1 HR0) as M0.
  rewrite <- (total_mass n scaling cells u c v (fm_wf _ _ _ _ _ _ _ M0) (fm_wf _ _ _ _ _ _ _ M) T). apply mass_agree; [apply M|]. intros l x y Hp. rewrite (UL l x y Hp). reflexivity.
Qed.

(** advection_1d.cpp, advection_2d.cpp, advection_2d_user_bc.cpp with their correction, and
    scalar_burgers_2d.cpp. The adaptation always ends, and so does the loop. *)
Theorem C68_mr : forall n g lo hi scaling bc f rest Tf fuel dt t cells u,
  mr_usable n g lo hi cells -> harmless n g lo hi bc -> ~ (scaling == 0)%Q ->
  let adapted := mr_adapted n g bc in
  let scheme := two_point_scheme n (h_min_level g) (h_max_level g) scaling true f in
  exists ended t' c v steps, time_loop adapted scheme rest Tf fuel dt t cells u = Some (ended, (t', (c, v))) /\ mr_usable n g lo hi c /\
    march adapted scheme rest Tf dt t cells u steps t' c v /\ (length steps <= fuel)%nat /\ (t' == t + sum_over fst steps)%Q /\ (ended = true -> t' == Tf)%Q /\
    (mass n scaling c v == mass n scaling cells u - outflow (crossing_flux n scaling lo hi f) steps)%Q.
Proof.
  intros n g lo hi scaling bc f rest Tf fuel dt t cells u HU HB HS adapted scheme.
  destruct (loop_balance n scaling adapted scheme Tf (mr_usable n g lo hi) (fun c r => mr_usable n g lo hi c /\ mr_reference_of n g c r) (fun _ => True) (crossing_flux n scaling lo hi f))
    with (rest := rest) (fuel := fuel) (dt := dt) (t := t) (cells := cells) (u := u) as (ended & t' & c & v & steps & A & B & C & D & E & F & G); auto.
  - intros c w UC. destruct (mr_adapted_spec n g lo hi scaling bc c w UC HB) as (c' & r & w' & E & U' & R & T). exists true, c', r, w'. auto.
  - intros dt' c r w v ([UC SC] & r' & HR & ->). pose proof (C67_mr_mesh n _ _ _ _ _ c lo hi r' (proj1 UC) SC HR) as M. destruct (scheme_balance n _ _ scaling f lo hi dt' c _ w v HS M) as (w' & E & B). exists w'. auto.
  - exists ended, t', c, v, steps. repeat (split; [assumption|]). apply G. auto.
Qed.

Theorem C68_mr_ends : forall n g lo hi scaling bc f with_correction rest Tf fuel dt t cells u,
  mr_usable n g lo hi cells -> harmless n g lo hi bc -> (0 < dt)%Q -> (t <= Tf)%Q -> (Z.to_nat (Qceiling ((Tf - t) / dt)) <= fuel)%nat ->
  let adapted := mr_adapted n g bc in
  let scheme := two_point_scheme n (h_min_level g) (h_max_level g) scaling with_correction f in
  exists t' c v steps, time_loop adapted scheme rest Tf fuel dt t cells u = Some (true, (t', (c, v))) /\ mr_usable n g lo hi c /\ march adapted scheme rest Tf dt t cells u steps t' c v /\
    length steps = Z.to_nat (Qceiling ((Tf - t) / dt)) /\ (t' == Tf)%Q /\ forall s, In s steps -> (0 < fst s <= dt)%Q.
Proof.
  intros n g lo hi scaling bc f cor rest Tf fuel dt t cells u HU HB Hdt Ht Hf adapted scheme.
  apply (loop_ends n 1 adapted scheme Tf (mr_usable n g lo hi) (fun c r => mr_usable n g lo hi c /\ mr_reference_of n g c r) (fun _ => False) (fun _ _ _ => 0%Q)); auto.
  - intros c w UC. destruct (mr_adapted_spec n g lo hi 1 bc c w UC HB) as (c' & r & w' & E & U' & R & T). exists true, c', r, w'. auto.
  - intros dt' c r w v ([UC SC] & r' & HR & ->). pose proof (C67_mr_mesh n _ _ _ _ _ c lo hi r' (proj1 UC) SC HR) as M. pose proof (two_point_ok n _ _ _ _ _ _ (f dt') w M) as O.
    destruct (step_total n _ _ scaling dt' cor _ _ c (r_all r') lo hi _ _ _ _ w v M O O) as (w' & E). exists w'. split; [exact E|intros []].
  - intros c w UC. destruct (mr_adapted_spec n g lo hi 1 bc c w UC HB) as (c' & r & w' & E & _). eauto.
Qed.

(** ** Nothing depends on what is stored outside the leaves *)
Definition respects (f : Q -> nat -> Q -> Q -> Q) : Prop := forall dt d a a' b b', (a == a')%Q -> (b == b')%Q -> (f dt d a b == f dt d a' b')%Q.

Section Agree.
  Variables (n minl maxl : nat) (scaling : Q) (cells reference : ca) (lo hi : list Z) (f : Q -> nat -> Q -> Q -> Q) (dt : Q) (u1 u2 : lfield).
  Hypothesis HM : fv_mesh n minl maxl cells reference lo hi.
  Hypothesis HF : respects f.
  Hypothesis HA : agree_near n 1 cells u1 u2.

  Lemma near_value : forall l p q, ca_mem n cells l p -> length q = S n -> near n 1 q p -> (cell_value u1 l q == cell_value u2 l q)%Q.
  Proof using HA. clear HM HF. intros l p q Hp Lq Nq. destruct q as [|x y]; [discriminate|]. cbn [cell_value]. apply (HA l p); auto. Qed.
  Lemma below_agree : forall d l p, (d <= n)%nat -> ca_mem n cells l p -> (below_flux n (f dt) u1 d l p == below_flux n (f dt) u2 d l p)%Q.
  Proof using HA HF. clear HM.
    intros d l p Hd Hp. apply HF; apply (near_value l p); auto; [apply vadd_length|apply near_unit; auto; lia|apply Hp|apply near_self; lia].
  Qed.
  Lemma above_agree : forall d l p, (d <= n)%nat -> ca_mem n cells l p -> (above_flux n (f dt) u1 d l p == above_flux n (f dt) u2 d l p)%Q.
  Proof using HA HF. clear HM.
    intros d l p Hd Hp. apply HF; apply (near_value l p); auto; [apply Hp|apply near_self; lia|apply vadd_length|apply near_unit; auto; lia].
  Qed.
  Lemma out_agree : forall d l p, (d <= n)%nat -> ca_mem n cells l p ->
    (inner_out n scaling (leaf_of n cells) (below_flux n (f dt) u1) (above_flux n (f dt) u1) d (l, p) + outer_out n scaling lo hi (below_flux n (f dt) u1) (above_flux n (f dt) u1) d (l, p) ==
     inner_out n scaling (leaf_of n cells) (below_flux n (f dt) u2) (above_flux n (f dt) u2) d (l, p) + outer_out n scaling lo hi (below_flux n (f dt) u2) (above_flux n (f dt) u2) d (l, p))%Q.
  Proof.
    intros d l p Hd Hp. destruct (leaf_of_leaves n cells (fm_wf _ _ _ _ _ _ _ HM)) as [_ CE].
    assert (FF : forall c1 c2, In c1 (leaf_of n cells) -> In c2 (leaf_of n cells) ->
      (face_flux (below_flux n (f dt) u1) (above_flux n (f dt) u1) d c1 c2 == face_flux (below_flux n (f dt) u2) (above_flux n (f dt) u2) d c1 c2)%Q).
    { intros [l1 p1] [l2 p2] H1 H2. apply CE in H1, H2. unfold face_flux. cbn [fst snd]. destruct (Nat.leb l2 l1); [apply above_agree|apply below_agree]; auto. }
    assert (HI : In (l, p) (leaf_of n cells)) by (apply CE; auto).
    apply Qplus_comp.
    - unfold inner_out. apply Qplus_comp; [|apply Qopp_comp]; apply sum_ext; intros c Hc; [destruct (shareb n d (l, p) c)|destruct (shareb n d c (l, p))]; try reflexivity; rewrite FF by auto; reflexivity.
    - unfold outer_out. cbn [fst snd]. apply Qplus_comp; [destruct (at_top hi d (l, p)); [rewrite (above_agree d l p Hd Hp)|]|apply Qopp_comp; destruct (at_bottom lo d (l, p)); [rewrite (below_agree d l p Hd Hp)|]]; reflexivity.
  Qed.
  Lemma step_agree : forall cor v1 v2 w1, ~ (scaling == 0)%Q -> two_point_scheme n minl maxl scaling cor f dt cells reference u1 v1 = Some w1 ->
    exists w2, two_point_scheme n minl maxl scaling cor f dt cells reference u2 v2 = Some w2 /\ agree n cells w1 w2.
  Proof.
    intros cor v1 v2 w1 HS. assert (DS : forall d, In d (seq 0 (S n)) -> (d <= n)%nat) by (intros d Hd; apply in_seq in Hd; lia).
    assert (UA : forall l p, ca_mem n cells l p -> (cell_value u1 l p == cell_value u2 l p)%Q) by (intros l p Hp; apply (near_value l p); auto; [apply Hp|apply near_self; lia]).
    destruct cor.
    - intros E1. destruct (C67_two_point n minl maxl scaling dt (f dt) cells reference lo hi u1 v1 HM HS) as (w1' & E1' & B1 & _). unfold two_point_scheme in *. rewrite E1 in E1'. injection E1' as <-.
      destruct (C67_two_point n minl maxl scaling dt (f dt) cells reference lo hi u2 v2 HM HS) as (w2 & E2 & B2 & _). exists w2. split; auto.
      pose proof (leaf_of_leaves n cells (fm_wf _ _ _ _ _ _ _ HM)) as LV. destruct (B1 _ LV) as [C1 _]. destruct (B2 _ LV) as [C2 _].
      intros l x y Hp. specialize (C1 l (x :: y) Hp). specialize (C2 l (x :: y) Hp). specialize (UA l (x :: y) Hp). cbn [cell_value] in *.
      rewrite (sum_ext _ _ _ _ (fun d Hd => out_agree d l (x :: y) (DS d Hd) Hp)) in C1. rewrite <- C2 in C1.
      assert (V : ~ (volume n scaling l == 0)%Q) by (apply Qpower_not_0; apply edge_nonzero; auto).
      apply Qmult_inj_l in C1; auto. rewrite UA in C1. lra.
    - intros E1. pose proof (two_point_ok n minl maxl cells reference lo hi (f dt) u1 HM) as O1. pose proof (two_point_ok n minl maxl cells reference lo hi (f dt) u2 HM) as O2.
      assert (X : forall u v, flux_ok n cells (two_point n reference (f dt) u) (below_flux n (f dt) u) (above_flux n (f dt) u) -> exists w, two_point_scheme n minl maxl scaling false f dt cells reference u v = Some w /\
        forall l p, ca_mem n cells l p -> (cell_value w l p == cell_value u l p - dt * net n scaling (below_flux n (f dt) u) (above_flux n (f dt) u) l p)%Q).
      { intros u v HO. destruct (fv_update_spec n scaling dt (two_point n reference (f dt) u) cells reference u
          (fun l p => match finite_volume n scaling (two_point n reference (f dt) u) l p with Some g => g | None => 0%Q end) (fm_wf _ _ _ _ _ _ _ HM) (fm_steps _ _ _ _ _ _ _ HM)) with (v := v) as (w & E & A & _).
        { intros l p Hp. split; [apply (fm_stored _ _ _ _ _ _ _ HM); auto|]. destruct (fv_spec n scaling _ cells _ _ HO l p Hp) as (g & Eg & _). rewrite Eg. auto. }
        unfold two_point_scheme, fv_step. rewrite E. exists w. split; auto. intros l p Hp. rewrite (A l p Hp). destruct (fv_spec n scaling _ cells _ _ HO l p Hp) as (g & Eg & Q). rewrite Eg, Q. reflexivity. }
      destruct (X u1 v1 O1) as (w1' & E1' & B1). rewrite E1 in E1'. injection E1' as <-. destruct (X u2 v2 O2) as (w2 & E2 & B2). exists w2. split; auto.
      intros l x y Hp. specialize (B1 l _ Hp). specialize (B2 l _ Hp). specialize (UA l _ Hp). cbn [cell_value] in *. rewrite B1, B2, UA. apply Qplus_comp; [reflexivity|]. apply Qopp_comp. apply Qmult_comp; [reflexivity|].
      unfold net. apply Qmult_comp; [|reflexivity]. apply sum_ext. intros d Hd. rewrite (below_agree d l (x :: y)), (above_agree d l (x :: y)) by auto. reflexivity.
  Qed.
End Agree.

Section Determined.
  Variables (n : nat) (adapted : ca -> lfield -> option (bool * (ca * (ca * lfield)))) (scheme : Q -> ca -> ca -> lfield -> lfield -> option lfield).
  Variables (Tf : Q) (I : ca -> Prop) (M : ca -> ca -> Prop).
  Hypothesis HA : forall cells u1 u2 ended c r w1, I cells -> agree n cells u1 u2 -> adapted cells u1 = Some (ended, (c, (r, w1))) ->
    I c /\ M c r /\ exists w2, adapted cells u2 = Some (ended, (c, (r, w2))) /\ agree_near n 1 c w1 w2.
  Hypothesis HS : forall dt c r w1 w2 v1 v2 z1, M c r -> agree_near n 1 c w1 w2 -> scheme dt c r w1 v1 = Some z1 -> exists z2, scheme dt c r w2 v2 = Some z2 /\ agree n c z1 z2.

  Lemma near_agree : forall c w1 w2, agree_near n 1 c w1 w2 -> agree n c w1 w2.
  Proof using Type. clear HA HS I M Tf adapted scheme. intros c w1 w2 H l x y Hp. apply (H l (x :: y)); auto; [destruct Hp as (_ & L & _); cbn in L; lia|apply near_self; lia]. Qed.
  Lemma loop_determined : forall rest1 rest2 fuel dt t cells u1 u2 ended t' c v1, I cells -> agree n cells u1 u2 ->
    time_loop adapted scheme rest1 Tf fuel dt t cells u1 = Some (ended, (t', (c, v1))) ->
    exists v2, time_loop adapted scheme rest2 Tf fuel dt t cells u2 = Some (ended, (t', (c, v2))) /\ agree n c v1 v2.
  Proof.
    intros rest1 rest2 fuel. induction fuel as [|fuel IH]; intros dt t cells u1 u2 ended t' c v1 HI HG; cbn [time_loop]; destruct (Qeq_bool t Tf); try (intros E; injection E as <- <- <- <-; eauto; fail).
    destruct (adapted cells u1) as [[e [c1 [r1 w1]]]|] eqn:E1; [|discriminate]. destruct (HA cells u1 u2 e c1 r1 w1 HI HG E1) as (I1 & M1 & w2 & E2 & A2). rewrite E2.
    destruct e; [|intros E; injection E as <- <- <- <-; exists w2; split; auto; apply near_agree; auto].
    destruct (clock Tf dt t) as [dt' t2]. destruct (scheme dt' c1 r1 w1 (rest1 c1 w1)) as [z1|] eqn:S1; [|discriminate]. destruct (HS dt' c1 r1 w1 w2 _ (rest2 c1 w2) z1 M1 A2 S1) as (z2 & S2 & AZ). rewrite S2.
    apply IH; auto.
  Qed.
End Determined.

Lemma near_le : forall n k cells u1 u2, 1 <= k -> agree_near n k cells u1 u2 -> agree_near n 1 cells u1 u2.
Proof. intros n k cells u1 u2 Hk H l p x y Hp Ly Np. apply (H l p); auto. intros i Hi. specialize (Np i Hi). lia. Qed.

(** With the hypotheses of C66 and C62, two loops that start with the same values on the
    leaves, and find anything else in their ghosts and in the storage of unp1, make the same
    meshes at the same times and the same values on the leaves, corrected or not. *)
Theorem C68_amr_determined : forall n g lo hi (early : bool) bc criterion fa scaling cor f Tf, amr_harmless n g lo hi bc -> amr_filling n g lo hi bc -> marking n g lo hi criterion -> fully_graded n g lo hi ->
  1 <= Z.of_nat (g_order g) <= g_width g -> 2 * Z.of_nat (g_order g) <= g_width g + 2 -> reaches n g lo hi (if early then Z.of_nat (g_order g) else 0) criterion -> ~ (scaling == 0)%Q -> respects f ->
  let adapted := amr_adapted n g early bc criterion fa in
  let scheme := two_point_scheme n (g_min_level g) (g_max_level g) scaling cor f in
  forall rest1 rest2 fuel dt t cells u1 u2 ended t' c v1, amr_usable n g lo hi cells -> agree n cells u1 u2 ->
    time_loop adapted scheme rest1 Tf fuel dt t cells u1 = Some (ended, (t', (c, v1))) ->
    exists v2, time_loop adapted scheme rest2 Tf fuel dt t cells u2 = Some (ended, (t', (c, v2))) /\ agree n c v1 v2.
Proof.
  intros n g lo hi early bc criterion fa scaling cor f Tf HB HFl HC HG HO HW HD HS HR adapted scheme.
  apply (loop_determined n adapted scheme Tf (amr_usable n g lo hi) (fun c r => amr_usable n g lo hi c /\ amr_reference_of n g c r)).
  - intros cells u1 u2 ended c r w1 HU HA. unfold adapted, amr_adapted. destruct (C66_loop n g lo hi early bc criterion fa cells u1 HU HB HC) as (e & c1 & v1 & E1 & UC & _). rewrite E1.
    destruct (C66_determined n g lo hi early bc criterion HB HFl HC HG (proj2 HO) HW HD fa cells u1 u2 e c1 v1 HU HA E1) as (v2 & E2 & A2). rewrite E2.
    pose proof (au_sub _ _ _ _ _ UC) as HI. destruct (C64_contents _ _ _ _ _ _ _ _ _ _ _ HI) as (r0 & HR0 & _). rewrite HR0.
    destruct (update_loose n _ _ _ _ _ _ _ c1 lo hi r0 HI HR0 (au_dim _ _ _ _ _ UC) (bc c1 (a_all r0)) (HB c1 r0 UC HR0) v1) as (x1 & U1 & _). rewrite U1.
    destruct (update_loose n _ _ _ _ _ _ _ c1 lo hi r0 HI HR0 (au_dim _ _ _ _ _ UC) (bc c1 (a_all r0)) (HB c1 r0 UC HR0) v2) as (x2 & U2 & _). rewrite U2.
    intros Q. injection Q as <- <- <- <-. split; auto. split; [split; auto; exists r0; auto|]. exists x2. split; auto. apply (near_le n (Z.of_nat (g_order g))); [lia|].
    apply (amr_near_agree n g lo hi bc HB HFl HG (proj2 HO) HW c1 v1 v2 x1 x2 r0); auto.
  - intros dt c r w1 w2 z1 z2 y1 (UC & r' & HR' & ->) HA E. destruct (C67_amr_mesh n g lo hi c r' UC HR') as [M _]. apply (step_agree n _ _ scaling c _ lo hi f dt w1 w2 M HR HA cor z1 z2 y1 HS E).
Qed.

Theorem C68_mr_determined : forall n g lo hi bc scaling cor f Tf, harmless n g lo hi bc -> filling n g lo hi bc -> 1 <= Z.of_nat (h_order g) <= h_width g -> ~ (scaling == 0)%Q -> respects f ->
  let adapted := mr_adapted n g bc in
  let scheme := two_point_scheme n (h_min_level g) (h_max_level g) scaling cor f in
  forall rest1 rest2 fuel dt t cells u1 u2 ended t' c v1, mr_usable n g lo hi cells -> agree n cells u1 u2 ->
    time_loop adapted scheme rest1 Tf fuel dt t cells u1 = Some (ended, (t', (c, v1))) ->
    exists v2, time_loop adapted scheme rest2 Tf fuel dt t cells u2 = Some (ended, (t', (c, v2))) /\ agree n c v1 v2.
Proof.
  intros n g lo hi bc scaling cor f Tf HB HFl HO HS HR adapted scheme.
  apply (loop_determined n adapted scheme Tf (mr_usable n g lo hi) (fun c r => mr_usable n g lo hi c /\ mr_reference_of n g c r)).
  - intros cells u1 u2 ended c r w1 [HU H1] HA. unfold adapted, mr_adapted. destruct (C60_adapt n g lo hi bc cells u1 HU HB) as (c1 & v1 & E1 & UC & _). rewrite E1.
    destruct (C62_adapt n g lo hi bc cells u1 u2 c1 v1 HU HB HFl (proj2 HO) HA E1) as (v2 & E2 & A2). rewrite E2. pose proof (adapt_steps n g lo hi bc cells u1 c1 v1 HU HB H1 E1) as SC.
    pose proof UC as (HI & _). destruct (C54_contents _ _ _ _ _ _ _ (gi_in _ _ _ _ _ _ _ _ _ HI)) as (r0 & HR0 & _). rewrite HR0. destruct (subdomain_total n g lo hi c1 UC) as (sub & ES). rewrite ES.
    destruct (C55_update n _ _ _ _ _ c1 lo hi r0 sub (bc c1 (r_all r0)) HI HR0 ES (HB c1 r0 UC HR0) v1) as (x1 & U1 & _). rewrite U1.
    destruct (C55_update n _ _ _ _ _ c1 lo hi r0 sub (bc c1 (r_all r0)) HI HR0 ES (HB c1 r0 UC HR0) v2) as (x2 & U2 & _). rewrite U2.
    intros Q. injection Q as <- <- <- <-. split; [split; auto|]. split; [split; [split; auto|exists r0; auto]|]. exists x2. split; auto. apply (near_le n (Z.of_nat (h_order g))); [lia|].
    intros l p x y Hp Ly Np. pose proof (C67_mr_mesh n _ _ _ _ _ c1 lo hi r0 HI SC HR0) as M. pose proof (fm_range _ _ _ _ _ _ _ M _ _ Hp) as Rl.
    destruct (C55_determined n _ _ _ _ _ c1 lo hi r0 sub (bc c1 (r_all r0)) HI HR0 ES (HB c1 r0 UC HR0) (HFl c1 r0 UC HR0) v1 v2 x1 x2 U1 U2 A2 l ltac:(lia)) as [_ X].
    assert (CL : forall q, length q = S n -> near n (h_width g) q p -> ca_mem n (r_all r0) l q).
    { intros q. apply (C54_leaf_stencils _ _ _ _ _ _ _ _ (gi_in _ _ _ _ _ _ _ _ _ HI) (gi_ne _ _ _ _ _ _ _ _ _ HI) HR0 l p Hp). apply (gi_tiles _ _ _ _ _ _ _ _ _ HI). }
    apply (X p); auto.
    + apply CL; [apply Hp|apply near_self; lia].
    + apply (gi_tiles _ _ _ _ _ _ _ _ _ HI). auto.
    + intros q Lq Nq. apply CL; auto. intros k Hk. specialize (Nq k Hk). lia.
  - intros dt c r w1 w2 z1 z2 y1 ([UC SC] & r' & HR' & ->) HA E. pose proof (C67_mr_mesh n _ _ _ _ _ c lo hi r' (proj1 UC) SC HR') as M. apply (step_agree n _ _ scaling c _ lo hi f dt w1 w2 M HR HA cor z1 z2 y1 HS E).
Qed.

(** The fluxes of the demos. *)
Lemma Qltb_comp : forall a a' b b', (a == a')%Q -> (b == b')%Q -> Qltb a b = Qltb a' b'.
Proof. intros a a' b b' Ha Hb. unfold Qltb. f_equal. apply Bool.eq_iff_eq_true. rewrite !Qle_bool_iff, Ha, Hb. reflexivity. Qed.
Theorem C68_fluxes : forall a : nat -> Q, respects (fun _ d => upwind_flux (a d)) /\ respects (fun _ d => scalar_burgers_flux (a d)) /\
  forall h, respects (fun dt _ => burgers_flux (h / dt)).
Proof.
  intros a. split; [|split; [|intros h]]; intros dt d x x' y y' Hx Hy.
  - unfold upwind_flux. rewrite Hx, Hy. reflexivity.
  - unfold scalar_burgers_flux. rewrite (Qltb_comp (a d * x) (a d * x') (a d * y) (a d * y')) by (rewrite ?Hx, ?Hy; reflexivity). rewrite (Qltb_comp 0 0 (x * y) (x' * y')) by (rewrite ?Hx, ?Hy; reflexivity).
    destruct (Qltb (a d * x') (a d * y')), (Qltb 0 (x' * y')); cbn [andb negb]; rewrite ?Hx, ?Hy; reflexivity.
  - unfold burgers_flux. rewrite Hx, Hy. reflexivity.
Qed.

(** ** Examples *)

(** The line of C60: leaves of the levels 1, 2 and 3 on [0, 1], the field x^2 and the value 5
    at both ends; advection with the velocity 1, dt = 1/16, up to 1/10: two steps, the second
    with dt = 3/80. With garbage outside the leaves the result is the same. *)
Definition lineLoop (cor : bool) (rest : ca -> lfield -> lfield) (u : lfield) : option (bool * (Q * (ca * lfield))) :=
  time_loop (mr_adapted 0 (lineSetting (1 # 10) 4) (conditions 0 (lineSetting (1 # 10) 4) (fun _ => 1%Q) lineBcs)) (two_point_scheme 0 1 3 1 cor (fun _ _ => upwind_flux 1)) rest
    (1 # 10) 5 (1 # 16) 0 lineMesh u.
Definition time_show (n : nat) (o : option (bool * (Q * (ca * lfield)))) : option (bool * Q * option (list (nat * list Z * Q)) * Q) :=
  match o with Some (b, (t, (c, u))) => Some (b, Qred t, show n (Some (c, u)), Qred (mass n 1 c u)) | None => None end.
Example C68_line : mr_usable 0 (lineSetting (1 # 10) 4) [0] [1] lineMesh /\
  harmless 0 (lineSetting (1 # 10) 4) [0] [1] (conditions 0 (lineSetting (1 # 10) 4) (fun _ => 1%Q) lineBcs) /\ filling 0 (lineSetting (1 # 10) 4) [0] [1] (conditions 0 (lineSetting (1 # 10) 4) (fun _ => 1%Q) lineBcs) /\
  agree 0 lineMesh lineField dirty /\ (dirty 2%nat 1%Z [] == 1017)%Q /\ (lineField 2%nat 1%Z [] == 1 # 16)%Q /\ Qred (mass 0 1 lineMesh lineField) = (117 # 512)%Q /\ Qceiling (((1 # 10) - 0) / (1 # 16)) = 2 /\
  time_show 0 (lineLoop true (fun _ _ => nothing) lineField) = Some (true, (1 # 10)%Q, Some [(3%nat, [0], (6045173 # 1310720)%Q); (3%nat, [1], (3568971 # 1310720)%Q); (3%nat, [2], (2832139 # 5242880)%Q);
    (3%nat, [3], (-479529 # 655360)%Q); (3%nat, [4], (-1955953 # 2621440)%Q); (3%nat, [5], (-3101 # 163840)%Q); (3%nat, [6], (144381 # 327680)%Q); (3%nat, [7], (40733 # 65536)%Q)], (39010081 # 41943040)%Q) /\
  time_show 0 (lineLoop true (fun _ _ => dirty) dirty) = time_show 0 (lineLoop true (fun _ _ => nothing) lineField) /\
  time_show 0 (lineLoop false (fun _ _ => dirty) dirty) = time_show 0 (lineLoop false (fun _ _ => nothing) lineField) /\
  time_show 0 (lineLoop false (fun _ _ => nothing) lineField) <> time_show 0 (lineLoop true (fun _ _ => nothing) lineField).
Proof.
  split; [split; [apply line_usable|apply line_steps]|]. split; [apply line_harmless|]. split; [apply line_filling|]. split; [apply stored_agree|].
  split; [reflexivity|]. split; [reflexivity|]. split; [vm_compute; reflexivity|]. split; [vm_compute; reflexivity|]. split; [vm_compute; reflexivity|]. split; [vm_compute; reflexivity|]. split; [vm_compute; reflexivity|vm_compute; discriminate].
Qed.

(** The hat of C66 with the Burgers equation: all the leaves get the finest level in the first
    adaptation and stay there. *)
Definition hatLoop (fuel : nat) : option (bool * (Q * (ca * lfield))) :=
  time_loop (amr_adapted 0 hatSetting true hatBc hatSlopes 10) (fun dt => burgers_step 3 1 dt true) (fun _ u => u) (1 # 10) fuel (1 # 16) 0 lineMesh hatField.
Example C68_hat : amr_usable 0 hatSetting [0] [1] lineMesh /\ amr_harmless 0 hatSetting [0] [1] hatBc /\ amr_filling 0 hatSetting [0] [1] hatBc /\ marking 0 hatSetting [0] [1] hatSlopes /\
  Qred (mass 0 1 lineMesh hatField) = (117 # 512)%Q /\
  time_show 0 (hatLoop 1) = Some (false, (1 # 16)%Q, Some [(3%nat, [0], (178395 # 16384)%Q); (3%nat, [1], (2760430103 # 2147483648)%Q); (3%nat, [2], (-1929026825 # 2147483648)%Q);
    (3%nat, [3], (-51559475 # 134217728)%Q); (3%nat, [4], (-30683457 # 134217728)%Q); (3%nat, [5], (538333017 # 2147483648)%Q); (3%nat, [6], (1244794713 # 2147483648)%Q); (3%nat, [7], (-187473 # 32768)%Q)],
    (96835961 # 134217728)%Q) /\
  match time_show 0 (hatLoop 2) with Some (true, t, _, m) => t = (1 # 10)%Q /\ m = (-30838558647 # 171798691840)%Q | _ => False end.
Proof.
  split; [exact hat_usable|]. split; [apply hat_conditions|]. split; [apply hat_conditions|]. split; [apply (C66_slopes_marking hatSetting)|].
  split; [vm_compute; reflexivity|]. split; [vm_compute; reflexivity|]. vm_compute. auto.
Qed.

Print Assumptions C68_amr.
Print Assumptions C68_burgers.
Print Assumptions C68_mr.
Print Assumptions C68_mr_ends.
Print Assumptions C68_amr_determined.
Print Assumptions C68_mr_determined.
Print Assumptions C68_fluxes.
