(** The linear schemes by intervals against the same schemes cell by cell. *)
From Coq Require Import QArith.
From Verif Require Import Base IntervalModel Spec LoiModel LcaModel LcaSpec LcaProofs LcaProofs3 RowsProofs CellArrayModel CellArrayProofs
  PropsLca PropsCellArray SubsetModel TreeProofs SubsetSpec SubsetProofs2 PropsSubset StencilModel NumberingProofs StencilProofs PropsStencil
  MeshModel MeshProofs PropsMesh AdaptModel AdaptProofs TagProofs PropsAdapt GradModel GradProofs PropsGrad NumProofs InterfaceModel InterfaceProofs
  PropsInterface GeomModel PropsNum PropsTransfer FluxModel BoundaryProofs PropsBoundary FluxProofs GhostModel ReconModel LinFluxModel LinFluxProofs.
Open Scope Z_scope.

(** ** The interfaces of a run *)
Definition mv (ii : nat) : scell -> scell := move_cell (Z.of_nat ii) (Z.of_nat ii).
Definition expand (r : run) : list iface :=
  match r_cells r with
  | [a; b] => map (fun ii => ([mv (lpos a b ii) a; mv (rpos a b ii) b], map (mv ii) (r_stencil r))) (seq 0 (Z.to_nat (r_size r)))
  | [a] => map (fun ii => ([mv ii a], map (mv ii) (r_stencil r))) (seq 0 (Z.to_nat (r_size r)))
  | _ => []
  end.

Lemma mv_index : forall k e, sc_index (mv k e) = sc_index e + Z.of_nat k.
Proof. reflexivity. Qed.
Lemma mv_0 : forall e, mv 0 e = e.
Proof. intros [l p i]. unfold mv, move_cell. cbn [sc_level sc_coord sc_index]. f_equal; [|lia]. destruct p; [reflexivity|]. f_equal. lia. Qed.
Lemma mv_mv : forall a b e, mv a (mv b e) = mv (b + a) e.
Proof.
  intros a b [l p i]. unfold mv, move_cell. cbn [sc_level sc_coord sc_index]. f_equal; [|lia]. destruct p; [reflexivity|]. f_equal. lia.
Qed.
Lemma mv_all_0 : forall es, map (mv 0) es = es.
Proof. intros es. rewrite <- (map_id es) at 2. apply map_ext. apply mv_0. Qed.
Lemma move_mv : forall e, move_cell 1 1 e = mv 1 e.
Proof. reflexivity. Qed.

Lemma slide_map : forall k es, slide k es = map (fun ii => map (mv ii) es) (seq 0 k).
Proof.
  induction k as [|k IH]; intros es; [reflexivity|]. cbn [slide seq map]. rewrite mv_all_0. f_equal. rewrite IH, <- seq_shift, map_map. apply map_ext. intros ii.
  unfold stencil_move_next. rewrite map_map. apply map_ext. intros e. rewrite move_mv, mv_mv. reflexivity.
Qed.
Lemma combine_maps : forall (A B C : Type) (f : A -> B) (g : A -> C) xs, combine (map f xs) (map g xs) = map (fun x => (f x, g x)) xs.
Proof. intros A B C f g. induction xs as [|x xs IH]; [reflexivity|]. cbn [map combine]. rewrite IH. reflexivity. Qed.

Lemma half_step : forall m, (S m / 2 = m / 2 + (if Nat.eqb (m mod 2) 1 then 1 else 0))%nat.
Proof.
  intros m. pose proof (Nat.div_mod m 2 ltac:(lia)) as E. pose proof (Nat.mod_upper_bound m 2 ltac:(lia)) as B.
  destruct (Nat.eqb_spec (m mod 2) 1) as [C|C].
  - replace (S m) with ((m / 2 + 1) * 2 + 0)%nat by lia. rewrite Nat.div_add_l by lia. change (0 / 2)%nat with 0%nat. lia.
  - assert (m mod 2 = 0)%nat by lia. replace (S m) with ((m / 2) * 2 + 1)%nat by lia. rewrite Nat.div_add_l by lia. change (1 / 2)%nat with 0%nat. lia.
Qed.
Lemma jump_slide_map : forall first k j es,
  jump_slide first k j es = map (fun ii => (jump_cells first (mkLJ (mv ii (lj_fine j)) (mv ((lj_ii j + ii) / 2 - lj_ii j / 2) (lj_coarse j)) 0), map (mv ii) es)) (seq 0 k).
Proof.
  intros first. induction k as [|k IH]; intros j es; [reflexivity|]. cbn [jump_slide seq map]. f_equal.
  - rewrite Nat.add_0_r, Nat.sub_diag, !mv_0, mv_all_0. reflexivity.
  - rewrite IH, <- seq_shift, map_map. apply map_ext. intros ii. f_equal.
    + unfold ljump_move_next. cbn [lj_fine lj_coarse lj_ii].
      assert (D : forall dx, dx = Z.of_nat (if Nat.eqb (lj_ii j mod 2) 1 then 1 else 0)%nat -> move_cell dx dx (lj_coarse j) = mv (if Nat.eqb (lj_ii j mod 2) 1 then 1 else 0) (lj_coarse j)).
      { intros dx ->. reflexivity. }
      rewrite (D (if Nat.eqb (lj_ii j mod 2) 1 then 1 else 0)) by (destruct (Nat.eqb (lj_ii j mod 2) 1); reflexivity).
      rewrite move_mv, !mv_mv. unfold jump_cells. cbn [lj_fine lj_coarse].
      assert (X : ((if Nat.eqb (lj_ii j mod 2) 1 then 1 else 0) + ((S (lj_ii j) + ii) / 2 - S (lj_ii j) / 2) = (lj_ii j + S ii) / 2 - lj_ii j / 2)%nat).
      { rewrite half_step. replace (S (lj_ii j) + ii)%nat with (lj_ii j + S ii)%nat by lia.
        assert (S (lj_ii j) / 2 <= (lj_ii j + S ii) / 2)%nat by (apply Nat.div_le_mono; lia). rewrite half_step in H. lia. }
      rewrite X. reflexivity.
    + unfold stencil_move_next. rewrite map_map. apply map_ext. intros e. rewrite move_mv, mv_mv. reflexivity.
Qed.

(** The cells after [init]. *)
Lemma init_levels : forall n c s mi es, stencil_init n c s mi = Some es -> length es = length s /\ Forall (fun e => sc_level e = mi_level mi) es.
Proof.
  intros n c s mi es. unfold stencil_init. destruct (find_stencil_origin s) as [o|]; [|discriminate]. destruct (mesh_nb_cells c) as [nb|]; [|discriminate].
  destruct (get_index_start n c mi) as [i|]; [|discriminate]. destruct (check_index nb i) as [i'|]; [|discriminate].
  assert (G : forall s id es, stencil_entries n c nb mi (mkSC (mi_level mi) (istart (mi_i mi) :: mi_index mi) i') o id s = Some es -> length es = length s /\ Forall (fun e => sc_level e = mi_level mi) es).
  { clear. induction s as [|v s IH]; intros id es H; cbn [stencil_entries] in H; [injection H as <-; auto|].
    destruct (if Nat.eqb id o then _ else _) as [e|] eqn:Ee; [|discriminate]. destruct (stencil_entries n c nb mi _ o (S id) s) as [es'|] eqn:Es; [|discriminate]. injection H as <-.
    destruct (IH (S id) es' Es) as [L F]. split; [cbn; congruence|]. constructor; auto. destruct (Nat.eqb id o); [injection Ee as <-; reflexivity|].
    unfold stencil_entry in Ee. destruct (forallb _ _); [injection Ee as <-; reflexivity|]. destruct (get_index_start_translated n c mi v) as [x|]; [|discriminate].
    destruct (check_index nb x); [|discriminate]. injection Ee as <-. reflexivity. }
  intros H. apply (G s 0%nat es H).
Qed.

Definition rgood (L ns : nat) (r : run) : Prop :=
  exists a b, r_cells r = [a; b] /\ paired a b (Z.to_nat (r_size r)) /\ length (r_stencil r) = ns /\ Forall (fun e => sc_level e = L) (r_stencil r).
Definition bgood (L ns : nat) (r : run) : Prop :=
  exists a, r_cells r = [a] /\ length (r_stencil r) = ns /\ Forall (fun e => sc_level e = L) (r_stencil r).

Lemma two : forall (A : Type) (l : list A), length l = 2%nat -> exists a b, l = [a; b].
Proof. intros A [|a [|b [|c l]]] H; try discriminate. eauto. Qed.

Lemma same_interval_run : forall n ref dir comput mi o, same_level_interval n ref dir comput mi = Some o ->
  exists r, same_level_run n ref dir comput mi = Some [r] /\ o = expand r /\ rgood (mi_level mi) (length comput) r.
Proof.
  intros n ref dir comput mi o. unfold same_level_interval, same_level_run, for_each_stencil_sliding.
  destruct (stencil_init n ref (in_out_stencil n dir) mi) as [a|] eqn:Ea; [|discriminate]. destruct (stencil_init n ref comput mi) as [b|] eqn:Eb; [|discriminate].
  cbv beta zeta iota. intros H. injection H as <-. eexists. split; [reflexivity|]. apply init_levels in Ea as [La Fa], Eb as [Lb Fb]. destruct (two _ a La) as (x & y & ->).
  pose proof (Forall_inv Fa) as F1. pose proof (Forall_inv (Forall_inv_tail Fa)) as F2. split.
  - unfold expand. cbn [r_cells r_size r_stencil]. rewrite !slide_map, combine_maps. apply map_ext. intros ii. unfold lpos, rpos. rewrite F1, F2, Nat.ltb_irrefl. reflexivity.
  - exists x, y. split; [reflexivity|]. split; [left; congruence|]. split; auto.
Qed.
Lemma boundary_interval_run : forall n ref dir comput mi o, boundary_interval n ref dir comput mi = Some o ->
  exists r, boundary_run n ref dir comput mi = Some [r] /\ o = expand r /\ bgood (mi_level mi) (length comput) r.
Proof.
  intros n ref dir comput mi o. unfold boundary_interval, boundary_run, for_each_stencil_sliding.
  destruct (stencil_init n ref (in_out_stencil n dir) mi) as [a|] eqn:Ea; [|discriminate]. destruct (stencil_init n ref comput mi) as [b|] eqn:Eb; [|discriminate].
  cbv beta zeta iota. intros H. injection H as <-. eexists. split; [reflexivity|]. apply init_levels in Ea as [La Fa], Eb as [Lb Fb]. destruct (two _ a La) as (x & y & ->). split.
  - unfold expand. cbn [firstn r_cells r_size r_stencil]. rewrite !slide_map, map_map, combine_maps. apply map_ext. intros ii. reflexivity.
  - exists x. split; [reflexivity|]. split; auto.
Qed.
Lemma jump_interval_run : forall n ref first di comput mi o, (0 < mi_level mi)%nat ->
  (let s := Z.to_nat (iend (mi_i mi) - istart (mi_i mi)) in s = 1%nat \/ Nat.even s = true) ->
  jump_interval n ref first di comput mi = Some o ->
  exists r, jump_run n ref first di comput mi = Some [r] /\ o = expand r /\ rgood (mi_level mi) (length comput) r.
Proof.
  intros n ref first di comput mi o Hl Hs. unfold jump_interval, jump_run. destruct (stencil_init n ref comput mi) as [es|] eqn:Es; [|discriminate].
  destruct (ljump_init n ref di es mi) as [j|] eqn:Ej; [|discriminate]. intros H. injection H as <-. eexists. split; [reflexivity|].
  apply init_levels in Es as [Le Fe]. unfold ljump_init in Ej.
  match type of Ej with context [stencil_init n ref _ ?m] => destruct (stencil_init n ref [repeat 0 (S n)] m) as [cs|] eqn:Ec; [|discriminate] end.
  destruct (nth_error cs 0) as [co|] eqn:E0; [|discriminate]. destruct (nth_error es di) as [fi|] eqn:Ed; [|discriminate]. injection Ej as <-.
  apply init_levels in Ec as [_ Fc]. cbn [mi_level] in Fc. apply nth_error_In in E0, Ed. rewrite Forall_forall in Fc. apply Fc in E0.
  assert (E1 : sc_level fi = mi_level mi) by (rewrite Forall_forall in Fe; apply Fe; auto). split.
  - rewrite jump_slide_map. cbn [lj_fine lj_coarse lj_ii]. unfold expand, jump_cells. cbn [lj_fine lj_coarse lj_ii]. destruct first; cbn [r_cells r_size r_stencil]; apply map_ext; intros ii; unfold lpos, rpos; rewrite E0, E1;
      destruct (Nat.ltb_spec (pred (mi_level mi)) (mi_level mi)); try lia; destruct (Nat.ltb_spec (mi_level mi) (pred (mi_level mi))); try lia;
      cbn [Nat.add]; rewrite Nat.div_0_l, Nat.sub_0_r by lia; reflexivity.
  - unfold jump_cells. cbn [lj_fine lj_coarse]. destruct first; [exists co, fi|exists fi, co]; (split; [reflexivity|]); (split; [right; exact Hs|]); split; auto.
Qed.

(** Over a set. *)
Lemma concat_runs : forall (f : interval * list Z -> option (list iface)) (g : interval * list Z -> option (list run)) (P : run -> Prop) calls o,
  concat_calls f calls = Some o -> (forall c oc, In c calls -> f c = Some oc -> exists r, g c = Some [r] /\ oc = expand r /\ P r) ->
  exists rs, concat_calls g calls = Some rs /\ o = flat_map expand rs /\ Forall P rs.
Proof.
  intros f g P. induction calls as [|c calls IH]; intros o H K; cbn [concat_calls] in *.
  - injection H as <-. exists []. auto.
  - destruct (f c) as [a|] eqn:Ea; [|discriminate]. destruct (concat_calls f calls) as [b|] eqn:Eb; [|discriminate]. injection H as <-.
    destruct (K c a (or_introl eq_refl) Ea) as (r & -> & -> & Pr). destruct (IH b eq_refl (fun c oc Hc => K c oc (or_intror Hc))) as (rs & -> & -> & F).
    exists (r :: rs). split; [reflexivity|]. split; [reflexivity|]. constructor; auto.
Qed.
Lemma over_set_runs : forall n s f g (P : run -> Prop) o, over_set n s f = Some o ->
  (forall calls i yz oc, subset_calls n s = Some calls -> In (i, yz) calls -> f (mkMI (s_ref s) i yz) = Some oc -> exists r, g (mkMI (s_ref s) i yz) = Some [r] /\ oc = expand r /\ P r) ->
  exists rs, over_set n s g = Some rs /\ o = flat_map expand rs /\ Forall P rs.
Proof.
  intros n s f g P o. unfold over_set. destruct (subset_calls n s) as [calls|] eqn:E; [|discriminate]. intros H K. apply (concat_runs _ _ P _ _ H). intros [i yz] oc Hc. apply (K calls); auto.
Qed.

(** ** The values *)
Section Values.
  Context (n os fs : nat) (u : output).

  Definition scaled (cs : coeffs) (q : Q) (fc : coeffs) : Prop := length cs = length fc /\ forall es k, (lin_value fs u cs es k == q * lin_value fs u fc es k)%Q.
  Lemma scaled_map : forall (g : (nat -> nat -> Q) -> nat -> nat -> Q) q fc, (forall m i j, (g m i j == q * m i j)%Q) -> scaled (map g fc) q fc.
  Proof.
    intros g q fc H. split; [apply map_length|]. intros es k. unfold lin_value. rewrite <- sum_scale. apply sum_ext. intros j _. rewrite <- sum_scale.
    revert es. induction fc as [|m fc IH]; intros [|e es]; cbn [map combine]; try reflexivity. rewrite !sum_cons, IH, H. ring.
  Qed.
  Lemma scaled_trans : forall a b c p q, scaled a p b -> scaled b q c -> scaled a (p * q)%Q c.
  Proof. intros a b c p q [L1 S1] [L2 S2]. split; [congruence|]. intros es k. rewrite S1, S2. ring. Qed.
  Definition ratio (hf hc : Q) : Q := ((hf ^ Z.of_nat n) / (hc ^ Z.of_nat (S n)))%Q.
  Lemma scaled_contribution : forall fc hf hc, scaled (coeff_contribution n fc hf hc) (ratio hf hc) fc.
  Proof. intros. apply scaled_map. reflexivity. Qed.
  Lemma scaled_neg : forall fc, scaled (coeff_neg fc) (- (1)) fc.
  Proof. intros. apply scaled_map. intros. ring. Qed.
  Lemma scaled_neg_contribution : forall fc hf hc, scaled (coeff_neg (coeff_contribution n fc hf hc)) (- ratio hf hc) fc.
  Proof. intros. destruct (scaled_trans _ _ _ _ _ (scaled_neg _) (scaled_contribution fc hf hc)) as [L S1]. split; [exact L|]. intros es k. rewrite S1. ring. Qed.
  Lemma scaled_contribution_neg : forall fc hf hc, scaled (coeff_contribution n (coeff_neg fc) hf hc) (- ratio hf hc) fc.
  Proof. intros. destruct (scaled_trans _ _ _ _ _ (scaled_contribution (coeff_neg fc) hf hc) (scaled_neg fc)) as [L S1]. split; [exact L|]. intros es k. rewrite S1. ring. Qed.
  Lemma contribution_ratio : forall v hf hc k, contribution n v hf hc k = (ratio hf hc * v k)%Q.
  Proof. reflexivity. Qed.

  (** [F] is the flux function of the scheme cell by cell: it must give the linear
      combination on the stencils of level [L], up to the component [os]. *)
  Definition agrees (F : list scell -> value * value) (L ns : nat) (fc : coeffs) : Prop :=
    length fc = ns /\ forall es, length es = ns -> Forall (fun e => sc_level e = L) es -> forall k, (k < os)%nat ->
      (fst (F es) k == lin_value fs u fc es k)%Q /\ (snd (F es) k == - lin_value fs u fc es k)%Q.

  Definition ev_term (i : Z) (k : nat) (e : event) : Q := (hit i (first_index (fst e) 0) (fst (snd e) k) + hit i (first_index (fst e) 1) (snd (snd e) k))%Q.
  Definition bev_term (i : Z) (k : nat) (e : list scell * value) : Q := hit i (first_index (fst e) 0) (snd e k).

  Lemma mv_levels : forall L ii es, Forall (fun e => sc_level e = L) es -> Forall (fun e => sc_level e = L) (map (mv ii) es).
  Proof. intros L ii es F. apply Forall_map. exact F. Qed.

  Lemma run_effect_events : forall F L fc hf hl hr r lcs rcs, agrees F L (length (r_stencil r)) fc -> rgood L (length (r_stencil r)) r ->
    scaled lcs (ratio hf hl) fc -> scaled rcs (- ratio hf hr) fc -> run_ok (r, (lcs, rcs)) /\
    forall i k, (k < os)%nat -> (run_effect os fs u (r, (lcs, rcs)) i k == sum_over (ev_term i k) (map (interior_event n F hf hl hr) (expand r)))%Q.
  Proof.
    intros F L fc hf hl hr r lcs rcs [Lf A] (a & b & Er & P & _ & Fl) [L1 S1] [L2 S2]. split.
    - exists a, b. split; [exact Er|]. split; [exact P|]. split; congruence.
    - intros i k Hk. unfold run_effect, expand. rewrite Er. destruct (Nat.ltb_spec k os); [|lia]. rewrite !sum_map. apply sum_ext. intros ii _.
      unfold ev_term, interior_event. cbn [fst snd first_index nth_error]. rewrite !contribution_ratio.
      destruct (A (map (mv ii) (r_stencil r)) (map_length _ _) (mv_levels L ii _ Fl) k Hk) as [A1 A2]. change (map (move_cell (Z.of_nat ii) (Z.of_nat ii)) (r_stencil r)) with (map (mv ii) (r_stencil r)).
      rewrite !mv_index. apply Qplus_comp; apply hit_comp; [rewrite S1, A1; reflexivity|rewrite S2, A2; ring].
  Qed.
  Lemma brun_effect_events : forall F L fc h r cs (side : value * value -> value) sg, agrees F L (length (r_stencil r)) fc -> bgood L (length (r_stencil r)) r ->
    (side = fst /\ sg = 1%Q \/ side = snd /\ sg = (- (1))%Q) -> scaled cs (sg * ratio h h) fc -> brun_ok (r, cs) /\
    forall i k, (k < os)%nat -> (brun_effect os fs u (r, cs) i k == sum_over (bev_term i k) (map (boundary_event n side F h) (expand r)))%Q.
  Proof.
    intros F L fc h r cs side sg [Lf A] (a & Er & _ & Fl) Hs [L1 S1]. split.
    - exists a. split; [exact Er|]. congruence.
    - intros i k Hk. unfold brun_effect, expand. rewrite Er. destruct (Nat.ltb_spec k os); [|lia]. rewrite !sum_map. apply sum_ext. intros ii _.
      unfold bev_term, boundary_event. cbn [fst snd first_index nth_error]. rewrite !contribution_ratio.
      destruct (A (map (mv ii) (r_stencil r)) (map_length _ _) (mv_levels L ii _ Fl) k Hk) as [A1 A2]. change (map (move_cell (Z.of_nat ii) (Z.of_nat ii)) (r_stencil r)) with (map (mv ii) (r_stencil r)).
      rewrite !mv_index. apply hit_comp. rewrite S1. destruct Hs as [[-> ->]|[-> ->]]; [rewrite A1|rewrite A2]; ring.
  Qed.

  (** Lists of runs against lists of events. *)
  Definition matches (rs : list (run * (coeffs * coeffs))) (evs : list event) : Prop :=
    Forall run_ok rs /\ forall i k, (k < os)%nat -> (sum_over (fun e => run_effect os fs u e i k) rs == sum_over (ev_term i k) evs)%Q.
  Definition bmatches (rs : list (run * coeffs)) (evs : list (list scell * value)) : Prop :=
    Forall brun_ok rs /\ forall i k, (k < os)%nat -> (sum_over (fun e => brun_effect os fs u e i k) rs == sum_over (bev_term i k) evs)%Q.
  Lemma matches_app : forall a b x y, matches a x -> matches b y -> matches (a ++ b) (x ++ y).
  Proof. intros a b x y [A1 A2] [B1 B2]. split; [apply Forall_app; auto|]. intros i k Hk. rewrite !sum_app, A2, B2 by auto. reflexivity. Qed.
  Lemma bmatches_app : forall a b x y, bmatches a x -> bmatches b y -> bmatches (a ++ b) (x ++ y).
  Proof. intros a b x y [A1 A2] [B1 B2]. split; [apply Forall_app; auto|]. intros i k Hk. rewrite !sum_app, A2, B2 by auto. reflexivity. Qed.

  Lemma runs_match : forall F L ns fc hf hl hr lcs rcs rs, agrees F L ns fc -> Forall (rgood L ns) rs -> scaled lcs (ratio hf hl) fc -> scaled rcs (- ratio hf hr) fc ->
    matches (map (fun r => (r, (lcs, rcs))) rs) (map (interior_event n F hf hl hr) (flat_map expand rs)).
  Proof.
    intros F L ns fc hf hl hr lcs rcs rs A G S1 S2. induction G as [|r rs Hr G IH]; [split; [constructor|reflexivity]|]. cbn [map flat_map]. rewrite map_app.
    change ((r, (lcs, rcs)) :: map (fun r => (r, (lcs, rcs))) rs) with ([(r, (lcs, rcs))] ++ map (fun r => (r, (lcs, rcs))) rs). apply matches_app; auto.
    assert (E : length (r_stencil r) = ns) by (destruct Hr as (a & b & _ & _ & E & _); exact E). rewrite <- E in A, Hr.
    destruct (run_effect_events F L fc hf hl hr r lcs rcs A Hr S1 S2) as [R1 R2]. split; [constructor; auto|]. intros i k Hk. rewrite sum_cons, sum_nil, R2 by auto. ring.
  Qed.
  Lemma bruns_match : forall F L ns fc h cs rs (side : value * value -> value) sg, agrees F L ns fc -> Forall (bgood L ns) rs ->
    (side = fst /\ sg = 1%Q \/ side = snd /\ sg = (- (1))%Q) -> scaled cs (sg * ratio h h) fc ->
    bmatches (map (fun r => (r, cs)) rs) (map (boundary_event n side F h) (flat_map expand rs)).
  Proof.
    intros F L ns fc h cs rs side sg A G Hs S1. induction G as [|r rs Hr G IH]; [split; [constructor|reflexivity]|]. cbn [map flat_map]. rewrite map_app.
    change ((r, cs) :: map (fun r => (r, cs)) rs) with ([(r, cs)] ++ map (fun r => (r, cs)) rs). apply bmatches_app; auto.
    assert (E : length (r_stencil r) = ns) by (destruct Hr as (a & _ & E & _); exact E). rewrite <- E in A, Hr.
    destruct (brun_effect_events F L fc h r cs side sg A Hr Hs S1) as [R1 R2]. split; [constructor; auto|]. intros i k Hk. rewrite sum_cons, sum_nil, R2 by auto. ring.
  Qed.

  Lemma each_level_match : forall (A B : Type) (M : list A -> list B -> Prop) (f : nat -> option (list A)) (g : nat -> option (list B)) ls o, M [] [] ->
    (forall a b x y, M a x -> M b y -> M (a ++ b) (x ++ y)) -> each_level g ls = Some o ->
    (forall l x, In l ls -> g l = Some x -> exists a, f l = Some a /\ M a x) -> exists rs, each_level f ls = Some rs /\ M rs o.
  Proof.
    intros A B M f g ls o M0 MA. revert o. induction ls as [|l ls IH]; intros o H K; cbn [each_level] in *; [injection H as <-; exists []; auto|].
    destruct (g l) as [x|] eqn:Eg; [|discriminate]. destruct (each_level g ls) as [y|] eqn:Ey; [|discriminate]. injection H as <-.
    destruct (K l x (or_introl eq_refl) Eg) as (a & -> & Ma). destruct (IH y eq_refl (fun l x Hl => K l x (or_intror Hl))) as (b & -> & Mb). exists (a ++ b). auto.
  Qed.
  Lemma over_levels_match : forall (A B : Type) (M : list A -> list B -> Prop) cells (f : nat -> option (list A)) (g : nat -> option (list B)) ls o, M [] [] ->
    (forall a b x y, M a x -> M b y -> M (a ++ b) (x ++ y)) -> over_levels cells g ls = Some o ->
    (forall l x, In l ls -> g l = Some x -> exists a, f l = Some a /\ M a x) -> exists rs, over_levels cells f ls = Some rs /\ M rs o.
  Proof.
    intros A B M cells f g ls o M0 MA. revert o. induction ls as [|l ls IH]; intros o H K; cbn [over_levels] in *; [injection H as <-; exists []; auto|].
    destruct (lca_is_empty (c_at cells l)).
    - destruct (over_levels cells g ls) as [y|] eqn:Ey; [|discriminate]. injection H as <-. destruct (IH y eq_refl (fun l x Hl => K l x (or_intror Hl))) as (b & -> & Mb). exists b. auto.
    - destruct (g l) as [x|] eqn:Eg; [|discriminate]. destruct (over_levels cells g ls) as [y|] eqn:Ey; [|discriminate]. injection H as <-.
      destruct (K l x (or_introl eq_refl) Eg) as (a & -> & Ma). destruct (IH y eq_refl (fun l x Hl => K l x (or_intror Hl))) as (b & -> & Mb). exists (a ++ b). auto.
  Qed.

  (** ** The whole scheme in one direction *)
  Definition even_runs (maxl : nat) (cells : ca) (dir : list Z) : Prop :=
    forall l s calls i yz, (l < maxl)%nat -> s = dir \/ s = neg dir -> subset_calls n (on (shifted_inter (c_at cells l) (c_at cells (S l)) s) (S l)) = Some calls -> In (i, yz) calls ->
      let sz := Z.to_nat (iend i - istart i) in sz = 1%nat \/ Nat.even sz = true.

  Context (maxl : nat) (scaling : Q) (ref cells : ca) (domain : lca) (d : nat) (lf : lin_flux) (nf : normal_flux).
  Let dir := unit_mult n d 1.
  Let F := flux_function nf.
  Context (HS : nf_stencil nf = lf_stencil lf) (HE : even_runs maxl cells dir).
  Context (HA : forall L, agrees F L (length (lf_stencil lf)) (lf_cons lf (cell_length scaling L))).
  Context (LV : forall l, In l (levels cells) -> a_level (c_at cells l) = l).

  Lemma minus_length : forall s v, length (stencil_minus s v) = length s.
  Proof. intros. apply map_length. Qed.

  Lemma same_runs : forall l o, In l (levels cells) -> same_level n ref cells l dir (lf_stencil lf) = Some o ->
    exists rs, same_level_runs n ref cells l dir (lf_stencil lf) = Some rs /\ o = flat_map expand rs /\ Forall (rgood l (length (lf_stencil lf))) rs.
  Proof.
    intros l o Hl H. apply (over_set_runs _ _ _ _ _ _ H). intros calls i yz oc _ _ E. apply same_interval_run in E as (r & E1 & E2 & G). exists r. split; [exact E1|]. split; [exact E2|].
    cbn [mi_level] in G. replace (s_ref (shifted_inter (c_at cells l) (c_at cells l) (neg dir))) with l in G; [exact G|]. rewrite shifted_inter_level, LV by auto. lia.
  Qed.
  Lemma jump_runs_dir : forall l o, level_jump n maxl ref cells l dir (lf_stencil lf) = Some o ->
    exists rs, level_jump_runs n maxl ref cells l dir (lf_stencil lf) = Some rs /\ o = flat_map expand rs /\ Forall (rgood (S l) (length (lf_stencil lf))) rs.
  Proof.
    intros l o. unfold level_jump, level_jump_runs. destruct (Nat.leb_spec maxl l) as [C|C]; [intros H; injection H as <-; exists []; auto|].
    intros H. apply (over_set_runs _ _ _ _ _ _ H). intros calls i yz oc Ec Hi E. apply jump_interval_run in E as (r & E1 & E2 & G); [|cbn; lia|].
    - exists r. split; [exact E1|]. split; [exact E2|]. exact G.
    - cbn [mi_i]. apply (HE l (neg dir) calls i yz C (or_intror eq_refl) Ec Hi).
  Qed.
  Lemma jump_runs_opp : forall l o, level_jump_opposite n maxl ref cells l dir (lf_stencil lf) = Some o ->
    exists rs, level_jump_opposite_runs n maxl ref cells l dir (lf_stencil lf) = Some rs /\ o = flat_map expand rs /\ Forall (rgood (S l) (length (lf_stencil lf))) rs.
  Proof.
    intros l o. unfold level_jump_opposite, level_jump_opposite_runs. destruct (Nat.leb_spec maxl l) as [C|C]; [intros H; injection H as <-; exists []; auto|].
    intros H. apply (over_set_runs _ _ _ _ _ _ H). intros calls i yz oc Ec Hi E. apply jump_interval_run in E as (r & E1 & E2 & G); [|cbn; lia|].
    - exists r. split; [exact E1|]. split; [exact E2|]. rewrite minus_length in G. exact G.
    - cbn [mi_i]. apply (HE l dir calls i yz C (or_introl eq_refl) Ec Hi).
  Qed.
  Lemma bnd_runs : forall l s comput o, In l (levels cells) -> boundary_direction n ref cells domain l s comput = Some o ->
    exists rs, boundary_direction_runs n ref cells domain l s comput = Some rs /\ o = flat_map expand rs /\ Forall (bgood l (length comput)) rs.
  Proof.
    intros l s comput o Hl. unfold boundary_direction, boundary_direction_runs. destruct (boundary cells domain l s) as [b|] eqn:Eb; [|discriminate]. intros H.
    apply (over_set_runs _ _ _ _ _ _ H). intros calls i yz oc _ _ E. apply boundary_interval_run in E as (r & E1 & E2 & G). exists r. split; [exact E1|]. split; [exact E2|].
    cbn [mi_level] in G. replace (s_ref b) with l in G; [exact G|]. unfold boundary in Eb. destruct (Nat.ltb _ _); [discriminate|]. injection Eb as <-. reflexivity.
  Qed.

  Lemma lin_interior_spec : forall evs, scheme_interior n maxl scaling ref cells d nf = Some evs -> exists rs, lin_interior n maxl scaling ref cells d lf = Some rs /\ matches rs evs.
  Proof.
    intros evs. unfold scheme_interior, lin_interior. rewrite HS. fold dir F.
    match goal with |- context [each_level ?g ?ls] => destruct (each_level g ls) as [o1|] eqn:E1; [|discriminate] end.
    match goal with |- context [each_level ?g ?ls] => destruct (each_level g ls) as [o2|] eqn:E2; [|discriminate] end.
    intros H. injection H as <-.
    assert (M0 : matches [] []) by (split; [constructor|reflexivity]).
    eapply (each_level_match _ _ matches) in E1 as (r1 & -> & M1); [|exact M0|exact matches_app|].
    - eapply (each_level_match _ _ matches) in E2 as (r2 & -> & M2); [|exact M0|exact matches_app|].
      + exists (r1 ++ r2). split; [reflexivity|]. apply matches_app; auto.
      + intros l x Hl E. cbv zeta in *. destruct (level_jump n maxl ref cells l dir (lf_stencil lf)) as [a|] eqn:Ea; [|discriminate].
        destruct (level_jump_opposite n maxl ref cells l dir (lf_stencil lf)) as [b|] eqn:Eb; [|discriminate]. injection E as <-.
        apply jump_runs_dir in Ea as (ra & -> & -> & Ga). apply jump_runs_opp in Eb as (rb & -> & -> & Gb). eexists. split; [reflexivity|]. apply matches_app.
        * apply (runs_match F (S l) _ _ _ _ _ _ _ _ (HA (S l)) Ga); [apply scaled_contribution|apply scaled_contribution_neg].
        * apply (runs_match F (S l) _ _ _ _ _ _ _ _ (HA (S l)) Gb); [apply scaled_contribution|apply scaled_contribution_neg].
    - intros l x Hl E. cbv zeta in *. destruct (same_level n ref cells l dir (lf_stencil lf)) as [a|] eqn:Ea; [|discriminate]. injection E as <-.
      apply same_runs in Ea as (ra & -> & -> & Ga); [|exact Hl]. eexists. split; [reflexivity|].
      apply (runs_match F l _ _ _ _ _ _ _ _ (HA l) Ga); [apply scaled_contribution|apply scaled_neg_contribution].
  Qed.
  Lemma lin_boundary_spec : forall evs, scheme_boundary n scaling ref cells domain d nf = Some evs -> exists rs, lin_boundary n scaling ref cells domain d lf = Some rs /\ bmatches rs evs.
  Proof.
    intros evs H. unfold scheme_boundary in H. unfold lin_boundary. rewrite HS in H. fold dir F in H. fold dir.
    assert (M0 : bmatches [] []) by (split; [constructor|reflexivity]).
    eapply (over_levels_match _ _ bmatches) in H as (rs & E & M); [exists rs; split; [exact E|exact M]|exact M0|exact bmatches_app|].
    intros l x Hl E. cbv zeta in *. destruct (boundary_direction n ref cells domain l dir (lf_stencil lf)) as [a|] eqn:Ea; [|discriminate].
    unfold boundary_opposite in E. destruct (boundary_direction n ref cells domain l (neg dir) (stencil_minus (lf_stencil lf) dir)) as [b|] eqn:Eb; [|discriminate]. injection E as <-.
    apply bnd_runs in Ea as (ra & -> & -> & Ga); [|exact Hl]. apply bnd_runs in Eb as (rb & Eb & -> & Gb); [|exact Hl]. unfold boundary_opposite_runs. rewrite Eb. rewrite minus_length in Gb.
    eexists. split; [reflexivity|]. apply bmatches_app.
    - apply (bruns_match F l _ _ _ _ _ fst 1%Q (HA l) Ga); [auto|]. destruct (scaled_contribution (lf_cons lf (cell_length scaling l)) (cell_length scaling l) (cell_length scaling l)) as [L1 S1].
      split; [exact L1|]. intros es k. rewrite S1. ring.
    - apply (bruns_match F l _ _ _ _ _ snd (- (1))%Q (HA l) Gb); [auto|]. destruct (scaled_contribution_neg (lf_cons lf (cell_length scaling l)) (cell_length scaling l) (cell_length scaling l)) as [L1 S1].
      split; [exact L1|]. intros es k. rewrite S1. ring.
  Qed.
End Values.
