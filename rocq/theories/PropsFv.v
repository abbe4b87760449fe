(** C67: the finite volumes of the demos with their flux correction. *)
From Coq Require Import QArith Qpower Permutation Lqa.
From Verif Require Import Base IntervalModel Spec IntervalProofs LoiModel LcaModel LcaSpec LcaProofs LcaProofs2 LcaProofs3 RowsProofs CellArrayModel CellArrayProofs PropsLca PropsCellArray
  SubsetModel TreeProofs SubsetSpec SubsetProofs2 PropsSubset StencilModel NumberingProofs StencilProofs PropsStencil MeshModel MeshProofs PropsMesh
  NumModel NumProofs NumSpec PropsNum AdaptModel AdaptProofs TagProofs PropsAdapt GradModel GradProofs PropsGrad InterfaceModel InterfaceProofs PropsInterface
  TransferProofs PropsTransfer MrModel MrProofs PropsMr GeomModel GhostModel GhostProofs PropsGhost BcProofs HartenModel HartenProofs HartenProofs2 PropsHarten LoopProofs DetermProofs PropsLoop PropsDeterm
  FluxModel BoundaryProofs PropsBoundary FluxProofs PropsFlux IterProofs AmrModel AmrProofs AmrProofs2 AmrProofs3 PropsAmr PropsAmrGhost AmrLoopModel AmrProofs5 AmrProofs6 PropsAmrLoop
  FvModel FvProofs FvProofs2 FvProofs3.
From Verif Require PropsOuter.
Open Scope Z_scope.
Notation stored := GhostModel.stored.

(** ** The meshes *)

(** The leaves tile a box, two leaves with a common face have levels that differ by one at
    most, and the leaves and the cells beside them are stored. *)
Record fv_mesh (n minl maxl : nat) (cells reference : ca) (lo hi : list Z) : Prop := {
  fm_tiles : tiles n cells lo hi;
  fm_range : forall l q, ca_mem n cells l q -> (minl <= l <= maxl)%nat;
  fm_graded : graded_axes n cells;
  fm_wf : ca_wf n cells;
  fm_levels : forall l, (l <= c_max cells)%nat -> a_level (c_at cells l) = l;
  fm_top : (maxl <= c_max cells)%nat;
  fm_steps : steps_one cells;
  fm_small : forall l q k, ca_mem n cells l q -> (k <= n)%nat -> 2 * (nth k q 0 + 3) < 2 ^ 31 - 1;
  fm_stored : forall l p, ca_mem n cells l p -> stored n reference l p = true;
  fm_room : forall l p d s, ca_mem n cells l p -> (d <= n)%nat -> s = 1 \/ s = -1 -> stored n reference l (vadd n p (unit_mult n d s)) = true }.

Definition leaves (n : nat) (cells : ca) (cs : list (nat * list Z)) : Prop := NoDup cs /\ forall l p, In (l, p) cs <-> ca_mem n cells l p.
Definition fv_total (n : nat) (scaling : Q) (cs : list (nat * list Z)) (v : lfield) : Q := sum_over (fun c => volume n scaling (fst c) * cell_value v (fst c) (snd c))%Q cs.
(** What leaves the box. *)
Definition box_out (n : nat) (scaling : Q) (cs : list (nat * list Z)) (lo hi : list Z) (L R : nat -> nat -> list Z -> Q) : Q :=
  sum_over (fun d => sum_over (outer_out n scaling lo hi L R d) cs) (seq 0 (S n)).

(** ** Any fluxes *)

(** The flux of an operator of which the two cells beside each face agree. The step succeeds,
    the content of a leaf changes by what crosses its faces, each face between two leaves
    being counted with its own area and with the flux of the finer of them, and the other
    cells keep their values. *)
Theorem C67_balance : forall n minl maxl scaling dt op op' cells reference lo hi L R u v, fv_mesh n minl maxl cells reference lo hi -> ~ (scaling == 0)%Q ->
  flux_ok n cells op L R -> flux_ok n cells op' L R ->
  exists w, fv_step n minl maxl scaling dt true op op' cells reference u v = Some w /\
    (forall cs l p, leaves n cells cs -> ca_mem n cells l p -> (volume n scaling l * (cell_value w l p - cell_value u l p) ==
       - dt * sum_over (fun d => inner_out n scaling cs L R d (l, p) + outer_out n scaling lo hi L R d (l, p)) (seq 0 (S n)))%Q) /\
    (forall l p, length p = S n -> ~ ca_mem n cells l p -> (cell_value w l p == cell_value v l p)%Q).
Proof.
  intros n minl maxl scaling dt op op' cells reference lo hi L R u v [M1 M2 M3 M4 M5 M6 M7 M8 M9 M10] HS HO HO'.
  destruct (ca_for_each_cell_spec n cells M4) as (cl & _ & (SS & CE) & _).
  assert (N : NoDup (leaf_cells cl)). { clear -SS. induction SS as [|c cs SS IH F]; constructor; auto. intros Hc. rewrite Forall_forall in F. specialize (F c Hc). exact (lc_lt_irrefl c F). }
  destruct (step_balance n minl maxl scaling dt op op' cells reference lo hi L R M1 M2 M3 M4 M5 M6 M7 M8 HS M9 HO HO' (leaf_cells cl) N CE u v) as (w & E & _ & B).
  exists w. split; auto. split; auto. intros cs l p [N2 E2] Hp.
  destruct (step_balance n minl maxl scaling dt op op' cells reference lo hi L R M1 M2 M3 M4 M5 M6 M7 M8 HS M9 HO HO' cs N2 E2 u v) as (w' & E' & A & _).
  rewrite E in E'. injection E' as <-. apply A. auto.
Qed.

(** The sum over the leaves only changes by what crosses the faces of the box. *)
Lemma total_balance : forall n scaling dt cells lo hi L R cs u w, leaves n cells cs ->
  (forall l p, ca_mem n cells l p -> (volume n scaling l * (cell_value w l p - cell_value u l p) ==
       - dt * sum_over (fun d => inner_out n scaling cs L R d (l, p) + outer_out n scaling lo hi L R d (l, p)) (seq 0 (S n)))%Q) ->
  (fv_total n scaling cs w == fv_total n scaling cs u - dt * box_out n scaling cs lo hi L R)%Q.
Proof.
  intros n scaling dt cells lo hi L R cs u w [N E] A. unfold fv_total, box_out.
  transitivity (sum_over (fun c => volume n scaling (fst c) * cell_value u (fst c) (snd c) +
    - dt * sum_over (fun d => inner_out n scaling cs L R d c + outer_out n scaling lo hi L R d c) (seq 0 (S n))) cs)%Q.
  - apply sum_ext. intros [l p] Hc. apply E in Hc. cbn [fst snd]. rewrite <- (A l p Hc). ring.
  - rewrite sum_plus, sum_scale, sum_swap.
    assert (X : (sum_over (fun d => sum_over (fun c => inner_out n scaling cs L R d c + outer_out n scaling lo hi L R d c) cs) (seq 0 (S n)) ==
      sum_over (fun d => sum_over (outer_out n scaling lo hi L R d) cs) (seq 0 (S n)))%Q).
    { apply sum_ext. intros d _. rewrite sum_plus.
      change (sum_over (fun c => inner_out n scaling cs L R d c) cs) with (sum_over (inner_out n scaling cs L R d) cs). rewrite inner_cancel.
      change (sum_over (fun c => outer_out n scaling lo hi L R d c) cs) with (sum_over (outer_out n scaling lo hi L R d) cs). ring. }
    rewrite X. ring.
Qed.

Theorem C67_conservation : forall n minl maxl scaling dt op op' cells reference lo hi L R u v w cs, fv_mesh n minl maxl cells reference lo hi -> ~ (scaling == 0)%Q ->
  flux_ok n cells op L R -> flux_ok n cells op' L R -> leaves n cells cs ->
  fv_step n minl maxl scaling dt true op op' cells reference u v = Some w ->
  (fv_total n scaling cs w == fv_total n scaling cs u - dt * box_out n scaling cs lo hi L R)%Q.
Proof.
  intros n minl maxl scaling dt op op' cells reference lo hi L R u v w cs M HS HO HO' HC E.
  destruct (C67_balance n minl maxl scaling dt op op' cells reference lo hi L R u v M HS HO HO') as (w' & E' & A & _). rewrite E in E'. injection E' as <-.
  eapply total_balance; eauto.
Qed.

(** ** Fluxes between two cells *)
Definition below_flux (n : nat) (f : nat -> Q -> Q -> Q) (u : lfield) (d l : nat) (p : list Z) : Q := f d (cell_value u l (vadd n p (unit_mult n d (-1)))) (cell_value u l p).
Definition above_flux (n : nat) (f : nat -> Q -> Q -> Q) (u : lfield) (d l : nat) (p : list Z) : Q := f d (cell_value u l p) (cell_value u l (vadd n p (unit_mult n d 1))).

Lemma two_point_ok : forall n minl maxl cells reference lo hi f u, fv_mesh n minl maxl cells reference lo hi ->
  flux_ok n cells (two_point n reference f u) (below_flux n f u) (above_flux n f u).
Proof.
  intros n minl maxl cells reference lo hi f u M d l p Hd Hp. assert (Lp : length p = S n) by apply Hp.
  pose proof (fm_stored _ _ _ _ _ _ _ M l p Hp) as S0. pose proof (fm_room _ _ _ _ _ _ _ M l p d 1 Hp Hd (or_introl eq_refl)) as S1. pose proof (fm_room _ _ _ _ _ _ _ M l p d (-1) Hp Hd (or_intror eq_refl)) as S2.
  assert (AV : forall q s, length q = S n -> add_vec q (unit_mult n d s) = vadd n q (unit_mult n d s)) by (intros q s Lq; apply BcProofs.add_vec_vadd; auto; apply unit_length).
  cbn [left_flux right_flux two_point]. rewrite !AV by (auto; apply vadd_length).
  pose proof (unit_back n d (-1) p Lp) as B1. pose proof (unit_back n d 1 p Lp) as B2. change (- (-1)) with 1 in B1. change (- (1)) with (-1) in B2. rewrite B1, B2.
  unfold read. rewrite S0, S1, S2. cbn. auto.
Qed.

(** advection_1d.cpp, advection_2d.cpp, advection_2d_user_bc.cpp (upwind_flux), and
    scalar_burgers_2d.cpp (scalar_burgers_flux): the fluxes of two neighbours, whatever the
    function of their values. *)
Theorem C67_two_point : forall n minl maxl scaling dt f cells reference lo hi u v, fv_mesh n minl maxl cells reference lo hi -> ~ (scaling == 0)%Q ->
  exists w, fv_step n minl maxl scaling dt true (two_point n reference f u) (two_point n reference f u) cells reference u v = Some w /\
    (forall cs, leaves n cells cs ->
      (forall l p, ca_mem n cells l p -> (volume n scaling l * (cell_value w l p - cell_value u l p) ==
        - dt * sum_over (fun d => inner_out n scaling cs (below_flux n f u) (above_flux n f u) d (l, p) + outer_out n scaling lo hi (below_flux n f u) (above_flux n f u) d (l, p)) (seq 0 (S n)))%Q) /\
      (fv_total n scaling cs w == fv_total n scaling cs u - dt * box_out n scaling cs lo hi (below_flux n f u) (above_flux n f u))%Q) /\
    (forall l p, length p = S n -> ~ ca_mem n cells l p -> (cell_value w l p == cell_value v l p)%Q).
Proof.
  intros n minl maxl scaling dt f cells reference lo hi u v M HS. pose proof (two_point_ok n minl maxl cells reference lo hi f u M) as O.
  destruct (C67_balance n minl maxl scaling dt _ _ cells reference lo hi _ _ u v M HS O O) as (w & E & A & B). exists w. split; auto. split; auto. intros cs HC. split; [intros; apply A; auto|].
  eapply C67_conservation; eauto.
Qed.

Theorem C67_advection : forall n minl maxl scaling dt a cells reference lo hi u v cs, fv_mesh n minl maxl cells reference lo hi -> ~ (scaling == 0)%Q -> leaves n cells cs ->
  exists w, advection_step n minl maxl scaling dt true a cells reference u v = Some w /\
    (fv_total n scaling cs w == fv_total n scaling cs u -
       dt * box_out n scaling cs lo hi (below_flux n (fun d => upwind_flux (a d)) u) (above_flux n (fun d => upwind_flux (a d)) u))%Q.
Proof.
  intros n minl maxl scaling dt a cells reference lo hi u v cs M HS HC.
  destruct (C67_two_point n minl maxl scaling dt (fun d => upwind_flux (a d)) cells reference lo hi u v M HS) as (w & E & A & _). exists w. split; [exact E|]. apply A. auto.
Qed.

(** AMR_Burgers_Hat.cpp, when some leaves have the finest level the mesh may have. *)
Theorem C67_burgers : forall maxl scaling dt cells reference lo hi u v cs, fv_mesh 0 (min_level cells) (max_level cells) cells reference lo hi -> ~ (scaling == 0)%Q -> leaves 0 cells cs ->
  max_level cells = maxl -> let f := fun _ : nat => burgers_flux (cell_length scaling maxl / dt) in
  exists w, burgers_step maxl scaling dt true cells reference u v = Some w /\
    (fv_total 0 scaling cs w == fv_total 0 scaling cs u - dt * box_out 0 scaling cs lo hi (below_flux 0 f u) (above_flux 0 f u))%Q.
Proof.
  intros maxl scaling dt cells reference lo hi u v cs M HS HC EM f. unfold burgers_step. rewrite EM in *.
  destruct (C67_two_point 0 (min_level cells) maxl scaling dt f cells reference lo hi u v M HS) as (w & E & A & _). exists w. split; [exact E|]. apply A. auto.
Qed.

(** ** The meshes of the library *)
Lemma graded_by_axes : forall n stencil cells, graded_by n stencil cells -> step_stencil n stencil -> graded_axes n cells.
Proof.
  intros n stencil cells HG HS l l' p q d s Hp Hq Hl Hd Hs E. assert (Lq : length q = S n) by apply Hq.
  destruct (ss_axis _ _ HS (unit_mult n d s) (toward n q)) as (v & Hv & F); [|apply toward_signs|].
  - split; [apply unit_length|]. exists d. split; auto. split; [rewrite nth_unit, Nat.eqb_refl by auto; auto|]. intros k Hk Ne. rewrite nth_unit by auto. destruct (Nat.eqb_spec k d); [contradiction|auto].
  - apply (HG l l' p q v Hp Hq Hl Hv). rewrite <- E. replace (l' - l)%nat with ((l' - l - 1) + 1)%nat by lia. rewrite <- !ancestor_add. f_equal. apply filled_parent; auto.
Qed.
Lemma graded_box_axes : forall n cells, graded_box n cells -> graded_axes n cells.
Proof. intros n cells HG l l' p q d s Hp Hq Hl Hd Hs. apply (HG l l' p q); auto. intros k Hk. apply unit_range; auto. Qed.
Lemma near_unit : forall n w p d s, 1 <= w -> s = 1 \/ s = -1 -> near n w (vadd n p (unit_mult n d s)) p.
Proof. intros n w p d s Hw Hs k Hk. rewrite nth_vadd by auto. pose proof (unit_range n d s k Hs Hk). lia. Qed.
Lemma near_self : forall n w p, 0 <= w -> near n w p p.
Proof. intros n w p Hw k Hk. lia. Qed.

(** An AMR mesh, with the ghosts that its construction stores. *)
Theorem C67_amr_mesh : forall n g lo hi cells r, amr_usable n g lo hi cells ->
  amr_sub_mesh n (g_max g) (g_min_level g) (g_max_level g) (g_width g) (Z.of_nat (g_order g)) (g_domain g) cells = Some r ->
  fv_mesh n (g_min_level g) (g_max_level g) cells (a_all r) lo hi /\ fv_mesh n (min_level cells) (max_level cells) cells (a_all r) lo hi.
Proof.
  intros n g lo hi cells r HU E. pose proof (au_sub _ _ _ _ _ HU) as HI. pose proof (si_in _ _ _ _ _ _ _ _ _ _ _ HI) as HM. pose proof HM as (A1 & A2 & A3 & A4 & A5 & A6 & A7 & A8).
  destruct (C64_closed _ _ _ _ _ _ _ _ _ _ _ _ HI E) as (CL & _). destruct (C64_contents _ _ _ _ _ _ _ _ _ _ _ HI) as (r' & E' & W & _). rewrite E in E'. injection E' as <-.
  destruct (W (a_all r)) as (W1 & W2 & W3); auto.
  assert (ST : forall l p, ca_mem n (a_all r) l p -> stored n (a_all r) l p = true) by (intros l p Hp; apply stored_mem; [apply W1, Hp|apply Hp|apply Hp]).
  assert (X : forall a b, (forall l q, ca_mem n cells l q -> (a <= l <= b)%nat) -> (b <= g_max g)%nat -> fv_mesh n a b cells (a_all r) lo hi).
  { intros a b Hab Hb. pose proof (au_width _ _ _ _ _ HU) as HWd. constructor; auto.
    - apply (si_tiles _ _ _ _ _ _ _ _ _ _ _ HI).
    - eapply graded_by_axes; apply HU.
    - intros l Hl. apply A4. lia.
    - lia.
    - apply HU.
    - intros l q k Hq Hk. pose proof (si_small _ _ _ _ _ _ _ _ _ _ _ HI l q k Hq Hk). lia.
    - intros l p Hp. apply ST. apply (CL l p p Hp); [apply Hp|apply near_self; lia].
    - intros l p d s Hp Hd Hs. apply ST. apply (CL l p _ Hp); [apply vadd_length|apply near_unit; auto; lia]. }
  split; apply X; auto.
  - intros l q Hq. apply (leaf_levels _ _ _ _ _ _ _ HM l q Hq).
  - apply (max_level_m _ _ _ _ _ _ _ HM).
Qed.

(** A mesh of the multiresolution, with its ghosts. *)
Theorem C67_mr_mesh : forall n m minl maxl w s cells lo hi r, ghost_input n m minl maxl w s cells lo hi -> steps_one cells ->
  update_sub_mesh n m minl maxl w (Z.of_nat s) cells = Some r -> fv_mesh n minl maxl cells (r_all r) lo hi.
Proof.
  intros n m minl maxl w s cells lo hi r HI H1 E. pose proof HI as (_ & _ & _ & HG & Hw & _). pose proof (gi_in _ _ _ _ _ _ _ _ _ HI) as HM. pose proof HM as (A1 & A2 & A3 & A4 & A5 & A6 & A7 & A8).
  destruct (C54_contents _ _ _ _ _ _ _ HM) as (r' & E' & W & _). rewrite E in E'. injection E' as <-. destruct (W (r_all r)) as (W1 & W2 & W3); auto.
  pose proof (gi_tiles _ _ _ _ _ _ _ _ _ HI) as HT.
  assert (ST : forall l p, ca_mem n (r_all r) l p -> stored n (r_all r) l p = true) by (intros l p Hp; apply stored_mem; [apply W1, Hp|apply Hp|apply Hp]).
  assert (CL : forall l q p, ca_mem n cells l q -> length p = S n -> near n w p q -> ca_mem n (r_all r) l p).
  { intros l q p Hq. apply (C54_leaf_stencils _ _ _ _ _ _ _ _ HM (gi_ne _ _ _ _ _ _ _ _ _ HI) E l q Hq). apply HT. }
  constructor; auto.
  - apply graded_box_axes. auto.
  - intros l Hl. apply A4. lia.
  - lia.
  - intros l q k Hq Hk. apply (hm_bound n m minl maxl w s cells lo hi r HI E l q k); auto. apply (CL l q q Hq); [apply Hq|apply near_self; lia].
  - intros l p Hp. apply ST. apply (CL l p p Hp); [apply Hp|apply near_self; lia].
  - intros l p d s' Hp Hd Hs. apply ST. apply (CL l p _ Hp); [apply vadd_length|apply near_unit; auto].
Qed.

(** ** Examples *)
Definition leaf_of (n : nat) (cells : ca) : list (nat * list Z) := match ca_for_each_cell n cells with Some cs => leaf_cells cs | None => [] end.
Lemma leaf_of_leaves : forall n cells, ca_wf n cells -> leaves n cells (leaf_of n cells).
Proof.
  intros n cells W. destruct (ca_for_each_cell_spec n cells W) as (cl & E & (SS & CE) & _). unfold leaf_of. rewrite E. split; auto.
  clear -SS. induction SS as [|c cs SS IH F]; constructor; auto. intros Hc. rewrite Forall_forall in F. specialize (F c Hc). exact (lc_lt_irrefl c F).
Qed.
Definition amr_reference (n : nat) (g : amr_setting) (cells : ca) : ca :=
  match amr_sub_mesh n (g_max g) (g_min_level g) (g_max_level g) (g_width g) (Z.of_nat (g_order g)) (g_domain g) cells with Some r => a_all r | None => cells end.
Lemma amr_reference_mesh : forall n g lo hi cells, amr_usable n g lo hi cells ->
  fv_mesh n (g_min_level g) (g_max_level g) cells (amr_reference n g cells) lo hi /\ fv_mesh n (min_level cells) (max_level cells) cells (amr_reference n g cells) lo hi.
Proof.
  intros n g lo hi cells HU. destruct (C64_contents _ _ _ _ _ _ _ _ _ _ _ (au_sub _ _ _ _ _ HU)) as (r & E & _). unfold amr_reference. rewrite E. apply (C67_amr_mesh n g lo hi cells r HU E).
Qed.
Definition totals (n : nat) (cells : ca) (o : option lfield) : option Q := option_map (fun w => Qred (fv_total n 1 (leaf_of n cells) w)) o.
Definition across (n : nat) (lo hi : list Z) (cells : ca) (f : nat -> Q -> Q -> Q) (u : lfield) : Q := Qred (box_out n 1 (leaf_of n cells) lo hi (below_flux n f u) (above_flux n f u)).
Definition nothing : lfield := fun _ _ _ => 0%Q.
Definition lineRef : ca := amr_reference 0 hatSetting lineMesh.

(** The line of C66 (leaves of the levels 1, 2 and 3), with the field x^2 and dt = 1/16. *)
Example C67_line : fv_mesh 0 1 3 lineMesh lineRef [0] [1] /\ leaf_of 0 lineMesh = [(1%nat, [0]); (2%nat, [2]); (3%nat, [6]); (3%nat, [7])] /\ max_level lineMesh = 3%nat /\
  totals 0 lineMesh (Some hatField) = Some (117 # 512)%Q /\ across 0 [0] [1] lineMesh (fun _ => burgers_flux 2) hatField = (-1695 # 16384)%Q /\
  totals 0 lineMesh (burgers_step 3 1 (1 # 16) true lineMesh lineRef hatField nothing) = Some (61599 # 262144)%Q /\
  (61599 # 262144 == (117 # 512) - (1 # 16) * (-1695 # 16384))%Q.
Proof.
  split; [apply (amr_reference_mesh 0 hatSetting [0] [1] lineMesh hat_usable)|]. split; [vm_compute; reflexivity|]. split; [vm_compute; reflexivity|].
  split; [vm_compute; reflexivity|]. split; [vm_compute; reflexivity|]. split; [vm_compute; reflexivity|]. reflexivity.
Qed.

(** In dimension 2, a mesh graded along the axes only, with the velocity (1, -1/2). *)
Definition starField2 : lfield := fun l x y => (inject_Z (x * x + 3 * nth 0 y 0%Z * x + 1) / inject_Z (4 ^ Z.of_nat l))%Q.
Definition starRef : ca := amr_reference 1 starSetting starMesh.
Definition speeds (d : nat) : Q := if Nat.eqb d 0 then 1%Q else (-1 # 2)%Q.
Example C67_star : fv_mesh 1 1 4 starMesh starRef [0; 0] [1; 1] /\ totals 1 starMesh (Some starField2) = Some (3049 # 4096)%Q /\
  across 1 [0; 0] [1; 1] starMesh (fun d => upwind_flux (speeds d)) starField2 = (111 # 128)%Q /\
  totals 1 starMesh (advection_step 1 1 4 1 (1 # 16) true speeds starMesh starRef starField2 nothing) = Some (2827 # 4096)%Q /\ (2827 # 4096 == (3049 # 4096) - (1 # 16) * (111 # 128))%Q.
Proof.
  split; [apply (amr_reference_mesh 1 starSetting [0; 0] [1; 1] starMesh star_usable)|]. split; [vm_compute; reflexivity|]. split; [vm_compute; reflexivity|]. split; [vm_compute; reflexivity|reflexivity].
Qed.

(** ** What is not conservative *)

(** Without the correction (the option with_correction of the demos). *)
Theorem C67_without_correction_refuted : exists cells reference u v w cs, fv_mesh 0 (min_level cells) (max_level cells) cells reference [0] [1] /\ leaves 0 cells cs /\ max_level cells = 3%nat /\
  let f := fun _ : nat => burgers_flux (cell_length 1 3 / (1 # 16)) in
  burgers_step 3 1 (1 # 16) false cells reference u v = Some w /\
  ~ (fv_total 0 1 cs w == fv_total 0 1 cs u - (1 # 16) * box_out 0 1 cs [0%Z] [1%Z] (below_flux 0 f u) (above_flux 0 f u))%Q.
Proof.
  assert (X : match burgers_step 3 1 (1 # 16) false lineMesh lineRef hatField nothing with
    Some w => let f := fun _ : nat => burgers_flux (cell_length 1 3 / (1 # 16)) in
      Qeq_bool (fv_total 0 1 (leaf_of 0 lineMesh) w) (fv_total 0 1 (leaf_of 0 lineMesh) hatField - (1 # 16) * box_out 0 1 (leaf_of 0 lineMesh) [0%Z] [1%Z] (below_flux 0 f hatField) (above_flux 0 f hatField)) = false
    | None => False end) by (vm_compute; reflexivity).
  destruct (burgers_step 3 1 (1 # 16) false lineMesh lineRef hatField nothing) as [w|] eqn:E; [|destruct X].
  exists lineMesh, lineRef, hatField, nothing, w, (leaf_of 0 lineMesh). split; [apply (amr_reference_mesh 0 hatSetting [0] [1] lineMesh hat_usable)|]. split; [apply leaf_of_leaves, lineMesh_wf|].
  split; [vm_compute; reflexivity|]. intros f. split; auto. intros H. apply Qeq_bool_iff in H. unfold f in H. rewrite X in H. discriminate.
Qed.

(** AMR_Burgers_Hat.cpp, with the correction, when no leaf has the finest level the mesh may
    have: the numerical diffusion of the correction (L133-136) is not the one of the step
    (L223, L258). *)
Theorem C67_coarse_burgers_refuted : exists cells reference u v w cs, fv_mesh 0 (min_level cells) (max_level cells) cells reference [0] [1] /\ leaves 0 cells cs /\ (max_level cells < 4)%nat /\
  let f := fun _ : nat => burgers_flux (cell_length 1 4 / (1 # 16)) in
  burgers_step 4 1 (1 # 16) true cells reference u v = Some w /\
  ~ (fv_total 0 1 cs w == fv_total 0 1 cs u - (1 # 16) * box_out 0 1 cs [0%Z] [1%Z] (below_flux 0 f u) (above_flux 0 f u))%Q.
Proof.
  assert (X : match burgers_step 4 1 (1 # 16) true lineMesh lineRef hatField nothing with
    Some w => let f := fun _ : nat => burgers_flux (cell_length 1 4 / (1 # 16)) in
      Qeq_bool (fv_total 0 1 (leaf_of 0 lineMesh) w) (fv_total 0 1 (leaf_of 0 lineMesh) hatField - (1 # 16) * box_out 0 1 (leaf_of 0 lineMesh) [0%Z] [1%Z] (below_flux 0 f hatField) (above_flux 0 f hatField)) = false
    | None => False end) by (vm_compute; reflexivity).
  destruct (burgers_step 4 1 (1 # 16) true lineMesh lineRef hatField nothing) as [w|] eqn:E; [|destruct X].
  exists lineMesh, lineRef, hatField, nothing, w, (leaf_of 0 lineMesh). split; [apply (amr_reference_mesh 0 hatSetting [0] [1] lineMesh hat_usable)|]. split; [apply leaf_of_leaves, lineMesh_wf|].
  split; [vm_compute; lia|]. intros f. split; auto. intros H. apply Qeq_bool_iff in H. unfold f in H. rewrite X in H. discriminate.
Qed.

(** level_set.cpp: the velocity of a face is extrapolated from the side of the cell that
    computes the flux, so that its two cells use different fluxes, even between leaves of the
    same level. With a uniform velocity they agree. *)
Definition wide_room (n : nat) (cells reference : ca) : Prop :=
  forall l p d k, ca_mem n cells l p -> (d <= n)%nat -> -2 <= k <= 2 -> stored n reference l (vadd n p (unit_mult n d k)) = true.
Definition own_flux (n : nat) (reference : ca) (scaling dt : Q) (vel : nat -> lfield) (u : lfield) (s : Z) (d l : nat) (p : list Z) : Q :=
  match side_flux (variable n reference scaling dt vel u) s d l p with Some q => q | None => 0%Q end.

Lemma unit_plus : forall n d a b p, length p = S n -> vadd n (vadd n p (unit_mult n d a)) (unit_mult n d b) = vadd n p (unit_mult n d (a + b)).
Proof.
  intros n d a b p Lp. apply (list_ext n); [apply vadd_length|apply vadd_length|]. intros k Hk. rewrite !nth_vadd, !nth_unit by auto. destruct (Nat.eqb k d); lia.
Qed.
Lemma uniform_ok : forall n cells reference scaling dt c u, wide_room n cells reference ->
  flux_ok n cells (variable n reference scaling dt (fun d _ _ _ => c d) u) (own_flux n reference scaling dt (fun d _ _ _ => c d) u (-1)) (own_flux n reference scaling dt (fun d _ _ _ => c d) u 1).
Proof.
  intros n cells reference scaling dt c u HR d l p Hd Hp. assert (Lp : length p = S n) by apply Hp.
  assert (AV : forall q s, length q = S n -> add_vec q (unit_mult n d s) = vadd n q (unit_mult n d s)) by (intros q s Lq; apply BcProofs.add_vec_vadd; auto; apply unit_length).
  assert (RD : forall w k, -2 <= k <= 2 -> read n reference w l (vadd n p (unit_mult n d k)) = Some (cell_value w l (vadd n p (unit_mult n d k)))) by (intros w k Hk; unfold read; rewrite HR by auto; reflexivity).
  assert (CC : forall k, cell_value (fun _ _ _ => c d) l (vadd n p (unit_mult n d k)) = c d). { intros k. pose proof (vadd_length n p (unit_mult n d k)) as X. unfold cell_value. destruct (vadd n p (unit_mult n d k)); [discriminate|reflexivity]. }
  assert (SH : forall j k w, read n reference w l (add_vec (vadd n p (unit_mult n d j)) (unit_mult n d k)) = read n reference w l (vadd n p (unit_mult n d (j + k)))).
  { intros j k w. rewrite AV by apply vadd_length. rewrite unit_plus by auto. reflexivity. }
  unfold own_flux, side_flux. cbn [Z.eqb Pos.eqb left_flux right_flux variable]. rewrite !SH, !AV by auto. cbn [Z.add Z.opp Z.pos_sub Pos.add Pos.succ Pos.pred_double].
  rewrite !RD, !CC by lia. cbn. auto.
Qed.
Theorem C67_uniform_velocity : forall scaling dt c cells reference lo hi u v cs, fv_mesh 1 (min_level cells) (max_level cells) cells reference lo hi -> wide_room 1 cells reference ->
  ~ (scaling == 0)%Q -> leaves 1 cells cs -> let vel := fun d _ _ _ => c d in
  exists w, level_set_step scaling dt vel cells reference u v = Some w /\
    (fv_total 1 scaling cs w == fv_total 1 scaling cs u - dt * box_out 1 scaling cs lo hi (own_flux 1 reference scaling dt vel u (-1)) (own_flux 1 reference scaling dt vel u 1))%Q.
Proof.
  intros scaling dt c cells reference lo hi u v cs M HR HS HC vel. pose proof (uniform_ok 1 cells reference scaling dt c u HR) as O.
  destruct (C67_balance 1 _ _ scaling dt _ _ cells reference lo hi _ _ u v M HS O O) as (w & E & _). exists w. split; [exact E|]. eapply C67_conservation; eauto.
Qed.

Definition wideSetting : amr_setting := mkAmrSetting 4 1 4 2 1 1 star 4 starDomain.
Lemma wide_usable : amr_usable 1 wideSetting [0; 0] [1; 1] starMesh.
Proof.
  constructor; [|lia|apply starMesh_graded|apply star_steps|cbn; lia|cbn; lia|intros [|[|k]] Hk; [reflexivity|reflexivity|lia]|apply (au_steps _ _ _ _ _ star_usable)].
  eapply amr_sub_check with (M := 3%nat); [exact starMesh_wf|vm_compute; reflexivity|reflexivity|vm_compute; reflexivity|vm_compute; reflexivity|vm_compute; reflexivity|
    reflexivity|reflexivity|cbn; lia|cbn; lia|cbn; lia|vm_compute; reflexivity].
Qed.
Definition wideRef : ca := amr_reference 1 wideSetting starMesh.
Lemma wide_ok : wide_room 1 starMesh wideRef.
Proof.
  pose proof (au_sub _ _ _ _ _ wide_usable) as HI. destruct (C64_contents _ _ _ _ _ _ _ _ _ _ _ HI) as (r & E & W & _). destruct (C64_closed _ _ _ _ _ _ _ _ _ _ _ _ HI E) as (CL & _).
  intros l p d k Hp Hd Hk. unfold wideRef, amr_reference. rewrite E. assert (X : ca_mem 1 (a_all r) l (vadd 1 p (unit_mult 1 d k))).
  { apply (CL l p _ Hp); [apply vadd_length|]. intros j Hj. rewrite nth_vadd, nth_unit by auto. cbn [g_width wideSetting]. destruct (Nat.eqb j d); lia. }
  destruct (W (a_all r)) as (W1 & _); auto. apply stored_mem; [apply W1, X|apply X|apply X].
Qed.
Definition swirl (d : nat) : lfield := fun l x y => if Nat.eqb d 0 then (inject_Z (x * x * x) / inject_Z (8 ^ Z.of_nat l))%Q else 0%Q.
Theorem C67_variable_velocity_refuted : exists cells reference vel u v w cs, fv_mesh 1 (min_level cells) (max_level cells) cells reference [0; 0] [1; 1] /\ wide_room 1 cells reference /\ leaves 1 cells cs /\
  level_set_step 1 (1 # 16) vel cells reference u v = Some w /\
  ~ (fv_total 1 1 cs w == fv_total 1 1 cs u - (1 # 16) * box_out 1 1 cs [0%Z; 0%Z] [1%Z; 1%Z] (own_flux 1 reference 1 (1 # 16) vel u (-1)) (own_flux 1 reference 1 (1 # 16) vel u 1))%Q.
Proof.
  assert (X : match level_set_step 1 (1 # 16) swirl starMesh wideRef starField2 nothing with
    Some w => Qeq_bool (fv_total 1 1 (leaf_of 1 starMesh) w) (fv_total 1 1 (leaf_of 1 starMesh) starField2 -
      (1 # 16) * box_out 1 1 (leaf_of 1 starMesh) [0%Z; 0%Z] [1%Z; 1%Z] (own_flux 1 wideRef 1 (1 # 16) swirl starField2 (-1)) (own_flux 1 wideRef 1 (1 # 16) swirl starField2 1)) = false
    | None => False end) by (vm_compute; reflexivity).
  destruct (level_set_step 1 (1 # 16) swirl starMesh wideRef starField2 nothing) as [w|] eqn:E; [|destruct X].
  exists starMesh, wideRef, swirl, starField2, nothing, w, (leaf_of 1 starMesh). split; [apply (amr_reference_mesh 1 wideSetting [0; 0] [1; 1] starMesh wide_usable)|]. split; [exact wide_ok|].
  split; [apply leaf_of_leaves, starMesh_wf|]. split; auto. intros H. apply Qeq_bool_iff in H. rewrite X in H. discriminate.
Qed.

Print Assumptions C67_balance.
Print Assumptions C67_conservation.
Print Assumptions C67_two_point.
Print Assumptions C67_advection.
Print Assumptions C67_burgers.
Print Assumptions C67_amr_mesh.
Print Assumptions C67_mr_mesh.
Print Assumptions C67_uniform_velocity.
Print Assumptions C67_without_correction_refuted.
Print Assumptions C67_coarse_burgers_refuted.
Print Assumptions C67_variable_velocity_refuted.
