(** C78, continued: the equations of the boundary conditions in the assembled system. *)
From Coq Require Import QArith.
From Verif Require Import Base IntervalModel Spec LoiModel LcaModel LcaSpec LcaProofs LcaProofs3 RowsProofs CellArrayModel CellArrayProofs
  PropsLca PropsCellArray SubsetModel TreeProofs SubsetSpec SubsetProofs2 PropsSubset StencilModel NumberingProofs StencilProofs PropsStencil
  MeshModel MeshProofs PropsMesh AdaptModel AdaptProofs TagProofs PropsAdapt InterfaceModel InterfaceProofs PropsInterface GeomModel FluxModel BoundaryProofs PropsBoundary FluxProofs NumModel NumProofs GhostModel
  ReconModel ReconProofs PropsFlux LinFluxModel LinFluxProofs LinFluxProofs2 PropsLinFlux AssemblyModel AssemblyProofs AssemblyProofs2 PropsAssembly AssemblyProofs3 AssemblyProofs4 AssemblyProofs5 AssemblyProofs6 AssemblyProofs7 PropsAssembly2.
Open Scope Z_scope.

(** A leaf in the region of a condition, which is given on a finer level. *)
Definition on_region (n : nat) (cells : ca) (reg : lca) (l : nat) (p : list Z) : Prop := ca_mem n cells l p /\ exists q, lca_mem n reg q /\ p = ancestor (a_level reg - l) q.
Definition used_region (b : bc) (dir : list Z) (reg : lca) : Prop := In (dir, reg) (bc_region b) /\ is_cartesian dir = true.
Record boundary_regions (n : nat) (ref cells : ca) (bcs : list bc) : Prop := {
  br_numbered : numbered n ref;
  br_wf : ca_wf n cells;
  br_level : forall l, (l <= c_max cells)%nat -> a_level (c_at cells l) = l;
  br_range : forall l q k, ca_mem n cells l q -> (k <= n)%nat -> 2 * (nth k q 0 + 3) < 2 ^ 31 - 1;
  br_region : forall b dir reg, In b bcs -> used_region b dir reg -> wf n reg /\ (forall l q, ca_mem n cells l q -> (l <= a_level reg)%nat) /\
    (forall q k, lca_mem n reg q -> (k <= n)%nat -> 2 * (nth k q 0 + 3) < 2 ^ 31 - 1) /\ exists d s, (d <= n)%nat /\ (s = 1 \/ s = -1) /\ dir = unit_mult n d s;
  br_room : forall b dir reg l p, In b bcs -> used_region b dir reg -> on_region n cells reg l p -> ca_mem n ref l p /\ ca_mem n ref l (vadd n p dir) /\ ca_mem n ref l (vadd n p (neg dir)) }.

(** The call for the leaf p of level l: the leaf, the cell behind it, the ghost. *)
Definition call_of (n : nat) (scaling : Q) (ref : ca) (b : bc) (dir : list Z) (l : nat) (p : list Z) (c : bc_call) : Prop :=
  (exists a i g, bc_cells c = [a; i; g] /\ cell_is n ref l p a /\ cell_is n ref l (vadd n p (neg dir)) i /\ cell_is n ref l (vadd n p dir) g) /\
  bc_eqs c = [bc_equation (bc_type b) (cell_length scaling l)] /\ bc_val c = bc_value b l p dir.
Definition ghost_index (c : bc_call) : Z := sc_index (nth 2 (bc_cells c) bc_e0).

Lemma inter_calls_distinct : forall n ref0 a b, wf n a -> wf n b ->
  (forall q k, lca_mem n a q \/ lca_mem n b q -> (k <= n)%nat -> 2 * (nth k q 0 + 3) < 2 ^ 31 - 1) -> a_level a = ref0 -> (ref0 <= a_level b)%nat ->
  exists calls, subset_calls n (inter_on a b ref0) = Some calls /\ (forall i yz, In (i, yz) calls -> length yz = n /\ istart i < iend i) /\ NoDup (cells_of_calls calls) /\
    forall p, In p (cells_of_calls calls) <-> lca_mem n a p /\ exists q, lca_mem n b q /\ p = ancestor (a_level b - ref0) q.
Proof.
  intros n ref0 a b Wa Wb RG La Lb. unfold inter_on. rewrite on_make_op. set (t := Nd Intersect (More (Lf (leaf_of (NMesh a))) (One (Lf (leaf_of (NMesh b)))))).
  assert (EF : Nat.min ref0 (finest t) = ref0) by (unfold t; cbn [finest]; cbn; lia).
  assert (HO : operands_ok n ref0 t).
  { intros lf Hlf. rewrite EF. unfold t in Hlf. cbn [tin ain] in Hlf.
    destruct Hlf as [E|E]; rewrite E; cbn [l_node leaf_of]; unfold operand_ok; cbn [simple node_mesh node_vect]; (split; [auto|]; split; [auto|]);
      intros q k Hq Hk; rewrite vadd_nil by apply Hq; [replace (Z.max 0 (Z.of_nat ref0 - Z.of_nat (a_level a))) with 0 by lia|replace (Z.max 0 (Z.of_nat ref0 - Z.of_nat (a_level b))) with 0 by lia];
      change (2 ^ 0) with 1; pose proof (RG q k ltac:(auto) Hk); lia. }
  destruct (C18_levels n ref0 t HO) as (calls & E & V & N & _ & M). exists calls. split; [exact E|]. split; [exact V|]. split; [exact N|].
  assert (KEY : forall p, length p = S n -> (In p (cells_of_calls calls) <-> lca_mem n a p /\ exists q, lca_mem n b q /\ p = ancestor (a_level b - ref0) q)).
  { intros p Lp. rewrite (M p Lp). unfold expr_mem, t. cbn [tmap tsem]. rewrite <- (denotes_mesh_coarse n b p ref0 Lb Lp).
    assert (D : denotes n ref0 p (NMesh a) <-> lca_mem n a p) by (rewrite denotes_mesh_fine by (auto; lia); rewrite La, Nat.sub_diag, ancestor_0; reflexivity). rewrite <- D. reflexivity. }
  intros p. split; intros H; [apply KEY; [exact (calls_cells n calls p V H)|exact H]|apply KEY; [apply H|exact H]].
Qed.

Lemma bc_fits : forall n ref l z d s, (d <= n)%nat -> (s = 1 \/ s = -1) -> length z = S n -> let dir := unit_mult n d s in
  ca_mem n ref l z -> ca_mem n ref l (vadd n z dir) -> ca_mem n ref l (vadd n z (neg dir)) -> fits_at n ref (bc_stencil n dir) l z.
Proof.
  intros n ref l z d s Hd Hs Lz dir H0 H1 H2. unfold dir in *. rewrite neg_unit_mult in H2. assert (Z0 : vadd n z (repeat 0 (S n)) = z) by (apply (list_ext n); [apply vadd_length|exact Lz|]; intros k Hk; rewrite nth_vadd by exact Hk; rewrite nth_repeat; lia).
  split.
  - intros v Hv. unfold bc_stencil in Hv. rewrite neg_unit_mult in Hv. cbn [In] in Hv. destruct Hv as [E|[E|[E|[]]]]; rewrite <- E; [rewrite Z0|..]; assumption.
  - intros v x Hv _ Hx. assert (C : hd 0 z + 0 :: tl z = z) by (destruct z; [discriminate|]; cbn [hd tl]; f_equal; lia).
    destruct (Z.eq_dec x 0) as [->|Nx]; [rewrite C; exact H0|]. unfold bc_stencil in Hv. rewrite neg_unit_mult in Hv. cbn [In] in Hv.
    assert (X : forall r, (r = 1 \/ r = -1) -> v = unit_mult n d r -> hd 0 z + x :: tl z = vadd n z v).
    { intros r Hr ->. rewrite nth_unit in Hx by lia. destruct (Nat.eqb_spec 0 d) as [<-|Nd]; [|lia]. assert (x = r) by lia. subst x. destruct z as [|a z]; [discriminate|]. cbn [hd tl].
      apply (list_ext n); [cbn [length] in *; lia|apply vadd_length|]. intros k Hk. rewrite nth_vadd, nth_unit by exact Hk. destruct k; cbn [nth Nat.eqb]; lia. }
    destruct Hv as [E|[E|[E|[]]]].
    + exfalso. rewrite <- E in Hx. rewrite nth_repeat in Hx. lia.
    + rewrite (X (- s) ltac:(lia) (eq_sym E)), <- E. exact H2.
    + rewrite (X s ltac:(lia) (eq_sym E)), <- E. exact H1.
Qed.

Section Regions.
  Context (n : nat) (scaling : Q) (ref cells : ca) (bcs : list bc) (BR : boundary_regions n ref cells bcs).
  Let NR := br_numbered _ _ _ _ BR.

  Lemma level_calls : forall b dir reg l, In b bcs -> used_region b dir reg -> (l <= c_max cells)%nat -> lca_is_empty (c_at cells l) = false ->
    exists out ps, bc_level_calls n scaling ref cells b dir reg l = Some out /\ NoDup ps /\ (forall p, In p ps <-> on_region n cells reg l p) /\ Forall2 (call_of n scaling ref b dir l) ps out.
  Proof.
    intros b dir reg l Hb Hr Hl NE. destruct (br_region _ _ _ _ BR b dir reg Hb Hr) as (W & FI & RG & d & s & Hd & Hs & Ed). pose proof (br_level _ _ _ _ BR l Hl) as La. pose proof (br_wf _ _ _ _ BR) as Wc.
    assert (Ll : (l <= a_level reg)%nat). { apply (nonempty_mem n) in NE as (q & Hq); [|apply Wc; lia]. apply (FI l q). split; auto. }
    destruct (inter_calls_distinct n l (c_at cells l) reg) as (calls & E & V & ND & M).
    { apply Wc; exact Hl. } { exact W. } { intros q k [H|H] Hk; [apply (br_range _ _ _ _ BR l); auto; split; auto|apply RG; auto]. } { exact La. } { exact Ll. }
    unfold bc_level_calls, over_set. rewrite E. change (s_ref (inter_on (c_at cells l) reg l)) with l.
    assert (MR : forall p, In p (cells_of_calls calls) <-> on_region n cells reg l p).
    { intros p. rewrite M. unfold on_region. split; intros [H1 H2]; (split; [|exact H2]); [split; auto|apply H1]. }
    set (F := fun mi => let* o := for_each_stencil_sliding n ref (bc_stencil n dir) mi in all_opt (fun es => let* c := nth_error es 0 in Some (mkBc es [bc_equation (bc_type b) (cell_length scaling l)] (bc_value b l (sc_coord c) dir))) o).
    destruct (concat_calls_spec _ (call_of n scaling ref b dir l) (fun '(i, yz) => F (mkMI l i yz)) calls) as (out & Eo & FO).
    { intros i yz Hin. destruct (V i yz Hin) as [V1 V2].
      assert (FT : forall x, in_i i x -> fits_at n ref (bc_stencil n dir) l (x :: yz)).
      { intros x Hx. assert (OR : on_region n cells reg l (x :: yz)) by (apply MR; apply cells_of_calls_In; exists i; split; auto). destruct (br_room _ _ _ _ BR b dir reg l _ Hb Hr OR) as (R0 & R1 & R2). rewrite Ed in *. apply bc_fits; auto. cbn [length]. lia. }
      assert (SF : stencil_fits n ref (bc_stencil n dir) (mkMI l i yz)).
      { apply fits_stencil; auto; [|left; reflexivity]. intros v Hv. rewrite Ed in Hv. unfold bc_stencil in Hv. rewrite neg_unit_mult in Hv. cbn [In] in Hv. destruct Hv as [<-|[<-|[<-|[]]]]; [apply repeat_length|apply unit_mult_length|apply unit_mult_length]. }
      destruct (slide_cells _ _ _ _ _ _ NR SF) as (es & Es & SC). unfold F, for_each_stencil_sliding. rewrite Es. cbn [mi_i].
      set (K := Z.to_nat (iend i - istart i)).
      assert (SL : forall k, slide k es = map (fun j => map (move_cell (Z.of_nat j) (Z.of_nat j)) es) (seq 0 k)).
      { intros k. apply (nth_ext _ _ [] []); [rewrite slide_length, map_length, seq_length; reflexivity|]. intros j Hj. rewrite slide_length in Hj. apply nth_error_nth. rewrite slide_nth by exact Hj. 
        f_equal. symmetry. rewrite (nth_indep _ [] (map (move_cell (Z.of_nat 0) (Z.of_nat 0)) es)) by (rewrite map_length, seq_length; exact Hj). rewrite (map_nth (fun j => map (move_cell (Z.of_nat j) (Z.of_nat j)) es)). rewrite seq_nth by exact Hj. reflexivity. }
      rewrite SL.
      assert (AO : forall js, (forall j, In j js -> (j < K)%nat) -> exists out, all_opt (fun es0 => let* c := nth_error es0 0 in Some (mkBc es0 [bc_equation (bc_type b) (cell_length scaling l)] (bc_value b l (sc_coord c) dir))) (map (fun j => map (move_cell (Z.of_nat j) (Z.of_nat j)) es) js) = Some out /\
        Forall2 (call_of n scaling ref b dir l) (map (fun j => istart i + Z.of_nat j :: yz) js) out).
      { induction js as [|j js IH]; intros Hj; [exists []; split; [reflexivity|constructor]|]. destruct IH as (out & Eo & FO); [intros; apply Hj; right; auto|]. cbn [map all_opt].
        assert (Hk : Z.of_nat j < iend i - istart i) by (specialize (Hj j ltac:(left; auto)); lia). specialize (SC j Hk). set (mv := map (move_cell (Z.of_nat j) (Z.of_nat j)) es) in *.
        assert (EX : exists a c g, mv = [a; c; g] /\ cell_is n ref l (vadd n (istart i + Z.of_nat j :: yz) (repeat 0 (S n))) a /\ cell_is n ref l (vadd n (istart i + Z.of_nat j :: yz) (neg dir)) c /\ cell_is n ref l (vadd n (istart i + Z.of_nat j :: yz) dir) g).
        { clear -SC. unfold bc_stencil in SC. destruct mv as [|a [|c [|g [|? ?]]]]; repeat (match goal with H : Forall2 _ _ _ |- _ => inversion H; clear H; subst end). eauto 8. }
        destruct EX as (a & c & g & -> & C1 & C2 & C3). change (nth_error [a; c; g] 0) with (Some a). cbv beta iota. rewrite Eo. eexists. split; [reflexivity|]. constructor; [|exact FO].
        assert (Lz : length (istart i + Z.of_nat j :: yz) = S n) by (cbn [length]; lia).
        rewrite (vadd_0 n _ Lz) in C1. split; [|split].
        - exists a, c, g. cbn [bc_cells]. auto.
        - reflexivity.
        - cbn [bc_val]. destruct C1 as (_ & -> & _). reflexivity. }
      destruct (AO (seq 0 K)) as (out & Eo & FO); [intros j Hj; apply in_seq in Hj; lia|]. exists out. split; [exact Eo|]. replace (map (fun x => x :: yz) (zrange (istart i) (iend i))) with (map (fun j => istart i + Z.of_nat j :: yz) (seq 0 K)); [exact FO|].
      unfold zrange. rewrite map_map. reflexivity. }
    exists out, (cells_of_calls calls). auto.
  Qed.

  Definition region_spec (b : bc) (dir : list Z) (reg : lca) (out : list bc_call) : Prop :=
    (forall c, In c out -> exists l p, on_region n cells reg l p /\ call_of n scaling ref b dir l p c) /\ (forall l p, on_region n cells reg l p -> exists c, In c out /\ call_of n scaling ref b dir l p c) /\ NoDup (map ghost_index out).

  Lemma call_ghost : forall b dir l p c, call_of n scaling ref b dir l p c -> ca_get_index n ref l (vadd n p dir) = Some (ghost_index c).
  Proof. intros b dir l p c ((a & i & g & E & _ & _ & (_ & _ & H)) & _). unfold ghost_index. rewrite E. exact H. Qed.
  Lemma NoDup_forall2 : forall (A B : Type) (R : A -> B -> Prop) (key : B -> Z) ps out, Forall2 R ps out -> NoDup ps -> (forall p p' c c', In p ps -> In p' ps -> R p c -> R p' c' -> key c = key c' -> p = p') -> NoDup (map key out).
  Proof.
    intros A B R key ps out F. induction F as [|p c ps out H F IH]; intros ND INJ; [constructor|]. apply NoDup_cons_iff in ND as [N1 ND]. cbn [map]. constructor.
    - intros K. apply in_map_iff in K as (c' & Ek & Hc). destruct (Forall2_In_r _ _ _ _ _ _ F Hc) as (p' & Hp' & R'). apply N1. rewrite (INJ p p' c c'); auto; [left; auto|right; auto].
    - apply IH; auto. intros. eapply INJ; eauto; right; auto.
  Qed.
  Lemma vadd_cancel : forall p p' v, length p = S n -> length p' = S n -> vadd n p v = vadd n p' v -> p = p'.
  Proof. intros p p' v L L' E. apply (list_ext n); auto. intros k Hk. assert (K : nth k (vadd n p v) 0 = nth k (vadd n p' v) 0) by (rewrite E; reflexivity). rewrite !nth_vadd in K by exact Hk. lia. Qed.

  Lemma region_calls : forall b dir reg, In b bcs -> used_region b dir reg -> exists out, over_levels cells (bc_level_calls n scaling ref cells b dir reg) (levels cells) = Some out /\ region_spec b dir reg out.
  Proof.
    intros b dir reg Hb Hr. destruct (CellArrayProofs.levels_spec cells) as (SS & LR & LI).
    assert (LC : forall l, In l (levels cells) -> lca_is_empty (c_at cells l) = false -> exists out ps, bc_level_calls n scaling ref cells b dir reg l = Some out /\ NoDup ps /\ (forall p, In p ps <-> on_region n cells reg l p) /\ Forall2 (call_of n scaling ref b dir l) ps out).
    { intros l Hl NE. apply level_calls; auto. }
    eexists. split; [apply over_levels_got; intros l Hl NE K; destruct (LC l Hl NE) as (o & ps & E & _); congruence|].
    set (f := fun l => if lca_is_empty (c_at cells l) then [] else got (bc_level_calls n scaling ref cells b dir reg l)).
    assert (A : forall l c, In l (levels cells) -> In c (f l) -> exists p, on_region n cells reg l p /\ call_of n scaling ref b dir l p c).
    { intros l c Hl Hc. unfold f in Hc. destruct (lca_is_empty (c_at cells l)) eqn:NE; [destruct Hc|]. destruct (LC l Hl NE) as (o & ps & E & _ & M & F). rewrite E in Hc. cbn [got] in Hc. destruct (Forall2_In_r _ _ _ _ _ _ F Hc) as (p & Hp & R). exists p. split; [apply M; exact Hp|exact R]. }
    assert (ST : forall l p, on_region n cells reg l p -> ca_mem n ref l (vadd n p dir)) by (intros l p OR; apply (br_room _ _ _ _ BR b dir reg l p Hb Hr OR)).
    split; [|split].
    - intros c Hc. apply in_flat_map in Hc as (l & Hl & Hc). destruct (A l c Hl Hc) as (p & P1 & P2). eauto.
    - intros l p OR. assert (Hl : (l <= c_max cells)%nat) by apply OR. assert (NE : lca_is_empty (c_at cells l) = false) by (apply (nonempty_mem n); [apply (br_wf _ _ _ _ BR); exact Hl|]; exists p; apply OR).
      specialize (LI l Hl NE). destruct (LC l LI NE) as (o & ps & E & _ & M & F). destruct (Forall2_In_l _ _ _ _ _ _ F (proj2 (M p) OR)) as (c & Hc & R). exists c. split; [|exact R]. apply in_flat_map. exists l. split; [exact LI|]. unfold f. rewrite NE, E. exact Hc.
    - rewrite flat_map_concat_map, concat_map, map_map, <- flat_map_concat_map. apply (NoDup_flat_key _ _ _ _ (fun l : nat => l)).
      + rewrite map_id. unfold levels. apply seq_NoDup.
      + intros l Hl. unfold f. destruct (lca_is_empty (c_at cells l)) eqn:NE; [constructor|]. destruct (LC l Hl NE) as (o & ps & E & ND & M & F). rewrite E. cbn [got]. apply (NoDup_forall2 _ _ _ _ _ _ F ND). intros p p' c c' Hp Hp' R R' Ek.
        apply M in Hp, Hp'. apply call_ghost in R, R'. rewrite Ek in R. destruct (numbered_inj n ref l _ l _ _ NR (ST _ _ Hp) (ST _ _ Hp') R R') as [_ K]. apply (vadd_cancel p p' dir); auto; [apply Hp|apply Hp'].
      + intros l l' x Hl Hl' Hx Hx'. apply in_map_iff in Hx as (c & <- & Hc), Hx' as (c' & Ek & Hc'). destruct (A l c Hl Hc) as (p & P1 & P2). destruct (A l' c' Hl' Hc') as (p' & P1' & P2'). apply call_ghost in P2, P2'. rewrite Ek in P2'.
        apply (numbered_inj n ref l _ l' _ _ NR (ST _ _ P1) (ST _ _ P1') P2 P2').
  Qed.

  Definition all_regions : list (bc * (list Z * lca)) := flat_map (fun b => map (pair b) (bc_region b)) bcs.
  (** Two conditions have no ghost in common. *)
  Definition regions_apart : Prop := ForallOrdPairs (fun r r' => is_cartesian (fst (snd r)) = true -> is_cartesian (fst (snd r')) = true -> forall l p p', on_region n cells (snd (snd r)) l p -> on_region n cells (snd (snd r')) l p' ->
    vadd n p (fst (snd r)) <> vadd n p' (fst (snd r'))) all_regions.
  Definition region_out (r : bc * (list Z * lca)) (out : list bc_call) : Prop := In (fst r) bcs /\ In (snd r) (bc_region (fst r)) /\ if is_cartesian (fst (snd r)) then region_spec (fst r) (fst (snd r)) (snd (snd r)) out else out = [].

  Lemma calls_regions : exists outs, bc_calls n scaling ref cells bcs = Some (concat outs) /\ Forall2 region_out all_regions outs.
  Proof.
    unfold bc_calls. destruct (all_opt_some _ _ (fun b => option_map (@concat _) (all_opt (fun '(direction, region) => if is_cartesian direction then over_levels cells (bc_level_calls n scaling ref cells b direction region) (levels cells) else Some []) (bc_region b)))
      (fun b o => exists os, o = concat os /\ Forall2 (fun r => region_out (b, r)) (bc_region b) os) bcs) as (bs & E & F).
    { intros b Hb. destruct (all_opt_some _ _ (fun '(direction, region) => if is_cartesian direction then over_levels cells (bc_level_calls n scaling ref cells b direction region) (levels cells) else Some []) (fun r => region_out (b, r)) (bc_region b)) as (os & E & F).
      { intros [dir reg] Hr. destruct (is_cartesian dir) eqn:C.
        - destruct (region_calls b dir reg Hb (conj Hr C)) as (out & Eo & Ro). exists out. split; [exact Eo|]. split; [exact Hb|]. split; [exact Hr|]. cbn [fst snd]. rewrite C. exact Ro.
        - exists []. split; [reflexivity|]. split; [exact Hb|]. split; [exact Hr|]. cbn [fst snd]. rewrite C. reflexivity. }
      rewrite E. cbn [option_map]. eexists. split; [reflexivity|]. eauto. }
    rewrite E. cbn [option_map]. unfold all_regions.
    assert (G : forall l bs, Forall2 (fun b o => exists os, o = concat os /\ Forall2 (fun r => region_out (b, r)) (bc_region b) os) l bs -> exists outs, concat bs = concat outs /\ Forall2 region_out (flat_map (fun b => map (pair b) (bc_region b)) l) outs).
    { intros l bs0 F0. induction F0 as [|b o l0 os' (os & -> & Fo) F0 IH]; [exists []; split; [reflexivity|constructor]|].
      destruct IH as (outs & Ec & G). exists (os ++ outs). cbn [concat flat_map]. rewrite concat_app, Ec. split; [reflexivity|]. apply Forall2_app_; [|exact G]. clear -Fo. induction Fo; cbn [map]; constructor; auto. }
    destruct (G _ _ F) as (outs & Ec & Go). exists outs. rewrite Ec. auto.
  Qed.

  Lemma calls_facts : exists calls, bc_calls n scaling ref cells bcs = Some calls /\
    (forall c, In c calls -> exists b dir reg l p, In b bcs /\ used_region b dir reg /\ on_region n cells reg l p /\ call_of n scaling ref b dir l p c) /\
    (forall b dir reg l p, In b bcs -> used_region b dir reg -> on_region n cells reg l p -> exists c, In c calls /\ call_of n scaling ref b dir l p c) /\ (regions_apart -> NoDup (map ghost_index calls)).
  Proof.
    destruct calls_regions as (outs & E & F). exists (concat outs). split; [exact E|]. clear E. split; [|split].
    - intros c Hc. apply in_concat in Hc as (o & Ho & Hc). destruct (Forall2_In_r _ _ _ _ _ _ F Ho) as ([b [dir reg]] & _ & (Hb & Hr & H)). cbn [fst snd] in *. destruct (is_cartesian dir) eqn:C; [|rewrite H in Hc; destruct Hc].
      destruct H as (H & _). destruct (H c Hc) as (l & p & P1 & P2). exists b, dir, reg, l, p. split; [exact Hb|]. split; [split; auto|]. auto.
    - intros b dir reg l p Hb [Hr C] OR. assert (In (b, (dir, reg)) all_regions) as HR by (apply in_flat_map; exists b; split; [exact Hb|apply in_map; exact Hr]). destruct (Forall2_In_l _ _ _ _ _ _ F HR) as (o & Ho & (_ & _ & H)). cbn [fst snd] in H. rewrite C in H.
      destruct H as (_ & H & _). destruct (H l p OR) as (c & Hc & R). exists c. split; [apply in_concat; eauto|exact R].
    - unfold regions_apart. clear - F NR BR. induction F as [|r o rs os H F IH]; intros AP; [constructor|]. inversion AP as [|r' rs' A1 A2]; subst. cbn [concat]. rewrite map_app. apply NoDup_app2.
      + destruct H as (_ & _ & H). destruct (is_cartesian (fst (snd r))); [apply H|rewrite H; constructor].
      + apply IH. exact A2.
      + intros k Hk Hk'. apply in_map_iff in Hk as (c & <- & Hc), Hk' as (c' & Ek & Hc'). apply in_concat in Hc' as (o' & Ho' & Hc'). destruct (Forall2_In_r _ _ _ _ _ _ F Ho') as (r' & Hr' & (Hb' & Hq' & H')). destruct H as (Hb & Hq & H).
        rewrite Forall_forall in A1. specialize (A1 r' Hr'). destruct r as [b [dir reg]], r' as [b' [dir' reg']]. cbn [fst snd] in *.
        destruct (is_cartesian dir) eqn:C; [|rewrite H in Hc; destruct Hc]. destruct (is_cartesian dir') eqn:C'; [|rewrite H' in Hc'; destruct Hc']. destruct H as (H & _), H' as (H' & _). destruct (H c Hc) as (l & p & P1 & P2). destruct (H' c' Hc') as (l' & p' & P1' & P2').
        apply call_ghost in P2, P2'. rewrite Ek in P2'. assert (M1 : ca_mem n ref l (vadd n p dir)) by (apply (br_room _ _ _ _ BR b dir reg l p Hb (conj Hq C) P1)). assert (M2 : ca_mem n ref l' (vadd n p' dir')) by (apply (br_room _ _ _ _ BR b' dir' reg' l' p' Hb' (conj Hq' C') P1')).
        destruct (numbered_inj n ref _ _ _ _ _ NR M1 M2 P2 P2') as [<- K]. exact (A1 eq_refl eq_refl l p p' P1 P1' K).
  Qed.

  Lemma calls_good : forall calls (leaf : Z -> Prop), bc_calls n scaling ref cells bcs = Some calls -> regions_apart ->
    (forall b dir reg l p k, In b bcs -> used_region b dir reg -> on_region n cells reg l p -> ca_get_index n ref l (vadd n p dir) = Some k -> ~ leaf k) -> good_calls (ca_nb_cells ref) leaf calls.
  Proof.
    intros calls leaf E AP NL. destruct calls_facts as (calls' & E' & C1 & _ & C3). rewrite E in E'. injection E' as <-.
    assert (GE : forall c eq, In c calls -> In eq (bc_eqs c) -> eq_ghost eq = 2%nat /\ length (eq_coeffs eq) = 3%nat).
    { intros c eq Hc He. destruct (C1 c Hc) as (b & dir & reg & l & p & _ & _ & _ & (_ & Ee & _)). rewrite Ee in He. destruct He as [<-|[]]. destruct (bc_type b); split; reflexivity. }
    assert (LC : forall c, In c calls -> length (bc_cells c) = 3%nat). { intros c Hc. destruct (C1 c Hc) as (b & dir & reg & l & p & _ & _ & _ & ((a & i & g & Ec & _) & _)). rewrite Ec. reflexivity. }
    constructor.
    - intros c e Hc He. destruct (C1 c Hc) as (b & dir & reg & l & p & Hb & Hr & OR & ((a & i & g & Ec & (_ & _ & I1) & (_ & _ & I2) & (_ & _ & I3)) & _)). destruct (br_room _ _ _ _ BR b dir reg l p Hb Hr OR) as (R0 & R1 & R2).
      assert (K : forall q k, ca_mem n ref l q -> ca_get_index n ref l q = Some k -> 0 <= k < ca_nb_cells ref) by (intros q k Hq Ek; destruct (numbered_index n ref l q NR Hq) as (k' & Ek' & R); congruence).
      rewrite Ec in He. cbn [In] in He. destruct He as [He|[He|[He|[]]]]; rewrite <- He; [exact (K _ _ R0 I1)|exact (K _ _ R2 I2)|exact (K _ _ R1 I3)].
    - intros c Hc. destruct (C1 c Hc) as (b & dir & reg & l & p & Hb & Hr & OR & ((a & i & g & Ec & (_ & _ & I1) & (_ & _ & I2) & (_ & _ & I3)) & _)). destruct (br_room _ _ _ _ BR b dir reg l p Hb Hr OR) as (R0 & R1 & R2).
      destruct (br_region _ _ _ _ BR b dir reg Hb Hr) as (_ & _ & _ & d & s & Hd & Hs & Ed). assert (Lp : length p = S n) by apply OR. rewrite Ec. cbn [map].
      assert (K : forall q q' k k', ca_mem n ref l q -> ca_mem n ref l q' -> ca_get_index n ref l q = Some k -> ca_get_index n ref l q' = Some k' -> nth d q 0 <> nth d q' 0 -> k <> k').
      { intros q q' k k' Hq Hq' Ek Ek' D Eq. rewrite Eq in Ek. destruct (numbered_inj n ref l q l q' _ NR Hq Hq' Ek Ek') as [_ K]. rewrite K in D. contradiction. }
      assert (N1 : nth d (vadd n p dir) 0 = nth d p 0 + s) by (rewrite nth_vadd by exact Hd; rewrite Ed, nth_unit, Nat.eqb_refl by exact Hd; lia).
      assert (N2 : nth d (vadd n p (neg dir)) 0 = nth d p 0 - s) by (rewrite nth_vadd by exact Hd; rewrite Ed, neg_unit_mult, nth_unit, Nat.eqb_refl by exact Hd; lia).
      constructor; [|constructor; [|constructor; [|constructor]]]; cbn [In].
      + intros [H|[H|[]]]; revert H; [apply (K (vadd n p (neg dir)) p)|apply (K (vadd n p dir) p)]; auto; lia.
      + intros [H|[]]; revert H; apply (K (vadd n p dir) (vadd n p (neg dir))); auto; lia.
      + intros [].
    - intros c eq Hc He. destruct (GE c eq Hc He) as [G1 G2]. rewrite (LC c Hc), G1, G2. split; [reflexivity|]. split; [lia|]. destruct (C1 c Hc) as (b & dir & reg & l & p & Hb & Hr & OR & R). unfold ghost_cell. rewrite G1. apply (NL b dir reg l p _ Hb Hr OR). apply call_ghost in R. exact R.
    - specialize (C3 AP). replace (map (fun '(b, eq) => ghost_cell b eq) (pairs_of calls)) with (map ghost_index calls); [exact C3|]. clear C3 E. unfold pairs_of.
      assert (ONE : forall c, In c calls -> exists eq, bc_eqs c = [eq] /\ eq_ghost eq = 2%nat). { intros c Hc. destruct (C1 c Hc) as (b & dir & reg & l & p & _ & _ & _ & (_ & Ee & _)). eexists. split; [exact Ee|]. apply (GE c); [exact Hc|]. rewrite Ee. left. reflexivity. }
      clear - ONE. induction calls as [|c cs IH]; [reflexivity|]. cbn [map flat_map]. rewrite map_app, <- IH by (intros; apply ONE; right; auto). destruct (ONE c (or_introl eq_refl)) as (eq & -> & Eg). cbn [map app]. f_equal. unfold ghost_cell. rewrite Eg. reflexivity.
  Qed.
End Regions.

(** ** The theorems *)

(** The calls: one for each leaf of each region, with the leaf, the cell behind it and the
    ghost in front of it; two different ones have different ghosts. *)
Theorem C78_boundary_calls : forall n scaling ref cells bcs, boundary_regions n ref cells bcs -> exists calls, bc_calls n scaling ref cells bcs = Some calls /\
  (forall c, In c calls -> exists b dir reg l p, In b bcs /\ used_region b dir reg /\ on_region n cells reg l p /\ call_of n scaling ref b dir l p c) /\
  (forall b dir reg l p, In b bcs -> used_region b dir reg -> on_region n cells reg l p -> exists c, In c calls /\ call_of n scaling ref b dir l p c) /\
  (regions_apart n cells bcs -> NoDup (map ghost_index calls)).
Proof. intros n scaling ref cells bcs BR. apply calls_facts. exact BR. Qed.

Lemma outside_apart : forall n order ref cg cells domain l q, ghost_mesh n order ref cg cells -> covers n cells domain -> (forall l p, ca_mem n cells l p -> (l <= a_level domain)%nat) ->
  length q = S n -> (l <= a_level domain)%nat -> outside n domain l q -> ~ ca_mem n cells l q /\ ~ (proj_ghost n cg cells l q \/ pred_ghost n cg cells l q).
Proof.
  intros n order ref cg cells domain l q GM CV FI Lq HM Ho. set (M := a_level domain) in *. split.
  - intros H. destruct (descend (M - l) q) as (z & Lz & Ez). apply (Ho z).
    + apply CV. split; [congruence|]. exists l. fold M. split; [exact HM|]. rewrite Ez. exact H.
    + apply meets_ancestor; [exact HM|exact Lq|congruence|exact Ez].
  - intros [(H1 & (c & Hc & ->) & _)|(H1 & H2 & H3 & _)].
    + assert (Lc : length c = S n) by apply Hc. pose proof (FI _ _ Hc) as HM'. destruct (descend (M - S l) c) as (z & Lz & Ez). apply (Ho z).
      * apply CV. split; [congruence|]. exists (S l). split; [exact HM'|]. fold M. rewrite Ez. exact Hc.
      * apply meets_ancestor; [exact HM|rewrite ancestor_length; exact Lc|congruence|]. rewrite <- Ez, ancestor_add. f_equal. fold M. lia.
    + destruct (descend (M - l) q) as (z & Lz & Ez). apply (Ho z).
      * apply CV. split; [congruence|]. exists (Nat.pred l). fold M. split; [lia|]. replace (M - Nat.pred l)%nat with (1 + (M - l))%nat by lia. rewrite <- ancestor_add, Ez. exact H3.
      * apply meets_ancestor; [exact HM|exact Lq|congruence|exact Ez].
Qed.

(** The discrete condition: the mean of the leaf and of the ghost is the value, or the
    difference divided by the length of a cell. *)
Definition condition_holds (k : bc_kind) (h value leaf ghost : Q) : Prop :=
  match k with Dirichlet => ((leaf + ghost) / 2 == value)%Q | Neumann => (ghost - leaf == h * value)%Q end.

Lemma equation_holds : forall y x b n scaling ref dir l p c eq fi, call_of n scaling ref b dir l p c -> In eq (bc_eqs c) ->
  ((sum_over (fun j => nth j (eq_coeffs eq) bc_m0 fi fi * x (col_index y (sc_index (nth j (bc_cells c) bc_e0)) fi)) (seq 0 (length (bc_cells c))) == eq_rhs eq fi fi * bc_val c fi)%Q <->
   condition_holds (bc_type b) (cell_length scaling l) (bc_value b l p dir fi) (x (col_index y (index_of n ref (l, p)) fi)) (x (col_index y (index_of n ref (l, vadd n p dir)) fi))) /\
  exists j, (j < length (bc_cells c))%nat /\ ~ (nth j (eq_coeffs eq) bc_m0 fi fi == 0)%Q.
Proof.
  intros y x b n scaling ref dir l p c eq fi ((a & i & g & Ec & (_ & _ & I1) & _ & (_ & _ & I3)) & Ee & Ev) He. rewrite Ee in He. destruct He as [<-|[]]. rewrite Ec, Ev. cbn [length seq]. rewrite !sum_cons. unfold index_of. cbn [fst snd nth]. rewrite I1, I3.
  generalize (x (col_index y (sc_index a) fi)) (x (col_index y (sc_index i) fi)) (x (col_index y (sc_index g) fi)) (bc_value b l p dir fi) (cell_length scaling l). intros xa xi xg v h.
  destruct (bc_type b); unfold bc_equation, condition_holds; cbn [eq_coeffs eq_rhs nth]; unfold diag; rewrite Nat.eqb_refl; (split; [split; intros H|exists 0%nat; split; [lia|cbn [nth]; rewrite ?Nat.eqb_refl; intros K; discriminate K]]).
  - transitivity ((1 # 2) * xa + (0 * xi + ((1 # 2) * xg + sum_over (fun j => match j with O => (1 # 2) * xa | _ => 0 end) [])))%Q; [unfold sum_over; cbn; field|]. etransitivity; [exact H|ring].
  - transitivity ((xa + xg) / 2)%Q; [unfold sum_over; cbn; field|]. rewrite H. ring.
  - transitivity (-1 * xa + (0 * xi + (1 * xg + 0)))%Q; [ring|]. etransitivity; [exact H|ring].
  - transitivity (xg - xa)%Q; [unfold sum_over; cbn; ring|]. rewrite H. ring.
Qed.

(** The discrete problem solved: the scheme on the leaves, the conditions on the boundary. *)
Theorem C78_problem : forall n m hist maxl st cells domain scaling ib lfs order cg y N fuel bcs dv b, system n m hist maxl st cells domain scaling ib lfs order cg y N fuel -> let ref := client_ca n m hist true in
  ly_os y = ly_fs y -> ly_row_shift y = ly_col_shift y -> boundary_regions n ref cells bcs -> regions_apart n cells bcs -> covers n cells domain -> (forall l p, ca_mem n cells l p -> (l <= a_level domain)%nat) ->
  (forall c dir reg l p, In c bcs -> used_region c dir reg -> on_region n cells reg l p -> outside n domain l (vadd n p dir)) -> ~ (dv == 0)%Q -> (forall l p, ca_mem n cells l p -> has_face n cells domain ib l p) ->
  exists calls rec s b', bc_calls n scaling ref cells bcs = Some calls /\ ghost_recursion fuel n order ref cg cells = Some rec /\ assemble_matrix y rec n maxl scaling ref cells domain ib lfs calls dv = Some s /\ prepare_rhs y n ref cg cells calls (as_empty s) b = Some b' /\
    forall debug x v, represents n order ref cg cells y x v -> exists out, lin_apply_to debug n maxl (ly_os y) (ly_fs y) scaling ref cells domain ib v lfs = Some out /\
      ((forall r, ly_row_shift y <= r < ly_row_shift y + ly_cells y * Z.of_nat (ly_os y) -> (product y (as_mat s) x r == b' r)%Q) <->
       (forall k fi, leaf_number n ref cells k -> (fi < ly_os y)%nat -> (out k fi == b (row_index y k fi))%Q) /\
       (forall c dir reg l p fi, In c bcs -> used_region c dir reg -> on_region n cells reg l p -> (fi < ly_os y)%nat ->
         condition_holds (bc_type c) (cell_length scaling l) (bc_value c l p dir fi) (x (col_index y (index_of n ref (l, p)) fi)) (x (col_index y (index_of n ref (l, vadd n p dir)) fi))) /\
       (forall k fi, 0 <= k < ly_cells y -> (fi < ly_os y)%nat -> ~ leaf_number n ref cells k ->
         (forall c dir reg l p, In c bcs -> used_region c dir reg -> on_region n cells reg l p -> ca_get_index n ref l (vadd n p dir) <> Some k) -> (x (col_index y k fi) == 0)%Q)).
Proof.
  intros n m hist maxl st cells domain scaling ib lfs order cg y N fuel bcs dv b SY. cbv zeta. intros SQ SH BR AP CV FI OUT DV FACE.
  pose proof (sy_ghosts _ _ _ _ _ _ _ _ _ _ _ _ _ _ _ SY) as GM. pose proof (sy_cells _ _ _ _ _ _ _ _ _ _ _ _ _ _ _ SY) as HN. pose proof (br_numbered _ _ _ _ BR) as NR. set (ref := client_ca n m hist true) in *.
  destruct (calls_facts n scaling ref cells bcs BR) as (calls & Ec & C1 & C2 & _).
  assert (APART : forall c dir reg l p k, In c bcs -> used_region c dir reg -> on_region n cells reg l p -> ca_get_index n ref l (vadd n p dir) = Some k -> ~ leaf_number n ref cells k /\ ~ ghost_number n ref cg cells k).
  { intros c dir reg l p k Hc Hr OR Ek. destruct (outside_apart n order ref cg cells domain l (vadd n p dir) GM CV FI (vadd_length _ _ _) (FI l p (proj1 OR)) (OUT c dir reg l p Hc Hr OR)) as [A1 A2].
    assert (M : ca_mem n ref l (vadd n p dir)) by (apply (br_room _ _ _ _ BR c dir reg l p Hc Hr OR)). split.
    - intros (l' & p' & Hp' & Ek'). destruct (numbered_inj n ref l _ l' p' k NR M (stored_leaf _ _ _ _ _ _ _ _ _ _ _ _ _ _ _ SY l' p' Hp') Ek Ek') as [E1 E2]. subst l' p'. contradiction.
    - intros (l' & p' & G & Ek'). destruct (numbered_inj n ref l _ l' p' k NR M (ghost_stored n order ref cg cells GM l' p' G) Ek Ek') as [E1 E2]. subst l' p'. contradiction. }
  assert (GC : good_calls (ly_cells y) (leaf_number n ref cells) calls).
  { rewrite HN. apply (calls_good n scaling ref cells bcs BR calls _ Ec AP). intros c dir reg l p k Hc Hr OR Ek. apply (APART c dir reg l p k Hc Hr OR Ek). }
  assert (GHOST : forall c eq b0 dir l p, call_of n scaling ref b0 dir l p c -> In eq (bc_eqs c) -> ca_get_index n ref l (vadd n p dir) = Some (ghost_cell c eq)).
  { intros c eq b0 dir l p R He. pose proof (call_ghost n scaling ref b0 dir l p c R) as G. destruct R as (_ & Ee & _). rewrite Ee in He. destruct He as [<-|[]]. unfold ghost_cell. destruct (bc_type b0); exact G. }
  destruct (C78_solution n m hist maxl st cells domain scaling ib lfs order cg y N fuel calls dv b SY SQ SH GC DV) as (rec & s & b' & E1 & E2 & E3 & SOL).
  { intros c eq Hc He. destruct (C1 c Hc) as (b0 & dir & reg & l & p & Hb & Hr & OR & R). split.
    - apply (APART b0 dir reg l p _ Hb Hr OR). exact (GHOST c eq b0 dir l p R He).
    - intros fi _. apply (equation_holds y (fun _ => 0%Q) b0 n scaling ref dir l p c eq fi R He). }
  { exact FACE. }
  exists calls, rec, s, b'. split; [exact Ec|]. split; [exact E1|]. split; [exact E2|]. split; [exact E3|]. intros debug x v RP. destruct (SOL debug x v RP) as (out & Eo & IFF). exists out. split; [exact Eo|]. rewrite IFF. fold ref. split; intros (S1 & S2 & S3); (split; [exact S1|split]).
  - intros c dir reg l p fi Hc Hr OR Hf. destruct (C2 c dir reg l p Hc Hr OR) as (cl & Hcl & R). pose proof R as (_ & Ee & _). apply (equation_holds y x c n scaling ref dir l p cl (bc_equation (bc_type c) (cell_length scaling l)) fi R); [rewrite Ee; left; reflexivity|].
    apply (S2 cl); auto. rewrite Ee. left. reflexivity.
  - intros k fi Hk Hf NL NG. apply S3; auto. intros c eq Hc He Ek. destruct (C1 c Hc) as (b0 & dir & reg & l & p & Hb & Hr & OR & R). apply (NG b0 dir reg l p Hb Hr OR). rewrite Ek. exact (GHOST c eq b0 dir l p R He).
  - intros c eq fi Hc He Hf. destruct (C1 c Hc) as (b0 & dir & reg & l & p & Hb & Hr & OR & R). apply (equation_holds y x b0 n scaling ref dir l p c eq fi R He). apply (S2 b0 dir reg l p fi); auto.
  - intros k fi Hk Hf NL NG. apply S3; auto. intros b0 dir reg l p Hb Hr OR Ek. destruct (C2 b0 dir reg l p Hb Hr OR) as (cl & Hcl & R). pose proof R as (_ & Ee & _). set (eq := bc_equation (bc_type b0) (cell_length scaling l)) in *.
    assert (He : In eq (bc_eqs cl)) by (rewrite Ee; left; reflexivity). apply (NG cl eq Hcl He). pose proof (GHOST cl eq b0 dir l p R He) as G. congruence.
Qed.

(** ** Example: the conditions of the example of C78 *)
Lemma sideX_mem : forall a z, lca_mem 1 (sideX a) z <-> exists y, z = [a; y] /\ 0 <= y < 8.
Proof.
  intros a z. unfold sideX. rewrite client_lca_mem by (apply Forall_forall; intros c Hc; apply in_map_iff in Hc as (y & <- & _); reflexivity). split.
  - intros (Lz & c & Hc & Ha). apply in_map_iff in Hc as (y & <- & Hy). apply zrange_In in Hy. destruct z as [|x [|y' [|? ?]]]; try discriminate Lz.
    cbn in Ha. destruct Ha as [E Hx]. injection E as ->. unfold in_i in Hx. cbn in Hx. exists y. split; [f_equal; lia|exact Hy].
  - intros (y & -> & Hy). split; [reflexivity|]. exists (AddI [y] (mk a (a + 1))). split; [apply in_map_iff; exists y; split; [reflexivity|apply zrange_In; lia]|]. cbn. split; [reflexivity|unfold in_i; cbn; lia].
Qed.
Lemma sideY_mem : forall a z, lca_mem 1 (sideY a) z <-> exists x, z = [x; a] /\ 0 <= x < 8.
Proof.
  intros a z. unfold sideY. rewrite client_lca_mem by (repeat constructor). split.
  - intros (Lz & c & Hc & Ha). destruct Hc as [<-|[]]. destruct z as [|x [|y' [|? ?]]]; try discriminate Lz. cbn in Ha. destruct Ha as [E Hx]. injection E as ->. unfold in_i in Hx. cbn in Hx. exists x. auto.
  - intros (x & -> & Hx). split; [reflexivity|]. exists (AddI [a] (mk 0 8)). split; [left; reflexivity|]. cbn. split; [reflexivity|unfold in_i; cbn; lia].
Qed.
Lemma side_wf : forall a, wf 1 (sideX a) /\ wf 1 (sideY a).
Proof.
  intros a. split; apply client_lca_wf.
  - apply Forall_forall; intros c Hc; apply in_map_iff in Hc as (y & <- & _); reflexivity.
  - apply adds_filled. apply Forall_forall; intros c Hc; apply in_map_iff in Hc as (y & <- & _); cbn; lia.
  - repeat constructor.
  - apply adds_filled. repeat constructor; cbn; lia.
Qed.
Definition exSides : list (list Z * lca) := [([1; 0], sideX 7); ([-1; 0], sideX 0); ([0; 1], sideY 7); ([0; -1], sideY 0)].
Lemma exBc_sides : forall b dir reg, In b exBc -> used_region b dir reg -> In (dir, reg) exSides.
Proof. intros b dir reg Hb [Hr _]. cbn [In exBc] in Hb. destruct Hb as [<-|[<-|[]]]; cbn [bc_region In] in Hr; destruct Hr as [<-|[<-|[]]]; unfold exSides; cbn [In]; auto. Qed.
(** The leaves of a side: x or y is 0 or the last one of the level. *)
Lemma exSides_on : forall dir reg l p, In (dir, reg) exSides -> on_region 1 exMesh reg l p -> (1 <= l <= 3)%nat /\ exists x y H, H = 2 ^ Z.of_nat l /\ 2 <= H <= 8 /\ p = [x; y] /\ 0 <= x < H /\ 0 <= y < H /\
  ((dir = [1; 0] /\ x = H - 1) \/ (dir = [-1; 0] /\ x = 0) \/ (dir = [0; 1] /\ y = H - 1) \/ (dir = [0; -1] /\ y = 0)).
Proof.
  intros dir reg l p HS (Hp & q & Hq & E). apply exMesh_leaf in Hp.
  assert (B : (1 <= l <= 3)%nat /\ exists x y, p = [x; y] /\ 0 <= x < 2 ^ Z.of_nat l /\ 0 <= y < 2 ^ Z.of_nat l /\ 2 <= 2 ^ Z.of_nat l <= 8).
  { clear E. cbn [In PropsInterface.exLeaves] in Hp. each Hp; (split; [lia|]; do 2 eexists; split; [reflexivity|cbn; lia]). }
  destruct B as (Hl & x & y & -> & Hx & Hy & Hh). split; [exact Hl|]. exists x, y, (2 ^ Z.of_nat l). split; [reflexivity|]. split; [exact Hh|]. split; [reflexivity|]. split; [exact Hx|]. split; [exact Hy|]. clear Hp Hx Hy Hh.
  assert (PW : (l = 1 \/ l = 2 \/ l = 3)%nat) by lia. cbn [In exSides] in HS. destruct HS as [HS|[HS|[HS|[HS|[]]]]]; injection HS as <- <-.
  - left. split; [reflexivity|]. apply sideX_mem in Hq as (y' & -> & _). change (a_level (sideX 7)) with 3%nat in E. cbn [ancestor map] in E. injection E as -> _. destruct PW as [-> | [-> | ->]]; reflexivity.
  - right; left. split; [reflexivity|]. apply sideX_mem in Hq as (y' & -> & _). change (a_level (sideX 0)) with 3%nat in E. cbn [ancestor map] in E. injection E as -> _. destruct PW as [-> | [-> | ->]]; reflexivity.
  - right; right; left. split; [reflexivity|]. apply sideY_mem in Hq as (x' & -> & _). change (a_level (sideY 7)) with 3%nat in E. cbn [ancestor map] in E. injection E as _ ->. destruct PW as [-> | [-> | ->]]; reflexivity.
  - right; right; right. split; [reflexivity|]. apply sideY_mem in Hq as (x' & -> & _). change (a_level (sideY 0)) with 3%nat in E. cbn [ancestor map] in E. injection E as _ ->. destruct PW as [-> | [-> | ->]]; reflexivity.
Qed.
Lemma onX7 : forall l p, on_region 1 exMesh (sideX 7) l p -> exists y, p = [2 ^ Z.of_nat l - 1; y] /\ 2 <= 2 ^ Z.of_nat l /\ 0 <= y < 2 ^ Z.of_nat l.
Proof. intros l p O. destruct (exSides_on [1; 0] _ l p (or_introl eq_refl) O) as (_ & x & y & H & -> & HH & -> & Hx & Hy & C). exists y. destruct C as [(C1 & C)|[(C1 & C)|[(C1 & C)|(C1 & C)]]]; try discriminate C1. split; [f_equal; exact C|lia]. Qed.
Lemma onX0 : forall l p, on_region 1 exMesh (sideX 0) l p -> exists y, p = [0; y] /\ 2 <= 2 ^ Z.of_nat l /\ 0 <= y < 2 ^ Z.of_nat l.
Proof. intros l p O. destruct (exSides_on [-1; 0] _ l p (or_intror (or_introl eq_refl)) O) as (_ & x & y & H & -> & HH & -> & Hx & Hy & C). exists y. destruct C as [(C1 & C)|[(C1 & C)|[(C1 & C)|(C1 & C)]]]; try discriminate C1. split; [f_equal; exact C|lia]. Qed.
Lemma onY7 : forall l p, on_region 1 exMesh (sideY 7) l p -> exists x, p = [x; 2 ^ Z.of_nat l - 1] /\ 2 <= 2 ^ Z.of_nat l /\ 0 <= x < 2 ^ Z.of_nat l.
Proof. intros l p O. destruct (exSides_on [0; 1] _ l p (or_intror (or_intror (or_introl eq_refl))) O) as (_ & x & y & H & -> & HH & -> & Hx & Hy & C). exists x. destruct C as [(C1 & C)|[(C1 & C)|[(C1 & C)|(C1 & C)]]]; try discriminate C1. split; [do 2 f_equal; exact C|lia]. Qed.
Lemma onY0 : forall l p, on_region 1 exMesh (sideY 0) l p -> exists x, p = [x; 0] /\ 2 <= 2 ^ Z.of_nat l /\ 0 <= x < 2 ^ Z.of_nat l.
Proof. intros l p O. destruct (exSides_on [0; -1] _ l p (or_intror (or_intror (or_intror (or_introl eq_refl)))) O) as (_ & x & y & H & -> & HH & -> & Hx & Hy & C). exists x. destruct C as [(C1 & C)|[(C1 & C)|[(C1 & C)|(C1 & C)]]]; try discriminate C1. split; [do 2 f_equal; exact C|lia]. Qed.
Ltac on_side O := match type of O with
  | on_region _ _ (sideX 7) _ _ => apply onX7 in O | on_region _ _ (sideX 0) _ _ => apply onX0 in O
  | on_region _ _ (sideY 7) _ _ => apply onY7 in O | on_region _ _ (sideY 0) _ _ => apply onY0 in O end.
Example C78_regions : boundary_regions 1 roomRef exMesh exBc /\ regions_apart 1 exMesh exBc /\ (forall l p, ca_mem 1 exMesh l p -> (l <= a_level exDomain)%nat) /\
  (forall c dir reg l p, In c exBc -> used_region c dir reg -> on_region 1 exMesh reg l p -> outside 1 exDomain l (vadd 1 p dir)) /\ (forall l p, ca_mem 1 exMesh l p -> has_face 1 exMesh exDomain true l p) /\ on_region 1 exMesh (sideX 7) 2 [3; 2].
Proof.
  split; [constructor|split; [|split; [|split; [|split]]]].
  - apply numbered_client. exact roomHist_ok.
  - exact exMesh_wf.
  - intros l Hl. change (c_max exMesh) with 4%nat in Hl. destruct l as [|[|[|[|[|l]]]]]; try lia; reflexivity.
  - intros l q k H Hk. apply exMesh_box in H as (_ & x & y & -> & Hx & Hy). destruct k as [|[|k]]; [..|lia]; cbn [nth]; lia.
  - intros b dir reg Hb Hr. apply (exBc_sides b dir reg Hb) in Hr. assert (LV : forall l q, ca_mem 1 exMesh l q -> (l <= 3)%nat) by (intros l q H; apply exMesh_box in H as [H _]; lia).
    cbn [In exSides] in Hr. destruct Hr as [E|[E|[E|[E|[]]]]]; injection E as E1 E2; subst dir reg; (split; [match goal with |- wf 1 (sideX ?a) => exact (proj1 (side_wf a)) | |- wf 1 (sideY ?a) => exact (proj2 (side_wf a)) end|]; split; [exact LV|]; split).
    1, 3 : intros q k Hq Hk; apply sideX_mem in Hq as (y & -> & Hy); destruct k as [|[|k]]; [..|lia]; cbn [nth]; lia.
    3, 5 : intros q k Hq Hk; apply sideY_mem in Hq as (y & -> & Hy); destruct k as [|[|k]]; [..|lia]; cbn [nth]; lia.
    + exists 0%nat, 1. repeat split; auto.
    + exists 0%nat, (-1). repeat split; auto.
    + exists 1%nat, 1. repeat split; auto.
    + exists 1%nat, (-1). repeat split; auto.
  - intros b dir reg l p Hb Hr OR. apply (exBc_sides b dir reg Hb) in Hr. destruct (exSides_on dir reg l p Hr OR) as (Hl & x & y & H & _ & HH & -> & Hx & Hy & C).
    destruct C as [(-> & C)|[(-> & C)|[(-> & C)|(-> & C)]]]; (split; [|split]); [apply roomRef_mem; lia|..]; try (apply roomRef_mem; lia);
      match goal with |- ca_mem _ _ _ (vadd 1 [?a; ?b] ?v) => change (vadd 1 [a; b] v) with [a + nth 0 v 0; b + nth 1 v 0]; cbn [nth neg map]; apply roomRef_mem; lia end.
  - unfold regions_apart. change (all_regions exBc) with (map (fun s => (match fst s with [0; _] => nth 1 exBc (hd (mkBC Dirichlet (fun _ _ _ _ => 0%Q) []) exBc) | _ => hd (mkBC Dirichlet (fun _ _ _ _ => 0%Q) []) exBc end, s)) exSides). cbn [map exSides].
    repeat (constructor; [rewrite Forall_forall; intros r Hr; cbn [In] in Hr; repeat (destruct Hr as [<-|Hr]; [|]); try (exfalso; exact Hr); cbn [fst snd]; intros _ _ l p p' O1 O2|]); [..|constructor].
    all : on_side O1; on_side O2; destruct O1 as (y & -> & Hh & Hy), O2 as (y' & -> & _ & Hy'); intros E;
      match type of E with vadd 1 [?a; ?b] ?v = vadd 1 [?c; ?d] ?w => change ([a + nth 0 v 0; b + nth 1 v 0] = [c + nth 0 w 0; d + nth 1 w 0]) in E end; injection E; cbn [nth]; lia.
  - intros l p H. apply exMesh_box in H as [H _]. rewrite exDomain_level. lia.
  - intros b dir reg l p Hb Hr OR. apply (exBc_sides b dir reg Hb) in Hr. destruct (exSides_on dir reg l p Hr OR) as (Hl & x & y & H & EH & HH & -> & Hx & Hy & C).
    intros z Hz Hm. apply exDomain_mem in Hz as (zx & zy & -> & Zx & Zy). rewrite exDomain_level in Hm. pose proof (Hm 0%nat ltac:(lia)) as M0. pose proof (Hm 1%nat ltac:(lia)) as M1. clear Hm.
    destruct C as [(-> & C)|[(-> & C)|[(-> & C)|(-> & C)]]]; rewrite !nth_vadd in M0, M1 by lia; cbn [nth] in M0, M1; rewrite <- EH in M0, M1; change (2 ^ Z.of_nat 3) with 8 in M0, M1; nia.
  - apply C78_conditions.
  - split; [apply exMesh_leaf; cbn; auto 10|]. exists [7; 4]. split; [apply sideX_mem; exists 4; split; [reflexivity|lia]|reflexivity].
Qed.

Print Assumptions C78_boundary_calls.
Print Assumptions C78_problem.
Print Assumptions C78_regions.
