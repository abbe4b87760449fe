(** Proofs about the preallocation of the matrix of a sum: the positions of a scheme are
    positions of every scheme with a larger stencil. *)
From Coq Require Import QArith Permutation.
From Verif Require Import Base IntervalModel Spec LoiModel LcaModel LcaSpec LcaProofs LcaProofs3 RowsProofs CellArrayModel CellArrayProofs
  PropsLca PropsCellArray SubsetModel TreeProofs SubsetSpec SubsetProofs2 PropsSubset StencilModel NumberingProofs StencilProofs PropsStencil
  MeshModel MeshProofs PropsMesh AdaptModel AdaptProofs TagProofs PropsAdapt InterfaceModel InterfaceProofs PropsInterface GeomModel FluxModel BoundaryProofs PropsBoundary FluxProofs NumModel NumProofs GhostModel
  ReconModel ReconProofs ReconProofs2 PropsFlux LinFluxModel LinFluxProofs LinFluxProofs2 PropsLinFlux AssemblyModel AssemblyProofs AssemblyProofs2 PropsAssembly AssemblyProofs3 AssemblyProofs4 AssemblyProofs5 AssemblyProofs6 AssemblyProofs7 PropsAssembly2 PropsAssembly3
  NnzModel NnzProofs NnzProofs2 SumModel SumNnzModel.
Open Scope Z_scope.

Lemma cell_is_eq : forall n ref l p e e', cell_is n ref l p e -> cell_is n ref l p e' -> e = e'.
Proof. intros n ref l p [l1 p1 i1] [l2 p2 i2] (A1 & A2 & A3) (B1 & B2 & B3). cbn [sc_level sc_coord sc_index] in *. congruence. Qed.
Lemma shift_inj : forall n o o' v, length o = S n -> length o' = S n -> vadd n o v = vadd n o' v -> o = o'.
Proof. intros n o o' v L1 L2 H. apply (nth_ext _ _ 0 0); [congruence|]. intros k Hk. assert (E : nth k (vadd n o v) 0 = nth k (vadd n o' v) 0) by congruence. rewrite !nth_vadd in E by lia. lia. Qed.

(** A call with a smaller stencil. *)
Definition covered (i j : iface) : Prop := fst i = fst j /\ forall e, In e (snd i) -> In e (snd j).
Lemma call_covered : forall n d ref c1 c2 i j, call_ok n d ref c1 i -> call_ok n d ref c2 j -> sides i = sides j -> incl c1 c2 -> covered i j.
Proof.
  intros n d ref c1 c2 i j (a & b & o & F & Ca & Cb & Lo & A1 & A2 & A3) (a' & b' & o' & F' & Ca' & Cb' & Lo' & B1 & B2 & B3) S I. unfold sides in S. rewrite F, F' in S. cbn [map] in S. injection S as S1 S2 S3 S4.
  rewrite <- S1, <- S2 in Ca'. rewrite <- S3, <- S4 in Cb'. pose proof (cell_is_eq _ _ _ _ _ _ Ca Ca') as Ea. pose proof (cell_is_eq _ _ _ _ _ _ Cb Cb') as Eb. subst a' b'.
  assert (Eo : o = o').
  { destruct (Nat.le_ge_cases (sc_level b) (sc_level a)) as [Hle|Hle].
    - rewrite Nat.max_l, Nat.sub_diag, ancestor_0 in A1, B1 by exact Hle. congruence.
    - rewrite Nat.max_r, Nat.sub_diag, ancestor_0 in A2, B2 by exact Hle. apply (shift_inj n o o' (unit_mult n d 1) Lo Lo'). congruence. }
  subst o'. split; [congruence|]. intros e He. destruct (Forall2_In_r _ _ _ _ _ _ A3 He) as (v & Hv & Re). destruct (Forall2_In_l _ _ _ _ _ _ B3 (I v Hv)) as (e' & He' & Re'). rewrite (cell_is_eq _ _ _ _ _ _ Re Re'). exact He'.
Qed.
Lemma bcall_covered : forall n ref c1 c2 s i j, bcall_ok n ref c1 s i -> bcall_ok n ref c2 s j -> sides i = sides j -> incl c1 c2 -> covered i j.
Proof.
  intros n ref c1 c2 s i j (a & F & Ca & A) (a' & F' & Ca' & B) S I. unfold sides in S. rewrite F, F' in S. cbn [map] in S. injection S as S1 S2. rewrite <- S1, <- S2 in Ca'. pose proof (cell_is_eq _ _ _ _ _ _ Ca Ca') as Ea. subst a'.
  split; [congruence|]. intros e He. destruct (Forall2_In_r _ _ _ _ _ _ A He) as (v & Hv & Re). destruct (Forall2_In_l _ _ _ _ _ _ B (I v Hv)) as (e' & He' & Re'). rewrite (cell_is_eq _ _ _ _ _ _ Re Re'). exact He'.
Qed.
Lemma interface_covered : forall y rec i j p, covered i j -> In p (interface_positions y rec i) -> In p (interface_positions y rec j).
Proof.
  intros y rec i j p [F I]. unfold interface_positions. rewrite <- F. destruct (fst i) as [|a [|b cs]]; auto. intros H. apply in_flat_map in H as (fi & Hf & H). apply in_flat_map in H as (fj & Hj & H). apply in_flat_map in H as (e & He & H).
  apply in_flat_map. exists fi. split; [exact Hf|]. apply in_flat_map. exists fj. split; [exact Hj|]. apply in_flat_map. exists e. split; [apply I; exact He|exact H].
Qed.
Lemma boundary_covered : forall y i j p, covered i j -> In p (boundary_positions y i) -> In p (boundary_positions y j).
Proof.
  intros y i j p [F I]. unfold boundary_positions. rewrite <- F. destruct (fst i) as [|a cs]; auto. intros H. apply in_flat_map in H as (fi & Hf & H). apply in_flat_map in H as (fj & Hj & H). apply in_map_iff in H as (e & <- & He).
  apply in_flat_map. exists fi. split; [exact Hf|]. apply in_flat_map. exists fj. split; [exact Hj|]. apply (in_map (fun e => (row_index y (sc_index a) fi, col_index y (sc_index e) fj))). apply I. exact He.
Qed.

(** The interfaces of a scheme in all directions. *)
Section Smaller.
  Context (n m : nat) (hist : nat -> list lcl_call) (maxl : nat) (st : stencil) (cells : ca) (domain : lca) (scaling : Q) (ib : bool) (lfs larger : nat -> lin_flux).
  Context (L1 : lin_mesh n m hist maxl st cells domain scaling ib lfs) (L2 : lin_mesh n m hist maxl st cells domain scaling ib larger).
  Context (SM : forall d, (d <= n)%nat -> incl (lf_stencil (lfs d)) (lf_stencil (larger d))).
  Notation ref := (client_ca n m hist true).
  Let G := lm_hist _ _ _ _ _ _ _ _ _ _ L1.
  Let NR : numbered n ref := numbered_client n m hist G.

  Lemma interior_smaller : forall d A B, (d <= n)%nat -> lin_interior_cells n maxl scaling ref cells d (lfs d) = Some A -> lin_interior_cells n maxl scaling ref cells d (larger d) = Some B ->
    forall i, In i (map fst A) -> exists j, In j (map fst B) /\ covered i j.
  Proof.
    intros d A B Hd EA EB i Hi. pose proof (lm_mesh _ _ _ _ _ _ _ _ _ _ L1 d Hd) as HM.
    pose proof (lm_room _ _ _ _ _ _ _ _ _ _ L1 d Hd) as R1. pose proof (lm_room _ _ _ _ _ _ _ _ _ _ L2 d Hd) as R2. pose proof (lm_stencil _ _ _ _ _ _ _ _ _ _ L1 d Hd) as S1. pose proof (lm_stencil _ _ _ _ _ _ _ _ _ _ L2 d Hd) as S2.
    destruct (visited n d maxl st ref cells (lfs d) scaling Hd HM R1 NR S1) as (A' & o1 & EA' & Eo1 & P1). rewrite EA in EA'. injection EA' as <-.
    destruct (visited n d maxl st ref cells (larger d) scaling Hd HM R2 NR S2) as (B' & o2 & EB' & Eo2 & P2). rewrite EB in EB'. injection EB' as <-.
    destruct S1 as (Sa & Sb & Sc). destruct S2 as (Sa' & Sb' & Sc').
    destruct (C47_interior_interfaces n d maxl st m hist (lf_stencil (lfs d)) cells G Hd HM R1 Sa Sb Sc) as (o1' & Eo1' & _ & M1 & K1). rewrite Eo1 in Eo1'. injection Eo1' as <-.
    destruct (C47_interior_interfaces n d maxl st m hist (lf_stencil (larger d)) cells G Hd HM R2 Sa' Sb' Sc') as (o2' & Eo2' & _ & M2 & K2). rewrite Eo2 in Eo2'. injection Eo2' as <-.
    apply (Permutation_in _ P1) in Hi. pose proof (K1 i Hi) as Ki. pose proof Ki as (a & b & _ & F & _). assert (Hs : In (sides i) (map sides o1)) by (apply in_map; exact Hi).
    assert (Es : sides i = [(sc_level a, sc_coord a); (sc_level b, sc_coord b)]) by (unfold sides; rewrite F; reflexivity). rewrite Es in Hs. apply M1 in Hs. apply M2 in Hs. apply in_map_iff in Hs as (j & Ej & Hj).
    exists j. split; [apply (Permutation_in _ (Permutation_sym P2)); exact Hj|]. apply (call_covered n d ref (lf_stencil (lfs d)) (lf_stencil (larger d)) i j Ki (K2 j Hj)); [congruence|apply SM; exact Hd].
  Qed.
  Lemma boundary_smaller : forall d A B, ib = true -> (d <= n)%nat -> lin_boundary_cells n scaling ref cells domain d (lfs d) = Some A -> lin_boundary_cells n scaling ref cells domain d (larger d) = Some B ->
    forall i, In i (map fst A) -> exists j, In j (map fst B) /\ covered i j.
  Proof.
    intros d A B Hb Hd EA EB i Hi. apply boundary_visited in EA. apply boundary_visited in EB.
    destruct (lm_stencil _ _ _ _ _ _ _ _ _ _ L1 d Hd) as (Sa & Sb & Sc). destruct (lm_stencil _ _ _ _ _ _ _ _ _ _ L2 d Hd) as (Sa' & Sb' & Sc').
    destruct (C52_both_directions n d m hist domain cells (lf_stencil (lfs d)) G Hd (lm_boundary _ _ _ _ _ _ _ _ _ _ L1 Hb d Hd) Sa Sb Sc) as (o & u1 & u2 & E & P & (_ & M1 & K1) & (_ & M2 & K2)).
    destruct (C52_both_directions n d m hist domain cells (lf_stencil (larger d)) G Hd (lm_boundary _ _ _ _ _ _ _ _ _ _ L2 Hb d Hd) Sa' Sb' Sc') as (o' & u1' & u2' & E' & P' & (_ & M1' & K1') & (_ & M2' & K2')).
    rewrite EA in E. injection E as <-. rewrite EB in E'. injection E' as <-. apply (Permutation_in _ P) in Hi. apply in_app_or in Hi as [Hi|Hi]; pose proof (in_map sides _ _ Hi) as Hs.
    - apply M1, M1' in Hs. apply in_map_iff in Hs as (j & Ej & Hj). exists j. split; [apply (Permutation_in _ (Permutation_sym P')); apply in_or_app; left; exact Hj|]. apply (bcall_covered _ _ _ _ _ i j (K1 i Hi) (K1' j Hj)); [congruence|apply SM; exact Hd].
    - apply M2, M2' in Hs. apply in_map_iff in Hs as (j & Ej & Hj). exists j. split; [apply (Permutation_in _ (Permutation_sym P')); apply in_or_app; right; exact Hj|]. apply (bcall_covered _ _ _ _ _ i j (K2 i Hi) (K2' j Hj)); [congruence|apply SM; exact Hd].
  Qed.

  Lemma all_smaller : forall (X : Type) (f g : nat -> option (list (iface * X))), (forall d A B, (d <= n)%nat -> f d = Some A -> g d = Some B -> forall i, In i (map fst A) -> exists j, In j (map fst B) /\ covered i j) ->
    forall ds As Bs, (forall d, In d ds -> (d <= n)%nat) -> all_opt f ds = Some As -> all_opt g ds = Some Bs -> forall i, In i (map fst (concat As)) -> exists j, In j (map fst (concat Bs)) /\ covered i j.
  Proof.
    intros X f g H. induction ds as [|d ds IH]; intros As Bs D EA EB i Hi; cbn [all_opt] in EA, EB; [injection EA as <-; destruct Hi|].
    destruct (f d) as [A|] eqn:Ef; [|discriminate EA]. destruct (all_opt f ds) as [As'|] eqn:Efs; [|discriminate EA]. injection EA as <-. destruct (g d) as [B|] eqn:Eg; [|discriminate EB]. destruct (all_opt g ds) as [Bs'|] eqn:Egs; [|discriminate EB]. injection EB as <-.
    cbn [concat] in Hi |- *. rewrite map_app in Hi. apply in_app_or in Hi as [Hi|Hi].
    - destruct (H d A B (D d (or_introl eq_refl)) Ef Eg i Hi) as (j & Hj & C). exists j. split; [rewrite map_app; apply in_or_app; left; exact Hj|exact C].
    - destruct (IH As' Bs' (fun d h => D d (or_intror h)) eq_refl eq_refl i Hi) as (j & Hj & C). exists j. split; [rewrite map_app; apply in_or_app; right; exact Hj|exact C].
  Qed.

  Context (y : layout) (rec : recursion).
  Lemma positions_smaller : forall Ls Bs Ls' Bs', listed n m hist maxl cells domain scaling ib lfs y rec (seq 0 (S n)) Ls Bs -> listed n m hist maxl cells domain scaling ib larger y rec (seq 0 (S n)) Ls' Bs' ->
    forall p, In p (scheme_positions y rec (concat Ls) (concat Bs)) -> In p (scheme_positions y rec (concat Ls') (concat Bs')).
  Proof.
    intros Ls Bs Ls' Bs' (A1 & A2 & _) (B1 & B2 & _) p H. assert (D : forall d, In d (seq 0 (S n)) -> (d <= n)%nat) by (intros d Hd; apply in_seq in Hd; lia).
    unfold scheme_positions in *. apply in_app_or in H as [H|H]; apply in_or_app.
    - left. apply in_flat_map in H as (i & Hi & H). destruct (all_smaller _ _ _ interior_smaller _ _ _ D A1 B1 i Hi) as (j & Hj & C). apply in_flat_map. exists j. split; [exact Hj|]. exact (interface_covered y rec i j p C H).
    - right. apply in_flat_map in H as (i & Hi & H). assert (Eib : ib = true \/ ib = false) by (clear; destruct ib; auto). destruct Eib as [Eib|Eib]; rewrite Eib in A2, B2; [|subst Bs; destruct Hi].
      destruct (all_smaller _ _ _ (fun d A B Hd => boundary_smaller d A B Eib Hd) _ _ _ D A2 B2 i Hi) as (j & Hj & C). apply in_flat_map. exists j. split; [exact Hj|]. exact (boundary_covered y i j p C H).
  Qed.
End Smaller.
