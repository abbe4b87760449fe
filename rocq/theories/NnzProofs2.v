(** Proofs about the preallocation: the loops of the preallocation visit the interfaces of the assembly. *)
From Coq Require Import QArith Permutation.
From Verif Require Import Base IntervalModel Spec LoiModel LcaModel LcaSpec LcaProofs LcaProofs3 RowsProofs CellArrayModel CellArrayProofs
  PropsLca PropsCellArray SubsetModel TreeProofs SubsetSpec SubsetProofs2 PropsSubset StencilModel NumberingProofs StencilProofs PropsStencil
  MeshModel MeshProofs PropsMesh AdaptModel AdaptProofs TagProofs PropsAdapt InterfaceModel InterfaceProofs PropsInterface GeomModel FluxModel BoundaryProofs PropsBoundary FluxProofs NumModel NumProofs GhostModel
  ReconModel ReconProofs ReconProofs2 PropsFlux LinFluxModel LinFluxProofs LinFluxProofs2 PropsLinFlux AssemblyModel AssemblyProofs AssemblyProofs2 PropsAssembly AssemblyProofs3 AssemblyProofs4 AssemblyProofs5 AssemblyProofs6 NnzModel NnzProofs.
Open Scope Z_scope.

Lemma flat_map_fst : forall (A B : Type) (f : nat -> list A) (g : nat -> list (A * B)) ls, (forall l, In l ls -> map fst (g l) = f l) -> map fst (flat_map g ls) = flat_map f ls.
Proof. intros A B f g. induction ls as [|l ls IH]; intros H; [reflexivity|]. cbn [flat_map]. rewrite map_app, IH by (intros; apply H; right; auto). rewrite H by (left; auto). reflexivity. Qed.
Lemma map_fst_pair : forall (A B : Type) (b : B) (l : list A), map fst (map (fun i => (i, b)) l) = l.
Proof. intros A B b l. rewrite map_map. cbn. apply map_id. Qed.

Section Visit.
  Context (n d maxl : nat) (st : stencil) (ref cells : ca) (lf : lin_flux) (scaling : Q).
  Context (Hd : (d <= n)%nat) (HM : interface_mesh n d maxl st cells) (HR : stencil_room n d ref cells (lf_stencil lf)) (NR : numbered n ref) (GS : good_stencil n d (lf_stencil lf)).
  Let comput := lf_stencil lf.
  Let dir := unit_mult n d 1.
  Let leaf := ca_mem n cells.
  Let SL l := same_level n ref cells l dir comput.
  Let JL l := level_jump n maxl ref cells l dir comput.
  Let OL l := level_jump_opposite n maxl ref cells l dir comput.

  Lemma visited : exists L out, lin_interior_cells n maxl scaling ref cells d lf = Some L /\ for_each_interior_interface n maxl ref cells dir comput = Some out /\ Permutation (map fst L) out.
  Proof.
    destruct GS as (HC & HZ & HDC). fold comput in HR, HC, HZ, HDC. destruct (levels_spec cells) as (_ & S2 & _).
    pose proof (same_got n d maxl st comput ref cells Hd HM HR NR HC HZ HDC) as SG. pose proof (jump_got n d maxl st comput ref cells Hd HM HR NR HC HZ HDC) as JG.
    set (ls := seq (min_level cells) (S (max_level cells) - min_level cells)). change (levels cells) with ls in S2. set (ls' := seq (min_level cells) (max_level cells - min_level cells)).
    set (fs := flat_map (fun l => got (SL l)) ls ++ flat_map (fun l => got (JL l) ++ got (OL l)) ls').
    unfold lin_interior_cells. fold dir comput ls ls'. rewrite each_level_got.
    2:{ intros l Hl. fold (SL l). destruct (SG l (S2 l Hl)) as (H & _). fold dir in H. fold (SL l) in H. destruct (SL l); [discriminate|contradiction]. }
    rewrite each_level_got.
    2:{ intros l Hl. fold (JL l) (OL l). destruct (JG l) as (H1 & H2 & _). fold dir in H1, H2. fold (JL l) in H1. fold (OL l) in H2. destruct (JL l); [|contradiction]. destruct (OL l); [discriminate|contradiction]. }
    match goal with |- exists L out, Some ?x = Some L /\ _ => set (L := x) end.
    assert (EL : map fst L = fs).
    { unfold L, fs. rewrite map_app. f_equal; apply flat_map_fst; intros l Hl.
      - destruct (SG l (S2 l Hl)) as (H & _). fold dir in H. fold (SL l) in H |- *. destruct (SL l); [|contradiction]. cbn [got]. apply map_fst_pair.
      - destruct (JG l) as (H1 & H2 & _). fold dir in H1, H2. fold (JL l) in H1 |- *. fold (OL l) in H2 |- *. destruct (JL l); [|contradiction]. destruct (OL l); [|contradiction]. cbn [got]. rewrite map_app, !map_fst_pair. reflexivity. }
    destruct (interfaces_spec n d maxl st comput ref cells Hd HM HR NR HC HZ HDC) as (out & E & _). exists L, out. split; [reflexivity|]. split; [exact E|]. rewrite EL.
    unfold for_each_interior_interface in E. rewrite over_levels_got in E.
    2:{ intros l Hl _. unfold interfaces_of_level. fold dir. fold (SL l) (JL l) (OL l). destruct (SG l (S2 l Hl)) as (H & _). destruct (JG l) as (H1 & H2 & _). fold dir in H, H1, H2. fold (SL l) in H. fold (JL l) in H1. fold (OL l) in H2.
        destruct (SL l); [|contradiction]. destruct (JL l); [|contradiction]. destruct (OL l); [discriminate|contradiction]. }
    injection E as <-. change (levels cells) with ls.
    assert (E1 : flat_map (fun l => if lca_is_empty (c_at cells l) then [] else got (interfaces_of_level n maxl ref cells (unit_mult n d 1) comput l)) ls = flat_map (fun l => got (SL l) ++ (got (JL l) ++ got (OL l))) ls).
    { assert (G : forall xs, (forall l, In l xs -> (l <= c_max cells)%nat) -> flat_map (fun l => if lca_is_empty (c_at cells l) then [] else got (interfaces_of_level n maxl ref cells (unit_mult n d 1) comput l)) xs = flat_map (fun l => got (SL l) ++ (got (JL l) ++ got (OL l))) xs); [|apply G; auto].
      induction xs as [|l xs IH]; intros H; auto. cbn [flat_map]. rewrite IH by (intros; apply H; right; auto). f_equal.
      destruct (SG l) as (H0 & H0' & _); [apply H; left; auto|]. destruct (JG l) as (H1 & H2 & H3 & _). fold dir in H0, H0', H1, H2, H3. fold (SL l) in H0, H0'. fold (JL l) in H1, H3. fold (OL l) in H2, H3.
      destruct (lca_is_empty (c_at cells l)) eqn:Em.
      - rewrite H0' by auto. destruct H3 as [-> ->]; auto. left. apply (no_leaf_empty n d maxl st cells HM). auto.
      - unfold interfaces_of_level. fold dir. fold (SL l) (JL l) (OL l). destruct (SL l); [|contradiction]. destruct (JL l); [|contradiction]. destruct (OL l); [reflexivity|contradiction]. }
    rewrite E1. etransitivity; [|symmetry; apply flat_map_app2]. apply Permutation_app_head. apply Permutation_refl'.
    assert (G : forall g : nat -> list iface, g (max_level cells) = [] -> flat_map g ls' = flat_map g ls).
    { intros g Hg. unfold ls, ls'. destruct (Nat.le_gt_cases (min_level cells) (max_level cells)) as [Hle|Hgt].
      - replace (S (max_level cells) - min_level cells)%nat with (S (max_level cells - min_level cells)) by lia.
        rewrite seq_S, flat_map_app. replace (min_level cells + (max_level cells - min_level cells))%nat with (max_level cells) by lia. cbn [flat_map]. rewrite Hg, !app_nil_r. reflexivity.
      - replace (S (max_level cells) - min_level cells)%nat with 0%nat by lia. replace (max_level cells - min_level cells)%nat with 0%nat by lia. reflexivity. }
    apply (G (fun l => got (JL l) ++ got (OL l))).
    destruct (JG (max_level cells)) as (_ & _ & H3 & _). fold dir in H3. fold (JL (max_level cells)) (OL (max_level cells)) in H3. destruct H3 as [-> ->]; [|reflexivity].
    right. intros p Hp. apply leaf_in_levels in Hp as [Hp _]; [|apply (im_wf _ _ _ _ _ HM)]. unfold levels in Hp. apply in_seq in Hp. lia.
  Qed.
End Visit.

Lemma boundary_visited : forall n d ref cells domain scaling lf B, lin_boundary_cells n scaling ref cells domain d lf = Some B -> boundary_interfaces_both n ref cells domain (unit_mult n d 1) (lf_stencil lf) = Some (map fst B).
Proof.
  intros n d ref cells domain scaling lf. unfold lin_boundary_cells, boundary_interfaces_both. cbv zeta. generalize (levels cells). induction l as [|l ls IH]; intros B H; cbn [over_levels] in *; [injection H as <-; reflexivity|].
  destruct (lca_is_empty (c_at cells l)).
  - match type of H with context [over_levels ?a ?b ?c] => destruct (over_levels a b c) as [B1|] eqn:E1; [|discriminate H] end. injection H as <-. rewrite (IH B1 eq_refl). reflexivity.
  - destruct (boundary_direction n ref cells domain l (unit_mult n d 1) (lf_stencil lf)) as [a|]; [|discriminate H]. destruct (boundary_opposite n ref cells domain l (unit_mult n d 1) (lf_stencil lf)) as [b|]; [|discriminate H].
    match type of H with context [over_levels ?a ?b ?c] => destruct (over_levels a b c) as [B1|] eqn:E1; [|discriminate H] end. injection H as <-. rewrite (IH B1 eq_refl). cbn. rewrite !map_app, !map_fst_pair. reflexivity.
Qed.

Section Scheme.
  Context (n m : nat) (hist : nat -> list lcl_call) (maxl : nat) (st : stencil) (cells : ca) (domain : lca) (scaling : Q) (ib : bool) (lfs : nat -> lin_flux).
  Context (LM : lin_mesh n m hist maxl st cells domain scaling ib lfs).
  Notation ref := (client_ca n m hist true).
  Context (rows : Z) (y : layout) (rec : recursion) (HR : 0 <= ly_row_shift y /\ ly_row_shift y + matrix_rows y <= rows).
  Let NR : numbered n ref := numbered_client n m hist (lm_hist _ _ _ _ _ _ _ _ _ _ LM).
  Notation Listed := (listed n m hist maxl cells domain scaling ib lfs y rec).
  Definition scheme_positions (Ls : list (iface * (coeffs * coeffs))) (Bs : list (iface * coeffs)) : list (Z * Z) := flat_map (interface_positions y rec) (map fst Ls) ++ flat_map (boundary_positions y) (map fst Bs).

  Lemma scheme_counts : forall Ls Bs, Listed (seq 0 (S n)) Ls Bs -> counts_by (Z.of_nat (ly_fs y)) (sparsity_scheme rows y rec n maxl ref cells domain ib lfs) (scheme_positions (concat Ls) (concat Bs)).
  Proof.
    unfold sparsity_scheme. assert (D : forall d, In d (seq 0 (S n)) -> (d <= n)%nat) by (intros d Hd; apply in_seq in Hd; lia). revert D. generalize (seq 0 (S n)). induction l as [|d ds IH]; intros D Ls Bs (A1 & A2 & A3 & A4).
    - cbn [all_opt] in A1, A2. injection A1 as <-. assert (Bs = []) by (destruct ib; [injection A2 as <-; reflexivity|exact A2]). subst Bs. intros s. exists s. split; [reflexivity|]. intros r. cbn [concat map flat_map app]; change (rowcount r _) with 0. lia.
    - cbn [all_opt] in A1, A2. pose proof (D d (or_introl eq_refl)) as Hd. destruct (visited n d maxl st ref cells (lfs d) scaling Hd (lm_mesh _ _ _ _ _ _ _ _ _ _ LM d Hd) (lm_room _ _ _ _ _ _ _ _ _ _ LM d Hd) NR (lm_stencil _ _ _ _ _ _ _ _ _ _ LM d Hd)) as (L & out & EL & EO & P).
      rewrite EL in A1. destruct (all_opt (fun d => lin_interior_cells n maxl scaling ref cells d (lfs d)) ds) as [Ls'|] eqn:E1; [|discriminate A1]. injection A1 as <-. cbn [concat] in A3 |- *. apply Forall_app in A3 as [A3 A3'].
      assert (CI : counts_by (Z.of_nat (ly_fs y)) (fold_opt (sparsity_interface rows y rec) out) (flat_map (interface_positions y rec) (map fst L))).
      { apply (counts_perm _ _ (flat_map (interface_positions y rec) out)); [apply Permutation_flat_map; symmetry; exact P|]. apply counts_fold. intros i Hi. apply (Permutation_in _ (Permutation_sym P)) in Hi. apply in_map_iff in Hi as (e & <- & He). rewrite Forall_forall in A3. destruct (A3 e He) as (a & b & E & _ & _ & Ha & Hb & _). apply (interface_count rows y rec HR (fst e) a b E Ha Hb). }
      assert (SB : exists B Bs', concat Bs = B ++ concat Bs' /\ Forall (belt_ok n m hist cells y rec) B /\ Listed ds Ls' Bs' /\ (if ib then lin_boundary_cells n scaling ref cells domain d (lfs d) = Some B else B = [])).
      { destruct ib eqn:Eib.
        - destruct (lin_boundary_cells n scaling ref cells domain d (lfs d)) as [B|]; [|discriminate A2]. destruct (all_opt (fun d => lin_boundary_cells n scaling ref cells domain d (lfs d)) ds) as [Bs'|] eqn:E2; [|discriminate A2]. injection A2 as <-. cbn [concat] in A4. apply Forall_app in A4 as [A4 A4'].
          exists B, Bs'. split; [reflexivity|]. split; [exact A4|]. split; [|reflexivity]. split; [exact E1|]. split; [exact E2|]. auto.
        - subst Bs. exists [], []. split; [reflexivity|]. split; [constructor|]. split; [|reflexivity]. split; [exact E1|]. split; [reflexivity|]. split; [exact A3'|constructor]. }
      destruct SB as (B & Bs' & EB & FB & LI & HB). specialize (IH (fun d h => D d (or_intror h)) Ls' Bs' LI).
      assert (CB : counts_by (Z.of_nat (ly_fs y)) (fun nnz => if ib then let* bs := boundary_interfaces_both n ref cells domain (unit_mult n d 1) (lf_stencil (lfs d)) in fold_opt (sparsity_boundary_interface rows y) bs nnz else Some nnz) (flat_map (boundary_positions y) (map fst B))).
      { destruct ib.
        - rewrite (boundary_visited n d ref cells domain scaling (lfs d) B HB). apply counts_fold. intros i Hi. apply in_map_iff in Hi as (e & <- & He). rewrite Forall_forall in FB. destruct (FB e He) as (a & E & _ & Ha & _). apply (boundary_count rows y HR (fst e) a E Ha).
        - subst B. intros s. exists s. split; [reflexivity|]. intros r. cbn [concat map flat_map app]; change (rowcount r _) with 0. lia. }
      intros s. cbn [fold_opt]. cbv zeta. rewrite EO. destruct (CI s) as (s1 & E1' & S1). rewrite E1'. destruct (CB s1) as (s2 & E2' & S2). rewrite E2'. destruct (IH s2) as (s3 & E3' & S3). exists s3. split; [exact E3'|]. intros r. rewrite S3, S2, S1.
      unfold scheme_positions. rewrite EB, !map_app, !flat_map_app, !rowcount_app. lia.
  Qed.
  (** The rows of the scheme are those of leaves. *)
  Lemma positions_leaf : forall Ls Bs r c, Listed (seq 0 (S n)) Ls Bs -> In (r, c) (scheme_positions (concat Ls) (concat Bs)) -> exists l p k fi, ca_mem n cells l p /\ ca_get_index n ref l p = Some k /\ (fi < ly_os y)%nat /\ r = row_index y k fi.
  Proof.
    intros Ls Bs r c (_ & _ & A3 & A4) H. rewrite Forall_forall in A3, A4. apply in_app_or in H as [H|H]; apply in_flat_map in H as (i & Hi & H); apply in_map_iff in Hi as (e & <- & He).
    - destruct (A3 e He) as (a & b & E & (La & _ & _ & Ia) & (Lb & _ & _ & Ib) & _). unfold interface_positions in H. rewrite E in H. apply in_flat_map in H as (fi & Hf & H). apply in_seq in Hf. apply in_flat_map in H as (fj & _ & H). apply in_flat_map in H as (x & _ & H).
      assert (K : r = row_index y (sc_index a) fi \/ r = row_index y (sc_index b) fi).
      { unfold column_positions in H. destruct (rec_find (sc_index x) rec) as [lc|]; [apply in_flat_map in H as ([c' q] & _ & H)|]; cbv zeta in H; destruct H as [H|[H|[]]]; injection H as <- _; auto. }
      destruct K as [->| ->]; [exists (sc_level a), (sc_coord a), (sc_index a), fi|exists (sc_level b), (sc_coord b), (sc_index b), fi]; (split; [assumption|]; split; [assumption|]; split; [lia|reflexivity]).
    - destruct (A4 e He) as (a & E & (La & _ & _ & Ia) & _). unfold boundary_positions in H. rewrite E in H. apply in_flat_map in H as (fi & Hf & H). apply in_seq in Hf. apply in_flat_map in H as (fj & _ & H). apply in_map_iff in H as (x & Ex & _). injection Ex as <- _.
      exists (sc_level a), (sc_coord a), (sc_index a), fi. split; [assumption|]. split; [assumption|]. split; [lia|reflexivity].
  Qed.
End Scheme.
