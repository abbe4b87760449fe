(** The matrix of a sum of operators: what each operator adds to it, and the other rows. *)
From Coq Require Import QArith Permutation.
From Verif Require PropsGrad PropsExact.
From Verif Require Import Base IntervalModel Spec LoiModel LcaModel LcaSpec LcaProofs LcaProofs3 RowsProofs CellArrayModel CellArrayProofs
  PropsLca PropsCellArray SubsetModel TreeProofs SubsetSpec SubsetProofs2 PropsSubset StencilModel NumberingProofs StencilProofs PropsStencil
  MeshModel MeshProofs PropsMesh AdaptModel AdaptProofs TagProofs PropsAdapt InterfaceModel InterfaceProofs PropsInterface GeomModel FluxModel BoundaryProofs PropsBoundary FluxProofs NumModel NumProofs GhostModel
  ReconModel ReconProofs ReconProofs2 PropsFlux LinFluxModel LinFluxProofs LinFluxProofs2 PropsLinFlux AssemblyModel AssemblyProofs AssemblyProofs2 PropsAssembly AssemblyProofs3 AssemblyProofs4 AssemblyProofs5 AssemblyProofs6 AssemblyProofs7 PropsAssembly2 SumModel SumProofs.
Open Scope Z_scope.

Section Operator.
  Context (n m : nat) (hist : nat -> list lcl_call) (maxl : nat) (st : stencil) (cells : ca) (domain : lca) (scaling : Q) (ib : bool) (lfs : nat -> lin_flux) (order : nat) (cg : ca) (y : layout) (N fuel : nat).
  Context (SY : system n m hist maxl st cells domain scaling ib lfs order cg y N fuel).
  Notation ref := (client_ca n m hist true).
  Let LM := sy_mesh _ _ _ _ _ _ _ _ _ _ _ _ _ _ _ SY.
  Let NR : numbered n ref := numbered_client n m hist (lm_hist _ _ _ _ _ _ _ _ _ _ LM).
  Let GM := sy_ghosts _ _ _ _ _ _ _ _ _ _ _ _ _ _ _ SY.
  Let HN := sy_cells _ _ _ _ _ _ _ _ _ _ _ _ _ _ _ SY.
  Context (rec : recursion) (E : ghost_recursion fuel n order ref cg cells = Some rec).

  (** As [scheme_facts], but added to a matrix. *)
  Lemma operator_facts : forall a0, exists s, assemble_scheme y rec n maxl scaling ref cells domain ib lfs (mkAsm a0 (as_empty asm_empty)) = Some s /\
    (forall debug x v, represents n order ref cg cells y x v -> exists out, lin_apply_to debug n maxl (ly_os y) (ly_fs y) scaling ref cells domain ib v lfs = Some out /\
      forall k fi, cellok y k -> (fi < ly_os y)%nat -> (ap y (as_mat s) x (row_index y k fi) == ap y a0 x (row_index y k fi) + out k fi)%Q) /\
    (forall r c, (forall k fi, leaf_number n ref cells k -> (fi < ly_os y)%nat -> r <> row_index y k fi) -> as_mat s r c = a0 r c) /\
    (forall k fi, cellok y k -> (fi < ly_os y)%nat -> ~ leaf_number n ref cells k -> as_empty s (row_index y k fi - ly_row_shift y) = true) /\
    (forall l p k fi, ca_mem n cells l p -> ca_get_index n ref l p = Some k -> (fi < ly_os y)%nat -> has_face n cells domain ib l p -> as_empty s (row_index y k fi - ly_row_shift y) = false).
  Proof.
    intros a0. destruct (recursion_facts _ _ _ _ _ _ _ _ _ _ _ _ _ _ _ SY) as (rec' & E' & RR & NG & HD & XV). assert (rec' = rec) by congruence. subst rec'. destruct (scheme_cells n m hist maxl st cells domain scaling ib lfs LM y HN rec HD) as (Ls & Bs & LI & SC).
    destruct (scheme_acts n m hist maxl st cells domain scaling ib lfs LM y rec HD RR Ls Bs LI (mkAsm a0 (as_empty asm_empty))) as (s & Es & A1 & A2 & A3). exists s. split; [exact Es|].
    assert (TL : forall r, touched y Ls Bs r -> exists k fi, leaf_number n ref cells k /\ (fi < ly_os y)%nat /\ r = row_index y k fi).
    { intros r H. destruct (touched_leaf n m hist maxl cells domain scaling ib lfs y rec Ls Bs r LI H) as (l & p & i & fi & Hp & Ei & Hf & Er). exists i, fi. split; [exists l, p; auto|auto]. }
    split; [|split; [|split]].
    - intros debug x v RP. destruct (SC (ly_os y) (ly_fs y) v) as (o & Eo & So). destruct (lin_as_nonlinear _ _ _ _ _ _ _ _ _ _ LM debug (ly_os y) (ly_fs y) v o Eo) as (o' & Eo' & So'). exists o'. split; [exact Eo'|].
      intros k fi Hk Hf. rewrite So' by exact Hf. rewrite A1. cbn [as_mat]. apply Qplus_comp; [reflexivity|].
      apply (scheme_row n m hist maxl cells domain scaling ib lfs y rec RR Ls Bs x k fi o LI Hk Hf). intros i k0 Hk0. rewrite So by exact Hk0. destruct LI as (_ & _ & F1 & F2). rewrite Forall_forall in F1, F2.
      assert (LV : forall cs es k, Forall (fun c => cellok y (sc_index c)) es -> (lin_value (ly_fs y) v cs es k == lin_value (ly_fs y) (xv y rec x) cs es k)%Q).
      { intros cs es k1 Fe. rewrite Forall_forall in Fe. unfold lin_value. apply sum_ext. intros j Hj. apply in_seq in Hj. apply sum_ext. intros [mt c] Hin. apply in_combine_r in Hin. rewrite (XV x v (sc_index c) j RP); [reflexivity|auto|lia]. }
      apply Qplus_comp; apply sum_ext; intros e He.
      + destruct (F1 e He) as (a & b & _ & _ & _ & _ & _ & Fe & _). unfold iterm. apply Qplus_comp; apply hit_comp; apply LV; exact Fe.
      + destruct (F2 e He) as (a & _ & _ & _ & Fe & _). unfold bterm. apply hit_comp, LV. eapply Forall_impl; [|exact Fe]. intros c [Hc _]. exact Hc.
    - intros r c Hr. rewrite A2; [reflexivity|]. intros H. destruct (TL r H) as (k & fi & Hk & Hf & Er). exact (Hr k fi Hk Hf Er).
    - intros k fi Hk Hf NL. apply A3. split; [reflexivity|]. replace (ly_row_shift y + (row_index y k fi - ly_row_shift y)) with (row_index y k fi) by lia. intros H. destruct (TL _ H) as (k' & fi' & Hk' & Hf' & Er).
      apply data_inj in Er as [-> _]; auto. apply (leaf_cellok _ _ _ _ _ _ _ _ _ _ _ _ _ _ _ SY). exact Hk'.
    - intros l p k fi Hp Ek Hf HF. destruct (as_empty s (row_index y k fi - ly_row_shift y)) eqn:Ee; [|reflexivity]. exfalso. apply A3 in Ee as [_ Ee]. apply Ee. replace (ly_row_shift y + (row_index y k fi - ly_row_shift y)) with (row_index y k fi) by lia.
      apply (face_touched n m hist maxl st cells domain scaling ib lfs LM y HN rec HD RR Ls Bs l p k fi LI Hp HF Ek Hf).
  Qed.


  (** The boundary conditions and the other rows, for whatever is in the rows of the leaves. *)
  Context (SQ : ly_os y = ly_fs y) (SH : ly_row_shift y = ly_col_shift y).
  Let leaf_cellok0 := leaf_cellok _ _ _ _ _ _ _ _ _ _ _ _ _ _ _ SY.
  Lemma rest_facts : forall s1 calls dv,
    (forall r c, (forall k fi, leaf_number n ref cells k -> (fi < ly_os y)%nat -> r <> row_index y k fi) -> as_mat s1 r c = 0%Q) ->
    (forall i, 0 <= i < matrix_rows y -> as_empty s1 i = true -> forall c, as_mat s1 (ly_row_shift y + i) c = 0%Q) ->
    (forall k fi, cellok y k -> (fi < ly_os y)%nat -> ~ leaf_number n ref cells k -> as_empty s1 (row_index y k fi - ly_row_shift y) = true) ->
    (forall l p k fi, ca_mem n cells l p -> ca_get_index n ref l p = Some k -> (fi < ly_os y)%nat -> has_face n cells domain ib l p -> as_empty s1 (row_index y k fi - ly_row_shift y) = false) ->
    good_calls (ly_cells y) (leaf_number n ref cells) calls -> exists s2 s3, fold_opt (assemble_bc y) calls s1 = Some s2 /\ insert_useless y dv s2 = Some s3 /\
    (forall x l p k fi, ca_mem n cells l p -> ca_get_index n ref l p = Some k -> (fi < ly_os y)%nat -> has_face n cells domain ib l p -> (ap y (as_mat s3) x (row_index y k fi) == ap y (as_mat s1) x (row_index y k fi))%Q) /\
    (forall l p k fi, ca_mem n cells l p -> ca_get_index n ref l p = Some k -> (fi < ly_os y)%nat -> has_face n cells domain ib l p -> as_empty s3 (row_index y k fi - ly_row_shift y) = false) /\
    (forall b eq fi, In b calls -> In eq (bc_eqs b) -> (fi < ly_os y)%nat -> (exists c, (c < length (bc_cells b))%nat /\ ~ (nth c (eq_coeffs eq) bc_m0 fi fi == 0)%Q) ->
      as_empty s3 (row_index y (ghost_cell b eq) fi - ly_row_shift y) = false /\ forall x, (ap y (as_mat s3) x (row_index y (ghost_cell b eq) fi) == bc_value_of y b eq x fi)%Q) /\
    (forall k fi, cellok y k -> (fi < ly_os y)%nat -> ~ leaf_number n ref cells k -> (forall b eq, In b calls -> In eq (bc_eqs b) -> k <> ghost_cell b eq) ->
      as_empty s3 (row_index y k fi - ly_row_shift y) = true /\ forall x, (ap y (as_mat s3) x (row_index y k fi) == dv * x (col_index y k fi))%Q).
  Proof.
    intros s1 calls dv F2 F3 F4 F5 GC.
    assert (PI : forall b eq, In (b, eq) (pairs_of calls) <-> In b calls /\ In eq (bc_eqs b)).
    { intros b eq. unfold pairs_of. rewrite in_flat_map. split; [intros (b' & Hb & H); apply in_map_iff in H as (e' & Ee & He); injection Ee as <- <-; auto|]. intros [Hb He]. exists b. split; [exact Hb|]. apply in_map. exact He. }
    assert (GOK : forall b eq, In (b, eq) (pairs_of calls) -> cellok y (ghost_cell b eq) /\ ~ leaf_number n ref cells (ghost_cell b eq)).
    { intros b eq H. apply PI in H as [Hb He]. destruct (gc_eqs _ _ _ GC b eq Hb He) as (_ & L2 & NL). split; [|exact NL]. apply (gc_cells _ _ _ GC b); auto. apply nth_In. exact L2. }
    assert (WR : forall r c q, In (r, c, q) (flat_map (eq_writes y) (pairs_of calls)) -> exists b eq k fi, In (b, eq) (pairs_of calls) /\ (k < length (bc_cells b))%nat /\ (fi < ly_os y)%nat /\ r = row_index y (ghost_cell b eq) fi /\
      c = col_index y (sc_index (nth k (bc_cells b) bc_e0)) fi /\ q = nth k (eq_coeffs eq) bc_m0 fi fi).
    { intros r c q H. apply in_flat_map in H as ([b eq] & Hbe & H). unfold eq_writes in H. apply in_flat_map in H as (k & Hk & H). apply in_map_iff in H as (fi & Ew & Hf). apply in_seq in Hk, Hf. injection Ew as Ea Eb Ec.
      exists b, eq, k, fi. split; [exact Hbe|]. split; [lia|]. split; [lia|]. rewrite (row_col y SQ SH). auto. }
    destruct (writes_spec y (flat_map (eq_writes y) (pairs_of calls)) s1 (keys_distinct y SQ _ calls GC)) as (s2 & E2 & W1 & W2 & W3).
    { intros r c q H. destruct (WR r c q H) as (b & eq & k & fi & Hbe & Hk & Hf & -> & -> & _). destruct (GOK b eq Hbe) as [G1 G2]. apply PI in Hbe as [Hb He]. split.
      - apply in_cells; auto; [apply (gc_cells _ _ _ GC b); auto; apply nth_In; exact Hk|rewrite <- SQ; exact Hf].
      - unfold zero_at. rewrite F2; [reflexivity|]. intros k' fi' Hk' Hf' Er. apply data_inj in Er as [Er _]; auto; [|apply leaf_cellok0; exact Hk']. rewrite Er in G2. contradiction. }
    rewrite <- (bc_writes y _ calls s1 GC) in E2.
    assert (GE : forall k fi, cellok y k -> (fi < ly_os y)%nat -> forall c q, In (ly_row_shift y + (row_index y k fi - ly_row_shift y), c, q) (flat_map (eq_writes y) (pairs_of calls)) -> exists b eq c', In (b, eq) (pairs_of calls) /\ k = ghost_cell b eq /\ (c' < length (bc_cells b))%nat /\ q = nth c' (eq_coeffs eq) bc_m0 fi fi).
    { intros k fi Hk Hf c q H. replace (ly_row_shift y + (row_index y k fi - ly_row_shift y)) with (row_index y k fi) in H by lia. destruct (WR _ _ _ H) as (b & eq & c' & fi' & Hbe & Hc' & Hf' & Er & _ & Eq). destruct (GOK b eq Hbe) as [G1 _].
      apply data_inj in Er as [Er1 Er2]; auto. subst fi'. exists b, eq, c'. auto. }
    destruct (useless_spec y dv s2) as (s3 & E3 & U1 & U2).
    { unfold matrix_rows, matrix_cols. rewrite SQ. lia. }
    { intros i Hi Ee c. apply W3 in Ee as [Ee NW]. unfold zero_at. destruct (data_onto (ly_os y) (ly_soa y) (ly_cells y) (ly_row_shift y) (ly_row_shift y + i)) as (k & fi & Hk & Hf & Er); [unfold matrix_rows in Hi; lia|].
      assert (DEC : forall a b : Z * Z, {a = b} + {a <> b}) by (decide equality; apply Z.eq_dec).
      destruct (in_dec DEC (ly_row_shift y + i, c) (map fst (flat_map (eq_writes y) (pairs_of calls)))) as [Hin|Hn].
      - apply in_map_iff in Hin as ([[r c0] q] & Ew & Hw). cbn [fst] in Ew. injection Ew as -> ->. destruct (Qeq_dec q 0) as [Eq|Eq]; [|exfalso; apply NW; eauto].
        assert (SV : forall ws s s', NoDup (map fst ws) -> fold_opt (do_write y) ws s = Some s' -> forall r c q, In (r, c, q) ws -> (q == 0)%Q -> as_mat s' r c = as_mat s r c).
        { clear. induction ws as [|[[r0 c0] q0] ws IH]; intros s s' ND H r c q Hin Hq; [destruct Hin|]. cbn [map fst] in ND. apply NoDup_cons_iff in ND as [N1 ND]. cbn [fold_opt] in H. destruct (do_write y s (r0, c0, q0)) as [s1|] eqn:E1; [|discriminate]. cbv beta iota zeta in H.
          assert (NI : forall ws s s', fold_opt (do_write y) ws s = Some s' -> forall r c, ~ In (r, c) (map fst ws) -> as_mat s' r c = as_mat s r c).
          { clear. induction ws as [|[[r0 c0] q0] ws IH]; intros s s' H r c NI; [injection H as <-; reflexivity|]. cbn [fold_opt] in H. destruct (do_write y s (r0, c0, q0)) as [s1|] eqn:E1; [|discriminate]. cbn [map fst] in NI. rewrite (IH s1 s' H) by (intros K; apply NI; right; exact K).
            unfold do_write in E1. destruct (Qeq_bool q0 0); [injection E1 as <-; reflexivity|]. unfold mat_insert, set_row_not_empty, checked in E1. destruct (in_matrix y r0 c0); [|discriminate].
            match type of E1 with (if ?b then _ else _) = _ => destruct b; [|discriminate] end. injection E1 as <-. cbn [as_mat]. destruct (Z.eqb_spec r r0), (Z.eqb_spec c c0); cbn [andb]; try reflexivity. exfalso. apply NI. left. congruence. }
          destruct Hin as [Hin|Hin].
          - injection Hin as -> -> ->. rewrite (NI _ _ _ H) by exact N1. unfold do_write in E1. rewrite (proj2 (Qeq_bool_iff q 0) Hq) in E1. injection E1 as <-. reflexivity.
          - rewrite (IH s1 s' ND H r c q Hin Hq). unfold do_write in E1. destruct (Qeq_bool q0 0); [injection E1 as <-; reflexivity|]. unfold mat_insert, set_row_not_empty, checked in E1. destruct (in_matrix y r0 c0); [|discriminate].
            match type of E1 with (if ?b then _ else _) = _ => destruct b; [|discriminate] end. injection E1 as <-. cbn [as_mat]. destruct (Z.eqb_spec r r0), (Z.eqb_spec c c0); cbn [andb]; try reflexivity. exfalso. apply N1. apply in_map_iff. exists (r, c, q). split; [cbn [fst]; congruence|exact Hin]. }
        pose proof E2 as E2'. rewrite (bc_writes y _ calls s1 GC) in E2'. rewrite (SV _ _ _ (keys_distinct y SQ _ calls GC) E2' _ _ _ Hw Eq). rewrite (F3 i Hi Ee). reflexivity.
      - rewrite W2; [rewrite (F3 i Hi Ee); reflexivity|]. intros (q & Hq). apply Hn. apply in_map_iff. exists (ly_row_shift y + i, c, q). auto. }
    exists s2, s3. split; [exact E2|]. split; [exact E3|].
    assert (AP : forall x k fi, cellok y k -> (fi < ly_os y)%nat -> (ap y (as_mat s3) x (row_index y k fi) == if as_empty s2 (row_index y k fi - ly_row_shift y) then dv * x (col_index y k fi) else
      ap y (as_mat s1) x (row_index y k fi) + sum_over (fun be => hit k (ghost_cell (fst be) (snd be)) (bc_value_of y (fst be) (snd be) x fi)) (pairs_of calls))%Q).
    { intros x k fi Hk Hf. pose proof (row_range y k fi Hk Hf) as RG. pose proof (U2 x (row_index y k fi - ly_row_shift y) ltac:(lia)) as U. replace (ly_row_shift y + (row_index y k fi - ly_row_shift y)) with (row_index y k fi) in U by lia.
      replace (ly_col_shift y + (row_index y k fi - ly_row_shift y)) with (col_index y k fi) in U by (rewrite (row_col y SQ SH); lia). rewrite U. destruct (as_empty s2 (row_index y k fi - ly_row_shift y)); [reflexivity|]. rewrite W1, (writes_row y SQ SH _ calls x k fi GC Hk Hf). reflexivity. }
    assert (NOG : forall k fi x, (forall b eq, In (b, eq) (pairs_of calls) -> k <> ghost_cell b eq) -> (sum_over (fun be => hit k (ghost_cell (fst be) (snd be)) (bc_value_of y (fst be) (snd be) x fi)) (pairs_of calls) == 0)%Q).
    { intros k fi x H. rewrite sum_zero; [reflexivity|]. intros [b eq] Hbe. cbn [fst snd]. unfold hit. destruct (Z.eqb_spec k (ghost_cell b eq)) as [Ek|Ek]; [exfalso; exact (H b eq Hbe Ek)|reflexivity]. }
    assert (LEAF : forall l p k fi, ca_mem n cells l p -> ca_get_index n ref l p = Some k -> (fi < ly_os y)%nat -> has_face n cells domain ib l p -> as_empty s2 (row_index y k fi - ly_row_shift y) = false).
    { intros l p k fi Hp Ek Hf HF. destruct (as_empty s2 (row_index y k fi - ly_row_shift y)) eqn:Ee; [|reflexivity]. apply W3 in Ee as [Ee _]. rewrite (F5 l p k fi Hp Ek Hf HF) in Ee. discriminate. }
    split; [|split; [|split]].
    - intros x l p k fi Hp Ek Hf HF. assert (LN : leaf_number n ref cells k) by (exists l, p; auto). pose proof (leaf_cellok0 k LN) as Hk.
      rewrite (AP x k fi Hk Hf), (LEAF l p k fi Hp Ek Hf HF), NOG; [ring|]. intros b eq Hbe ->. apply (GOK b eq Hbe). exact LN.
    - intros l p k fi Hp Ek Hf HF. rewrite U1. eapply LEAF; eauto.
    - intros b eq fi Hb He Hf (c & Hc & NZ). assert (Hbe : In (b, eq) (pairs_of calls)) by (apply PI; auto). destruct (GOK b eq Hbe) as [Hk NL].
      assert (EF : as_empty s2 (row_index y (ghost_cell b eq) fi - ly_row_shift y) = false).
      { destruct (as_empty s2 (row_index y (ghost_cell b eq) fi - ly_row_shift y)) eqn:Ee; [|reflexivity]. exfalso. apply W3 in Ee as [_ Ee]. apply Ee. exists (col_index y (sc_index (nth c (bc_cells b) bc_e0)) fi), (nth c (eq_coeffs eq) bc_m0 fi fi). split; [|exact NZ].
        replace (ly_row_shift y + (row_index y (ghost_cell b eq) fi - ly_row_shift y)) with (row_index y (ghost_cell b eq) fi) by lia. apply in_flat_map. exists (b, eq). split; [exact Hbe|]. unfold eq_writes. apply in_flat_map. exists c. split; [apply in_seq; lia|].
        apply in_map_iff. exists fi. split; [rewrite (row_col y SQ SH); reflexivity|apply in_seq; lia]. }
      split; [rewrite U1; exact EF|]. intros x. rewrite (AP x _ fi Hk Hf), EF.
      pose proof (pick_pair _ (fun be => ghost_cell (fst be) (snd be)) (fun be => bc_value_of y (fst be) (snd be) x fi) (pairs_of calls) (b, eq)) as PP. cbn [fst snd] in PP. rewrite PP; [|erewrite map_ext; [exact (gc_ghosts _ _ _ GC)|intros [b0 e0]; reflexivity]|exact Hbe].
      rewrite (ap_zero y (as_mat s1)); [ring|]. intros c0. rewrite F2; [reflexivity|]. intros k' fi' Hk' Hf' Er. apply data_inj in Er as [Er _]; auto; [|apply leaf_cellok0; exact Hk']. rewrite Er in NL. contradiction.
    - intros k fi Hk Hf NL NG. assert (EF : as_empty s2 (row_index y k fi - ly_row_shift y) = true).
      { apply W3. split; [apply F4; auto|]. intros (c & q & Hin & _). destruct (GE k fi Hk Hf c q Hin) as (b & eq & c' & Hbe & Ek & _). apply PI in Hbe as [Hb He]. exact (NG b eq Hb He Ek). }
      split; [rewrite U1; exact EF|]. intros x. rewrite (AP x k fi Hk Hf), EF. reflexivity.
  Qed.

  (** The solutions of the system, for whatever the rows of the leaves compute. *)
  Lemma solution_facts : forall s calls dv b,
    good_calls (ly_cells y) (leaf_number n ref cells) calls -> ~ (dv == 0)%Q ->
    (forall c eq, In c calls -> In eq (bc_eqs c) -> ~ ghost_number n ref cg cells (ghost_cell c eq) /\ forall fi, (fi < ly_os y)%nat -> exists j, (j < length (bc_cells c))%nat /\ ~ (nth j (eq_coeffs eq) bc_m0 fi fi == 0)%Q) ->
    (forall l p, ca_mem n cells l p -> has_face n cells domain ib l p) ->
    (forall l p k fi, ca_mem n cells l p -> ca_get_index n ref l p = Some k -> (fi < ly_os y)%nat -> has_face n cells domain ib l p -> as_empty s (row_index y k fi - ly_row_shift y) = false) ->
    (forall b eq fi, In b calls -> In eq (bc_eqs b) -> (fi < ly_os y)%nat -> (exists c, (c < length (bc_cells b))%nat /\ ~ (nth c (eq_coeffs eq) bc_m0 fi fi == 0)%Q) ->
      as_empty s (row_index y (ghost_cell b eq) fi - ly_row_shift y) = false /\ forall x, (ap y (as_mat s) x (row_index y (ghost_cell b eq) fi) == bc_value_of y b eq x fi)%Q) ->
    (forall k fi, cellok y k -> (fi < ly_os y)%nat -> ~ leaf_number n ref cells k -> (forall b eq, In b calls -> In eq (bc_eqs b) -> k <> ghost_cell b eq) ->
      as_empty s (row_index y k fi - ly_row_shift y) = true /\ forall x, (ap y (as_mat s) x (row_index y k fi) == dv * x (col_index y k fi))%Q) ->
    exists b', prepare_rhs y n ref cg cells calls (as_empty s) b = Some b' /\
    forall x (out : output), (forall l p k fi, ca_mem n cells l p -> ca_get_index n ref l p = Some k -> (fi < ly_os y)%nat -> has_face n cells domain ib l p -> (ap y (as_mat s) x (row_index y k fi) == out k fi)%Q) ->
      ((forall r, ly_row_shift y <= r < ly_row_shift y + ly_cells y * Z.of_nat (ly_os y) -> (product y (as_mat s) x r == b' r)%Q) <->
       (forall k fi, leaf_number n ref cells k -> (fi < ly_os y)%nat -> (out k fi == b (row_index y k fi))%Q) /\
       (forall c eq fi, In c calls -> In eq (bc_eqs c) -> (fi < ly_os y)%nat ->
         (sum_over (fun j => nth j (eq_coeffs eq) bc_m0 fi fi * x (col_index y (sc_index (nth j (bc_cells c) bc_e0)) fi)) (seq 0 (length (bc_cells c))) == eq_rhs eq fi fi * bc_val c fi)%Q) /\
       (forall k fi, 0 <= k < ly_cells y -> (fi < ly_os y)%nat -> ~ leaf_number n ref cells k -> (forall c eq, In c calls -> In eq (bc_eqs c) -> k <> ghost_cell c eq) -> (x (col_index y k fi) == 0)%Q)).
  Proof.
    intros s calls dv b GC DV BC FACE F2 F3 F4.
    destruct (all_projection n order (client_ca n m hist true) cg cells GM NR) as (ps & Ep & P1 & _). destruct (all_prediction n order (client_ca n m hist true) cg cells GM NR) as (gs & Eg & P2 & _).
    set (b1 := sets (flat_map (eq_sets y) (pairs_of calls)) b). set (b2 := sets (zero_sets y (map sc_index gs)) (sets (zero_sets y (map fst ps)) b1)).
    exists (zero_useless y (as_empty s) b2). split.
    { unfold prepare_rhs. rewrite (rhs_writes y _ calls b GC).  rewrite Ep, Eg. rewrite !enforce_zero_sets. reflexivity. }
    assert (GOK : forall k, ghost_number n (client_ca n m hist true) cg cells k -> cellok y k).
    { intros k (l & p & G & Ek). destruct (numbered_index n (client_ca n m hist true) l p NR (ghost_stored n order (client_ca n m hist true) cg cells GM l p G)) as (i & Ei & R). unfold cellok. rewrite HN. congruence. }
    assert (ZG : forall k fi, cellok y k -> (fi < ly_os y)%nat -> ~ ghost_number n (client_ca n m hist true) cg cells k -> b2 (row_index y k fi) = b1 (row_index y k fi)).
    { intros k fi Hk Hf NG. unfold b2. rewrite !sets_other; [reflexivity| |].
      - intros H. apply zero_sets_rows in H as (g & fi' & Hg & Hf' & Er). apply in_map_iff in Hg as (e & <- & He). destruct (P1 e He) as (l & p & PG & Ei & _). assert (GN : ghost_number n (client_ca n m hist true) cg cells (fst e)) by (exists l, p; auto). apply data_inj in Er as [Er _]; auto; [|apply GOK; exact GN]. rewrite Er in NG. contradiction.
      - intros H. apply zero_sets_rows in H as (g & fi' & Hg & Hf' & Er). apply in_map_iff in Hg as (e & <- & He). destruct (P2 e He) as (l & p & PG & (_ & _ & Ei)). assert (GN : ghost_number n (client_ca n m hist true) cg cells (sc_index e)) by (exists l, p; auto). apply data_inj in Er as [Er _]; auto; [|apply GOK; exact GN]. rewrite Er in NG. contradiction. }
    assert (UF : forall k fi, cellok y k -> (fi < ly_os y)%nat -> zero_useless y (as_empty s) b2 (row_index y k fi) = if as_empty s (row_index y k fi - ly_row_shift y) then 0%Q else b2 (row_index y k fi)).
    { intros k fi Hk Hf. rewrite zero_useless_spec. pose proof (row_range y k fi Hk Hf) as RG. rewrite (proj2 (Z.leb_le _ _) (proj1 RG)), (proj2 (Z.ltb_lt _ _) (proj2 RG)). reflexivity. }
    assert (PI : forall c eq, In (c, eq) (pairs_of calls) <-> In c calls /\ In eq (bc_eqs c)).
    { intros c eq. unfold pairs_of. rewrite in_flat_map. split; [intros (b' & Hb & H); apply in_map_iff in H as (e' & Ee & He); injection Ee as <- <-; auto|]. intros [Hb He]. exists c. split; [exact Hb|]. apply in_map. exact He. }
    assert (CG : forall c eq, In c calls -> In eq (bc_eqs c) -> cellok y (ghost_cell c eq)).
    { intros c eq Hc He. apply (gc_cells _ _ _ GC c); auto. apply nth_In. apply (gc_eqs _ _ _ GC c eq Hc He). }
    assert (LF : forall k, leaf_number n (client_ca n m hist true) cells k -> cellok y k /\ ~ ghost_number n (client_ca n m hist true) cg cells k).
    { intros k HL. split; [apply (leaf_cellok _ _ _ _ _ _ _ _ _ _ _ _ _ _ _ SY k HL)|]. destruct HL as (l & p & Hp & Ek). intros (l' & p' & G & Ek'). destruct (numbered_inj n (client_ca n m hist true) l p l' p' k NR) as [-> ->]; auto.
      - apply (stored_leaf _ _ _ _ _ _ _ _ _ _ _ _ _ _ _ SY). exact Hp.
      - eapply ghost_stored; eauto.
      - destruct G as [G|G]; [exact (leaf_not_proj n order (client_ca n m hist true) cg cells GM _ _ Hp G)|exact (leaf_not_pred n order (client_ca n m hist true) cg cells GM _ _ Hp G)]. }
    assert (BL : forall k fi, leaf_number n (client_ca n m hist true) cells k -> (fi < ly_os y)%nat -> zero_useless y (as_empty s) b2 (row_index y k fi) = b (row_index y k fi)).
    { intros k fi HL Hf. destruct (LF k HL) as [Hk NG]. rewrite UF by auto. pose proof HL as (l & p & Hp & Ek). rewrite (F2 l p k fi Hp Ek Hf (FACE l p Hp)). rewrite ZG by auto. unfold b1. apply sets_other. intros H. apply in_map_iff in H as ([r q] & Er & H). cbn [fst] in Er. subst r.
      apply in_flat_map in H as ([c eq] & Hce & H). unfold eq_sets in H. apply in_map_iff in H as (fi' & Ee & Hf'). apply in_seq in Hf'. injection Ee as Er _. apply PI in Hce as [Hc He]. apply data_inj in Er as [Er _]; try lia; [|apply CG; auto|exact Hk].
      apply (gc_eqs _ _ _ GC c eq Hc He). rewrite Er. exact HL. }
    assert (BB : forall c eq fi, In c calls -> In eq (bc_eqs c) -> (fi < ly_os y)%nat -> zero_useless y (as_empty s) b2 (row_index y (ghost_cell c eq) fi) = (eq_rhs eq fi fi * bc_val c fi)%Q).
    { intros c eq fi Hc He Hf. destruct (BC c eq Hc He) as [NG NZ]. rewrite UF by auto. destruct (F3 c eq fi Hc He Hf (NZ fi Hf)) as [Ee _]. rewrite Ee, ZG by auto. unfold b1. apply sets_same; [exact (rhs_distinct y _ calls GC)|].
      apply in_flat_map. exists (c, eq). split; [apply PI; auto|]. unfold eq_sets. apply in_map_iff. exists fi. split; [reflexivity|apply in_seq; lia]. }
    assert (BO : forall k fi, cellok y k -> (fi < ly_os y)%nat -> ~ leaf_number n (client_ca n m hist true) cells k -> (forall c eq, In c calls -> In eq (bc_eqs c) -> k <> ghost_cell c eq) -> zero_useless y (as_empty s) b2 (row_index y k fi) = 0%Q).
    { intros k fi Hk Hf NL NG. rewrite UF by auto. destruct (F4 k fi Hk Hf NL NG) as [Ee _]. rewrite Ee. reflexivity. }
    intros x out So. split.
    - intros SOL. split; [|split].
      + intros k fi HL Hf. destruct (LF k HL) as [Hk _]. rewrite <- BL by auto. rewrite <- SOL by (apply (row_range y k fi Hk Hf)). symmetry. destruct HL as (l & p & Hp & Ek). apply (So l p); auto.
      + intros c eq fi Hc He Hf. rewrite <- BB by auto. rewrite <- SOL by (apply (row_range y _ fi (CG c eq Hc He) Hf)). symmetry. apply (F3 c eq fi Hc He Hf). apply (BC c eq Hc He). exact Hf.
      + intros k fi Hk Hf NL NG. destruct (F4 k fi Hk Hf NL NG) as [_ F]. specialize (F x). change (ap y (as_mat s) x (row_index y k fi)) with (product y (as_mat s) x (row_index y k fi)) in F. rewrite SOL, BO in F by (auto; apply (row_range y k fi Hk Hf)).
        symmetry in F. apply Qmult_integral in F as [F|F]; [contradiction|exact F].
    - intros (S1 & S2 & S3) r Hr. destruct (data_onto (ly_os y) (ly_soa y) (ly_cells y) (ly_row_shift y) r Hr) as (k & fi & Hk & Hf & ->). change (data_index (ly_os y) (ly_soa y) (ly_cells y) (ly_row_shift y) k fi) with (row_index y k fi).
      destruct (leaf_number_dec n (client_ca n m hist true) cells k (proj1 (gm_wf _ _ _ _ _ GM))) as [HL|NL].
      + rewrite BL by auto. rewrite <- S1 by auto. destruct HL as (l & p & Hp & Ek). apply (So l p); auto.
      + destruct (in_dec Z.eq_dec k (map (fun '(c, eq) => ghost_cell c eq) (pairs_of calls))) as [HI|HI].
        * apply in_map_iff in HI as ([c eq] & <- & Hce). apply PI in Hce as [Hc He]. rewrite BB by auto. rewrite <- S2 by auto. apply (F3 c eq fi Hc He Hf). apply (BC c eq Hc He). exact Hf.
        * assert (NG : forall c eq, In c calls -> In eq (bc_eqs c) -> k <> ghost_cell c eq) by (intros c eq Hc He ->; apply HI, in_map_iff; exists (c, eq); split; [reflexivity|apply PI; auto]).
          rewrite BO by auto. destruct (F4 k fi Hk Hf NL NG) as [_ F]. etransitivity; [exact (F x)|]. rewrite S3 by auto. ring.
  Qed.
End Operator.

(** ** All operators *)
Lemma sum_scheme_facts : forall n m hist maxl st cells domain scaling ib order cg y N fuel rec ops, let ref := client_ca n m hist true in
  ghost_recursion fuel n order ref cg cells = Some rec -> Forall (fun lfs => system n m hist maxl st cells domain scaling ib lfs order cg y N fuel) ops ->
  forall a es, exists a' es', sum_assemble_scheme y rec n maxl scaling ref cells domain ib ops (a, es) = Some (a', es ++ es') /\ length es' = length ops /\
    (forall debug x v, represents n order ref cg cells y x v -> exists outs, Forall2 (fun lfs o => lin_apply_to debug n maxl (ly_os y) (ly_fs y) scaling ref cells domain ib v lfs = Some o) ops outs /\
      forall k fi, cellok y k -> (fi < ly_os y)%nat -> (ap y a' x (row_index y k fi) == ap y a x (row_index y k fi) + sum_outs outs k fi)%Q) /\
    (forall r c, (forall k fi, leaf_number n ref cells k -> (fi < ly_os y)%nat -> r <> row_index y k fi) -> a' r c = a r c) /\
    Forall (fun e => (forall k fi, cellok y k -> (fi < ly_os y)%nat -> ~ leaf_number n ref cells k -> e (row_index y k fi - ly_row_shift y) = true) /\
      (forall l p k fi, ca_mem n cells l p -> ca_get_index n ref l p = Some k -> (fi < ly_os y)%nat -> has_face n cells domain ib l p -> e (row_index y k fi - ly_row_shift y) = false)) es'.
Proof.
  intros n m hist maxl st cells domain scaling ib order cg y N fuel rec ops ref E F. induction F as [|lfs ops SY F IH]; intros a es.
  - exists a, []. rewrite app_nil_r. split; [reflexivity|]. split; [reflexivity|]. split; [|split; [reflexivity|constructor]].
    intros debug x v RP. exists []. split; [constructor|]. intros k fi Hk Hf. cbn [sum_outs]. ring.
  - destruct (operator_facts n m hist maxl st cells domain scaling ib lfs order cg y N fuel SY rec E a) as (s & Es & F1 & F2 & F4 & F5).
    destruct (IH (as_mat s) (es ++ [as_empty s])) as (a' & es' & E' & L' & G1 & G2 & G3). exists a', (as_empty s :: es'). split; [|split; [cbn [length]; congruence|split; [|split]]].
    + unfold sum_assemble_scheme. cbn [fold_opt]. fold ref in Es. rewrite Es. cbn beta iota. unfold sum_assemble_scheme in E'. rewrite E'. rewrite <- app_assoc. reflexivity.
    + intros debug x v RP. destruct (F1 debug x v RP) as (o & Eo & So). destruct (G1 debug x v RP) as (outs & Fo & Sos). exists (o :: outs). split; [constructor; auto|].
      intros k fi Hk Hf. rewrite (Sos k fi Hk Hf), (So k fi Hk Hf). cbn [sum_outs]. ring.
    + intros r c Hr. rewrite (G2 r c Hr). apply F2. exact Hr.
    + constructor; auto.
Qed.

(** ** The operator with the largest stencil *)
Lemma fold_max : forall l a, (a <= fold_left Nat.max l a)%nat /\ (forall x, In x l -> (x <= fold_left Nat.max l a)%nat) /\ (fold_left Nat.max l a = a \/ In (fold_left Nat.max l a) l).
Proof.
  induction l as [|b l IH]; intros a; cbn [fold_left]; [split; [lia|]; split; [intros x []|auto]|]. destruct (IH (Nat.max a b)) as (H1 & H2 & H3). split; [lia|]. split.
  - intros x [->|Hx]; [lia|auto].
  - destruct H3 as [H3|H3]; [|right; right; exact H3]. destruct (Nat.max_spec a b) as [[_ K]|[_ K]]; rewrite K in *; [right; left; symmetry; exact H3|left; exact H3].
Qed.
Lemma before_spec : forall mx (l : list nat), In mx l -> let before := (fix before (l : list nat) : list nat := match l with [] => [] | size :: l => if Nat.eqb size mx then [] else size :: before l end) in
  nth_error l (length (before l)) = Some mx /\ forall j s, (j < length (before l))%nat -> nth_error l j = Some s -> s <> mx.
Proof.
  intros mx l H before. induction l as [|a l IH]; [destruct H|]. cbn [before]. destruct (Nat.eqb_spec a mx) as [->|NE]; [split; [reflexivity|]; intros j s Hj; cbn [length] in Hj; lia|].
  destruct H as [H|H]; [contradiction|]. destruct (IH H) as [I1 I2]. split; [exact I1|]. intros [|j] s Hj Hs; [cbn [nth_error] in Hs; congruence|]. apply (I2 j s); [cbn [length] in Hj; fold before in Hj; lia|exact Hs].
Qed.
Lemma largest_spec : forall ops, ops <> [] -> exists lfs, nth_error ops (largest_stencil_index ops) = Some lfs /\ (forall o, In o ops -> (stencil_size o <= stencil_size lfs)%nat) /\
  forall j o, (j < largest_stencil_index ops)%nat -> nth_error ops j = Some o -> (stencil_size o < stencil_size lfs)%nat.
Proof.
  intros ops NE. unfold largest_stencil_index. cbv zeta. set (sizes := map stencil_size ops). set (mx := fold_left Nat.max sizes 0%nat). destruct (fold_max sizes 0) as (_ & M2 & M3). fold mx in M2, M3.
  assert (HI : In mx sizes).
  { destruct M3 as [M3|M3]; [|exact M3]. destruct ops as [|o ops]; [contradiction|]. pose proof (M2 (stencil_size o) (or_introl eq_refl)) as K. rewrite M3 in *. left. lia. }
  destruct (before_spec mx sizes HI) as [B1 B2]. cbv zeta in B1, B2. set (ix := length _) in *. unfold sizes in B1. rewrite nth_error_map in B1. destruct (nth_error ops ix) as [lfs|] eqn:El; [|discriminate]. injection B1 as B1. exists lfs. split; [reflexivity|].
  rewrite B1. split.
  - intros o Ho. apply M2. apply in_map. exact Ho.
  - intros j o Hj Ho. assert (Hs : nth_error sizes j = Some (stencil_size o)) by (unfold sizes; rewrite nth_error_map, Ho; reflexivity). pose proof (B2 j _ Hj Hs). pose proof (M2 _ (nth_error_In _ _ Hs)). lia.
Qed.

Lemma same_outs : forall (A B : Type) (f : A -> option B) l o1 o2, Forall2 (fun a b => f a = Some b) l o1 -> Forall2 (fun a b => f a = Some b) l o2 -> o1 = o2.
Proof. intros A B f l o1 o2 F. revert o2. induction F; intros o2 G; inversion G; subst; [reflexivity|]. f_equal; [congruence|auto]. Qed.
Lemma sum_matrix_facts : forall n m hist maxl st cells domain scaling ib order cg y N fuel ops calls dv, let ref := client_ca n m hist true in
  ops <> [] -> Forall (fun lfs => system n m hist maxl st cells domain scaling ib lfs order cg y N fuel) ops ->
  ly_os y = ly_fs y -> ly_row_shift y = ly_col_shift y -> good_calls (ly_cells y) (leaf_number n ref cells) calls -> (forall l p, ca_mem n cells l p -> has_face n cells domain ib l p) ->
  exists rec s, ghost_recursion fuel n order ref cg cells = Some rec /\ sum_assemble_matrix y rec n maxl scaling ref cells domain ib ops calls dv = Some s /\
    (forall debug x v, represents n order ref cg cells y x v -> exists out, sum_apply_to debug n maxl (ly_os y) (ly_fs y) scaling ref cells domain ib v ops = Some out /\
      forall l p k fi, ca_mem n cells l p -> ca_get_index n ref l p = Some k -> (fi < ly_os y)%nat -> has_face n cells domain ib l p -> (ap y (as_mat s) x (row_index y k fi) == out k fi)%Q) /\
    (forall l p k fi, ca_mem n cells l p -> ca_get_index n ref l p = Some k -> (fi < ly_os y)%nat -> has_face n cells domain ib l p -> as_empty s (row_index y k fi - ly_row_shift y) = false) /\
    (forall b eq fi, In b calls -> In eq (bc_eqs b) -> (fi < ly_os y)%nat -> (exists c, (c < length (bc_cells b))%nat /\ ~ (nth c (eq_coeffs eq) bc_m0 fi fi == 0)%Q) ->
      as_empty s (row_index y (ghost_cell b eq) fi - ly_row_shift y) = false /\ forall x, (ap y (as_mat s) x (row_index y (ghost_cell b eq) fi) == bc_value_of y b eq x fi)%Q) /\
    (forall k fi, cellok y k -> (fi < ly_os y)%nat -> ~ leaf_number n ref cells k -> (forall b eq, In b calls -> In eq (bc_eqs b) -> k <> ghost_cell b eq) ->
      as_empty s (row_index y k fi - ly_row_shift y) = true /\ forall x, (ap y (as_mat s) x (row_index y k fi) == dv * x (col_index y k fi))%Q).
Proof.
  intros n m hist maxl st cells domain scaling ib order cg y N fuel ops calls dv ref NE F SQ SH GC FACE.
  assert (SY : exists lfs, system n m hist maxl st cells domain scaling ib lfs order cg y N fuel) by (destruct ops as [|lfs ops]; [contradiction|]; exists lfs; exact (Forall_inv F)). destruct SY as (lfs & SY).
  destruct (recursion_facts _ _ _ _ _ _ _ _ _ _ _ _ _ _ _ SY) as (rec & E & _). exists rec.
  destruct (sum_scheme_facts n m hist maxl st cells domain scaling ib order cg y N fuel rec ops E F (as_mat asm_empty) []) as (a & es & E1 & L1 & F1 & F2 & F3).
  destruct (largest_spec ops NE) as (lg & El & _). destruct (nth_error es (largest_stencil_index ops)) as [e|] eqn:Ee.
  2: { apply nth_error_None in Ee. assert (largest_stencil_index ops < length ops)%nat by (apply nth_error_Some; congruence). lia. }
  rewrite Forall_forall in F3. destruct (F3 e (nth_error_In _ _ Ee)) as [F4 F5].
  destruct (rest_facts n m hist maxl st cells domain scaling ib lfs order cg y N fuel SY SQ SH (mkAsm a e) calls dv) as (s2 & s3 & E2 & E3 & R1 & R2 & R3 & R4); auto.
  { intros i Hi Ei c. cbn [as_mat as_empty] in *. rewrite F2; [reflexivity|]. intros k fi HL Hf Er. destruct HL as (l & p & Hp & Ek). pose proof (F5 l p k fi Hp Ek Hf (FACE l p Hp)) as K. rewrite <- Er in K. replace (ly_row_shift y + i - ly_row_shift y) with i in K by lia. congruence. }
  exists s3. split; [exact E|]. split. { unfold sum_assemble_matrix. fold ref in E1. rewrite E1. cbn [snd fst app]. rewrite Ee, E2. exact E3. }
  split; [|split; [exact R2|split; [exact R3|exact R4]]].
  intros debug x v RP. destruct (F1 debug x v RP) as (outs & Fo & So).
  destruct (sum_apply_spec n m hist maxl st cells domain scaling ib debug (ly_os y) (ly_fs y) v ops) as (outs' & Fo' & A). { eapply Forall_impl; [|exact F]. intros o S0. exact (sy_mesh _ _ _ _ _ _ _ _ _ _ _ _ _ _ _ S0). }
  destruct (A (fun _ _ => 0%Q)) as (out & Eo & S1). exists out. split; [exact Eo|]. intros l p k fi Hp Ek Hf HF.
  assert (outs' = outs) by (exact (same_outs _ _ (fun lfs => lin_apply_to debug n maxl (ly_os y) (ly_fs y) scaling ref cells domain ib v lfs) ops outs' outs Fo' Fo)). subst outs'.
  rewrite (R1 x l p k fi Hp Ek Hf HF), S1. cbn [as_mat]. rewrite (So k fi); [rewrite ap_zero by (intros; reflexivity); ring| |exact Hf]. apply (leaf_cellok _ _ _ _ _ _ _ _ _ _ _ _ _ _ _ SY). exists l, p. auto.
Qed.
