(** Proofs about the right-hand side of the linear system (C78). *)
From Coq Require Import QArith.
From Verif Require Import Base IntervalModel Spec LoiModel LcaModel LcaSpec LcaProofs LcaProofs3 RowsProofs CellArrayModel CellArrayProofs
  PropsLca PropsCellArray SubsetModel TreeProofs SubsetSpec SubsetProofs2 PropsSubset StencilModel NumberingProofs StencilProofs PropsStencil
  MeshModel MeshProofs PropsMesh AdaptModel AdaptProofs TagProofs PropsAdapt InterfaceModel InterfaceProofs PropsInterface GeomModel FluxModel BoundaryProofs PropsBoundary FluxProofs NumModel NumProofs GhostModel
  ReconModel ReconProofs PropsFlux LinFluxModel LinFluxProofs LinFluxProofs2 PropsLinFlux AssemblyModel AssemblyProofs AssemblyProofs2 AssemblyProofs3 AssemblyProofs4 AssemblyProofs5 AssemblyProofs6.
Open Scope Z_scope.

Definition sets (ws : list (Z * Q)) (b : rhs) : rhs := fold_left (fun b '(r, q) => rhs_set r q b) ws b.
Lemma sets_app : forall a c b, sets (a ++ c) b = sets c (sets a b).
Proof. intros. apply fold_left_app. Qed.
Lemma sets_other : forall ws b r, ~ In r (map fst ws) -> sets ws b r = b r.
Proof.
  induction ws as [|[r0 q0] ws IH]; intros b r H; [reflexivity|]. cbn [sets fold_left]. change (sets ws (rhs_set r0 q0 b) r = b r). cbn [map fst] in H. rewrite IH by (intros K; apply H; right; exact K).
  unfold rhs_set. destruct (Z.eqb_spec r r0) as [->|D]; [exfalso; apply H; left; reflexivity|reflexivity].
Qed.
Lemma sets_same : forall ws b r q, NoDup (map fst ws) -> In (r, q) ws -> sets ws b r = q.
Proof.
  induction ws as [|[r0 q0] ws IH]; intros b r q ND H; [destruct H|]. cbn [map fst] in ND. apply NoDup_cons_iff in ND as [N1 ND]. cbn [sets fold_left]. change (sets ws (rhs_set r0 q0 b) r = q).
  destruct H as [H|H]; [|apply IH; auto]. injection H as -> ->. rewrite sets_other by exact N1. unfold rhs_set. rewrite Z.eqb_refl. reflexivity.
Qed.
Lemma sets_zero : forall ws b r, (forall e, In e ws -> snd e = 0%Q) -> In r (map fst ws) -> sets ws b r = 0%Q.
Proof.
  induction ws as [|[r0 q0] ws IH]; intros b r Z0 H; [destruct H|]. cbn [sets fold_left]. change (sets ws (rhs_set r0 q0 b) r = 0%Q).
  destruct (in_dec Z.eq_dec r (map fst ws)) as [Hi|Hn]; [apply IH; auto; intros; apply Z0; right; auto|]. rewrite sets_other by exact Hn. destruct H as [H|H]; [|contradiction]. cbn [fst] in H. subst r0. unfold rhs_set. rewrite Z.eqb_refl. apply (Z0 (r, q0)). left; auto.
Qed.

Section Rhs.
  Context (y : layout).
  Definition eq_sets (be : bc_call * bc_eq) : list (Z * Q) := let '(c, eq) := be in map (fun fi => (row_index y (ghost_cell c eq) fi, eq_rhs eq fi fi * bc_val c fi)%Q) (seq 0 (ly_os y)).
  Lemma rhs_writes : forall leaf calls b, good_calls (ly_cells y) leaf calls -> fold_opt (enforce_bc y) calls b = Some (sets (flat_map eq_sets (pairs_of calls)) b).
  Proof.
    intros leaf calls b GC. pose proof (gc_eqs _ _ _ GC) as GE. clear GC. revert b. induction calls as [|c calls IH]; intros b; [reflexivity|]. cbn [fold_opt pairs_of flat_map]. change (flat_map (fun b0 => map (pair b0) (bc_eqs b0)) calls) with (pairs_of calls).
    rewrite flat_map_app, sets_app.
    assert (E1 : enforce_bc y b c = Some (sets (flat_map eq_sets (map (pair c) (bc_eqs c))) b)).
    { unfold enforce_bc. assert (GQ : forall eq, In eq (bc_eqs c) -> (eq_ghost eq < length (bc_cells c))%nat) by (intros eq He; apply (GE c eq); [left; auto|exact He]). revert GQ b. clear.
      induction (bc_eqs c) as [|eq eqs IH]; intros GQ b; [reflexivity|]. cbn [fold_opt map flat_map]. rewrite (nth_error_nth' _ bc_e0) by (apply GQ; left; auto). rewrite sets_app.
      change (fold_left (fun b fi => rhs_set (row_index y (sc_index (nth (eq_ghost eq) (bc_cells c) bc_e0)) fi) (eq_rhs eq fi fi * bc_val c fi)%Q b) (seq 0 (ly_os y)) b) with
        (fold_left (fun b fi => rhs_set (row_index y (ghost_cell c eq) fi) (eq_rhs eq fi fi * bc_val c fi)%Q b) (seq 0 (ly_os y)) b).
      assert (EF : forall l b, fold_left (fun b fi => rhs_set (row_index y (ghost_cell c eq) fi) (eq_rhs eq fi fi * bc_val c fi)%Q b) l b = sets (map (fun fi => (row_index y (ghost_cell c eq) fi, eq_rhs eq fi fi * bc_val c fi)%Q) l) b).
      { induction l as [|fi l IHl]; intros b0; [reflexivity|]. cbn [fold_left map sets]. apply IHl. }
      rewrite EF. apply IH. intros; apply GQ; right; auto. }
    rewrite E1. apply IH. intros b0 eq Hb. apply GE. right; exact Hb.
  Qed.

  Lemma rhs_distinct : forall leaf calls, good_calls (ly_cells y) leaf calls -> NoDup (map fst (flat_map eq_sets (pairs_of calls))).
  Proof.
    intros leaf calls GC. assert (OK : forall b eq, In (b, eq) (pairs_of calls) -> cellok y (ghost_cell b eq)).
    { intros b eq H. apply in_flat_map in H as (b' & Hb & H). apply in_map_iff in H as (e' & E & He). injection E as <- <-. apply (gc_cells _ _ _ GC b'); auto. apply nth_In. apply (gc_eqs _ _ _ GC b' e' Hb He). }
    rewrite flat_map_concat_map, concat_map, map_map, <- flat_map_concat_map. apply (NoDup_flat_key _ _ _ _ (fun '(b, eq) => ghost_cell b eq)); [apply (gc_ghosts _ _ _ GC)| |].
    - intros [b eq] H. unfold eq_sets. rewrite map_map. cbn [fst]. apply NoDup_map_in; [apply seq_NoDup|]. intros f f' Hf Hf' E. apply in_seq in Hf, Hf'. apply data_inj in E as [_ E]; try lia; auto; apply OK; exact H.
    - intros [b eq] [b' eq'] x H H' Hx Hx'. unfold eq_sets in Hx, Hx'. rewrite map_map in Hx, Hx'. cbn [fst] in Hx, Hx'. apply in_map_iff in Hx as (f & <- & Hf), Hx' as (f' & E & Hf'). apply in_seq in Hf, Hf'.
      apply data_inj in E as [E _]; try lia; auto; apply OK; auto.
  Qed.

  Definition zero_sets (gs : list Z) : list (Z * Q) := flat_map (fun g => map (fun fi => (row_index y g fi, 0%Q)) (seq 0 (ly_os y))) gs.
  Lemma enforce_zero_sets : forall gs b, enforce_zero y gs b = sets (zero_sets gs) b.
  Proof.
    induction gs as [|g gs IH]; intros b; [reflexivity|]. unfold enforce_zero, zero_sets. cbn [fold_left flat_map]. rewrite sets_app. fold (zero_sets gs).
    assert (EF : forall l b, fold_left (fun b fi => rhs_set (row_index y g fi) 0%Q b) l b = sets (map (fun fi => (row_index y g fi, 0%Q)) l) b). { induction l as [|fi l IHl]; intros b0; [reflexivity|]. cbn [fold_left map sets]. apply IHl. }
    rewrite EF. apply IH.
  Qed.
  Lemma zero_sets_zero : forall gs e, In e (zero_sets gs) -> snd e = 0%Q.
  Proof. intros gs e H. apply in_flat_map in H as (g & _ & H). apply in_map_iff in H as (fi & <- & _). reflexivity. Qed.
  Lemma zero_sets_rows : forall gs r, In r (map fst (zero_sets gs)) <-> exists g fi, In g gs /\ (fi < ly_os y)%nat /\ r = row_index y g fi.
  Proof.
    intros gs r. rewrite in_map_iff. split.
    - intros ([r' q] & <- & H). apply in_flat_map in H as (g & Hg & H). apply in_map_iff in H as (fi & E & Hf). injection E as <- <-. apply in_seq in Hf. exists g, fi. split; [exact Hg|]. split; [lia|reflexivity].
    - intros (g & fi & Hg & Hf & ->). exists (row_index y g fi, 0%Q). split; [reflexivity|]. apply in_flat_map. exists g. split; [exact Hg|]. apply in_map_iff. exists fi. split; [reflexivity|apply in_seq; lia].
  Qed.
  Lemma zero_useless_spec : forall empty b r, zero_useless y empty b r = if (ly_row_shift y <=? r) && (r <? ly_row_shift y + matrix_rows y) && empty (r - ly_row_shift y) then 0%Q else b r.
  Proof.
    intros empty b r. unfold zero_useless.
    assert (EF : forall l b, fold_left (fun b i => let i := Z.of_nat i in if empty i then rhs_set (ly_row_shift y + i) 0%Q b else b) l b = sets (map (fun i => (ly_row_shift y + Z.of_nat i, 0%Q)) (filter (fun i => empty (Z.of_nat i)) l)) b).
    { induction l as [|i l IHl]; intros b0; [reflexivity|]. cbn [fold_left filter]. rewrite IHl. cbv zeta. destruct (empty (Z.of_nat i)); reflexivity. }
    rewrite EF. clear EF. set (ws := map (fun i => (ly_row_shift y + Z.of_nat i, 0%Q)) (filter (fun i => empty (Z.of_nat i)) (seq 0 (Z.to_nat (matrix_rows y))))).
    assert (ROW : In r (map fst ws) <-> (ly_row_shift y <=? r) && (r <? ly_row_shift y + matrix_rows y) && empty (r - ly_row_shift y) = true).
    { unfold ws. rewrite map_map. cbn [fst]. rewrite in_map_iff, !andb_true_iff, Z.leb_le, Z.ltb_lt. split.
      - intros (i & <- & Hi). apply filter_In in Hi as [Hi He]. apply in_seq in Hi. split; [lia|]. replace (ly_row_shift y + Z.of_nat i - ly_row_shift y) with (Z.of_nat i) by lia. exact He.
      - intros [Hr He]. exists (Z.to_nat (r - ly_row_shift y)). rewrite Z2Nat.id by lia. split; [lia|]. apply filter_In. rewrite Z2Nat.id by lia. split; [apply in_seq; lia|exact He]. }
    destruct ((ly_row_shift y <=? r) && (r <? ly_row_shift y + matrix_rows y) && empty (r - ly_row_shift y)) eqn:E.
    - apply sets_zero; [|apply ROW; reflexivity]. intros e He. unfold ws in He. apply in_map_iff in He as (i & <- & _). reflexivity.
    - apply sets_other. intros H. apply ROW in H. discriminate.
  Qed.
End Rhs.
