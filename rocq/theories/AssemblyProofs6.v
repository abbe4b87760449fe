(** Proofs about the assembly of the matrix: the entries of the combinations, the boundary
    conditions and the useless ghosts (C78). *)
From Coq Require Import QArith.
From Verif Require Import Base IntervalModel Spec LoiModel LcaModel LcaSpec LcaProofs LcaProofs3 RowsProofs CellArrayModel CellArrayProofs
  PropsLca PropsCellArray SubsetModel TreeProofs SubsetSpec SubsetProofs2 PropsSubset StencilModel NumberingProofs StencilProofs PropsStencil
  MeshModel MeshProofs PropsMesh AdaptModel AdaptProofs TagProofs PropsAdapt InterfaceModel InterfaceProofs PropsInterface GeomModel FluxModel BoundaryProofs PropsBoundary FluxProofs NumModel NumProofs GhostModel
  ReconModel ReconProofs PropsFlux LinFluxModel LinFluxProofs LinFluxProofs2 PropsLinFlux AssemblyModel AssemblyProofs AssemblyProofs2 AssemblyProofs3 AssemblyProofs4 AssemblyProofs5.
Open Scope Z_scope.

(** ** The cells of the combinations are cells of the mesh *)
Definition entries (P : Z -> Prop) (r : recursion) : Prop := forall k lc j q, rec_find k r = Some lc -> In (j, q) lc -> P j.
Lemma pass_entries : forall (P : Z -> Prop) keys r, entries P r -> entries P (fst (elim_pass keys r)).
Proof.
  intros P. induction keys as [|k keys IH]; intros r H; cbn [elim_pass]; [exact H|]. destruct (rec_find k r) as [lc|] eqn:E; [|auto].
  destruct (expand_comb r lc) as [lc' c1] eqn:EX. specialize (IH (rec_set k lc' r)). destruct (elim_pass keys (rec_set k lc' r)) as [r2 c2]. cbn [fst] in *. apply IH.
  intros k' l' j q. rewrite find_set. destruct (k' =? k); [|apply H]. rewrite E. intros HE Hj. injection HE as <-. assert (Hj' : In (j, q) (fst (expand_comb r lc))) by (rewrite EX; exact Hj).
  apply expand_In in Hj' as [[Hj' _]|(j' & q' & g & qg & _ & Eg & Hg)]; [exact (H k lc j q E Hj')|exact (H j' g j qg Eg Hg)].
Qed.
Lemma loop_entries : forall (P : Z -> Prop) fuel r r', elim_loop fuel r = Some r' -> entries P r -> entries P r'.
Proof.
  intros P. induction fuel as [|fuel IH]; intros r r'; cbn [elim_loop]; [discriminate|]. destruct (elim_pass (map fst r) r) as [r1 ch] eqn:E. intros H HP.
  assert (H1 : entries P r1) by (change r1 with (fst (r1, ch)); rewrite <- E; apply pass_entries; exact HP). destruct ch; [eapply IH; eauto|]. injection H as <-. exact H1.
Qed.
Lemma recursion_entries : forall n order ref cg cells fuel r, ghost_mesh n order ref cg cells -> numbered n ref -> ghost_recursion fuel n order ref cg cells = Some r ->
  entries (fun j => 0 <= j < ca_nb_cells ref) r.
Proof.
  intros n order ref cg cells fuel r GM NR H. unfold ghost_recursion in H. destruct (initial_spec n order ref cg cells GM NR) as (r0 & E0 & A & _). rewrite E0 in H. apply (loop_entries _ _ _ _ H).
  assert (IN : forall l p i, ca_mem n ref l p -> ca_get_index n ref l p = Some i -> 0 <= i < ca_nb_cells ref).
  { intros l p i Hp Ei. destruct (numbered_index n ref l p NR Hp) as (i' & Ei' & R). congruence. }
  intros k lc j q E Hj. destruct (A k lc E) as (l & p & _ & [[PG (ch & (cs & F & _ & M) & ->)]|[PG [V _]]]).
  - apply in_map_iff in Hj as (c & Ec & Hc). injection Ec as -> _. destruct (Forall2_In_r _ _ _ _ _ _ F Hc) as (p' & Hp' & Ei). apply M in Hp' as [Lp' Ap']. apply (IN (S l) p'); [|exact Ei]. apply (gm_children _ _ _ _ _ GM l p); auto.
  - destruct (V j q Hj) as (z & Lz & Hz & Ei). apply (IN (Nat.pred l) z); [|exact Ei]. apply (gm_parents _ _ _ _ _ GM l p); auto.
Qed.

(** ** Insertions *)
Section Insert.
  Context (y : layout).
  Notation rs := (ly_row_shift y).
  Definition zero_at (s : asm) (r c : Z) : Prop := (as_mat s r c == 0)%Q.

  Lemma ap_ext : forall m m' x r, (forall c, (m r c == m' r c)%Q) -> (ap y m x r == ap y m' x r)%Q.
  Proof. intros m m' x r H. apply sum_ext. intros c _. rewrite H. reflexivity. Qed.
  Lemma ap_zero : forall m x r, (forall c, (m r c == 0)%Q) -> (ap y m x r == 0)%Q.
  Proof. intros m x r H. unfold ap. transitivity (sum_over (fun _ : Z => 0%Q) (zrange (ly_col_shift y) (ly_col_shift y + matrix_cols y))); [apply sum_ext; intros c _; rewrite H; ring|apply sum_zero; reflexivity]. Qed.

  Lemma insert_spec : forall r c q s, in_matrix y r c = true -> zero_at s r c -> exists s', mat_insert y r c q s = Some s' /\
    (forall x r', ap y (as_mat s') x r' == ap y (as_mat s) x r' + at_row r' r (q * x c))%Q /\ (forall r' c', ~ (r' = r /\ c' = c) -> as_mat s' r' c' = as_mat s r' c') /\ as_empty s' = as_empty s.
  Proof.
    intros r c q s H Z0. destruct (acts_add y r c q H s) as (s1 & E1 & A1 & _ & _). unfold mat_add in E1. rewrite H in E1. cbn [checked] in E1. injection E1 as <-. cbn [as_mat] in A1.
    unfold mat_insert. rewrite H. cbn [checked]. eexists. split; [reflexivity|]. cbn [as_mat as_empty]. split; [|split; [|reflexivity]].
    - intros x r'. unfold at_row. rewrite <- (A1 x r'). apply ap_ext. intros c'. destruct (Z.eqb_spec r' r) as [Er|Er], (Z.eqb_spec c' c) as [Ec|Ec]; cbn [andb]; try reflexivity. subst r' c'. unfold zero_at in Z0. rewrite Z0. ring.
    - intros r' c' D. destruct (Z.eqb_spec r' r) as [Er|Er], (Z.eqb_spec c' c) as [Ec|Ec]; cbn [andb]; try reflexivity. exfalso. auto.
  Qed.

  Definition do_write (s : asm) (w : Z * Z * Q) : option asm := let '(r, c, q) := w in if Qeq_bool q 0 then Some s else let* s := mat_insert y r c q s in set_row_not_empty y r s.
  Lemma in_rows : forall r c, in_matrix y r c = true -> rs <= r < rs + matrix_rows y.
  Proof. intros r c H. unfold in_matrix in H. rewrite !andb_true_iff, !Z.leb_le, !Z.ltb_lt in H. lia. Qed.

  Lemma writes_spec : forall ws s, NoDup (map fst ws) -> (forall r c q, In (r, c, q) ws -> in_matrix y r c = true /\ zero_at s r c) -> exists s', fold_opt do_write ws s = Some s' /\
    (forall x r, ap y (as_mat s') x r == ap y (as_mat s) x r + sum_over (fun '(r', c, q) => at_row r r' (q * x c)) ws)%Q /\
    (forall r c, ~ (exists q, In (r, c, q) ws) -> as_mat s' r c = as_mat s r c) /\
    (forall i, as_empty s' i = true <-> as_empty s i = true /\ ~ exists c q, In (rs + i, c, q) ws /\ ~ (q == 0)%Q).
  Proof.
    induction ws as [|[[r0 c0] q0] ws IH]; intros s ND H.
    - exists s. split; [reflexivity|]. split; [intros; rewrite sum_nil; ring|]. split; [reflexivity|]. intros i. split; [intros E; split; [exact E|]; intros (c & q & [] & _)|tauto].
    - cbn [map] in ND. cbn [fst] in ND. apply NoDup_cons_iff in ND as [N1 ND]. destruct (H r0 c0 q0 (or_introl eq_refl)) as [HI HZ].
      assert (ST : exists s1, do_write s (r0, c0, q0) = Some s1 /\ (forall x r, ap y (as_mat s1) x r == ap y (as_mat s) x r + at_row r r0 (q0 * x c0))%Q /\ (forall r c, ~ (r = r0 /\ c = c0) -> as_mat s1 r c = as_mat s r c) /\
        (forall i, as_empty s1 i = true <-> as_empty s i = true /\ ~ (rs + i = r0 /\ ~ (q0 == 0)%Q))).
      { unfold do_write. destruct (Qeq_bool q0 0) eqn:EQ.
        - apply Qeq_bool_iff in EQ. exists s. split; [reflexivity|]. split; [intros x r; unfold at_row; destruct (r =? r0); [rewrite EQ; ring|ring]|]. split; [reflexivity|]. intros i. split; [intros E; split; [exact E|]; intros [_ D]; contradiction|tauto].
        - apply Qeq_bool_neq in EQ. destruct (insert_spec r0 c0 q0 s HI HZ) as (s1 & E1 & P1 & P2 & P3). rewrite E1. destruct (acts_row y r0 (in_rows _ _ HI) s1) as (s2 & E2 & R1 & R2 & R3). rewrite E2. exists s2. split; [reflexivity|].
          split; [intros x r; rewrite R1, P1; ring|]. split; [intros r c D; rewrite R2 by tauto; apply P2; exact D|]. intros i. rewrite R3, P3. tauto. }
      destruct ST as (s1 & E1 & P1 & P2 & P3). cbn [fold_opt]. rewrite E1. destruct (IH s1 ND) as (s' & E' & A1 & A2 & A3).
      { intros r c q Hin. destruct (H r c q (or_intror Hin)) as [K1 K2]. split; [exact K1|]. unfold zero_at in *. rewrite P2; [exact K2|]. intros [-> ->]. apply N1. apply in_map_iff. exists (r0, c0, q). auto. }
      exists s'. split; [exact E'|]. split; [intros x r; rewrite A1, P1, sum_cons; ring|]. split.
      + intros r c N. rewrite A2; [apply P2|].
        * intros [-> ->]. apply N. exists q0. left; reflexivity.
        * intros (q & Hq). apply N. exists q. right; exact Hq.
      + intros i. rewrite A3, P3. split.
        * intros [[K1 K2] K3]. split; [exact K1|]. intros (c & q & [E|Hq] & D); [injection E as Ea Eb Ec; subst; apply K2; auto|apply K3; eauto].
        * intros [K1 K2]. split; [split; [exact K1|]|].
          -- intros [Ea D]. apply K2. exists c0, q0. split; [left; congruence|exact D].
          -- intros (c & q & Hq & D). apply K2. exists c, q. split; [right; exact Hq|exact D].
  Qed.

  (** ** The rows that nobody wrote to *)
  Lemma useless_spec : forall diag_value s, matrix_rows y <= matrix_cols y -> (forall i, 0 <= i < matrix_rows y -> as_empty s i = true -> forall c, zero_at s (rs + i) c) ->
    exists s', insert_useless y diag_value s = Some s' /\ as_empty s' = as_empty s /\
      forall x i, 0 <= i < matrix_rows y -> (ap y (as_mat s') x (rs + i)%Z == if as_empty s i then diag_value * x (ly_col_shift y + i)%Z else ap y (as_mat s) x (rs + i)%Z)%Q.
  Proof.
    intros dv s HR HZ. unfold insert_useless.
    assert (G : forall l s0, NoDup l -> as_empty s0 = as_empty s -> (forall k, In k l -> 0 <= Z.of_nat k < matrix_rows y /\ forall c, as_mat s0 (rs + Z.of_nat k) c = as_mat s (rs + Z.of_nat k) c) ->
      exists s', fold_opt (fun s i => let i := Z.of_nat i in if as_empty s i then mat_insert y (rs + i) (ly_col_shift y + i) dv s else Some s) l s0 = Some s' /\ as_empty s' = as_empty s /\
        forall x r, (ap y (as_mat s') x r == ap y (as_mat s0) x r + sum_over (fun k => if as_empty s (Z.of_nat k) then at_row r (rs + Z.of_nat k)%Z (dv * x (ly_col_shift y + Z.of_nat k)%Z) else 0) l)%Q).
    { induction l as [|k l IH]; intros s0 ND EE H; [exists s0; split; [reflexivity|]; split; [exact EE|]; intros; rewrite sum_nil; ring|]. apply NoDup_cons_iff in ND as [N1 ND]. cbn [fold_opt]. cbv zeta. rewrite EE.
      destruct (H k (or_introl eq_refl)) as [Hk HM]. destruct (as_empty s (Z.of_nat k)) eqn:Ek.
      - destruct (insert_spec (rs + Z.of_nat k) (ly_col_shift y + Z.of_nat k) dv s0) as (s1 & E1 & P1 & P2 & P3).
        { unfold in_matrix. rewrite !andb_true_iff, !Z.leb_le, !Z.ltb_lt. lia. } { unfold zero_at. rewrite HM. apply HZ; auto. }
        rewrite E1. destruct (IH s1 ND) as (s' & E' & A1 & A2).
        + congruence.
        + intros k' Hk'. destruct (H k' (or_intror Hk')) as [K1 K2]. split; [exact K1|]. intros c. rewrite P2; [apply K2|]. intros [D _]. assert (k' = k) by lia. subst k'. contradiction.
        + exists s'. split; [exact E'|]. split; [exact A1|]. intros x r. rewrite A2, P1, sum_cons, Ek. ring.
      - destruct (IH s0 ND EE) as (s' & E' & A1 & A2); [intros k' Hk'; apply H; right; exact Hk'|]. exists s'. split; [exact E'|]. split; [exact A1|]. intros x r. rewrite A2, sum_cons, Ek. ring. }
    destruct (G (seq 0 (Z.to_nat (matrix_rows y))) s (seq_NoDup _ _) eq_refl) as (s' & E' & A1 & A2). { intros k Hk. apply in_seq in Hk. split; [lia|reflexivity]. }
    exists s'. split; [exact E'|]. split; [exact A1|]. intros x i Hi. rewrite A2.
    assert (PICK : (sum_over (fun k => if as_empty s (Z.of_nat k) then at_row (rs + i)%Z (rs + Z.of_nat k)%Z (dv * x (ly_col_shift y + Z.of_nat k)%Z) else 0)%Q (seq 0 (Z.to_nat (matrix_rows y))) == if as_empty s i then dv * x (ly_col_shift y + i)%Z else 0)%Q).
    { etransitivity; [|etransitivity; [apply (sum_only (Z.to_nat i) (Z.to_nat (matrix_rows y)) (fun k => if as_empty s (Z.of_nat k) then dv * x (ly_col_shift y + Z.of_nat k)%Z else 0)%Q); lia|rewrite Z2Nat.id by lia; reflexivity]].
      apply sum_ext. intros k Hk. apply in_seq in Hk. unfold at_row, only. destruct (Z.eqb_spec (rs + i) (rs + Z.of_nat k)), (Nat.eqb_spec (Z.to_nat i) k); try (exfalso; lia); destruct (as_empty s (Z.of_nat k)); reflexivity. }
    rewrite PICK. destruct (as_empty s i) eqn:Ei; [|ring]. rewrite (ap_zero _ x (rs + i)); [ring|]. intros c. apply HZ; auto.
  Qed.
End Insert.

(** ** The boundary conditions as a list of insertions *)
Lemma fold_opt_app : forall (A B : Type) (f : A -> B -> option A) l l' s, fold_opt f (l ++ l') s = let* s := fold_opt f l s in fold_opt f l' s.
Proof. intros A B f. induction l as [|b l IH]; intros l' s; cbn [app fold_opt]; [reflexivity|]. destruct (f s b); [apply IH|reflexivity]. Qed.
Lemma fold_opt_flat : forall (A B C : Type) (f : A -> B -> option A) (F : A -> C -> option A) (g : C -> list B) l s, (forall c s, In c l -> F s c = fold_opt f (g c) s) -> fold_opt F l s = fold_opt f (flat_map g l) s.
Proof.
  intros A B C f F g. induction l as [|c l IH]; intros s H; cbn [fold_opt flat_map]; [reflexivity|]. rewrite fold_opt_app, H by (left; reflexivity). destruct (fold_opt f (g c) s); [|reflexivity]. apply IH. intros; apply H; right; auto.
Qed.
Lemma fold_opt_map : forall (A B C : Type) (f : A -> B -> option A) (F : A -> C -> option A) (g : C -> B) l s, (forall c s, In c l -> F s c = f s (g c)) -> fold_opt F l s = fold_opt f (map g l) s.
Proof. intros A B C f F g. induction l as [|c l IH]; intros s H; cbn [fold_opt map]; [reflexivity|]. rewrite H by (left; reflexivity). destruct (f s (g c)); [|reflexivity]. apply IH. intros; apply H; right; auto. Qed.
Lemma NoDup_flat_key : forall (A B K : Type) (f : A -> list B) (g : A -> K) l, NoDup (map g l) -> (forall a, In a l -> NoDup (f a)) -> (forall a b x, In a l -> In b l -> In x (f a) -> In x (f b) -> g a = g b) -> NoDup (flat_map f l).
Proof.
  intros A B K f g. induction l as [|a l IH]; intros ND F D; cbn [flat_map]; [constructor|]. cbn [map] in ND. apply NoDup_cons_iff in ND as [N1 ND]. apply NoDup_app2.
  - apply F. left; auto.
  - apply IH; auto; intros; [apply F; right; auto|eapply D; eauto; right; auto].
  - intros x Hx Hx'. apply in_flat_map in Hx' as (b & Hb & Hx'). apply N1. rewrite (D a b x); auto; [apply in_map; auto|left; auto|right; auto].
Qed.

Definition bc_e0 : scell := mkSC 0 [] 0.
Definition bc_m0 : nat -> nat -> Q := fun _ _ => 0%Q.
Definition ghost_cell (b : bc_call) (eq : bc_eq) : Z := sc_index (nth (eq_ghost eq) (bc_cells b) bc_e0).
Definition pairs_of (calls : list bc_call) : list (bc_call * bc_eq) := flat_map (fun b => map (pair b) (bc_eqs b)) calls.
(** The equations of the calls: each one has its ghost, which is not one of [leaf]. *)
Record good_calls (N : Z) (leaf : Z -> Prop) (calls : list bc_call) : Prop := {
  gc_cells : forall b c, In b calls -> In c (bc_cells b) -> 0 <= sc_index c < N;
  gc_distinct : forall b, In b calls -> NoDup (map sc_index (bc_cells b));
  gc_eqs : forall b eq, In b calls -> In eq (bc_eqs b) -> length (eq_coeffs eq) = length (bc_cells b) /\ (eq_ghost eq < length (bc_cells b))%nat /\ ~ leaf (ghost_cell b eq);
  gc_ghosts : NoDup (map (fun '(b, eq) => ghost_cell b eq) (pairs_of calls)) }.

Section Bc.
  Context (y : layout).
  Definition eq_writes (be : bc_call * bc_eq) : list (Z * Z * Q) := let '(b, eq) := be in
    flat_map (fun c => map (fun fi => (col_index y (ghost_cell b eq) fi, col_index y (sc_index (nth c (bc_cells b) bc_e0)) fi, nth c (eq_coeffs eq) bc_m0 fi fi)) (seq 0 (ly_os y))) (seq 0 (length (bc_cells b))).

  Lemma bc_writes : forall leaf calls s, good_calls (ly_cells y) leaf calls -> fold_opt (assemble_bc y) calls s = fold_opt (do_write y) (flat_map eq_writes (pairs_of calls)) s.
  Proof.
    intros leaf calls s GC. unfold pairs_of. assert (FF : forall l, flat_map eq_writes (flat_map (fun b => map (pair b) (bc_eqs b)) l) = flat_map (fun b => flat_map (fun eq => eq_writes (b, eq)) (bc_eqs b)) l).
    { induction l as [|b l IH]; [reflexivity|]. cbn [flat_map]. rewrite flat_map_app, IH. f_equal. clear. induction (bc_eqs b) as [|e l IH]; [reflexivity|]. cbn [map flat_map]. rewrite IH. reflexivity. }
    rewrite FF. apply fold_opt_flat. intros b s0 Hb. unfold assemble_bc. apply fold_opt_flat. intros eq s1 He. destruct (gc_eqs _ _ _ GC b eq Hb He) as (L1 & L2 & _).
    rewrite (nth_error_nth' _ bc_e0 L2). unfold eq_writes. apply fold_opt_flat. intros c s2 Hc. apply in_seq in Hc. apply fold_opt_map. intros fi s3 _. cbv zeta. rewrite (nth_error_nth' _ bc_e0) by lia. rewrite (nth_error_nth' _ bc_m0) by lia. reflexivity.
  Qed.

  Context (SQ : ly_os y = ly_fs y) (SH : ly_row_shift y = ly_col_shift y).
  Lemma row_col : forall c f, row_index y c f = col_index y c f.
  Proof. intros c f. unfold row_index, col_index. rewrite SQ, SH. reflexivity. Qed.

  Lemma keys_distinct : forall leaf calls, good_calls (ly_cells y) leaf calls -> NoDup (map fst (flat_map eq_writes (pairs_of calls))).
  Proof.
    intros leaf calls GC. assert (PI : forall b eq, In (b, eq) (pairs_of calls) -> In b calls /\ In eq (bc_eqs b)).
    { intros b eq H. apply in_flat_map in H as (b' & Hb & H). apply in_map_iff in H as (e' & E & He). injection E as <- <-. auto. }
    assert (OK : forall b eq, In (b, eq) (pairs_of calls) -> cellok y (ghost_cell b eq)).
    { intros b eq H. apply PI in H as [Hb He]. apply (gc_cells _ _ _ GC b); auto. apply nth_In. apply (gc_eqs _ _ _ GC b eq Hb He). }
    rewrite flat_map_concat_map, concat_map, map_map, <- flat_map_concat_map. apply (NoDup_flat_key _ _ _ _ (fun '(b, eq) => ghost_cell b eq)); [apply (gc_ghosts _ _ _ GC)| |].
    - intros [b eq] H. destruct (PI b eq H) as [Hb He]. unfold eq_writes. rewrite flat_map_concat_map, concat_map, map_map, <- flat_map_concat_map. apply (NoDup_flat_key _ _ _ _ (fun c => sc_index (nth c (bc_cells b) bc_e0))).
      + replace (map (fun c => sc_index (nth c (bc_cells b) bc_e0)) (seq 0 (length (bc_cells b)))) with (map sc_index (bc_cells b)); [apply (gc_distinct _ _ _ GC b Hb)|].
        clear. change (fun c => sc_index (nth c (bc_cells b) bc_e0)) with (fun c => (fun e => sc_index e) (nth c (bc_cells b) bc_e0)). rewrite <- (map_map (fun c => nth c (bc_cells b) bc_e0) (fun e => sc_index e)). f_equal.
        clear. induction (bc_cells b) as [|e l IH]; [reflexivity|]. cbn [length seq map nth]. f_equal. rewrite <- seq_shift, map_map. exact IH.
      + intros c Hc. apply in_seq in Hc. rewrite map_map. cbn [fst]. apply NoDup_map_in; [apply seq_NoDup|]. intros f f' Hf Hf' E. apply in_seq in Hf, Hf'. injection E as E _.
        apply data_inj in E as [_ E]; try lia; auto; [apply OK; exact H|apply OK; exact H].
      + intros c c' x Hc Hc' Hx Hx'. apply in_seq in Hc, Hc'. rewrite map_map in Hx, Hx'. cbn [fst] in Hx, Hx'. apply in_map_iff in Hx as (f & <- & Hf), Hx' as (f' & E & Hf'). apply in_seq in Hf, Hf'. injection E as _ E.
        assert (CK : forall c, (c < length (bc_cells b))%nat -> cellok y (sc_index (nth c (bc_cells b) bc_e0))) by (intros k Hk; apply (gc_cells _ _ _ GC b); auto; apply nth_In; exact Hk).
        apply data_inj in E as [E _]; try lia; auto; apply CK; lia.
    - intros [b eq] [b' eq'] x H H' Hx Hx'. apply in_map_iff in Hx as ([[r c] q] & <- & Hw), Hx' as ([[r' c'] q'] & E & Hw'). cbn [fst] in E. injection E as Er Ec. unfold eq_writes in Hw, Hw'.
      apply in_flat_map in Hw as (k & _ & Hw), Hw' as (k' & _ & Hw'). apply in_map_iff in Hw as (f & Ew & Hf), Hw' as (f' & Ew' & Hf'). apply in_seq in Hf, Hf'. injection Ew as Ew _ _. injection Ew' as Ew' _ _. rewrite <- Ew, <- Ew' in Er.
      apply data_inj in Er as [Er _]; try lia; auto; apply OK; auto.
  Qed.
End Bc.
