(** Proofs about the preallocation: what the loops add, and the positions. *)
From Coq Require Import QArith Permutation.
From Verif Require Import Base IntervalModel Spec LcaModel CellArrayModel SubsetModel StencilModel InterfaceModel GeomModel FluxModel NumModel GhostModel ReconModel LinFluxModel AssemblyModel AssemblyProofs3 AssemblyProofs6 NnzModel.
Open Scope Z_scope.

(** The positions of a row. *)
Definition rowcount (r : Z) (l : list (Z * Z)) : Z := Z.of_nat (length (filter (fun p => fst p =? r) l)).
Lemma rowcount_nil : forall r, rowcount r [] = 0. Proof. reflexivity. Qed.
Lemma rowcount_app : forall r a b, rowcount r (a ++ b) = rowcount r a + rowcount r b.
Proof. intros r a b. unfold rowcount. rewrite filter_app, app_length. lia. Qed.
Lemma rowcount_cons : forall r p l, rowcount r (p :: l) = (if fst p =? r then 1 else 0) + rowcount r l.
Proof. intros r p l. unfold rowcount. cbn [filter]. destruct (fst p =? r); cbn [length]; lia. Qed.
Lemma rowcount_nonneg : forall r l, 0 <= rowcount r l. Proof. intros. unfold rowcount. lia. Qed.
Lemma rowcount_perm : forall r a b, Permutation a b -> rowcount r a = rowcount r b.
Proof. intros r a b P. induction P; [reflexivity|rewrite !rowcount_cons, IHP; reflexivity|rewrite !rowcount_cons; lia|congruence]. Qed.
Lemma rowcount_distinct : forall r l cols, NoDup cols -> (forall c, In c cols -> In (r, c) l) -> Z.of_nat (length cols) <= rowcount r l.
Proof.
  intros r l cols ND H. unfold rowcount. apply inj_le. rewrite <- (map_length (pair r)). apply NoDup_incl_length.
  - clear H. induction ND as [|c cols N ND IH]; [constructor|]. cbn [map]. constructor; [|exact IH]. intros K. apply in_map_iff in K as (c' & E & K). injection E as ->. contradiction.
  - intros p Hp. apply in_map_iff in Hp as (c & <- & Hc). apply filter_In. split; [auto|]. apply Z.eqb_refl.
Qed.
Lemma rowcount_none : forall r l, (forall p, In p l -> fst p <> r) -> rowcount r l = 0.
Proof. intros r l. induction l as [|p l IH]; intros H; [reflexivity|]. rewrite rowcount_cons, IH by (intros; apply H; right; auto). destruct (Z.eqb_spec (fst p) r) as [E|E]; [|reflexivity]. exfalso. apply (H p); [left; reflexivity|exact E]. Qed.
Lemma rowcount_pos : forall r c l, In (r, c) l -> 0 < rowcount r l.
Proof. intros r c l. induction l as [|p l IH]; intros H; [destruct H|]. rewrite rowcount_cons. pose proof (rowcount_nonneg r l). destruct H as [->|H]; [cbn [fst]; rewrite Z.eqb_refl; lia|]. specialize (IH H). destruct (fst p =? r); lia. Qed.
Lemma rowcount_flat_app : forall (A : Type) r (f g : A -> list (Z * Z)) l, rowcount r (flat_map (fun a => f a ++ g a) l) = rowcount r (flat_map f l) + rowcount r (flat_map g l).
Proof. intros A r f g. induction l as [|a l IH]; [reflexivity|]. cbn [flat_map]. rewrite !rowcount_app, IH. lia. Qed.

(** ** Adding *)
(** A step adds w for each position. *)
Definition counts_by (w : Z) (f : counts -> option counts) (L : list (Z * Z)) : Prop :=
  forall s, exists s', f s = Some s' /\ forall r, s' r = s r + w * rowcount r L.
Lemma counts_fold : forall (A : Type) w (f : counts -> A -> option counts) (g : A -> list (Z * Z)) l, (forall a, In a l -> counts_by w (fun s => f s a) (g a)) -> counts_by w (fold_opt f l) (flat_map g l).
Proof.
  intros A w f g. induction l as [|a l IH]; intros H s; cbn [fold_opt flat_map]; [exists s; split; [reflexivity|]; intros r; rewrite rowcount_nil; lia|].
  destruct (H a (or_introl eq_refl) s) as (s1 & E1 & S1). rewrite E1. destruct (IH (fun b h => H b (or_intror h)) s1) as (s2 & E2 & S2). exists s2. split; [exact E2|]. intros r. rewrite S2, S1, rowcount_app. lia.
Qed.
Lemma counts_perm : forall w f a b, Permutation a b -> counts_by w f a -> counts_by w f b.
Proof. intros w f a b P H s. destruct (H s) as (s' & E & S). exists s'. split; [exact E|]. intros r. rewrite S, (rowcount_perm r a b P). reflexivity. Qed.
Lemma add_spec : forall rows r k s, 0 <= r < rows -> exists s', nnz_add rows r k s = Some s' /\ forall i, s' i = s i + (if r =? i then k else 0).
Proof.
  intros rows r k s H. unfold nnz_add. replace ((0 <=? r) && (r <? rows)) with true by lia. cbn [checked]. eexists. split; [reflexivity|]. intros i. cbv beta. rewrite (Z.eqb_sym i r). destruct (r =? i); lia.
Qed.

Section Adding.
  Context (rows : Z) (y : layout) (rec : recursion).
  Context (HR : 0 <= ly_row_shift y /\ ly_row_shift y + matrix_rows y <= rows).
  Lemma row_ok : forall c fi, cellok y c -> (fi < ly_os y)%nat -> 0 <= row_index y c fi < rows.
  Proof. intros c fi Hc Hf. pose proof (row_range y c fi Hc Hf). lia. Qed.

  Lemma column_count : forall lrow rrow cell fj r, Z.of_nat (ly_fs y) * rowcount r (column_positions y rec lrow rrow cell fj) = (if lrow =? r then cell_count y rec cell else 0) + (if rrow =? r then cell_count y rec cell else 0).
  Proof.
    intros lrow rrow cell fj r. unfold column_positions, cell_count. cbv zeta. destruct (rec_find cell rec) as [lc|].
    - assert (K : rowcount r (flat_map (fun '(cell, _) => [(lrow, col_index y cell fj); (rrow, col_index y cell fj)]) lc) = (if lrow =? r then Z.of_nat (length lc) else 0) + (if rrow =? r then Z.of_nat (length lc) else 0)).
      { induction lc as [|[c q] lc IH]; [cbn; destruct (lrow =? r), (rrow =? r); reflexivity|]. cbn [flat_map]. rewrite rowcount_app, !rowcount_cons, rowcount_nil, IH. cbn [fst length]. destruct (lrow =? r), (rrow =? r); lia. }
      rewrite K. destruct (lrow =? r), (rrow =? r); lia.
    - rewrite !rowcount_cons, rowcount_nil. cbn [fst]. destruct (lrow =? r), (rrow =? r); lia.
  Qed.
  Lemma interface_count : forall i a b, fst i = [a; b] -> cellok y (sc_index a) -> cellok y (sc_index b) -> counts_by (Z.of_nat (ly_fs y)) (fun s => sparsity_interface rows y rec s i) (interface_positions y rec i).
  Proof.
    intros i a b Ei Ha Hb. unfold sparsity_interface, interface_positions. rewrite Ei. cbn [nth_error]. apply counts_fold. intros fi Hf. apply in_seq in Hf. apply counts_fold. intros fj _. apply counts_fold. intros e _ s. cbv zeta.
    destruct (add_spec rows (row_index y (sc_index a) fi) (cell_count y rec (sc_index e)) s) as (s1 & E1 & S1); [apply row_ok; [exact Ha|lia]|]. rewrite E1.
    destruct (add_spec rows (row_index y (sc_index b) fi) (cell_count y rec (sc_index e)) s1) as (s2 & E2 & S2); [apply row_ok; [exact Hb|lia]|]. exists s2. split; [exact E2|]. intros r. rewrite column_count, S2, S1. lia.
  Qed.
  Lemma boundary_count : forall i a, fst i = [a] -> cellok y (sc_index a) -> counts_by (Z.of_nat (ly_fs y)) (fun s => sparsity_boundary_interface rows y s i) (boundary_positions y i).
  Proof.
    intros i a Ei Ha. unfold sparsity_boundary_interface, boundary_positions. rewrite Ei. cbn [nth_error]. apply counts_fold. intros fi Hf. apply in_seq in Hf. apply counts_fold. intros fj _ s.
    destruct (add_spec rows (row_index y (sc_index a) fi) (Z.of_nat (length (snd i)) * Z.of_nat (ly_fs y)) s) as (s1 & E1 & S1); [apply row_ok; [exact Ha|lia]|]. exists s1. split; [exact E1|]. intros r. rewrite S1.
    assert (K : forall es, rowcount r (map (fun e => (row_index y (sc_index a) fi, col_index y (sc_index e) fj)) es) = if row_index y (sc_index a) fi =? r then Z.of_nat (length es) else 0).
    { induction es as [|e es IH]; [cbn; destruct (_ =? r); reflexivity|]. cbn [map length]. rewrite rowcount_cons, IH. cbn [fst]. destruct (row_index y (sc_index a) fi =? r); lia. }
    rewrite K. destruct (row_index y (sc_index a) fi =? r); lia.
  Qed.
End Adding.

(** ** Setting *)
Definition sets_to (f : counts -> option counts) (ws : list (Z * Z)) : Prop :=
  forall s, exists s', f s = Some s' /\ forall r, (~ In r (map fst ws) -> s' r = s r) /\ (In r (map fst ws) -> In (r, s' r) ws).
Lemma sets_fold : forall (A : Type) (f : counts -> A -> option counts) (g : A -> list (Z * Z)) l, (forall a, In a l -> sets_to (fun s => f s a) (g a)) -> sets_to (fold_opt f l) (flat_map g l).
Proof.
  intros A f g. induction l as [|a l IH]; intros H s; cbn [fold_opt flat_map]; [exists s; split; [reflexivity|]; intros r; split; [reflexivity|intros []]|].
  destruct (H a (or_introl eq_refl) s) as (s1 & E1 & S1). rewrite E1. destruct (IH (fun b h => H b (or_intror h)) s1) as (s2 & E2 & S2). exists s2. split; [exact E2|]. intros r. destruct (S1 r) as [A1 A2], (S2 r) as [B1 B2]. rewrite map_app. split.
  - intros N. rewrite B1, A1; [reflexivity| |]; intros K; apply N; apply in_or_app; auto.
  - intros K. apply in_or_app. destruct (in_dec Z.eq_dec r (map fst (flat_map g l))) as [D|D]; [right; auto|]. left. rewrite (B1 D). apply A2. apply in_app_or in K as [K|K]; [exact K|contradiction].
Qed.
Lemma set_spec : forall rows r k, 0 <= r < rows -> sets_to (nnz_set rows r k) [(r, k)].
Proof.
  intros rows r k H s. unfold nnz_set. replace ((0 <=? r) && (r <? rows)) with true by lia. cbn [checked]. eexists. split; [reflexivity|]. intros i. cbv beta. cbn [map fst In]. split.
  - intros N. destruct (Z.eqb_spec i r) as [E|E]; [exfalso; apply N; left; congruence|reflexivity].
  - intros [<-|[]]. rewrite Z.eqb_refl. left. reflexivity.
Qed.

Section Setting.
  Context (rows : Z) (y : layout) (rec : recursion).
  Context (HR : 0 <= ly_row_shift y /\ ly_row_shift y + matrix_rows y <= rows).
  Definition bc_counts (be : bc_call * bc_eq) : list (Z * Z) := flat_map (fun fi => [(row_index y (ghost_cell (fst be) (snd be)) fi, Z.of_nat (length (bc_cells (fst be))))]) (seq 0 (ly_os y)).
  Lemma bc_sets : forall leaf calls, good_calls (ly_cells y) leaf calls -> sets_to (fold_opt (sparsity_bc rows y) calls) (flat_map bc_counts (pairs_of calls)).
  Proof.
    intros leaf calls GC. assert (FF : forall l, flat_map bc_counts (pairs_of l) = flat_map (fun b => flat_map (fun eq => bc_counts (b, eq)) (bc_eqs b)) l).
    { unfold pairs_of. induction l as [|b l IH]; [reflexivity|]. cbn [flat_map]. rewrite flat_map_app, IH. f_equal. clear. induction (bc_eqs b) as [|e l IH]; [reflexivity|]. cbn [map flat_map]. rewrite IH. reflexivity. }
    rewrite FF. apply sets_fold. intros b Hb. unfold sparsity_bc. apply sets_fold. intros eq He. destruct (gc_eqs _ _ _ GC b eq Hb He) as (L1 & L2 & _). rewrite (nth_error_nth' _ bc_e0 L2). unfold bc_counts. apply sets_fold. intros fi Hf. apply in_seq in Hf. cbn [fst snd].
    apply set_spec. apply (row_ok rows y HR); [|lia]. apply (gc_cells _ _ _ GC b); [exact Hb|]. apply nth_In. exact L2.
  Qed.
  Definition ghost_counts (gs : list Z) : list (Z * Z) := flat_map (fun g => flat_map (fun fi => match rec_find g rec with Some lc => [(row_index y g fi, Z.of_nat (length lc))] | None => [] end) (seq 0 (ly_os y))) gs.
  Lemma ghost_sets : forall gs, (forall g, In g gs -> cellok y g /\ rec_find g rec <> None) -> sets_to (sparsity_ghosts rows y rec gs) (ghost_counts gs).
  Proof.
    intros gs H. unfold sparsity_ghosts, ghost_counts. apply sets_fold. intros g Hg. destruct (H g Hg) as [Hc Hn]. apply sets_fold. intros fi Hf. apply in_seq in Hf. destruct (rec_find g rec) as [lc|]; [|contradiction].
    apply set_spec. apply (row_ok rows y HR); [exact Hc|lia].
  Qed.
  Lemma useless_counts : forall s, exists s', sparsity_useless rows y s = Some s' /\ forall r, s' r = if (ly_row_shift y <=? r) && (r <? ly_row_shift y + matrix_rows y) && (s r =? 0) then 1 else s r.
  Proof.
    intros s. unfold sparsity_useless.
    assert (G : forall l s, (forall k, In k l -> 0 <= Z.of_nat k < matrix_rows y) -> exists s', fold_opt (fun nnz i => let row := ly_row_shift y + Z.of_nat i in checked ((0 <=? row) && (row <? rows)) (if nnz row =? 0 then nnz_set rows row 1 nnz else Some nnz)) l s = Some s' /\
      forall r, s' r = if existsb (fun i => ly_row_shift y + Z.of_nat i =? r) l && (s r =? 0) then 1 else s r).
    { induction l as [|k l IH]; intros s0 H; cbn [fold_opt existsb]; [exists s0; split; [reflexivity|]; intros r; reflexivity|]. cbv zeta. pose proof (H k (or_introl eq_refl)) as Hk. replace ((0 <=? ly_row_shift y + Z.of_nat k) && (ly_row_shift y + Z.of_nat k <? rows)) with true by lia. cbn [checked].
      destruct (Z.eqb_spec (s0 (ly_row_shift y + Z.of_nat k)) 0) as [E|E].
      - unfold nnz_set. replace ((0 <=? ly_row_shift y + Z.of_nat k) && (ly_row_shift y + Z.of_nat k <? rows)) with true by lia. cbn [checked]. destruct (IH (fun i => if i =? ly_row_shift y + Z.of_nat k then 1 else s0 i) (fun b h => H b (or_intror h))) as (s' & E' & S'). exists s'. split; [exact E'|]. intros r. rewrite S'.
        rewrite (Z.eqb_sym r). destruct (Z.eqb_spec (ly_row_shift y + Z.of_nat k) r) as [<-|D]; [|reflexivity]. rewrite E. cbn [orb andb Z.eqb]. rewrite andb_false_r. reflexivity.
      - destruct (IH s0 (fun b h => H b (or_intror h))) as (s' & E' & S'). exists s'. split; [exact E'|]. intros r. rewrite S'. destruct (Z.eqb_spec (ly_row_shift y + Z.of_nat k) r) as [<-|D]; [|reflexivity]. cbn [orb]. destruct (Z.eqb_spec (s0 (ly_row_shift y + Z.of_nat k)) 0) as [E2|E2]; [contradiction|]. rewrite !andb_false_r. reflexivity. }
    destruct (G (seq 0 (Z.to_nat (matrix_rows y))) s) as (s' & E' & S'); [intros k Hk; apply in_seq in Hk; lia|]. exists s'. split; [exact E'|]. intros r. rewrite S'.
    replace (existsb (fun i => ly_row_shift y + Z.of_nat i =? r) (seq 0 (Z.to_nat (matrix_rows y)))) with ((ly_row_shift y <=? r) && (r <? ly_row_shift y + matrix_rows y)); [reflexivity|]. symmetry.
    apply eq_true_iff_eq. rewrite existsb_exists, andb_true_iff, Z.leb_le, Z.ltb_lt. split.
    - intros (k & Hk & E). apply in_seq in Hk. apply Z.eqb_eq in E. lia.
    - intros H. exists (Z.to_nat (r - ly_row_shift y)). split; [apply in_seq; lia|]. apply Z.eqb_eq. lia.
  Qed.
End Setting.

(** ** The matrix is changed at the positions only *)
Definition frame (f : asm -> option asm) (L : list (Z * Z)) : Prop := forall s s', f s = Some s' -> forall r c, ~ In (r, c) L -> as_mat s' r c = as_mat s r c.
Lemma frame_fold : forall (A : Type) (f : asm -> A -> option asm) (g : A -> list (Z * Z)) l, (forall a, In a l -> frame (fun s => f s a) (g a)) -> frame (fold_opt f l) (flat_map g l).
Proof.
  intros A f g. induction l as [|a l IH]; intros H s s' E r c N; cbn [fold_opt flat_map] in *; [injection E as <-; reflexivity|]. destruct (f s a) as [s1|] eqn:E1; [|discriminate E]. cbv beta iota zeta in E.
  rewrite (IH (fun b h => H b (or_intror h)) s1 s' E) by (intros K; apply N; apply in_or_app; auto). apply (H a (or_introl eq_refl) s s1 E1). intros K. apply N. apply in_or_app; auto.
Qed.
Lemma frame_bind : forall f g L, frame f L -> frame g L -> frame (fun s => let* s := f s in g s) L.
Proof. intros f g L Hf Hg s s' E r c N. cbv beta in E. destruct (f s) as [s1|] eqn:E1; [|discriminate E]. rewrite (Hg s1 s' E r c N). exact (Hf s s1 E1 r c N). Qed.
Lemma frame_more : forall f L L', (forall p, In p L -> In p L') -> frame f L -> frame f L'.
Proof. intros f L L' I F s s' E r c N. apply (F s s' E). intros K. apply N. apply I. exact K. Qed.
Lemma frame_add : forall y r c q L, In (r, c) L -> frame (mat_add y r c q) L.
Proof.
  intros y r c q L I s s' E r' c' N. unfold mat_add, checked in E. destruct (in_matrix y r c); [|discriminate E]. injection E as <-. cbn [as_mat]. destruct (Z.eqb_spec r' r) as [->|D]; [|reflexivity]. destruct (Z.eqb_spec c' c) as [->|D]; [|reflexivity]. contradiction.
Qed.
Lemma frame_insert : forall y r c q L, In (r, c) L -> frame (mat_insert y r c q) L.
Proof.
  intros y r c q L I s s' E r' c' N. unfold mat_insert, checked in E. destruct (in_matrix y r c); [|discriminate E]. injection E as <-. cbn [as_mat]. destruct (Z.eqb_spec r' r) as [->|D]; [|reflexivity]. destruct (Z.eqb_spec c' c) as [->|D]; [|reflexivity]. contradiction.
Qed.
Lemma frame_row : forall y r L, frame (set_row_not_empty y r) L.
Proof. intros y r L s s' E r' c' N. unfold set_row_not_empty, checked in E. destruct (_ && _); [|discriminate E]. injection E as <-. reflexivity. Qed.
Lemma frame_column : forall y rec lrow rrow cell fj lc rc, frame (add_column y rec lrow rrow cell fj lc rc) (column_positions y rec lrow rrow cell fj).
Proof.
  intros y rec lrow rrow cell fj lc rc. unfold add_column, column_positions. destruct (rec_find cell rec) as [l|].
  - apply frame_fold. intros [c q] _. cbv zeta. apply frame_bind; apply frame_add; cbn [In]; auto.
  - cbv zeta. apply frame_bind; apply frame_add; cbn [In]; auto.
Qed.
Lemma flat_seq : forall (A B : Type) (g : A -> list B) es p k e, In k (seq 0 (length es)) -> nth_error es k = Some e -> In p (g e) -> In p (flat_map g es).
Proof. intros A B g es p k e _ E H. apply in_flat_map. exists e. split; [eapply nth_error_In; exact E|exact H]. Qed.
Lemma frame_each : forall (A : Type) (f : asm -> A -> option asm) (L : list (Z * Z)) (l : list A), (forall a, In a l -> frame (fun s => f s a) L) -> frame (fold_opt f l) L.
Proof.
  intros A f L. induction l as [|a l IH]; intros H s s' E r c N; cbn [fold_opt] in E; [injection E as <-; reflexivity|]. destruct (f s a) as [s1|] eqn:E1; [|discriminate E]. cbv beta iota zeta in E.
  rewrite (IH (fun b h => H b (or_intror h)) s1 s' E r c N). apply (H a (or_introl eq_refl) s s1 E1 r c N).
Qed.
Lemma frame_interface : forall y rec e, frame (fun s => assemble_interface y rec s e) (interface_positions y rec (fst e)).
Proof.
  intros y rec [[cs es] [lcs rcs]]. unfold assemble_interface, interface_positions. cbn [fst snd]. destruct cs as [|l [|r cs]]; cbn [nth_error]; [intros s s' E; discriminate E|intros s s' E; discriminate E|].
  apply frame_fold. intros fi _. cbv zeta. apply frame_bind; [|apply frame_bind; apply frame_row]. apply frame_fold. intros fj _. apply frame_each. intros k Hk s s' E. 
  destruct (nth_error es k) as [e|] eqn:Ee; [|discriminate E]. destruct (nth_error lcs k) as [lc|]; [|discriminate E]. destruct (nth_error rcs k) as [rc|]; [|discriminate E].
  revert s s' E. apply (frame_more _ (column_positions y rec (row_index y (sc_index l) fi) (row_index y (sc_index r) fi) (sc_index e) fj)); [|apply frame_column]. intros p Hp. apply (flat_seq _ _ _ es p k e Hk Ee Hp).
Qed.
Lemma frame_boundary : forall y e, frame (fun s => assemble_boundary_interface y s e) (boundary_positions y (fst e)).
Proof.
  intros y [[cs es] co]. unfold assemble_boundary_interface, boundary_positions. cbn [fst snd]. destruct cs as [|l cs]; cbn [nth_error]; [intros s s' E; discriminate E|].
  apply frame_fold. intros fi _. cbv zeta. apply frame_bind; [|apply frame_row]. apply frame_fold. intros fj _. apply frame_each. intros k Hk s s' E.
  destruct (nth_error es k) as [e|] eqn:Ee; [|discriminate E]. destruct (nth_error co k) as [q|]; [|discriminate E]. revert s s' E. apply frame_add. apply in_map_iff. exists e. split; [reflexivity|eapply nth_error_In; exact Ee].
Qed.
Lemma nth_combine : forall (A B : Type) (a : list A) (b : list B) k x z, nth_error a k = Some x -> nth_error b k = Some z -> In (x, z) (combine a b).
Proof. intros A B. induction a as [|u a IH]; intros b k x z E F; [destruct k; discriminate E|]. destruct b as [|v b]; [destruct k; discriminate F|]. destruct k as [|k]; cbn in *; [left; congruence|right; eauto]. Qed.
Lemma frame_bc : forall y b, frame (fun s => assemble_bc y s b) (bc_positions y b).
Proof.
  intros y b. unfold assemble_bc, bc_positions. apply frame_fold. intros eq _. destruct (nth_error (bc_cells b) (eq_ghost eq)) as [g|]; [|intros s s' E; discriminate E].
  apply frame_each. intros k Hk. apply frame_each. intros fi Hf s s' E. cbv zeta in E. destruct (nth_error (bc_cells b) k) as [e|] eqn:Ee; [|discriminate E]. destruct (nth_error (eq_coeffs eq) k) as [m|] eqn:Em; [|discriminate E].
  destruct (Qeq_bool (m fi fi) 0) eqn:Q0; [injection E as <-; reflexivity|]. revert s s' E. apply frame_bind; [|apply frame_row]. apply frame_insert. apply in_flat_map. exists (e, m). split; [eapply nth_combine; eassumption|]. apply in_flat_map. exists fi. split; [exact Hf|]. rewrite Q0. left. reflexivity.
Qed.
Lemma frame_useless : forall y dv s s', insert_useless y dv s = Some s' -> as_empty s' = as_empty s /\ forall r c, ~ In (r, c) (useless_positions y (as_empty s)) -> as_mat s' r c = as_mat s r c.
Proof.
  intros y dv s s'. unfold insert_useless, useless_positions. generalize (seq 0 (Z.to_nat (matrix_rows y))). intros l. revert s. induction l as [|i l IH]; intros s E; cbn [fold_opt flat_map] in *; [injection E as <-; auto|]. cbv zeta in *.
  destruct (as_empty s (Z.of_nat i)) eqn:Ei.
  - destruct (mat_insert y (ly_row_shift y + Z.of_nat i) (ly_col_shift y + Z.of_nat i) dv s) as [s1|] eqn:E1; [|discriminate E]. assert (EE : as_empty s1 = as_empty s). { unfold mat_insert, checked in E1. destruct (in_matrix y _ _); [|discriminate E1]. injection E1 as <-. reflexivity. }
    destruct (IH s1 E) as [A B]. split; [congruence|]. intros r c N. rewrite B by (rewrite EE; intros K; apply N; right; exact K). apply (frame_insert y _ _ dv [(ly_row_shift y + Z.of_nat i, ly_col_shift y + Z.of_nat i)] (or_introl eq_refl) s s1 E1). intros [K|[]]. apply N. left. exact K.
  - apply IH. exact E.
Qed.
