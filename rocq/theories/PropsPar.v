(** Property C41: the parallel traversals. *)
From Verif Require Import Base IntervalModel Spec LoiModel LcaModel LcaSpec GridProofs SearchProofs IterProofs InitProofs LcaProofs CellArrayModel CellArrayProofs PropsCellArray
  SubsetModel TreeProofs ScanProofs LeafProofs LeafProofs2 SubsetProofs SubsetSpec SubsetProofs2 PropsSubset NumProofs NumberingProofs AdaptModel AdaptProofs TagProofs PropsAdapt ParModel ParProofs.
Open Scope Z_scope.

(** An operation of the function called for the cells of numbers [K] of a field of [N] cells:
    it writes in these cells only; what it does depends only on the local variables, on these
    cells and on the rest of the memory (numbers out of 0..N-1), which nobody writes. *)
Definition confined {L V} (N : Z) (K : list Z) (o : @op L V) : Prop :=
  (forall loc st st', (forall j, In j K \/ j < 0 \/ N <= j -> st j = st' j) ->
     fst (o loc st) = fst (o loc st') /\ forall j, In j K -> snd (o loc st) j = snd (o loc st') j) /\
  forall loc st j, ~ In j K -> snd (o loc st) j = st j.
Definition inside (N j : Z) : Prop := 0 <= j < N.

Lemma confined_own : forall L V N K (o : @op L V), confined N K o -> own (inside N) K o.
Proof.
  intros L V N K o [A B]. split; auto. intros loc st st' H. apply A. intros j [Hj|Hj]; apply H; auto. right. unfold inside. lia.
Qed.

Section Levels.
  Context {L V : Type} (start : L) (W : Z -> Prop) (n : nat) (f : @body L V) (c : ca).
  Definition cell_call (x : nat * (list Z * Z)) : @call L V := let '(l, (p, k)) := x in ([k], f l p k).

  Lemma level_tasks_spec : forall l a cs, for_each_cell n a = Some cs ->
    exists ts, level_tasks n f l a = Some ts /\ concat ts = map cell_call (map (pair l) cs).
  Proof.
    intros l a cs H. unfold for_each_cell in H. unfold level_tasks. destruct (it_begin n a) as [b|]; [|discriminate]. destruct (it_end n a) as [e|]; [|discriminate].
    destruct (traverse (length (a_cells a 0)) a b) as [calls|]; [|discriminate]. injection H as <-. eexists. split; [reflexivity|].
    induction calls as [|[i yz] calls IH]; auto. cbn [map flat_map concat]. rewrite IH, !map_app. f_equal. rewrite !map_map. reflexivity.
  Qed.

  Lemma good_app : forall a b, good_calls W (a ++ b) -> good_calls (L := L) (V := V) W a /\ good_calls (L := L) (V := V) W b.
  Proof.
    intros a b [N G]. unfold labels in N. rewrite flat_map_app in N.
    apply NoDup_app_inv2 in N as (N1 & N2 & _). split; (split; [|intros K os H; apply G, in_app_iff; auto]); auto.
  Qed.

  Lemma run_calls_ext : forall cs (st st' : Z -> V), good_calls W cs -> (forall j, st j = st' j) -> forall j, run_calls start cs st j = run_calls start cs st' j.
  Proof.
    intros cs st st' G H j. destruct (run_calls_spec start W cs st G) as [A B]. destruct (run_calls_spec start W cs st' G) as [A' B'].
    destruct (in_dec Z.eq_dec j (labels cs)) as [Hj|Hj]; [|rewrite B, B'; auto].
    apply in_flat_map in Hj as ([K os] & Hin & Hk). cbn [fst] in Hk. rewrite (A K os j Hin Hk), (A' K os j Hin Hk).
    destruct (proj2 G K os Hin) as [WK F]. apply (run_ops_own W K os F WK); auto.
  Qed.

  Definition level_cells (l : nat) : option (list (nat * (list Z * Z))) :=
    if lca_is_empty (c_at c l) then Some [] else option_map (map (pair l)) (for_each_cell n (c_at c l)).

  Lemma parallel_spec : forall ls cs, concat_opt (map level_cells ls) = Some cs -> good_calls W (map cell_call cs) ->
    (forall schedules st st', parallel_levels start n f c ls schedules st = Some st' -> forall j, st' j = run_calls start (map cell_call cs) st j).
  Proof.
    induction ls as [|l ls IH]; intros cs E G schedules st st' H j; cbn [map concat_opt parallel_levels] in *; [injection E as <-; injection H as <-; reflexivity|].
    destruct (level_cells l) as [x|] eqn:EL; [|discriminate]. destruct (concat_opt (map level_cells ls)) as [y|] eqn:EY; [|discriminate]. injection E as <-.
    rewrite map_app in G |- *. apply good_app in G as [Gx Gy]. unfold level_cells in EL. destruct (lca_is_empty (c_at c l)).
    - injection EL as <-. cbn [map app]. apply (IH y eq_refl Gy _ _ _ H).
    - destruct (for_each_cell n (c_at c l)) as [z|] eqn:EZ; [|discriminate]. cbn [option_map] in EL. injection EL as <-.
      destruct (level_tasks_spec l _ z EZ) as (ts & T1 & T2). rewrite T1 in H. cbn beta iota in H.
      destruct (region start ts st (schedules l)) as [st1|] eqn:R; [|discriminate]. rewrite <- T2 in Gx.
      pose proof (region_spec start W ts st (schedules l) st1 Gx R) as R1. rewrite (IH y eq_refl Gy _ _ _ H j).
      unfold run_calls. rewrite fold_left_app. apply run_calls_ext; auto. rewrite <- T2. exact R1.
  Qed.

  Lemma parallel_ends : forall ls cs, NoDup ls -> concat_opt (map level_cells ls) = Some cs ->
    forall schedules st, exists more, parallel_levels start n f c ls (fun l => schedules l ++ more l) st <> None.
  Proof.
    assert (EXT : forall ls s s' st, (forall l, In l ls -> s l = s' l) -> parallel_levels start n f c ls s st = parallel_levels start n f c ls s' st).
    { induction ls as [|l ls IH]; intros s s' st H; auto. cbn [parallel_levels]. destruct (lca_is_empty (c_at c l)); [apply IH; intros; apply H; right; auto|].
      destruct (level_tasks n f l (c_at c l)) as [ts|]; auto. rewrite (H l ltac:(left; auto)). destruct (region start ts st (s' l)); auto. apply IH; intros; apply H; right; auto. }
    induction ls as [|l ls IH]; intros cs N E schedules st; cbn [map concat_opt parallel_levels] in *; [exists (fun _ => []); discriminate|].
    destruct (level_cells l) as [x|] eqn:EL; [|discriminate]. destruct (concat_opt (map level_cells ls)) as [y|] eqn:EY; [|discriminate].
    inversion N as [|? ? Nl N']; subst. unfold level_cells in EL. destruct (lca_is_empty (c_at c l)).
    - apply (IH y N' eq_refl).
    - destruct (for_each_cell n (c_at c l)) as [z|] eqn:EZ; [|discriminate]. destruct (level_tasks_spec l _ z EZ) as (ts & T1 & T2). rewrite T1. cbn beta iota.
      destruct (region_ends start ts st (schedules l)) as (m1 & H1). destruct (region start ts st (schedules l ++ m1)) as [st1|] eqn:R; [|congruence].
      destruct (IH y N' eq_refl schedules st1) as (more & Hm). exists (fun l' => if Nat.eqb l' l then m1 else more l'). rewrite Nat.eqb_refl, R.
      rewrite (EXT ls _ (fun l => schedules l ++ more l)); auto. intros l' Hl. destruct (Nat.eqb_spec l' l) as [->|]; [contradiction|auto].
  Qed.
End Levels.

Lemma labels_cells : forall L V (f : @body L V) cs, labels (map (cell_call f) cs) = map (fun x => snd (snd x)) cs.
Proof. intros L V f. unfold labels. induction cs as [|[l [p k]] cs IH]; auto. cbn [map flat_map]. rewrite IH. reflexivity. Qed.

(** for_each_cell<Run::Parallel> on a mesh built by any history of insertions, with a function
    made of any number of atomic operations, each confined to the cell of the call: whatever
    the schedule of the tasks in each level, if the traversal ends, it ends with the store of
    the sequential traversal; whatever happened, it can still end. That store has, in each
    cell, what the function called on this cell alone makes of the initial store, and the
    rest of the memory is unchanged. *)
Theorem C41_parallel_for_each_cell : forall L V (start : L) n m hist (f : @body L V), good_hist n m hist ->
  let c := client_ca n m hist true in
  (forall l p k, client_cell n m hist l p -> ca_get_index n c l p = Some k -> Forall (confined (ca_nb_cells c) [k]) (f l p k)) ->
  forall st, exists r, sequential_for_each_cell start n f c st = Some r /\
    (forall schedules st', parallel_for_each_cell start n f c schedules st = Some st' -> forall j, st' j = r j) /\
    (forall schedules, exists more, parallel_for_each_cell start n f c (fun l => schedules l ++ more l) st <> None) /\
    (forall l p k, client_cell n m hist l p -> ca_get_index n c l p = Some k -> r k = run_ops (f l p k) start st k) /\
    (forall j, j < 0 \/ ca_nb_cells c <= j -> r j = st j).
Proof.
  intros L V start n m hist f H c HF st. destruct (C12_numbering_bijective n m hist H) as (I1 & I2 & I3 & _). fold c in I1, I2, I3.
  pose proof (numbered_client n m hist H) as NB. fold c in NB. destruct NB as [Wf _].
  destruct (ca_for_each_cell_spec n c Wf) as (cs & E & [_ EN] & IX).
  assert (MC : forall l p, ca_mem n c l p <-> client_cell n m hist l p) by (intros; apply client_mem; auto).
  assert (CL : forall l p k, In (l, (p, k)) cs -> client_cell n m hist l p /\ ca_get_index n c l p = Some k).
  { intros l p k Hin. split; [|apply IX; auto]. apply MC, EN, leaf_cells_In. eauto. }
  assert (ALL : forall l p k, client_cell n m hist l p -> ca_get_index n c l p = Some k -> In (l, (p, k)) cs).
  { intros l p k Hp Hk. apply MC, EN, leaf_cells_In in Hp as (k' & Hin). rewrite (proj2 (CL l p k' Hin)) in Hk. injection Hk as <-. auto. }
  assert (ND : NoDup cs).
  { destruct (ca_for_each_cell_spec n c Wf) as (cs' & E' & [S' _] & _). rewrite E in E'. injection E' as <-.
    apply NoDup_map_inv with (f := fun '(l, (p, _)) => (l, p)). fold (leaf_cells cs). apply (sorted_NoDup _ lc_lt); auto.
    intros [l p] [X|[_ X]]; [lia|]. eapply lex_lt_irrefl; eauto. }
  assert (G : good_calls (inside (ca_nb_cells c)) (map (cell_call f) cs)).
  { split.
    - rewrite labels_cells. clear -ND CL I2.
      assert (INJ : forall x y, In x cs -> In y cs -> snd (snd x) = snd (snd y) -> x = y).
      { intros [l [p k]] [l' [p' k']] Hx Hy E. cbn [snd] in E. subst k'. destruct (CL _ _ _ Hx) as [A B]. destruct (CL _ _ _ Hy) as [A' B'].
        destruct (I2 l p l' p' k A A' B B') as [-> ->]. auto. }
      clear CL I2. induction ND as [|x cs N ND IH]; cbn [map]; constructor.
      + intros Hin. apply in_map_iff in Hin as (y & E & Hy). apply N. rewrite (INJ x y); auto; [left; auto|right; auto].
      + apply IH. intros; apply INJ; auto; right; auto.
    - intros K os Hin. apply in_map_iff in Hin as ([l [p k]] & E' & Hin). apply pair_equal_spec in E' as [<- <-]. destruct (CL _ _ _ Hin) as [A B]. split.
      + intros j [<-|[]]. destruct (I1 l p A) as (i & Hi & Hi'). rewrite B in Hi. injection Hi as <-. exact Hi'.
      + specialize (HF l p k A B). rewrite Forall_forall in *. intros o Ho. apply confined_own. auto. }
  destruct (run_calls_spec start (inside (ca_nb_cells c)) (map (cell_call f) cs) st G) as [R1 R2].
  exists (run_calls start (map (cell_call f) cs) st). split; [|split; [|split; [|split]]].
  - unfold sequential_for_each_cell. rewrite E. reflexivity.
  - intros schedules st' P. apply (parallel_spec start (inside (ca_nb_cells c)) n f c (levels c) cs E G schedules st st' P).
  - intros schedules. apply (parallel_ends start n f c (levels c) cs); auto.
    destruct (levels_spec c) as (S1 & _). apply (sorted_NoDup _ lt); auto. intros x. lia.
  - intros l p k Hp Hk. apply (R1 [k] (f l p k) k); [|left; auto]. apply in_map_iff. exists (l, (p, k)). split; auto.
  - intros j Hj. apply R2. rewrite labels_cells. intros Hin. apply in_map_iff in Hin as ([l [p k]] & <- & Hin). cbn [snd] in Hj. destruct (CL _ _ _ Hin) as [A B].
    destruct (I1 l p A) as (i & Hi & Hi'). rewrite B in Hi. injection Hi as <-. lia.
Qed.

(** ** parallel_for_each_meshinterval *)

(** The numbers in [c] of the cells of an interval. *)
Definition numbers (n : nat) (c : ca) (l : nat) (i : interval) (yz : list Z) : list Z :=
  flat_map (fun x => match ca_get_index n c l (x :: yz) with Some k => [k] | None => [] end) (zrange (istart i) (iend i)).

Lemma numbers_In : forall n c l i yz k, In k (numbers n c l i yz) <-> exists x, istart i <= x < iend i /\ ca_get_index n c l (x :: yz) = Some k.
Proof.
  intros n c l i yz k. unfold numbers. rewrite in_flat_map. split.
  - intros (x & Hx & Hk). apply zrange_In in Hx. exists x. split; auto. destruct (ca_get_index n c l (x :: yz)); [destruct Hk as [<-|[]]; auto|destruct Hk].
  - intros (x & Hx & Hk). exists x. split; [apply zrange_In; auto|]. rewrite Hk. left. auto.
Qed.

(** The same for the traversal of a set expression of level [l] whose cells are all in the mesh,
    one task for each interval: the operations of the call on an interval are confined to the
    cells of that interval. *)
Theorem C41_parallel_for_each_meshinterval : forall L V (start : L) n m hist l t (g : interval -> list Z -> list (@op L V)), good_hist n m hist ->
  let c := client_ca n m hist true in
  operands_ok n l t -> (forall p, length p = S n -> expr_mem n l t p -> client_cell n m hist l p) ->
  (forall i yz, length yz = n -> (forall x, istart i <= x < iend i -> expr_mem n l t (x :: yz)) -> Forall (confined (ca_nb_cells c) (numbers n c l i yz)) (g i yz)) ->
  let s := subset_init l t in
  let f i yz := (numbers n c l i yz, g i yz) in
  exists calls, subset_calls n s = Some calls /\ forall st, exists r, sequential_for_each_meshinterval start n s f st = Some r /\
    (forall schedule st', parallel_for_each_meshinterval start n s f schedule st = Some st' -> forall j, st' j = r j) /\
    (forall schedule, exists more, parallel_for_each_meshinterval start n s f (schedule ++ more) st <> None) /\
    (forall i yz x k, In (i, yz) calls -> istart i <= x < iend i -> ca_get_index n c l (x :: yz) = Some k -> r k = run_ops (g i yz) start st k) /\
    (forall j, (forall p, length p = S n -> expr_mem n l t p -> ca_get_index n c l p <> Some j) -> r j = st j).
Proof.
  intros L V start n m hist l t g H c HO HM HF s f. destruct (C12_numbering_bijective n m hist H) as (I1 & I2 & _). fold c in I1, I2.
  destruct (C18_levels n l t HO) as (calls & E & V1 & ND & _ & C). fold s in E. exists calls. split; auto. intros st.
  assert (CE : forall i yz x, In (i, yz) calls -> istart i <= x < iend i -> length (x :: yz) = S n /\ expr_mem n l t (x :: yz)).
  { intros i yz x Hin Hx. destruct (V1 i yz Hin) as [Ly _]. assert (Lx : length (x :: yz) = S n) by (cbn [length]; lia). split; auto.
    apply C; auto. apply cells_of_calls_In. exists i. auto. }
  assert (LE : labels (map (fun '(i, yz) => f i yz) calls) = flat_map (fun p => match ca_get_index n c l p with Some k => [k] | None => [] end) (cells_of_calls calls)).
  { clear. unfold labels, cells_of_calls. induction calls as [|[i yz] calls IH]; auto. cbn [map flat_map]. rewrite flat_map_app, IH. f_equal. unfold f, numbers. cbn [fst].
    induction (zrange (istart i) (iend i)) as [|x r IHr]; auto. cbn [map flat_map]. rewrite IHr. auto. }
  assert (G : good_calls (inside (ca_nb_cells c)) (map (fun '(i, yz) => f i yz) calls)).
  { split.
    - rewrite LE.
      assert (CC : forall p, In p (cells_of_calls calls) -> client_cell n m hist l p).
      { intros p Hp. assert (P := Hp); unfold cells_of_calls in P; apply in_flat_map in P as ([i yz] & Hin & P); apply in_map_iff in P as (x & <- & Hx); apply zrange_In in Hx. destruct (CE i yz x Hin Hx). auto. }
      clear -ND CC I1 I2. induction ND as [|p ps N ND IH]; cbn [flat_map]; [constructor|].
      destruct (I1 l p) as (k & Hk & _); [apply CC; left; auto|]. rewrite Hk. cbn [app]. constructor; [|apply IH; intros; apply CC; right; auto].
      intros Hin. apply in_flat_map in Hin as (q & Hq & Hk'). destruct (ca_get_index n c l q) as [k'|] eqn:Eq; [destruct Hk' as [->|[]]|destruct Hk'].
      apply N. destruct (I2 l p l q k) as [_ ->]; auto; apply CC; [left|right]; auto.
    - intros K os Hin. apply in_map_iff in Hin as ([i yz] & E' & Hin). unfold f in E'. apply pair_equal_spec in E' as [<- <-]. split.
      + intros k Hk. apply numbers_In in Hk as (x & Hx & Hk). destruct (CE i yz x Hin Hx) as [Lx Ex]. destruct (I1 l _ (HM _ Lx Ex)) as (k' & Hk' & B).
        rewrite Hk in Hk'. injection Hk' as <-. exact B.
      + assert (F : Forall (confined (ca_nb_cells c) (numbers n c l i yz)) (g i yz)).
        { apply HF; [apply (V1 i yz Hin)|]. intros x Hx. apply (CE i yz x Hin Hx). }
        rewrite Forall_forall in *. intros o Ho. apply confined_own. auto. }
  destruct (run_calls_spec start _ _ st G) as [R1 R2].
  assert (CO : concat (map (fun '(i, yz) => [f i yz]) calls) = map (fun '(i, yz) => f i yz) calls) by (clear; induction calls as [|[i yz] calls IH]; cbn [map concat app]; congruence).
  exists (run_calls start (map (fun '(i, yz) => f i yz) calls) st). split; [|split; [|split; [|split]]].
  - unfold sequential_for_each_meshinterval. rewrite E. reflexivity.
  - intros schedule st' P j. unfold parallel_for_each_meshinterval in P. rewrite E in P. rewrite <- CO in G |- *. apply (region_spec start _ _ st schedule st' G P).
  - intros schedule. unfold parallel_for_each_meshinterval. rewrite E. apply region_ends.
  - intros i yz x k Hin Hx Hk. apply (R1 (numbers n c l i yz) (g i yz) k); [|apply numbers_In; eauto]. apply in_map_iff. exists (i, yz). auto.
  - intros j Hj. apply R2. rewrite LE. intros Hin. apply in_flat_map in Hin as (p & Hp & Hk). assert (P := Hp); unfold cells_of_calls in P; apply in_flat_map in P as ([i yz] & Hin & P); apply in_map_iff in P as (x & <- & Hx); apply zrange_In in Hx.
    destruct (CE i yz x Hin Hx) as [Lx Ex]. destruct (ca_get_index n c l (x :: yz)) as [k|] eqn:Ek; [destruct Hk as [->|[]]|destruct Hk]. apply (Hj _ Lx Ex Ek).
Qed.

(** ** Cases *)

Definition put (k v : Z) (st : Z -> Z) : Z -> Z := fun j => if j =? k then v else st j.
(** u[cell] = 2 * u[cell] + v[cell], in three atomic steps; v is another field, at -1, -2... *)
Definition exBody : @body Z Z := fun l p k =>
  [(fun loc st => (st k, st)); (fun loc st => (2 * loc + st (- 1 - k), st)); (fun loc st => (loc, put k loc st))].
(** s = s + 1 for a shared s, here the cell of number 0. *)
Definition exShared : @body Z Z := fun l p k => [(fun loc st => (st 0, st)); (fun loc st => (loc, put 0 (loc + 1) st))].
Definition exStore : Z -> Z := fun j => if j <? 0 then 100 - j else j.
(** All tasks are created, then run one step in turn; or one after the other. *)
Definition turns (k : nat) : list nat := repeat O 3 ++ concat (repeat [3; 2; 1]%nat k).
Definition one_by_one : list nat := repeat O 3 ++ repeat 1%nat 20 ++ repeat 2%nat 20 ++ repeat 3%nat 20.

Example C41_example : good_hist 1 4 exTree /\
  (forall l p k, client_cell 1 4 exTree l p -> ca_get_index 1 exMesh l p = Some k -> Forall (confined (ca_nb_cells exMesh) [k]) (exBody l p k)) /\
  let look o := option_map (fun st : Z -> Z => map st [-2; -1; 0; 1; 2; 3; 9; 10]) o in
  look (parallel_for_each_cell 0 1 exBody exMesh (fun _ => turns 20) exStore) = Some [102; 101; 101; 104; 107; 110; 128; 10] /\
  look (parallel_for_each_cell 0 1 exBody exMesh (fun _ => one_by_one) exStore) = Some [102; 101; 101; 104; 107; 110; 128; 10] /\
  look (parallel_for_each_cell 0 1 exBody exMesh (fun _ => turns 2) exStore) = None /\
  look (sequential_for_each_cell 0 1 exBody exMesh exStore) = Some [102; 101; 101; 104; 107; 110; 128; 10].
Proof.
  assert (G : good_hist 1 4 exTree).
  { intros l Hl. split; [|apply RowsProofs.adds_filled]; destruct l as [|[|[|[|l]]]]; repeat constructor; simpl; lia. }
  split; [exact G|]. split; [|vm_compute; repeat split].
  intros l p k Hp Hk. destruct (C12_numbering_bijective 1 4 exTree G) as (I1 & _). destruct (I1 l p Hp) as (k' & Hk' & B). fold exMesh in Hk', B. rewrite Hk in Hk'. injection Hk' as <-.
  repeat constructor; cbn [fst snd]; auto.
  - apply H. left. left. auto.
  - f_equal. apply H. right. left. lia.
  - intros j [<-|[]]. unfold put. rewrite Z.eqb_refl. auto.
  - intros loc st j Hj. unfold put. destruct (Z.eqb_spec j k) as [->|]; auto. exfalso. apply Hj. left. auto.
Qed.

(** The cells of level 2 in the children of the leaves of level 1 of [exWide], minus a column; u = 3 * u on whole intervals. *)
Definition exWideTree : nat -> list lcl_call := fun l =>
  match l with 1%nat => [AddI [0] (mk 0 3); AddI [1] (mk 1 2)] | 2%nat => [AddI [0] (mk 0 7); AddI [1] (mk 0 6); AddI [2] (mk 2 4); AddI [3] (mk 2 5)] | _ => [] end.
Definition exWide : ca := client_ca 1 3 exWideTree true.
Definition exCut : lca := client_lca 1 2 [AddI [0] (mk 3 4); AddI [1] (mk 3 4)].
Definition exSet : tree leaf := Nd Difference (More (Lf (leaf_of (NMesh (client_lca 1 1 (exWideTree 1))))) (One (Lf (leaf_of (NMesh exCut))))).
Definition exTriple (i : interval) (yz : list Z) : list (@op unit Z) :=
  [fun loc st => (loc, fun j => if existsb (Z.eqb j) (numbers 1 exWide 2 i yz) then 3 * st j else st j)].

Example C41_interval_example : good_hist 1 3 exWideTree /\ operands_ok 1 2 exSet /\
  (forall p, length p = 2%nat -> expr_mem 1 2 exSet p -> client_cell 1 3 exWideTree 2 p) /\
  (forall i yz, Forall (confined (ca_nb_cells exWide) (numbers 1 exWide 2 i yz)) (exTriple i yz)) /\
  let look o := option_map (fun st : Z -> Z => map st [0; 3; 4; 5; 6; 7; 8; 9; 10; 11; 12; 13; 19; 20; 21]) o in
  subset_calls 1 (subset_init 2 exSet) = Some [(mk 0 3, [0]); (mk 4 6, [0]); (mk 0 3, [1]); (mk 4 6, [1]); (mk 2 4, [2]); (mk 2 4, [3])] /\
  look (parallel_for_each_meshinterval tt 1 (subset_init 2 exSet) (fun i yz => (numbers 1 exWide 2 i yz, exTriple i yz)) (repeat O 6 ++ [6; 5; 4; 3; 2; 1; 1; 2; 3; 4; 5; 6]%nat) (fun j => j)) =
  Some [0; 3; 12; 15; 18; 7; 24; 27; 10; 33; 36; 39; 57; 60; 21].
Proof.
  assert (G : good_hist 1 3 exWideTree).
  { intros l Hl. split; [|apply RowsProofs.adds_filled]; destruct l as [|[|[|[|l]]]]; repeat constructor; simpl; lia. }
  assert (O : operands_ok 1 2 exSet).
  { intros lf H. cbn [exSet tin ain] in H. destruct H as [->| ->]; concrete_operand. }
  split; [exact G|]. split; [exact O|]. split.
  - intros p Hp He. destruct (C18_levels 1 2 exSet O) as (calls & E & _ & _ & _ & C). apply C in He; auto. apply (client_mem 1 3 exWideTree true G).
    fold exWide. destruct (ca_for_each_cell_spec 1 exWide (proj1 (numbered_client 1 3 exWideTree G))) as (cs & EC & [_ EN] & _). apply EN.
    vm_compute in E. injection E as <-. vm_compute in EC. injection EC as <-. vm_compute in He |- *. intuition (subst; auto 30).
  - split; [|vm_compute; split; reflexivity]. intros i yz. constructor; [|constructor]. unfold confined. cbn [fst snd]. split.
    + intros loc st st' H. split; auto. intros j Hj. rewrite (H j) by auto. auto.
    + intros loc st j Hj. destruct (existsb (Z.eqb j) (numbers 1 exWide 2 i yz)) eqn:X; auto. apply existsb_exists in X as (k & Hk & X). apply Z.eqb_eq in X. subst. contradiction.
Qed.

(** A function that adds to a shared variable is not confined, and its result depends on the schedule. *)
Example C41_shared_variable_refuted :
  let look o := option_map (fun st : Z -> Z => st 0) o in
  look (sequential_for_each_cell 0 1 exShared exMesh (fun _ => 0)) = Some 10 /\
  look (parallel_for_each_cell 0 1 exShared exMesh (fun _ => one_by_one) (fun _ => 0)) = Some 10 /\
  look (parallel_for_each_cell 0 1 exShared exMesh (fun _ => turns 20) (fun _ => 0)) = Some 6.
Proof. vm_compute. repeat split. Qed.

Print Assumptions C41_parallel_for_each_cell.
Print Assumptions C41_parallel_for_each_meshinterval.
Print Assumptions C41_example.
Print Assumptions C41_interval_example.
