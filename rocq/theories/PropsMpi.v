(** Property C42: exchanges between ranks. *)
From Verif Require Import Base IntervalModel Spec LoiModel LcaModel LcaSpec GridProofs InitProofs SearchProofs IterProofs LcaProofs CellArrayModel CellArrayProofs PropsCellArray
  SubsetModel TreeProofs ScanProofs LeafProofs LeafProofs2 SubsetProofs SubsetSpec SubsetProofs2 PropsSubset NumProofs NumberingProofs StencilProofs PropsStencil
  MeshModel MeshProofs PropsMesh AdaptModel AdaptProofs TagProofs RowsProofs MpiModel MpiProofs.
Open Scope Z_scope.

(** ** Packing and unpacking the cells of a set *)

Definition idx (n : nat) (c : ca) (l : nat) (p : list Z) : Z := match ca_get_index n c l p with Some k => k | None => 0 end.

(** Calls on cells that are in the mesh. *)
Definition calls_in (n : nat) (c : ca) (l : nat) (calls : list (interval * list Z)) : Prop :=
  forall i yz, In (i, yz) calls -> length yz = n /\ istart i < iend i /\ istep i = 1 /\ forall x, istart i <= x < iend i -> lca_mem n (c_at c l) (x :: yz).
(** Stored intervals have step 1. *)
Definition unit_steps (c : ca) (l : nat) : Prop := forall r, In r (a_cells (c_at c l) 0) -> istep r = 1.

Lemma skipn_add : forall A a b (l : list A), skipn (a + b) l = skipn b (skipn a l).
Proof. induction a as [|a IH]; intros b [|x l]; auto; [destruct b; auto|]. cbn [Nat.add skipn]. apply IH. Qed.

Section Values.
  Context {V : Type} (n : nat) (c : ca) (l : nat).
  Hypothesis N : numbered n c.
  Hypothesis Hl : (l <= c_max c)%nat.
  Hypothesis U : unit_steps c l.

  Lemma view_cells : forall i yz, length yz = n -> istart i < iend i -> istep i = 1 -> (forall x, istart i <= x < iend i -> lca_mem n (c_at c l) (x :: yz)) ->
    view n 1 c l i yz = Some (map (fun x => idx n c l (x :: yz)) (zrange (istart i) (iend i))).
  Proof.
    intros i yz Ly Hi Hs H. destruct (C28_view_addresses_cells n c l i yz N Hl Ly U) as (ps & E & F & _); auto; [lia| |].
    { intros x y (j & Hj & -> & Hx) Hy. apply H. rewrite Hs in *. lia. }
    unfold view. rewrite E. f_equal. rewrite Hs, loop_values_1 in F.
    assert (E1 : forall qs, flat_map (fun p => map (fun c => Z.of_nat 1 * p + Z.of_nat c) (seq 0 1)) qs = qs).
    { induction qs as [|q qs IH]; auto. cbn [flat_map]. rewrite IH. cbn [seq map app]. f_equal. lia. }
    rewrite E1. clear -F. induction F as [|x p xs ps [_ H] F IH]; auto. cbn [map]. f_equal; auto. unfold idx. rewrite H. auto.
  Qed.

  Lemma pack_spec : forall calls (u : Z -> V), calls_in n c l calls -> pack_calls n 1 c l calls u = Some (map (fun p => u (idx n c l p)) (cells_of_calls calls)).
  Proof.
    induction calls as [|[i yz] calls IH]; intros u H; auto. cbn [pack_calls]. destruct (H i yz ltac:(left; auto)) as (A & B & C & D).
    rewrite (view_cells i yz A B C D), IH by (intros j yz' Hin; apply H; right; auto). unfold cells_of_calls. cbn [flat_map]. rewrite map_app. f_equal. f_equal.
    rewrite !map_map. reflexivity.
  Qed.

  Lemma write_app : forall (comb : V -> V -> V) a va b vb u, length a = length va -> write comb (a ++ b) (va ++ vb) u = write comb b vb (write comb a va u).
  Proof. induction a as [|x a IH]; intros [|v va] b vb u H; try discriminate; auto. cbn [app write]. apply IH. cbn in H. lia. Qed.

  Lemma unpack_spec : forall (comb : V -> V -> V) calls buffer count u vals, calls_in n c l calls -> skipn count buffer = map vals (cells_of_calls calls) -> (count <= length buffer)%nat ->
    unpack_calls n 1 comb c l calls buffer count u = Some (write comb (map (idx n c l) (cells_of_calls calls)) (map vals (cells_of_calls calls)) u).
  Proof.
    intros comb. induction calls as [|[i yz] calls IH]; intros buffer count u vals H E Lc; auto. cbn [unpack_calls]. destruct (H i yz ltac:(left; auto)) as (A & B & C & D).
    rewrite (view_cells i yz A B C D). unfold cells_of_calls in *. cbn [flat_map] in *. fold (cells_of_calls calls) in *. rewrite map_app in *.
    set (sz := Z.to_nat (isize i)).
    assert (LZ : length (zrange (istart i) (iend i)) = sz) by (unfold zrange; rewrite map_length, seq_length; auto).
    assert (LB : (count + sz <= length buffer)%nat).
    { apply (f_equal (@length _)) in E. rewrite skipn_length, app_length, !map_length, LZ in E. lia. }
    cbv zeta. rewrite map_length, LZ. replace ((count + sz <=? length buffer)%nat) with true by (symmetry; apply Nat.leb_le; lia). rewrite Nat.leb_refl. cbn [andb].
    assert (E2 : skipn (count + sz) buffer = map vals (cells_of_calls calls)).
    { rewrite skipn_add, E. rewrite skipn_app, skipn_all2, !map_length, LZ by (rewrite !map_length; lia).
      replace (sz - sz)%nat with 0%nat by lia. reflexivity. }
    assert (E3 : firstn sz (skipn count buffer) = map vals (map (fun x => x :: yz) (zrange (istart i) (iend i)))).
    { rewrite E. rewrite firstn_app, !map_length, LZ. replace (sz - sz)%nat with 0%nat by lia. cbn [firstn]. rewrite app_nil_r. apply firstn_all2. rewrite !map_length. lia. }
    rewrite E3. rewrite (IH buffer (count + sz)%nat _ vals); auto; [|intros j yz' Hin; apply H; right; auto]. f_equal.
    rewrite map_app, write_app by (rewrite !map_length; auto). f_equal. f_equal. rewrite !map_map. reflexivity.
  Qed.

  Lemma write_out : forall (comb : V -> V -> V) ps vs u j, ~ In j ps -> write comb ps vs u j = u j.
  Proof.
    induction ps as [|p ps IH]; intros [|v vs] u j H; auto. cbn [write]. rewrite IH by (intros X; apply H; right; auto).
    destruct (Z.eqb_spec j p) as [->|]; auto. exfalso. apply H. left. auto.
  Qed.
  Lemma write_in : forall (comb : V -> V -> V) cells (g : list Z -> Z) vals u p, NoDup cells -> (forall q q', In q cells -> In q' cells -> g q = g q' -> q = q') -> In p cells ->
    write comb (map g cells) (map vals cells) u (g p) = comb (u (g p)) (vals p).
  Proof.
    intros comb cells g vals u p ND. revert u. induction ND as [|q cells Nq ND IH]; intros u INJ Hp; [destruct Hp|]. cbn [map write].
    destruct Hp as [->|Hp].
    - rewrite write_out; [rewrite Z.eqb_refl; auto|]. intros X. apply in_map_iff in X as (q' & E & Hq'). apply Nq. rewrite (INJ p q'); auto; [left; auto|right; auto].
    - rewrite IH; auto; [|intros; apply INJ; auto; right; auto]. destruct (Z.eqb_spec (g p) (g q)) as [E|]; auto. exfalso. apply Nq.
      rewrite <- (INJ p q); auto; [right; auto|left; auto].
  Qed.
End Values.

(** intersection(a, b, c).on(level), [a] and [b] of that level. *)
Lemma inter3_spec : forall n a b c l, wf n a -> wf n b -> wf n c -> a_level a = l -> a_level b = l -> fits n l a -> fits n l b -> fits n l c ->
  exists calls, subset_calls n (inter3 a b c l) = Some calls /\
    (forall i yz, In (i, yz) calls -> length yz = n /\ istart i < iend i /\ istep i = 1) /\
    StronglySorted lex_lt (cells_of_calls calls) /\
    forall p, In p (cells_of_calls calls) <-> lca_mem n a p /\ lca_mem n b p /\ denotes n l p (NMesh c).
Proof.
  intros n a b c l Wa Wb Wc La Lb Fa Fb Fc. unfold inter3. rewrite on_make_op.
  set (t := Nd Intersect (More (Lf (leaf_of (NMesh a))) (More (Lf (leaf_of (NMesh b))) (One (Lf (leaf_of (NMesh c))))))).
  assert (F : finest t = Nat.max l (Nat.max l (a_level c))) by (unfold finest, t; cbn [tlevel tmap amap alevel l_node leaf_of node_mesh]; rewrite La, Lb; reflexivity).
  assert (HO : operands_ok n l t).
  { intros lf Hlf. rewrite F. replace (Nat.min l (Nat.max l (Nat.max l (a_level c)))) with l by lia. unfold t in Hlf. cbn [tin ain] in Hlf.
    destruct Hlf as [->|[->| ->]]; cbn [l_node leaf_of]; unfold operand_ok; cbn [simple node_mesh node_vect];
      (split; [exact I|]; split; [auto|]); intros q k Hq Hk; rewrite vadd_nil by apply Hq; [apply (Fa q k)|apply (Fb q k)|apply (Fc q k)]; auto. }
  destruct (C18_levels n l t HO) as (calls & E & V & ND & SS & M). exists calls. split; [exact E|]. split; [|split].
  - intros i yz Hin. destruct (V i yz Hin). split; auto. split; auto. eapply subset_calls_step; eauto.
  - apply SS. rewrite F. lia.
  - assert (D : forall m p, a_level m = l -> length p = S n -> (denotes n l p (NMesh m) <-> lca_mem n m p)).
    { intros m p Lm Lp. rewrite denotes_mesh_fine by (auto; lia). rewrite Lm, Nat.sub_diag, ancestor_0. tauto. }
    assert (MM : forall p, length p = S n -> (In p (cells_of_calls calls) <-> lca_mem n a p /\ lca_mem n b p /\ denotes n l p (NMesh c))).
    { intros p Lp. rewrite M by auto. unfold expr_mem, t. cbn [tmap amap tsem aall aany l_node leaf_of]. rewrite (D a p La Lp), (D b p Lb Lp). tauto. }
    intros p. split.
    + intros Hp. apply MM; auto. unfold cells_of_calls in Hp. apply in_flat_map in Hp as ([i yz] & Hin & Hx). apply in_map_iff in Hx as (x & <- & _).
      cbn [length]. f_equal. apply (V i yz Hin).
    + intros H. apply MM; auto. apply H.
Qed.

(** ** The ranks *)

(** What is assumed of the world at a level: the reference meshes are numbered, and their
    level is [l]; the coordinates are far from the end mark of the scans. *)
Record rank_ok (n l : nat) (k : rank) : Prop := {
  ok_num : numbered n (k_ref k);
  ok_max : (l <= c_max (k_ref k))%nat;
  ok_lev : a_level (c_at (k_ref k) l) = l;
  ok_step : unit_steps (k_ref k) l;
  ok_sub : wf n (k_sub k);
  ok_fit : fits n l (c_at (k_ref k) l);
  ok_fits : fits n l (k_sub k) }.

(** The neighbours of each rank are distinct ranks of the world, being neighbours is
    symmetric, and the copies held by the neighbours are up to date. *)
Record neighbours_ok (size : nat) (ranks : nat -> rank) : Prop := {
  nb_distinct : forall r, (r < size)%nat -> NoDup (map fst (k_neigh (ranks r)));
  nb_range : forall a x, (a < size)%nat -> In x (k_neigh (ranks a)) -> (fst x < size)%nat;
  nb_symmetric : forall a b, (a < size)%nat -> (b < size)%nat -> In b (map fst (k_neigh (ranks a))) -> In a (map fst (k_neigh (ranks b)));
  nb_copies : forall a b ref sub, (a < size)%nat -> In (b, (ref, sub)) (k_neigh (ranks a)) -> ref = k_ref (ranks b) /\ sub = k_sub (ranks b) }.

Section OneExchange.
  Context {V : Type} (n l size : nat) (ranks : nat -> rank) (buffered : nat -> nat -> bool) (comb : V -> V -> V).
  Context (nb : nat -> list (nat * (ca * lca))) (sout sin : nat -> nat * (ca * lca) -> subset) (cells : nat -> nat -> list (list Z)).
  Hypothesis OK : forall r, (r < size)%nat -> rank_ok n l (ranks r).
  Hypothesis nb_nodup : forall r, NoDup (map fst (nb r)).
  Hypothesis nb_sym : forall a b, In b (map fst (nb a)) -> In a (map fst (nb b)).
  Hypothesis nb_size : forall a b, In b (map fst (nb a)) -> (a < size)%nat.
  Hypothesis outs : forall r x, In x (nb r) -> exists calls, subset_calls n (sout r x) = Some calls /\ calls_in n (k_ref (ranks r)) l calls /\ cells_of_calls calls = cells r (fst x).
  Hypothesis ins : forall r x, In x (nb r) -> exists calls, subset_calls n (sin r x) = Some calls /\ calls_in n (k_ref (ranks r)) l calls /\ cells_of_calls calls = cells (fst x) r.
  Hypothesis cells_nodup : forall a b, In b (map fst (nb a)) -> NoDup (cells a b).
  Hypothesis cells_mem : forall a b p, In b (map fst (nb a)) -> In p (cells a b) -> lca_mem n (c_at (k_ref (ranks b)) l) p.
  Context (u : nat -> Z -> V).

  Let at_rank (r : nat) (p : list Z) : Z := idx n (k_ref (ranks r)) l p.
  Definition put_cells (r : nat) (v : Z -> V) (x : nat * (ca * lca)) : Z -> V :=
    write comb (map (at_rank r) (cells (fst x) r)) (map (fun p => u (fst x) (at_rank (fst x) p)) (cells (fst x) r)) v.
  Definition result (r : nat) : Z -> V := fold_left (put_cells r) (nb r) (u r).
  Definition has (p : list Z) (ps : list (list Z)) : bool := existsb (fun q => if list_eq_dec Z.eq_dec p q then true else false) ps.
  Lemma has_iff : forall p ps, has p ps = true <-> In p ps.
  Proof.
    intros p ps. unfold has. rewrite existsb_exists. split.
    - intros (q & Hq & H). destruct (list_eq_dec Z.eq_dec p q); [subst; auto|discriminate].
    - intros H. exists p. split; auto. destruct (list_eq_dec Z.eq_dec p p); auto.
  Qed.

  Lemma one_exchange : forall after code, (forall r, (r < size)%nat -> code r = exchange r (nb r) (fun x => pack n 1 (k_ref (ranks r)) l (sout r x)) (fun x => unpack n 1 comb (k_ref (ranks r)) l (sin r x)) ++ after r) ->
    (forall r, (size <= r)%nat -> code r = after r) ->
    exists k, reach size buffered k (launch code u) (launch after result).
  Proof.
    intros after code C0 C1.
    apply (exchange_reach size buffered nb (fun r x => pack n 1 (k_ref (ranks r)) l (sout r x)) (fun r x => unpack n 1 comb (k_ref (ranks r)) l (sin r x))
      after u result (fun a b => map (fun p => u a (at_rank a p)) (cells a b))); auto.
    - intros r x Hx. assert (Hr : (r < size)%nat) by (apply (nb_size r (fst x)), in_map; auto). destruct (OK r Hr). destruct (outs r x Hx) as (calls & E & CI & CE).
      unfold pack. rewrite E, (pack_spec n _ l) by auto. rewrite CE. reflexivity.
    - intros r. unfold result. generalize (u r) as v. assert (Hin : forall x, In x (nb r) -> In x (nb r)) by auto. revert Hin. generalize (nb r) at 1 3 4 as xs.
      induction xs as [|x xs IH]; intros Hin v; [reflexivity|]. cbn [unpack_all fold_left].
      pose proof (Hin x (or_introl eq_refl)) as Hx. assert (Hr : (r < size)%nat) by (apply (nb_size r (fst x)), in_map; auto). destruct (OK r Hr).
      destruct (ins r x Hx) as (calls & E & CI & CE). unfold unpack at 1. rewrite E.
      rewrite (unpack_spec n _ l ok_num0 ok_max0 ok_step0 comb calls _ 0 v (fun p => u (fst x) (at_rank (fst x) p)) CI); [|rewrite CE; reflexivity|lia].
      rewrite CE. apply IH. intros; apply Hin; right; auto.
  Qed.

  Lemma result_in : forall r p, (r < size)%nat -> lca_mem n (c_at (k_ref (ranks r)) l) p ->
    result r (at_rank r p) = fold_left (fun v x => if has p (cells (fst x) r) then comb v (u (fst x) (at_rank (fst x) p)) else v) (nb r) (u r (at_rank r p)).
  Proof.
    intros r p Hr Hp. destruct (OK r Hr).
    assert (INJ : forall q q', lca_mem n (c_at (k_ref (ranks r)) l) q -> lca_mem n (c_at (k_ref (ranks r)) l) q' -> at_rank r q = at_rank r q' -> q = q').
    { intros q q' Hq Hq' E. unfold at_rank, idx in E. destruct (numbered_index n _ l q ok_num0 (conj ok_max0 Hq)) as (i & Ei & _).
      destruct (numbered_index n _ l q' ok_num0 (conj ok_max0 Hq')) as (i' & Ei' & _). rewrite Ei, Ei' in E. subst i'.
      apply (numbered_inj n _ l q l q' i ok_num0 (conj ok_max0 Hq) (conj ok_max0 Hq') Ei Ei'). }
    unfold result. generalize (u r) as v. assert (Hin : forall x, In x (nb r) -> In x (nb r)) by auto. revert Hin. generalize (nb r) at 1 3 4 as xs.
    induction xs as [|x xs IH]; intros Hin v; [reflexivity|]. cbn [fold_left]. pose proof (Hin x (or_introl eq_refl)) as Hx.
    assert (Hb : In r (map fst (nb (fst x)))) by (apply nb_sym, in_map; auto).
    rewrite IH by (intros; apply Hin; right; auto). f_equal. unfold put_cells. destruct (has p (cells (fst x) r)) eqn:E.
    - apply has_iff in E. apply (write_in comb (cells (fst x) r) (at_rank r)); auto. intros q q' Hq Hq'. apply INJ; apply (cells_mem (fst x) r); auto.
    - apply write_out. intros H. apply in_map_iff in H as (q & Eq & Hq). apply INJ in Eq; auto; [|apply (cells_mem (fst x) r); auto]. subst q.
      apply has_iff in Hq. congruence.
  Qed.

  Lemma result_out : forall r j, (forall p, lca_mem n (c_at (k_ref (ranks r)) l) p -> at_rank r p <> j) -> result r j = u r j.
  Proof.
    intros r j H. unfold result. generalize (u r) as v. assert (Hin : forall x, In x (nb r) -> In x (nb r)) by auto. revert Hin. generalize (nb r) at 1 3 as xs.
    induction xs as [|x xs IH]; intros Hin v; [reflexivity|]. cbn [fold_left]. rewrite IH by (intros; apply Hin; right; auto). unfold put_cells. apply write_out.
    intros X. apply in_map_iff in X as (q & Eq & Hq). apply (H q); auto. apply (cells_mem (fst x) r); auto. apply nb_sym, in_map. apply Hin. left. auto.
  Qed.
End OneExchange.

(** ** One level *)

(** Rank [a] holds the value of the cell [p] for rank [b]: the cell is in both reference meshes
    and meets the subdomain of [a] (with [out = false]: of [b]). *)
Definition gives (n l : nat) (ranks : nat -> rank) (out : bool) (a b : nat) (p : list Z) : Prop :=
  lca_mem n (c_at (k_ref (ranks a)) l) p /\ lca_mem n (c_at (k_ref (ranks b)) l) p /\ denotes n l p (NMesh (k_sub (ranks (if out then a else b)))).

(** From the fields [u] of the ranks to [u']: the values given by the neighbours, in the order
    of the list, are combined with the old one. *)
Record exchanged {V} (n l size : nat) (ranks : nat -> rank) (out : bool) (comb : V -> V -> V) (u u' : nat -> Z -> V) : Prop := {
  ex_cell : forall r p k, (r < size)%nat -> lca_mem n (c_at (k_ref (ranks r)) l) p -> ca_get_index n (k_ref (ranks r)) l p = Some k ->
    exists d : nat -> bool, (forall b, In b (map fst (k_neigh (ranks r))) -> (d b = true <-> gives n l ranks out b r p)) /\
      u' r k = fold_left (fun v b => if d b then comb v (u b (idx n (k_ref (ranks b)) l p)) else v) (map fst (k_neigh (ranks r))) (u r k);
  ex_rest : forall r j, (r < size)%nat -> (forall p, lca_mem n (c_at (k_ref (ranks r)) l) p -> ca_get_index n (k_ref (ranks r)) l p <> Some j) -> u' r j = u r j }.

Section Level.
  Context {V : Type} (n l size : nat) (ranks : nat -> rank).
  Hypothesis OK : forall r, (r < size)%nat -> rank_ok n l (ranks r).
  Hypothesis NB : neighbours_ok size ranks.
  Let ref (r : nat) : lca := c_at (k_ref (ranks r)) l.

  Definition nb (r : nat) : list (nat * (ca * lca)) := if (r <? size)%nat then filter (both (ranks r) l) (k_neigh (ranks r)) else [].
  Definition cells (out : bool) (a b : nat) : list (list Z) :=
    match subset_calls n (inter3 (ref a) (ref b) (k_sub (ranks (if out then a else b))) l) with Some calls => cells_of_calls calls | None => [] end.

  Lemma ref_wf : forall r, (r < size)%nat -> wf n (ref r).
  Proof. intros r Hr. destruct (OK r Hr). apply ok_num0. auto. Qed.

  Lemma set_cells : forall (out : bool) a b x y, (a < size)%nat -> (b < size)%nat -> x = a /\ y = b \/ x = b /\ y = a ->
    exists calls, subset_calls n (inter3 (ref x) (ref y) (k_sub (ranks (if out then a else b))) l) = Some calls /\
      calls_in n (k_ref (ranks a)) l calls /\ calls_in n (k_ref (ranks b)) l calls /\ cells_of_calls calls = cells out a b /\
      NoDup (cells out a b) /\ forall p, In p (cells out a b) <-> gives n l ranks out a b p.
  Proof.
    intros out a b x y Ha Hb Hxy. set (sub := k_sub (ranks (if out then a else b))). assert (Hs : ((if out then a else b) < size)%nat) by (destruct out; auto).
    assert (SP : forall x y, (x < size)%nat -> (y < size)%nat -> exists calls, subset_calls n (inter3 (ref x) (ref y) sub l) = Some calls /\
      (forall i yz, In (i, yz) calls -> length yz = n /\ istart i < iend i /\ istep i = 1) /\ StronglySorted lex_lt (cells_of_calls calls) /\
      forall p, In p (cells_of_calls calls) <-> lca_mem n (ref x) p /\ lca_mem n (ref y) p /\ denotes n l p (NMesh sub)).
    { intros x' y' Hx Hy. pose proof (OK _ Hx) as [? ? ? ? ? ? ?]. pose proof (OK _ Hy) as [? ? ? ? ? ? ?]. pose proof (OK _ Hs) as [? ? ? ? ? ? ?]. apply inter3_spec; auto; apply ref_wf; auto. }
    assert (Hx : (x < size)%nat) by intuition (subst; auto). assert (Hy : (y < size)%nat) by intuition (subst; auto).
    destruct (SP a b Ha Hb) as (calls0 & E0 & V0 & S0 & M0). destruct (SP x y Hx Hy) as (calls & E & V1 & S1 & M1).
    assert (CE : cells out a b = cells_of_calls calls0) by (unfold cells; fold sub; rewrite E0; auto).
    assert (MG : forall p, In p (cells_of_calls calls) <-> gives n l ranks out a b p).
    { intros p. rewrite M1. unfold gives. fold (ref a) (ref b) sub. destruct Hxy as [[-> ->]|[-> ->]]; tauto. }
    assert (EQ : cells_of_calls calls = cells out a b).
    { rewrite CE. apply (sorted_ext _ lex_lt); auto.
      - intros p. apply lex_lt_irrefl.
      - intros p q r. apply lex_lt_trans.
      - intros p. rewrite M0, M1. destruct Hxy as [[-> ->]|[-> ->]]; tauto. }
    assert (CI : forall z, z = a \/ z = b -> calls_in n (k_ref (ranks z)) l calls).
    { intros z Hz i yz Hin. destruct (V1 i yz Hin) as (A & B & C). split; auto. split; auto. split; auto. intros w Hw.
      assert (G : gives n l ranks out a b (w :: yz)) by (apply MG, cells_of_calls_In; exists i; auto). destruct G as (G1 & G2 & _). destruct Hz as [->| ->]; auto. }
    exists calls. split; [auto|]. split; [auto|]. split; [auto|]. split; [auto|]. split.
    - rewrite <- EQ. apply (sorted_NoDup _ lex_lt); auto. intros p. apply lex_lt_irrefl.
    - intros p. rewrite <- EQ. apply MG.
  Qed.

  Lemma nb_In : forall r x, In x (nb r) <-> (r < size)%nat /\ In x (k_neigh (ranks r)) /\ both (ranks r) l x = true.
  Proof. intros r x. unfold nb. destruct (Nat.ltb_spec r size); [rewrite filter_In; tauto|]. split; [intros []|lia]. Qed.
  Lemma nb_small : forall r b, In b (map fst (nb r)) -> (r < size)%nat.
  Proof. intros r b H. apply in_map_iff in H as (x & _ & H). apply nb_In in H. apply H. Qed.
  Lemma nb_copy : forall r x, In x (nb r) -> (fst x < size)%nat /\ x = (fst x, (k_ref (ranks (fst x)), k_sub (ranks (fst x)))) /\
    lca_is_empty (ref r) = false /\ lca_is_empty (ref (fst x)) = false.
  Proof.
    intros r x H. apply nb_In in H as (Hr & Hx & B). destruct NB. pose proof (nb_range0 r x Hr Hx) as Hb. destruct x as [b [rf sb]]. destruct (nb_copies0 r b rf sb Hr Hx) as [-> ->].
    unfold both in B. cbn [fst snd] in *. apply andb_true_iff in B as [B1 B2]. apply negb_true_iff in B1, B2. auto.
  Qed.
  Lemma nb_sym' : forall a b, In b (map fst (nb a)) -> In a (map fst (nb b)).
  Proof.
    intros a b H. pose proof (nb_small _ _ H) as Ha. apply in_map_iff in H as (x & <- & H). destruct (nb_copy a x H) as (Hb & _ & E1 & E2). apply nb_In in H as (_ & Hx & _).
    pose proof NB as [_ _ SY CO]. assert (Hs : In a (map fst (k_neigh (ranks (fst x))))) by (apply SY; auto; apply in_map; auto).
    apply in_map_iff in Hs as (y & <- & Hy). apply in_map. apply nb_In. split; auto. split; auto. destruct y as [b [rf sb]]. destruct (CO (fst x) b rf sb Hb Hy) as [-> ->].
    unfold both. cbn [fst snd] in *. fold (ref (fst x)) (ref b). rewrite E1, E2. auto.
  Qed.
  Lemma nb_distinct' : forall r, NoDup (map fst (nb r)).
  Proof.
    intros r. unfold nb. destruct (Nat.ltb_spec r size) as [Hr|]; [|constructor]. pose proof (nb_distinct _ _ NB r Hr) as N. induction (k_neigh (ranks r)) as [|x xs IH]; [constructor|].
    cbn [map] in N. inversion N as [|? ? N1 N2]; subst. cbn [filter]. destruct (both (ranks r) l x); auto. cbn [map]. constructor; auto. intros H. apply N1.
    apply in_map_iff in H as (y & <- & Hy). apply filter_In in Hy. apply in_map. apply Hy.
  Qed.

  (** An exchange whose sets are these ones, whatever the order of the first two operands. *)
  Lemma level_exchange : forall (out : bool) (comb : V -> V -> V) sout sin (u : nat -> Z -> V) after code,
    (forall r x, In x (nb r) -> sout r x = inter3 (ref r) (ref (fst x)) (k_sub (ranks (if out then r else fst x))) l) ->
    (forall r x, In x (nb r) -> sin r x = inter3 (ref r) (ref (fst x)) (k_sub (ranks (if out then fst x else r))) l \/
                                sin r x = inter3 (ref (fst x)) (ref r) (k_sub (ranks (if out then fst x else r))) l) ->
    (forall r, (r < size)%nat -> code r = exchange r (nb r) (fun x => pack n 1 (k_ref (ranks r)) l (sout r x)) (fun x => unpack n 1 comb (k_ref (ranks r)) l (sin r x)) ++ after r) ->
    (forall r, (size <= r)%nat -> code r = after r) ->
    exists u', exchanged n l size ranks out comb u u' /\ forall buffered, exists k, reach size buffered k (launch code u) (launch after u').
  Proof.
    intros out comb sout sin u after code So Si C0 C1.
    assert (H1 : forall r x, In x (nb r) -> exists calls, subset_calls n (sout r x) = Some calls /\ calls_in n (k_ref (ranks r)) l calls /\ cells_of_calls calls = cells out r (fst x)).
    { intros r x Hx. destruct (nb_copy r x Hx) as (Hb & _). assert (Hr : (r < size)%nat) by (apply (nb_small r (fst x)), in_map; auto).
      destruct (set_cells out r (fst x) r (fst x) Hr Hb (or_introl (conj eq_refl eq_refl))) as (calls & E & A & _ & B & _). exists calls. rewrite (So r x Hx). auto. }
    assert (H2 : forall r x, In x (nb r) -> exists calls, subset_calls n (sin r x) = Some calls /\ calls_in n (k_ref (ranks r)) l calls /\ cells_of_calls calls = cells out (fst x) r).
    { intros r x Hx. destruct (nb_copy r x Hx) as (Hb & _). assert (Hr : (r < size)%nat) by (apply (nb_small r (fst x)), in_map; auto).
      destruct (Si r x Hx) as [-> | ->].
      - destruct (set_cells out (fst x) r r (fst x) Hb Hr (or_intror (conj eq_refl eq_refl))) as (calls & E & _ & A & B & _). exists calls. auto.
      - destruct (set_cells out (fst x) r (fst x) r Hb Hr (or_introl (conj eq_refl eq_refl))) as (calls & E & _ & A & B & _). exists calls. auto. }
    assert (G : forall a b, (a < size)%nat -> (b < size)%nat -> NoDup (cells out a b) /\ forall p, In p (cells out a b) <-> gives n l ranks out a b p).
    { intros a b Ha Hb. destruct (set_cells out a b a b Ha Hb (or_introl (conj eq_refl eq_refl))) as (_ & _ & _ & _ & _ & A & B). auto. }
    assert (H3 : forall a b, In b (map fst (nb a)) -> NoDup (cells out a b)).
    { intros a b H. apply G; [apply (nb_small _ _ H)|apply (nb_small _ _ (nb_sym' _ _ H))]. }
    assert (H4 : forall a b p, In b (map fst (nb a)) -> In p (cells out a b) -> lca_mem n (c_at (k_ref (ranks b)) l) p).
    { intros a b p H Hp. apply G in Hp; [apply Hp|apply (nb_small _ _ H)|apply (nb_small _ _ (nb_sym' _ _ H))]. }
    exists (result n l ranks comb nb (cells out) u). split.
    2:{ intros buffered. apply (one_exchange n l size ranks buffered comb nb sout sin (cells out) OK nb_distinct' nb_sym' nb_small H1 H2 H3 H4 u after code C0 C1). }
    constructor.
    - intros r p i Hr Hp Hi. exists (fun b => has p (cells out b r)). split.
      + intros b Hb. rewrite has_iff. apply G; auto. apply in_map_iff in Hb as (x & <- & Hx). apply (nb_range _ _ NB r x Hr Hx).
      + assert (Ei : i = idx n (k_ref (ranks r)) l p) by (unfold idx; rewrite Hi; auto). rewrite Ei.
        rewrite (result_in n l size ranks comb nb (cells out) OK nb_sym' H3 H4 u r p Hr Hp). rewrite <- Ei. generalize (u r i) as v.
        unfold nb. destruct (Nat.ltb_spec r size); [|lia].
        assert (Hin : forall x, In x (k_neigh (ranks r)) -> In x (k_neigh (ranks r))) by auto. revert Hin. generalize (k_neigh (ranks r)) at 1 3 4 as xs.
        induction xs as [|x xs IH]; intros Hin v; [reflexivity|]. cbn [filter map fold_left]. destruct (both (ranks r) l x) eqn:B.
        * cbn [fold_left]. apply IH. intros; apply Hin; right; auto.
        * replace (has p (cells out (fst x) r)) with false; [apply IH; intros; apply Hin; right; auto|]. symmetry. destruct (has p (cells out (fst x) r)) eqn:E; auto. exfalso.
          pose proof (Hin x (or_introl eq_refl)) as Hx. pose proof (nb_range _ _ NB r x Hr Hx) as Hb. apply has_iff, G in E; auto. destruct E as (E1 & E2 & _).
          destruct x as [b [rf sb]]. destruct (nb_copies _ _ NB r b rf sb Hr Hx) as [-> ->]. unfold both in B. cbn [fst snd] in *.
          pose proof (nonempty_mem n _ (ref_wf r Hr)) as M1. pose proof (nonempty_mem n _ (ref_wf b Hb)) as M2. unfold ref in M1, M2. 
          rewrite (proj2 M1), (proj2 M2) in B; eauto. discriminate.
    - intros r j Hr Hj. apply (result_out n l ranks comb nb (cells out) nb_sym' H4 u r j). intros p Hp E. apply (Hj p Hp).
      destruct (OK r Hr). destruct (numbered_index n _ l p ok_num0 (conj ok_max0 Hp)) as (i & Ei & _). unfold idx in E. rewrite Ei in E. congruence.
  Qed.
End Level.

(** ** All the levels *)

Lemma fold_same : forall {A B} (f g : A -> B -> A) xs a, (forall v x, In x xs -> f v x = g v x) -> fold_left f xs a = fold_left g xs a.
Proof.
  intros A B f g. induction xs as [|x xs IH]; intros a H; auto. cbn [fold_left]. rewrite H by (left; auto). apply IH. intros; apply H; right; auto.
Qed.

Lemma c_index : forall n l k p, rank_ok n l k -> lca_mem n (c_at (k_ref k) l) p -> ca_get_index n (k_ref k) l p = Some (idx n (k_ref k) l p).
Proof. intros n l k p [] Hp. destruct (numbered_index n _ l p ok_num0 (conj ok_max0 Hp)) as (i & Ei & _). unfold idx. rewrite Ei. auto. Qed.

(** A position of a cell of one level is not a position of a cell of another one. *)
Lemma c_levels : forall n l l' k p, rank_ok n l k -> rank_ok n l' k -> l <> l' -> lca_mem n (c_at (k_ref k) l) p ->
  forall q, lca_mem n (c_at (k_ref k) l') q -> ca_get_index n (k_ref k) l' q <> Some (idx n (k_ref k) l p).
Proof.
  intros n l l' k p O O' N Hp q Hq E. apply N. pose proof (c_index n l k p O Hp) as Ep. destruct O, O'.
  apply (numbered_inj n _ l p l' q _ ok_num0 (conj ok_max0 Hp) (conj ok_max1 Hq) Ep E).
Qed.

(** From [u] to [u'], on the levels [ls]. *)
Definition exchanged_levels {V} (n size : nat) (ranks : nat -> rank) (out : bool) (comb : V -> V -> V) (ls : list nat) (u u' : nat -> Z -> V) : Prop :=
  (forall l r p k, In l ls -> (r < size)%nat -> lca_mem n (c_at (k_ref (ranks r)) l) p -> ca_get_index n (k_ref (ranks r)) l p = Some k ->
    exists d : nat -> bool, (forall b, In b (map fst (k_neigh (ranks r))) -> (d b = true <-> gives n l ranks out b r p)) /\
      u' r k = fold_left (fun v b => if d b then comb v (u b (idx n (k_ref (ranks b)) l p)) else v) (map fst (k_neigh (ranks r))) (u r k)) /\
  (forall r j, (r < size)%nat -> (forall l p, In l ls -> lca_mem n (c_at (k_ref (ranks r)) l) p -> ca_get_index n (k_ref (ranks r)) l p <> Some j) -> u' r j = u r j).

Lemma ghost_level : forall {V} n l size ranks (u : nat -> Z -> V) after, (forall r, (r < size)%nat -> rank_ok n l (ranks r)) -> neighbours_ok size ranks ->
  exists u', exchanged n l size ranks true (fun _ v => v) u u' /\
    forall buffered, exists k, reach size buffered k (launch (fun r => (if (r <? size)%nat then ghost_code n 1 l r (ranks r) else []) ++ after r) u) (launch after u').
Proof.
  intros V n l size ranks u after OK NB.
  apply (level_exchange n l size ranks OK NB true (fun _ v => v)
    (fun r x => inter3 (c_at (k_ref (ranks r)) l) (c_at (fst (snd x)) l) (k_sub (ranks r)) l)
    (fun r x => inter3 (c_at (fst (snd x)) l) (c_at (k_ref (ranks r)) l) (snd (snd x)) l)).
  - intros r x Hx. destruct (nb_copy n l size ranks OK NB r x Hx) as (_ & E & _). rewrite E at 1. reflexivity.
  - intros r x Hx. destruct (nb_copy n l size ranks OK NB r x Hx) as (_ & E & _). right. rewrite E at 1 2. reflexivity.
  - intros r Hr. unfold ghost_code, nb. destruct (Nat.ltb_spec r size); [|lia]. f_equal. unfold exchange. f_equal; [|f_equal]; apply map_ext; intros (b & rf & sb); reflexivity.
  - intros r Hr. destruct (Nat.ltb_spec r size); [lia|]. reflexivity.
Qed.

Lemma tag_level : forall {V} n l size ranks out comb (u : nat -> Z -> V) after, (forall r, (r < size)%nat -> rank_ok n l (ranks r)) -> neighbours_ok size ranks ->
  exists u', exchanged n l size ranks out comb u u' /\
    forall buffered, exists k, reach size buffered k (launch (fun r => (if (r <? size)%nat then tag_code n out comb l r (ranks r) else []) ++ after r) u) (launch after u').
Proof.
  intros V n l size ranks out comb u after OK NB.
  apply (level_exchange n l size ranks OK NB out comb
    (fun r x => inter3 (c_at (k_ref (ranks r)) l) (c_at (fst (snd x)) l) (if out then k_sub (ranks r) else snd (snd x)) l)
    (fun r x => inter3 (c_at (k_ref (ranks r)) l) (c_at (fst (snd x)) l) (if out then snd (snd x) else k_sub (ranks r)) l)).
  - intros r x Hx. destruct (nb_copy n l size ranks OK NB r x Hx) as (_ & E & _). rewrite E at 1 2. destruct out; reflexivity.
  - intros r x Hx. destruct (nb_copy n l size ranks OK NB r x Hx) as (_ & E & _). left. rewrite E at 1 2. destruct out; reflexivity.
  - intros r Hr. unfold tag_code, nb. destruct (Nat.ltb_spec r size); [|lia]. f_equal. unfold exchange. f_equal; [|f_equal]; apply map_ext; intros (b & rf & sb); reflexivity.
  - intros r Hr. destruct (Nat.ltb_spec r size); [lia|]. reflexivity.
Qed.

Lemma ghost_levels : forall {V} n size ranks ls (u : nat -> Z -> V), NoDup ls -> (forall l r, In l ls -> (r < size)%nat -> rank_ok n l (ranks r)) -> neighbours_ok size ranks ->
  exists u', exchanged_levels n size ranks true (fun _ v => v) ls u u' /\
    forall buffered, exists k, reach size buffered k (launch (fun r => if (r <? size)%nat then flat_map (fun level => ghost_code n 1 level r (ranks r)) ls else []) u) (launch (fun _ => []) u').
Proof.
  intros V n size ranks ls. induction ls as [|l ls IH]; intros u ND OK NB.
  - exists u. split.
    + split; [intros ? ? ? ? []|auto].
    + intros buffered. exists O. constructor. split; intros; cbn [w_proc w_chan launch]; auto. destruct (r <? size)%nat; reflexivity.
  - inversion ND as [|? ? N1 N2]; subst. assert (OKl : forall r, (r < size)%nat -> rank_ok n l (ranks r)) by (intros; apply OK; [left|]; auto).
    destruct (ghost_level n l size ranks u (fun r => if (r <? size)%nat then flat_map (fun level => ghost_code n 1 level r (ranks r)) ls else []) OKl NB) as (u1 & [C1 D1] & R1).
    assert (OKs : forall l r, In l ls -> (r < size)%nat -> rank_ok n l (ranks r)) by (intros; apply OK; [right|]; auto).
    destruct (IH u1 N2 OKs NB) as (u2 & (C2 & D2) & R2). exists u2. split.
    + split.
      * intros l' r p i [<-|Hl] Hr Hp Hi.
        -- destruct (C1 r p i Hr Hp Hi) as (d & Hd & E). exists d. split; auto. rewrite <- E. apply D2; auto. intros l' q Hl' Hq.
           rewrite (c_index n l _ p (OKl r Hr) Hp) in Hi. injection Hi as <-. apply c_levels; auto. congruence.
        -- destruct (C2 l' r p i Hl Hr Hp Hi) as (d & Hd & E). exists d. split; auto. rewrite E.
           assert (U1 : forall b, (b < size)%nat -> lca_mem n (c_at (k_ref (ranks b)) l') p -> u1 b (idx n (k_ref (ranks b)) l' p) = u b (idx n (k_ref (ranks b)) l' p)).
           { intros b Hb Hpb. apply D1; auto. apply c_levels; auto. intros ->. auto. }
           rewrite (c_index n l' _ p (OKs l' r Hl Hr) Hp) in Hi. injection Hi as <-. rewrite U1 by auto. apply fold_same. intros v b Hb. destruct (d b) eqn:Eb; auto.
           apply Hd in Eb; auto. apply U1; [|apply Eb]. apply in_map_iff in Hb as (x & <- & Hx). apply (nb_range _ _ NB r x Hr Hx).
      * intros r j Hr Hj. rewrite D2; [|auto|intros l' q Hl' Hq; apply Hj; [right|]; auto]. apply D1; auto. intros p Hp. apply Hj; auto. left. auto.
    + intros buffered. destruct (R1 buffered) as (k1 & Q1). destruct (R2 buffered) as (k2 & Q2). exists (k1 + k2)%nat.
      eapply reach_trans; [|exact Q2]. eapply reach_ext; [|apply same_refl|exact Q1]. split; intros; cbn [w_proc w_chan launch]; auto. f_equal.
      destruct (r <? size)%nat; reflexivity.
Qed.

(** The levels of the world are those where there are cells. *)
Lemma fold_min_le : forall xs a, (fold_left Nat.min xs a <= a)%nat /\ forall x, In x xs -> (fold_left Nat.min xs a <= x)%nat.
Proof.
  induction xs as [|y xs IH]; intros a; cbn [fold_left]; [split; [lia|intros ? []]|]. destruct (IH (Nat.min a y)) as [A B]. split; [lia|]. intros x [<-|Hx]; auto. lia.
Qed.
Lemma fold_max_ge : forall xs a, (a <= fold_left Nat.max xs a)%nat /\ (forall x, In x xs -> (x <= fold_left Nat.max xs a)%nat) /\ (fold_left Nat.max xs a = a \/ In (fold_left Nat.max xs a) xs).
Proof.
  induction xs as [|y xs IH]; intros a; cbn [fold_left]; [split; [lia|split; [intros ? []|auto]]|]. destruct (IH (Nat.max a y)) as (A & B & C). split; [lia|]. split.
  - intros x [<-|Hx]; auto. lia.
  - destruct C as [->|C]; [|right; right; auto]. destruct (Nat.max_spec a y) as [[_ ->]|[_ ->]]; [right; left; auto|left; auto].
Qed.

Lemma max_level_le : forall c, (max_level c <= c_max c)%nat.
Proof.
  intros c. unfold max_level. generalize (c_max c) as l. induction l as [|l IH]; cbn [max_level_from]; destruct (negb _); lia.
Qed.
Lemma world_levels_spec : forall n size ranks m, (0 < size)%nat -> (forall r l, (r < size)%nat -> (l <= m)%nat -> rank_ok n l (ranks r)) -> (forall r, (r < size)%nat -> c_max (k_ref (ranks r)) = m) ->
  NoDup (world_levels ranks size) /\ (forall l, In l (world_levels ranks size) -> (l <= m)%nat) /\
  forall r l p, (r < size)%nat -> ca_mem n (k_ref (ranks r)) l p -> In l (world_levels ranks size).
Proof.
  intros n size ranks m Sz OK CM. unfold world_levels. set (mins := map _ _). set (lo := fold_left Nat.min mins _). set (maxs := map (fun r => max_level (k_ref (ranks r))) _). set (hi := fold_left Nat.max maxs _).
  split; [apply seq_NoDup|]. split.
  - intros l Hl. apply in_seq in Hl. assert (Hh : (hi <= m)%nat).
    { assert (X : forall r, (r < size)%nat -> (max_level (k_ref (ranks r)) <= m)%nat) by (intros r Hr; rewrite <- (CM r Hr); apply max_level_le).
      destruct (fold_max_ge maxs (max_level (k_ref (ranks 0%nat)))) as (_ & _ & [E|E]); fold hi in E; [rewrite E; apply X; auto|]. unfold maxs in E.
      apply in_map_iff in E as (r & <- & Hr). apply in_seq in Hr. apply X. lia. }
    lia.
  - intros r l p Hr [Hl Hp]. destruct (levels_spec (k_ref (ranks r))) as (_ & _ & L). assert (In l (levels (k_ref (ranks r)))) as Hin.
    { apply L; auto. apply (nonempty_mem n); eauto. destruct (OK r l Hr) as [N _ _ _ _ _ _]; [rewrite <- (CM r Hr); auto|]. apply N. auto. }
    unfold levels in Hin. apply in_seq in Hin. destruct (fold_min_le mins (min_level (k_ref (ranks 0%nat)))) as [_ A]. destruct (fold_max_ge maxs (max_level (k_ref (ranks 0%nat)))) as (_ & B & _).
    fold lo in A. fold hi in B. assert (Hs : In r (seq 0 size)) by (apply in_seq; lia).
    specialize (A (min_level (k_ref (ranks r))) ltac:(unfold mins; apply in_map_iff; exists r; auto)). specialize (B (max_level (k_ref (ranks r))) ltac:(unfold maxs; apply in_map_iff; exists r; auto)).
    apply in_seq. lia.
Qed.

(** ** C42 *)

(** The code [code], started with the memories [u]: whatever the order in which the ranks
    move and whatever the messages that are buffered, it can be continued until all the ranks
    have finished, and when they have, the memories are [u'] and no message is left. *)
Definition ends_with {St Msg} (size : nat) (code : nat -> list (instr St Msg)) (u u' : nat -> St) : Prop :=
  forall buffered schedule, let final w := finished w /\ (forall r, p_mem (w_proc w r) = u' r) /\ forall s d t, w_chan w s d t = [] in
    (exists more, final (run size buffered (launch code u) (schedule ++ more))) /\
    (finished (run size buffered (launch code u) schedule) -> final (run size buffered (launch code u) schedule)).

Lemma reach_ends : forall {St Msg} size (code : nat -> list (instr St Msg)) u u', (forall buffered, exists k, reach size buffered k (launch code u) (launch (fun _ => []) u')) -> ends_with size code u u'.
Proof.
  intros St Msg size code u u' H buffered schedule. cbv zeta. destruct (H buffered) as (k & R).
  assert (F : finished (launch (Msg := Msg) (fun _ => []) u')) by (intros r; reflexivity).
  assert (E : forall w : world St Msg, same w (launch (fun _ => []) u') -> finished w /\ (forall r, p_mem (w_proc w r) = u' r) /\ forall s d t, w_chan w s d t = []).
  { intros w [A B]. split; [intros r; rewrite A; reflexivity|]. split; [intros r; rewrite A; reflexivity|intros s d t; rewrite B; reflexivity]. }
  destruct (schedules_agree size buffered k _ _ F R schedule) as ((more & M) & G). split; [exists more; auto|auto].
Qed.

Lemma fold_last : forall {V} (d : nat -> bool) (g : nat -> V) xs b ys v, d b = true -> (forall b', In b' ys -> d b' = false) ->
  fold_left (fun v b => if d b then g b else v) (xs ++ b :: ys) v = g b.
Proof.
  intros V d g xs b ys v Hb Hys. rewrite fold_left_app. cbn [fold_left]. rewrite Hb. generalize (g b) as w. clear Hb. revert Hys.
  induction ys as [|y ys IH]; intros Hys w; auto. cbn [fold_left]. rewrite Hys by (left; auto). apply IH. intros; apply Hys; right; auto.
Qed.
Lemma fold_none : forall {V} (d : nat -> bool) (g : nat -> V) xs v, (forall b, In b xs -> d b = false) -> fold_left (fun v b => if d b then g b else v) xs v = v.
Proof. induction xs as [|y ys IH]; intros w Hys; auto. cbn [fold_left]. rewrite Hys by (left; auto). apply IH. intros; apply Hys; right; auto. Qed.

(** What the fields are after an exchange, for the cell [p] of level [l] at the position [k]
    of rank [r]: the value of the last neighbour that gives one, the old value if none does. *)
Definition received {V} (n l : nat) (ranks : nat -> rank) (out : bool) (u u' : nat -> Z -> V) (r : nat) (p : list Z) (k : Z) : Prop :=
  (forall xs b ys kb, map fst (k_neigh (ranks r)) = xs ++ b :: ys -> gives n l ranks out b r p -> (forall b', In b' ys -> ~ gives n l ranks out b' r p) ->
    ca_get_index n (k_ref (ranks b)) l p = Some kb -> u' r k = u b kb) /\
  ((forall b, In b (map fst (k_neigh (ranks r))) -> ~ gives n l ranks out b r p) -> u' r k = u r k).

Lemma folded : forall {V} n l (ranks : nat -> rank) out (u u' : nat -> Z -> V) r p k d,
  (forall b, In b (map fst (k_neigh (ranks r))) -> (d b = true <-> gives n l ranks out b r p)) ->
  u' r k = fold_left (fun v b => if d b then u b (idx n (k_ref (ranks b)) l p) else v) (map fst (k_neigh (ranks r))) (u r k) -> received n l ranks out u u' r p k.
Proof.
  intros V n l ranks out u u' r p k d Hd E. split.
  - intros xs b ys kb El Hb Hys Hk. rewrite E, El. rewrite (fold_last d (fun b => u b (idx n (k_ref (ranks b)) l p))).
    + unfold idx. rewrite Hk. auto.
    + apply Hd; auto. rewrite El. apply in_or_app. right. left. auto.
    + intros b' Hb'. destruct (d b') eqn:X; auto. exfalso. apply (Hys b' Hb'). apply Hd; auto. rewrite El. apply in_or_app. right. right. auto.
  - intros H. rewrite E. apply (fold_none d (fun b => u b (idx n (k_ref (ranks b)) l p))). intros b Hb. destruct (d b) eqn:X; auto. exfalso. apply (H b Hb). apply Hd; auto.
Qed.

(** ** C42: update_ghost_subdomains(level, field) *)
Theorem C42_ghost_exchange : forall V n l size ranks (u : nat -> Z -> V), (forall r, (r < size)%nat -> rank_ok n l (ranks r)) -> neighbours_ok size ranks ->
  exists u', ends_with size (fun r => if (r <? size)%nat then ghost_code n 1 l r (ranks r) else []) u u' /\
    (forall r p k, (r < size)%nat -> lca_mem n (c_at (k_ref (ranks r)) l) p -> ca_get_index n (k_ref (ranks r)) l p = Some k -> received n l ranks true u u' r p k) /\
    (forall r j, (r < size)%nat -> (forall p, lca_mem n (c_at (k_ref (ranks r)) l) p -> ca_get_index n (k_ref (ranks r)) l p <> Some j) -> u' r j = u r j).
Proof.
  intros V n l size ranks u OK NB. destruct (ghost_level n l size ranks u (fun _ => []) OK NB) as (u' & [C D] & R). exists u'. split; [|split; [|exact D]].
  - apply reach_ends. intros buffered. destruct (R buffered) as (k & Q). exists k. eapply reach_ext; [|apply same_refl|exact Q].
    split; intros; cbn [w_proc w_chan launch]; auto. rewrite app_nil_r. auto.
  - intros r p k Hr Hp Hk. destruct (C r p k Hr Hp Hk) as (d & Hd & E). apply (folded n l ranks true u u' r p k d Hd E).
Qed.

(** update_ghost_subdomains(field): all the cells of all the levels. *)
Theorem C42_all_levels : forall V n m size ranks (u : nat -> Z -> V), (0 < size)%nat ->
  (forall r l, (r < size)%nat -> (l <= m)%nat -> rank_ok n l (ranks r)) -> (forall r, (r < size)%nat -> c_max (k_ref (ranks r)) = m) -> neighbours_ok size ranks ->
  exists u', ends_with size (fun r => if (r <? size)%nat then all_ghosts_code n 1 ranks size r else []) u u' /\
    (forall l r p k, (r < size)%nat -> ca_mem n (k_ref (ranks r)) l p -> ca_get_index n (k_ref (ranks r)) l p = Some k -> received n l ranks true u u' r p k) /\
    (forall r j, (r < size)%nat -> (forall l p, ca_mem n (k_ref (ranks r)) l p -> ca_get_index n (k_ref (ranks r)) l p <> Some j) -> u' r j = u r j).
Proof.
  intros V n m size ranks u Sz OK CM NB. destruct (world_levels_spec n size ranks m Sz OK CM) as (ND & LE & ALL).
  destruct (ghost_levels n size ranks (world_levels ranks size) u ND) as (u' & (C & D) & R); auto.
  exists u'. split; [|split].
  - apply reach_ends. intros buffered. apply R.
  - intros l r p k Hr Hp Hk. destruct (C l r p k (ALL r l p Hr Hp) Hr (proj2 Hp) Hk) as (d & Hd & E). apply (folded n l ranks true u u' r p k d Hd E).
  - intros r j Hr Hj. apply D; auto. intros l p Hl Hp. apply Hj. split; auto. rewrite (CM r Hr). auto.
Qed.

(** When the subdomains do not overlap on the cell, its value is the owner's. *)
Theorem C42_unique_owner : forall V n m size ranks (u : nat -> Z -> V), (0 < size)%nat ->
  (forall r l, (r < size)%nat -> (l <= m)%nat -> rank_ok n l (ranks r)) -> (forall r, (r < size)%nat -> c_max (k_ref (ranks r)) = m) -> neighbours_ok size ranks ->
  exists u', ends_with size (fun r => if (r <? size)%nat then all_ghosts_code n 1 ranks size r else []) u u' /\
    forall l p b kb, (b < size)%nat -> ca_mem n (k_ref (ranks b)) l p -> ca_get_index n (k_ref (ranks b)) l p = Some kb -> denotes n l p (NMesh (k_sub (ranks b))) ->
      (forall a, (a < size)%nat -> denotes n l p (NMesh (k_sub (ranks a))) -> a = b) ->
      forall r k, (r < size)%nat -> r = b \/ In b (map fst (k_neigh (ranks r))) -> ca_mem n (k_ref (ranks r)) l p -> ca_get_index n (k_ref (ranks r)) l p = Some k -> u' r k = u b kb.
Proof.
  intros V n m size ranks u Sz OK CM NB. destruct (C42_all_levels V n m size ranks u Sz OK CM NB) as (u' & R & C & _). exists u'. split; [exact R|].
  intros l p b kb Hb Mb Ib Db Un r k Hr Hrb Mr Ir. destruct (C l r p k Hr Mr Ir) as [L O].
  assert (G : forall a, In a (map fst (k_neigh (ranks r))) -> gives n l ranks true a r p -> a = b).
  { intros a Ha (_ & _ & Da). apply Un; auto. apply in_map_iff in Ha as (x & <- & Hx). apply (nb_range _ _ NB r x Hr Hx). }
  assert (In b (map fst (k_neigh (ranks r))) \/ ~ In b (map fst (k_neigh (ranks r)))) as [Hin|Hn] by (destruct (in_dec Nat.eq_dec b (map fst (k_neigh (ranks r)))); auto).
  - apply in_split in Hin as (xs & ys & E). apply (L xs b ys kb E); auto.
    + split; [apply Mb|]. split; [apply Mr|exact Db].
    + intros b' Hb' Gb'. pose proof (nb_distinct _ _ NB r Hr) as ND. rewrite E in ND, G. apply NoDup_remove_2 in ND. apply ND. apply in_or_app. right.
      rewrite <- (G b'); auto. apply in_or_app. right. right. auto.
  - destruct Hrb as [->|]; [|contradiction]. assert (kb = k) as -> by congruence. apply O. intros a Ha Ga. apply Hn. pose proof (G a Ha Ga). congruence.
Qed.

(** ** update_tag_subdomains *)

(** With [erase]: the tag of the last neighbour that gives one. *)
Theorem C42_tags_replaced : forall V n l size ranks (out : bool) (u : nat -> Z -> V), (forall r, (r < size)%nat -> rank_ok n l (ranks r)) -> neighbours_ok size ranks ->
  exists u', ends_with size (fun r => if (r <? size)%nat then tag_code n out (fun _ v => v) l r (ranks r) else []) u u' /\
    (forall r p k, (r < size)%nat -> lca_mem n (c_at (k_ref (ranks r)) l) p -> ca_get_index n (k_ref (ranks r)) l p = Some k -> received n l ranks out u u' r p k) /\
    (forall r j, (r < size)%nat -> (forall p, lca_mem n (c_at (k_ref (ranks r)) l) p -> ca_get_index n (k_ref (ranks r)) l p <> Some j) -> u' r j = u r j).
Proof.
  intros V n l size ranks out u OK NB. destruct (tag_level n l size ranks out (fun _ v => v) u (fun _ => []) OK NB) as (u' & [C D] & R). exists u'. split; [|split; [|exact D]].
  - apply reach_ends. intros buffered. destruct (R buffered) as (k & Q). exists k. eapply reach_ext; [|apply same_refl|exact Q].
    split; intros; cbn [w_proc w_chan launch]; auto. rewrite app_nil_r. auto.
  - intros r p k Hr Hp Hk. destruct (C r p k Hr Hp Hk) as (d & Hd & E). apply (folded n l ranks out u u' r p k d Hd E).
Qed.

(** Without: a flag is set when it was, or is at a neighbour that gives it. *)
Theorem C42_tags_accumulated : forall n l size ranks (out : bool) (u : nat -> Z -> Z), (forall r, (r < size)%nat -> rank_ok n l (ranks r)) -> neighbours_ok size ranks ->
  exists u', ends_with size (fun r => if (r <? size)%nat then tag_code n out Z.lor l r (ranks r) else []) u u' /\
    (forall r p k, (r < size)%nat -> lca_mem n (c_at (k_ref (ranks r)) l) p -> ca_get_index n (k_ref (ranks r)) l p = Some k -> forall flag, 0 <= flag ->
      (Z.testbit (u' r k) flag = true <-> Z.testbit (u r k) flag = true \/
        exists b kb, In b (map fst (k_neigh (ranks r))) /\ gives n l ranks out b r p /\ ca_get_index n (k_ref (ranks b)) l p = Some kb /\ Z.testbit (u b kb) flag = true)) /\
    (forall r j, (r < size)%nat -> (forall p, lca_mem n (c_at (k_ref (ranks r)) l) p -> ca_get_index n (k_ref (ranks r)) l p <> Some j) -> u' r j = u r j).
Proof.
  intros n l size ranks out u OK NB. destruct (tag_level n l size ranks out Z.lor u (fun _ => []) OK NB) as (u' & [C D] & R). exists u'. split; [|split; [|exact D]].
  - apply reach_ends. intros buffered. destruct (R buffered) as (k & Q). exists k. eapply reach_ext; [|apply same_refl|exact Q].
    split; intros; cbn [w_proc w_chan launch]; auto. rewrite app_nil_r. auto.
  - intros r p k Hr Hp Hk flag Hf. destruct (C r p k Hr Hp Hk) as (d & Hd & E). rewrite E.
    assert (BS : forall b, In b (map fst (k_neigh (ranks r))) -> (b < size)%nat) by (intros b Hb; apply in_map_iff in Hb as (x & <- & Hx); apply (nb_range _ _ NB r x Hr Hx)).
    assert (F : forall xs v, Z.testbit (fold_left (fun v b => if d b then Z.lor v (u b (idx n (k_ref (ranks b)) l p)) else v) xs v) flag = true <->
      Z.testbit v flag = true \/ exists b, In b xs /\ d b = true /\ Z.testbit (u b (idx n (k_ref (ranks b)) l p)) flag = true).
    { induction xs as [|x xs IH]; intros v; cbn [fold_left]; [split; [auto|intros [|(b & [] & _)]; auto]|]. rewrite IH. destruct (d x) eqn:Ex.
      - rewrite Z.lor_spec, orb_true_iff. split.
        + intros [[H|H]|(b & Hb & Db & T)]; [auto|right; exists x; split; [left|]; auto|right; exists b; split; [right|]; auto].
        + intros [H|(b & [<-|Hb] & Db & T)]; [auto|auto|right; exists b; auto].
      - split.
        + intros [H|(b & Hb & Db & T)]; [auto|right; exists b; split; [right|]; auto].
        + intros [H|(b & [<-|Hb] & Db & T)]; [auto|congruence|right; exists b; auto]. }
    rewrite F. split; (intros [H|H]; [left; exact H|right]).
    + destruct H as (b & Hb & Db & T). apply Hd in Db; auto. exists b, (idx n (k_ref (ranks b)) l p). split; auto. split; auto. split; auto. apply c_index; auto. apply Db.
    + destruct H as (b & kb & Hb & Gb & Ib & T). exists b. split; auto. split; [apply Hd; auto|]. unfold idx. rewrite Ib. auto.
Qed.

(** ** update_mesh_neighbour *)
Theorem C42_mesh_copies : forall Mesh Archive (archive : Mesh -> Archive) (load : Archive -> Mesh -> Mesh) size (mem : nat -> Mesh * list (nat * Mesh)),
  (forall r, (r < size)%nat -> NoDup (map fst (snd (mem r)))) ->
  (forall a b, (a < size)%nat -> In b (map fst (snd (mem a))) -> (b < size)%nat /\ In a (map fst (snd (mem b)))) ->
  exists mem', ends_with size (fun r => if (r <? size)%nat then mesh_code archive load r (map fst (snd (mem r))) else []) mem mem' /\
    forall r, (r < size)%nat -> mem' r = (fst (mem r), map (fun y => (fst y, load (archive (fst (mem (fst y)))) (snd y))) (snd (mem r))).
Proof.
  intros Mesh Archive archive load size mem ND SY.
  set (mem' := fun r => if (r <? size)%nat then (fst (mem r), map (fun y => (fst y, load (archive (fst (mem (fst y)))) (snd y))) (snd (mem r))) else mem r).
  exists mem'. split; [|intros r Hr; unfold mem'; destruct (Nat.ltb_spec r size); [auto|lia]]. apply reach_ends. intros buffered.
  set (nb := fun r => if (r <? size)%nat then map (fun b => (b, tt)) (map fst (snd (mem r))) else []).
  assert (NF : forall r, (r < size)%nat -> map fst (nb r) = map fst (snd (mem r))).
  { intros r Hr. unfold nb. destruct (Nat.ltb_spec r size); [|lia]. rewrite map_map. cbn [fst]. apply map_id. }
  assert (NS : forall a b, In b (map fst (nb a)) -> (a < size)%nat) by (intros a b; unfold nb; destruct (Nat.ltb_spec a size); auto; intros []).
  apply (exchange_reach size buffered nb (fun _ _ m => Some (archive (fst m)))
    (fun _ x m a => Some (fst m, map (fun y => if (fst y =? fst x)%nat then (fst y, load a (snd y)) else y) (snd m))) (fun _ => []) mem mem' (fun a _ => archive (fst (mem a)))); auto.
  - intros r. destruct (Nat.ltb_spec r size) as [Hr|Hr]; [rewrite NF by auto; apply ND; auto|]. unfold nb. destruct (Nat.ltb_spec r size); [lia|constructor].
  - intros a b H. pose proof (NS a b H) as Ha. rewrite NF in H by auto. destruct (SY a b Ha H) as [Hb Hs]. rewrite NF by auto. auto.
  - intros r. unfold nb, mem'. destruct (Nat.ltb_spec r size) as [Hr|Hr]; [|reflexivity]. pose proof (ND r Hr) as N. destruct (mem r) as [m ns]. cbn [fst snd] in *.
    assert (G : forall done todo, NoDup (map fst (done ++ todo)) ->
      unpack_all (fun (_ : nat) (x : nat * unit) (m : Mesh * list (nat * Mesh)) (a : Archive) => Some (fst m, map (fun y => if (fst y =? fst x)%nat then (fst y, load a (snd y)) else y) (snd m)))
        (fun a _ => archive (fst (mem a))) r (map (fun b => (b, tt)) (map fst todo)) (m, done ++ todo) =
      Some (m, done ++ map (fun y => (fst y, load (archive (fst (mem (fst y)))) (snd y))) todo)).
    { clear. intros done todo. revert done. induction todo as [|[b mb] todo IH]; intros done N; [reflexivity|]. cbn [map unpack_all fst snd].
      assert (E : map (fun y : nat * Mesh => if (fst y =? b)%nat then (fst y, load (archive (fst (mem b))) (snd y)) else y) (done ++ (b, mb) :: todo) = (done ++ [(b, load (archive (fst (mem b))) mb)]) ++ todo).
      { rewrite map_app in N. cbn [map fst] in N. apply NoDup_remove_2 in N.
        assert (K : forall ys : list (nat * Mesh), ~ In b (map fst ys) -> map (fun y => if (fst y =? b)%nat then (fst y, load (archive (fst (mem b))) (snd y)) else y) ys = ys).
        { clear. induction ys as [|y ys IH]; intros H; auto. cbn [map] in *. rewrite IH by (intros X; apply H; right; auto). destruct (Nat.eqb_spec (fst y) b) as [E|E]; auto. exfalso. apply H. left. auto. }
        rewrite map_app. cbn [map fst snd]. rewrite Nat.eqb_refl, !K; [rewrite <- app_assoc; reflexivity| |]; intros X; apply N, in_or_app; auto. }
      rewrite E, IH; [rewrite <- app_assoc; reflexivity|]. rewrite !map_app in *. cbn [map fst] in *. rewrite <- app_assoc. exact N. }
    apply (G [] ns N).
  - intros r Hr. unfold mesh_code, nb. destruct (Nat.ltb_spec r size); [|lia]. rewrite app_nil_r. reflexivity.
  - intros r Hr. destruct (Nat.ltb_spec r size); [lia|reflexivity].
Qed.

(** ** A world of three ranks *)

(** Columns 0-1, 2-3 and 4-5 of level 2 belong to the ranks 0, 1 and 2; each has one column of
    ghosts on either side, and there are finer cells around the column 2. *)
Definition exHist (r : nat) : nat -> list lcl_call := fun l =>
  match r, l with
  | 0%nat, 2%nat => [AddI [0] (mk 0 3); AddI [1] (mk 0 3)]
  | 0%nat, 3%nat => [AddI [0] (mk 2 6); AddI [1] (mk 2 6)]
  | 1%nat, 2%nat => [AddI [0] (mk 1 5); AddI [1] (mk 1 5)]
  | 1%nat, 3%nat => [AddI [0] (mk 3 7); AddI [1] (mk 3 7)]
  | 2%nat, 2%nat => [AddI [0] (mk 3 6); AddI [1] (mk 3 6)]
  | _, _ => []
  end.
Definition exSub (r : nat) : list lcl_call :=
  match r with
  | 0%nat => [AddI [0] (mk 0 2); AddI [1] (mk 0 2)]
  | 1%nat => [AddI [0] (mk 2 4); AddI [1] (mk 2 4)]
  | _ => [AddI [0] (mk 4 6); AddI [1] (mk 4 6)]
  end.
Definition exRank (r : nat) : rank :=
  let known b := (b, (client_ca 1 4 (exHist b) true, client_lca 1 2 (exSub b))) in
  mkRank (client_ca 1 4 (exHist r) true) (client_lca 1 2 (exSub r))
    (map known (match r with 0%nat => [1%nat] | 1%nat => [2%nat; 0%nat] | _ => [1%nat] end)).

Lemma exHist_good : forall r, (r < 3)%nat -> good_hist 1 4 (exHist r).
Proof.
  intros r Hr l Hl. split; [|apply adds_filled]; destruct r as [|[|[|r]]]; try lia; destruct l as [|[|[|[|[|l]]]]]; try lia; repeat constructor; simpl; lia.
Qed.

Lemma fits_of : forall n w a, (forall q k, lca_mem n a q -> (k <= n)%nat -> nth k q 0 < 100) -> (w <= a_level a + 4)%nat -> fits n w a.
Proof.
  intros n w a H Hw q k Hq Hk. specialize (H q k Hq Hk). assert (2 ^ Z.max 0 (Z.of_nat w - Z.of_nat (a_level a)) <= 2 ^ 4) by (apply Z.pow_le_mono_r; lia).
  assert (0 < 2 ^ Z.max 0 (Z.of_nat w - Z.of_nat (a_level a))) by (apply Z.pow_pos_nonneg; lia). change (2 ^ 4) with 16 in *. change (2 ^ 31) with 2147483648. nia.
Qed.
Lemma added_small : forall cs, (forall c, In c cs -> match c with AddI [y] i => y < 100 /\ iend i <= 100 | _ => False end) ->
  forall q k, length q = 2%nat -> (exists c, In c cs /\ added c q) -> (k <= 1)%nat -> nth k q 0 < 100.
Proof.
  intros cs H q k Lq (c & Hc & Ha) Hk. specialize (H c Hc). destruct c as [yz|[|y [|z yz]] i|yz p|p]; try contradiction. destruct q as [|x [|y' [|? ?]]]; try discriminate.
  cbn [added tl nth] in Ha. destruct Ha as [E Hi]. unfold in_i in Hi. injection E as ->. destruct k as [|[|k]]; cbn [nth]; lia.
Qed.

Lemma exRank_ok : forall r l, (r < 3)%nat -> (l <= 4)%nat -> rank_ok 1 l (exRank r).
Proof.
  intros r l Hr Hl. pose proof (exHist_good r Hr) as G. destruct (G l Hl) as [D F].
  assert (DS : Forall (call_dim 1) (exSub r)) by (destruct r as [|[|r]]; repeat constructor).
  constructor; cbn [k_ref k_sub exRank].
  - apply numbered_client. auto.
  - exact Hl.
  - destruct r as [|[|[|r]]]; try lia; destruct l as [|[|[|[|[|l]]]]]; try lia; vm_compute; reflexivity.
  - intros i Hi. destruct r as [|[|[|r]]]; try lia; destruct l as [|[|[|[|[|l]]]]]; try lia; vm_compute in Hi; intuition (subst; reflexivity).
  - apply client_lca_wf; auto. apply adds_filled. destruct r as [|[|r]]; repeat constructor; simpl; lia.
  - apply fits_of.
    + intros q k Hq Hk. assert (M : client_cell 1 4 (exHist r) l q) by (apply (client_mem 1 4 (exHist r) true G); split; auto). destruct M as (_ & Lq & M).
      apply (added_small (exHist r l)); auto. intros c Hc. destruct r as [|[|[|r]]]; try lia; destruct l as [|[|[|[|[|l]]]]]; try lia; cbn in Hc; intuition (subst; simpl; lia).
    + destruct r as [|[|[|r]]]; try lia; destruct l as [|[|[|[|[|l]]]]]; try lia; vm_compute; lia.
  - apply fits_of.
    + intros q k Hq Hk. apply client_lca_mem in Hq as [Lq M]; auto. apply (added_small (exSub r)); auto.
      intros c Hc. destruct r as [|[|[|r]]]; try lia; cbn in Hc; intuition (subst; simpl; lia).
    + rewrite client_lca_level by auto. lia.
Qed.

Lemma exRank_neighbours : neighbours_ok 3 exRank.
Proof.
  constructor.
  - intros r Hr. destruct r as [|[|[|r]]]; try lia; cbn [exRank k_neigh map fst]; repeat constructor; simpl; intuition lia.
  - intros a x Ha Hx. destruct a as [|[|[|a]]]; try lia; cbn [exRank k_neigh map In] in Hx; intuition (subst; cbn [fst]; lia).
  - intros a b Ha Hb H. destruct a as [|[|[|a]]]; try lia; cbn [exRank k_neigh map In fst] in H; intuition (subst; cbn [exRank k_neigh map In fst]; auto).
  - intros a b ref sub Ha H. destruct a as [|[|[|a]]]; try lia; cbn [exRank k_neigh map In] in H; destruct H as [H|H]; try contradiction;
      try (destruct H as [H|H]; [|contradiction]); apply pair_equal_spec in H as [<- H]; apply pair_equal_spec in H as [<- <-]; auto.
Qed.

(** Fields numbered by rank; the values of all the cells of the three ranks after the exchange, for
    an order in which rank 2 goes first, and nothing is buffered. *)
Definition exField (r : nat) (k : Z) : Z := 100 * Z.of_nat r + k.
Definition exSchedule : list nat := flat_map (fun _ => [2; 2; 2; 1; 0; 1]%nat) (seq 0 12).
Definition exEnd (code : nat -> list (instr (Z -> Z) (list Z))) : list (nat * list Z) :=
  let w := run 3 (fun _ _ => false) (launch (fun r => if (r <? 3)%nat then code r else []) exField) exSchedule in
  map (fun r => (length (p_code (w_proc w r)), map (fun k => p_mem (w_proc w r) (Z.of_nat k)) (seq 0 (Z.to_nat (ca_nb_cells (k_ref (exRank r))))))) (seq 0 3).

Example C42_example :
  (forall r l, (r < 3)%nat -> (l <= 4)%nat -> rank_ok 1 l (exRank r)) /\ (forall r, (r < 3)%nat -> c_max (k_ref (exRank r)) = 4%nat) /\ neighbours_ok 3 exRank /\
  exEnd (all_ghosts_code 1 1 exRank 3) =
    [(0%nat, [0; 1; 101; 3; 4; 105; 6; 7; 109; 110; 10; 11; 113; 114]);
     (0%nat, [1; 101; 102; 201; 4; 105; 106; 204; 7; 109; 110; 111; 11; 113; 114; 115]);
     (0%nat, [102; 201; 202; 106; 204; 205])] /\
  exEnd (fun r => tag_code 1 true Z.lor 2 r (exRank r)) =
    [(0%nat, [0; 1; 103; 3; 4; 109; 6; 7; 8; 9; 10; 11; 12; 13]);
     (0%nat, [101; 101; 102; 239; 108; 105; 106; 239; 108; 109; 110; 111; 112; 113; 114; 115]);
     (0%nat, [238; 201; 202; 235; 204; 205])] /\
  exEnd (fun r => tag_code 1 false Z.lor 2 r (exRank r)) =
    [(0%nat, [0; 101; 2; 3; 108; 5; 6; 7; 8; 9; 10; 11; 12; 13]);
     (0%nat, [100; 103; 238; 103; 104; 109; 235; 107; 108; 109; 110; 111; 112; 113; 114; 115]);
     (0%nat, [200; 239; 202; 203; 239; 205])].
Proof.
  split; [exact exRank_ok|]. split; [intros; reflexivity|]. split; [exact exRank_neighbours|]. split; [|split]; vm_compute; reflexivity.
Qed.

(** ** Fields of several components *)

(** The sender copies all the components, the receiver one value per cell: with two
    components, the cell (2, 0) of level 2, owned by rank 1, does not get its value. *)
Theorem C42_components_refuted :
  exists schedule, let w := run 3 (fun _ _ => false) (launch (fun r => if (r <? 3)%nat then all_ghosts_code 1 2 exRank 3 r else []) exField) schedule in
    (forall r, p_code (w_proc w r) = []) /\ ca_get_index 1 (k_ref (exRank 0)) 2 [2; 0] = Some 2 /\ ca_get_index 1 (k_ref (exRank 1)) 2 [2; 0] = Some 1 /\
    gives 1 2 exRank true 1 0 [2; 0] /\ (exField 1 (2 * 1), exField 1 (2 * 1 + 1)) = (102, 103) /\
    (p_mem (w_proc w 0%nat) (2 * 2), p_mem (w_proc w 0%nat) (2 * 2 + 1)) = (102, 5).
Proof.
  exists exSchedule. cbv zeta. split; [|split; [reflexivity|split; [reflexivity|split; [|split; [reflexivity|vm_compute; reflexivity]]]]].
  - intros r. assert (r < 3 \/ 3 <= r)%nat as [Hr|Hr] by lia.
    + destruct r as [|[|[|r]]]; [vm_compute; reflexivity|vm_compute; reflexivity|vm_compute; reflexivity|lia].
    + assert (K : forall (s : list nat) (w : world (Z -> Z) (list Z)), (forall a, In a s -> (a < 3)%nat) -> w_proc (run 3 (fun _ _ => false) w s) r = w_proc w r).
      { induction s as [|a s IH]; intros w Hs; [reflexivity|]. unfold run in *. cbn [fold_left]. rewrite IH by (intros; apply Hs; right; auto).
        destruct (step 3 (fun _ _ => false) w a) as [w1|] eqn:E; [|reflexivity]. apply (step_other 3 (fun _ _ => false) w a w1 E). specialize (Hs a (or_introl eq_refl)). lia. }
      rewrite K; [|intros a Ha; unfold exSchedule in Ha; apply in_flat_map in Ha as (? & _ & Ha); simpl in Ha; intuition lia].
      cbn [launch w_proc p_code]. destruct (Nat.ltb_spec r 3); [lia|reflexivity].
  - assert (A : forall r, (r < 2)%nat -> lca_mem 1 (c_at (k_ref (exRank r)) 2) [2; 0]).
    { intros r Hr. apply (client_mem 1 4 (exHist r) true (exHist_good r ltac:(lia)) 2 [2; 0]). split; [lia|]. split; [reflexivity|].
      destruct r as [|[|r]]; [| |lia]; eexists; (split; [left; reflexivity|]); (split; [reflexivity|]); unfold in_i; cbn; lia. }
    split; [apply A; lia|]. split; [apply A; lia|]. rewrite denotes_mesh_fine by (auto; vm_compute; lia).
    change (ancestor _ [2; 0]) with [2; 0]. apply client_lca_mem; [repeat constructor|]. split; [reflexivity|]. eexists. split; [left; reflexivity|]. split; [reflexivity|]. unfold in_i. cbn. lia.
Qed.

(** ** Cells that meet two subdomains *)

(** Two ranks that hold a cell and both give it exchange their values: they still do not
    agree if they did not. *)
Theorem C42_shared_cells_swap : forall V n m ranks (u : nat -> Z -> V),
  (forall r l, (r < 2)%nat -> (l <= m)%nat -> rank_ok n l (ranks r)) -> (forall r, (r < 2)%nat -> c_max (k_ref (ranks r)) = m) -> neighbours_ok 2 ranks ->
  map fst (k_neigh (ranks 0%nat)) = [1%nat] -> map fst (k_neigh (ranks 1%nat)) = [0%nat] ->
  exists u', ends_with 2 (fun r => if (r <? 2)%nat then all_ghosts_code n 1 ranks 2 r else []) u u' /\
    forall l p k0 k1, ca_mem n (k_ref (ranks 0%nat)) l p -> ca_mem n (k_ref (ranks 1%nat)) l p ->
      denotes n l p (NMesh (k_sub (ranks 0%nat))) -> denotes n l p (NMesh (k_sub (ranks 1%nat))) ->
      ca_get_index n (k_ref (ranks 0%nat)) l p = Some k0 -> ca_get_index n (k_ref (ranks 1%nat)) l p = Some k1 -> u' 0%nat k0 = u 1%nat k1 /\ u' 1%nat k1 = u 0%nat k0.
Proof.
  intros V n m ranks u OK CM NB N0 N1. destruct (C42_all_levels V n m 2 ranks u ltac:(lia) OK CM NB) as (u' & R & C & _). exists u'. split; [exact R|].
  intros l p k0 k1 M0 M1 D0 D1 I0 I1. split.
  - apply (proj1 (C l 0%nat p k0 ltac:(lia) M0 I0) [] 1%nat [] k1); auto. split; [apply M1|]. split; [apply M0|exact D1].
  - apply (proj1 (C l 1%nat p k1 ltac:(lia) M1 I1) [] 0%nat [] k0); auto. split; [apply M0|]. split; [apply M1|exact D0].
Qed.

(** An instance: the cell 1 of level 1 covers the columns 2 and 3 of level 2, one of each rank. *)
Definition exHist2 (r : nat) : nat -> list lcl_call := fun l =>
  match r, l with
  | 0%nat, 1%nat => [AddI [] (mk 0 2)]
  | 0%nat, 2%nat => [AddI [] (mk 0 4)]
  | 1%nat, 1%nat => [AddI [] (mk 1 3)]
  | 1%nat, 2%nat => [AddI [] (mk 2 6)]
  | _, _ => []
  end.
Definition exSub2 (r : nat) : lca := client_lca 0 2 [AddI [] (if (r =? 0)%nat then mk 0 3 else mk 3 6)].
Definition exRank2 (r : nat) : rank :=
  mkRank (client_ca 0 3 (exHist2 r) true) (exSub2 r) [((1 - r)%nat, (client_ca 0 3 (exHist2 (1 - r)) true, exSub2 (1 - r)))].
Theorem C42_agreement_refuted :
  let w := run 2 (fun _ _ => true) (launch (fun r => if (r <? 2)%nat then all_ghosts_code 0 1 exRank2 2 r else []) exField) (flat_map (fun _ => [0; 1]%nat) (seq 0 6)) in
  ca_get_index 0 (k_ref (exRank2 0)) 1 [1] = Some 1 /\ ca_get_index 0 (k_ref (exRank2 1)) 1 [1] = Some 0 /\
  (exField 0 1, exField 1 0) = (1, 100) /\ (p_mem (w_proc w 0%nat) 1, p_mem (w_proc w 1%nat) 0) = (100, 1) /\
  (p_code (w_proc w 0%nat), p_code (w_proc w 1%nat)) = ([], []).
Proof. cbv zeta. split; [reflexivity|]. split; [reflexivity|]. split; [reflexivity|]. split; vm_compute; reflexivity. Qed.

(** ** The neighbourhood *)

(** The neighbourhood made by partition_mesh meets the hypotheses on neighbours. *)
Theorem C42_neighbourhood : forall size r, (r < size)%nat -> NoDup (neighbour_ranks size r) /\ length (neighbour_ranks size r) = (size - 1)%nat /\
  forall b, In b (neighbour_ranks size r) <-> (b < size)%nat /\ b <> r.
Proof.
  intros size r Hr. assert (M : forall b, In b (neighbour_ranks size r) <-> (b < size)%nat /\ b <> r).
  { intros b. unfold neighbour_ranks. rewrite filter_In, in_seq, negb_true_iff, Nat.eqb_neq. lia. }
  assert (ND : NoDup (neighbour_ranks size r)) by (apply NoDup_filter, seq_NoDup). split; [exact ND|]. split; [|exact M].
  assert (P : Permutation (r :: neighbour_ranks size r) (seq 0 size)).
  { apply NoDup_Permutation; [constructor; auto; rewrite M; lia|apply seq_NoDup|]. intros b. rewrite in_seq. cbn [In]. rewrite M. lia. }
  apply Permutation_length in P. rewrite seq_length in P. cbn [length] in P. lia.
Qed.

(** The copies: with these neighbours, at the end of update_mesh_neighbour the copy of each mesh
    has its cells and its subdomain, whatever was there (the geometry is not sent, C48). *)
Theorem C42_copies_up_to_date : forall size (mem : nat -> mesh * list (nat * mesh)),
  (forall r, (r < size)%nat -> map fst (snd (mem r)) = neighbour_ranks size r) ->
  (forall a b c, (a < size)%nat -> In (b, c) (snd (mem a)) -> length (m_cells c) = length (m_cells (fst (mem b))) /\ length (m_union c) = length (m_union (fst (mem b)))) ->
  exists mem', ends_with size (fun r => if (r <? size)%nat then mesh_code mesh_save mesh_load r (map fst (snd (mem r))) else []) mem mem' /\
    forall r, (r < size)%nat -> fst (mem' r) = fst (mem r) /\ map fst (snd (mem' r)) = neighbour_ranks size r /\
      forall b c, In (b, c) (snd (mem' r)) -> map g_lca (m_cells c) = map g_lca (m_cells (fst (mem b))) /\ g_lca (m_subdomain c) = g_lca (m_subdomain (fst (mem b))).
Proof.
  intros size mem NB LEN. destruct (C42_mesh_copies mesh archive mesh_save mesh_load size mem) as (mem' & R & C).
  - intros r Hr. rewrite NB by auto. apply C42_neighbourhood. auto.
  - intros a b Ha Hb. rewrite NB in Hb by auto. apply C42_neighbourhood in Hb as [Hb N]; auto. split; auto. rewrite NB by auto. apply C42_neighbourhood; auto.
  - exists mem'. split; [exact R|]. intros r Hr. rewrite (C r Hr). cbn [fst snd]. split; [reflexivity|]. split.
    + rewrite map_map. cbn [fst]. apply NB. auto.
    + intros b c Hin. apply in_map_iff in Hin as ([b' c'] & E & Hin). cbn [fst snd] in E. apply pair_equal_spec in E as [-> <-].
      destruct (LEN r b c' Hr Hin) as [L1 L2]. destruct (C48_what_is_restored_partial (fst (mem b)) c' L1 L2) as (A & _ & B & _). split; [exact A|exact B].
Qed.

Print Assumptions C42_ghost_exchange.
Print Assumptions C42_all_levels.
Print Assumptions C42_unique_owner.
Print Assumptions C42_tags_replaced.
Print Assumptions C42_tags_accumulated.
Print Assumptions C42_mesh_copies.
Print Assumptions C42_components_refuted.
Print Assumptions C42_shared_cells_swap.
Print Assumptions C42_agreement_refuted.
Print Assumptions C42_neighbourhood.
Print Assumptions C42_copies_up_to_date.
