(** Lemmas for C62: the comparison of meshes made by the adaptation (same_mesh) succeeds
    whenever the leaves are the same, because the numbers depend on the leaves only. *)
From Coq Require Import QArith.
From Verif Require Import Base IntervalModel Spec IntervalProofs IterProofs InitProofs LoiModel LcaModel LcaSpec LcaProofs LcaProofs2 LcaProofs3 RowsProofs CellArrayModel CellArrayProofs PropsLca PropsCellArray
  SubsetModel TreeProofs SubsetSpec SubsetProofs2 PropsSubset StencilModel NumberingProofs StencilProofs PropsStencil MeshModel MeshProofs PropsMesh
  NumModel NumProofs NumSpec PropsNum AdaptModel AdaptProofs TagProofs PropsAdapt TransferProofs PropsTransfer MrModel MrProofs PropsMr
  GhostModel GhostProofs PropsGhost BcProofs PropsOuter HartenModel HartenProofs HartenProofs2 HartenProofs3 PropsHarten DetailProofs CriteriaProofs AroundProofs PropsDetail LoopProofs.
Open Scope Z_scope.

(** ** One level *)
Definition steps1 (a : lca) : Prop := LcaProofs3.stored (fun i => istep i = 1) a.

Lemma calls_align : forall ca cb, Spec.bounds (map fst ca) = Spec.bounds (map fst cb) ->
  (forall i (yz : list Z), In (i, yz) ca -> istart i < iend i) -> cells_of_calls ca = cells_of_calls cb -> map snd ca = map snd cb.
Proof.
  induction ca as [|[i y] ca IH]; intros [|[i' y'] cb] B V E; try discriminate; auto. cbn in B. injection B as B1 B2 B3.
  unfold cells_of_calls in E. cbn [flat_map] in E. fold (cells_of_calls ca) in E. fold (cells_of_calls cb) in E. rewrite <- B1, <- B2 in E.
  pose proof (V i y (or_introl eq_refl)) as Hv.
  assert (y = y').
  { destruct (zrange (istart i) (iend i)) as [|x xs] eqn:Ez.
    - exfalso. assert (In (istart i) (zrange (istart i) (iend i))) as Hx by (apply zrange_In; lia). rewrite Ez in Hx. destruct Hx.
    - cbn in E. injection E as E _. auto. }
  subst y'. apply app_inv_head in E. cbn. f_equal. apply IH; auto. intros i0 yz H. apply (V i0 yz). right; auto.
Qed.

Lemma numbered_eqb : forall n a b, wf n a -> wf n b -> a_level a = a_level b -> (forall p, lca_mem n a p <-> lca_mem n b p) ->
  steps1 a -> steps1 b -> (forall p, lca_mem n a p -> get_index n a p = get_index n b p) -> lca_eqb n a b = true.
Proof.
  intros n a b Wa Wb HL HM Sa Sb HG. apply (canon_eqb n a b (fun i => istep i = 1)); auto. intros B Pa Pb.
  destruct (calls_spec n a Wa) as (ca & Ea & Fa & Va & Ma & Oa & _). destruct (calls_spec n b Wb) as (cb & Eb & Fb & Vb & Mb & Ob & _).
  assert (EC : cells_of_calls ca = cells_of_calls cb).
  { apply (sorted_ext _ lex_lt); auto; [apply lex_lt_irrefl|intros x y z; apply lex_lt_trans|].
    intros p. destruct p as [|x y].
    - assert (K : forall c, ~ In [] (cells_of_calls c)). { intros c H. unfold cells_of_calls in H. apply in_flat_map in H as ([i y] & _ & H). apply in_map_iff in H as (x & H & _). discriminate. }
      split; intros H; destruct (K _ H).
    - rewrite !cells_of_calls_In, <- Ma, <- Mb. apply HM. }
  assert (ES : map snd ca = map snd cb). { apply calls_align; auto. - rewrite Fa, Fb. auto. - intros i yz H. apply (Va _ _ H). }
  apply intervals_ext; auto.
  - apply const_map with (c := 1); auto. apply bounds_len; auto.
  - rewrite <- Fa, <- Fb in *. apply nth_ext with (d := 0) (d' := 0).
    + rewrite !map_length. rewrite <- (map_length snd ca), <- (map_length snd cb). congruence.
    + intros k Hk. rewrite !map_length in Hk.
      destruct (nth_error ca k) as [[i y]|] eqn:Ka; [|apply nth_error_None in Ka; lia].
      destruct (nth_error cb k) as [[i' y']|] eqn:Kb; [|apply nth_error_None in Kb; rewrite <- (map_length snd), <- ES, map_length in Kb; lia].
      assert (y' = y). { assert (Some y = Some y'); [|congruence]. transitivity (nth_error (map snd ca) k); [rewrite nth_error_map, Ka; auto|rewrite ES, nth_error_map, Kb; auto]. } subst y'.
      assert (istart i' = istart i).
      { assert (X : nth_error (Spec.bounds (map fst ca)) k = nth_error (Spec.bounds (map fst cb)) k) by congruence. unfold Spec.bounds in X.
        rewrite !nth_error_map, Ka, Kb in X. cbn in X. congruence. }
      assert (Va' := Va _ _ (nth_error_In _ _ Ka)). assert (Vb' := Vb _ _ (nth_error_In _ _ Kb)).
      assert (Hm : lca_mem n a (istart i :: y)). { apply Ma. exists i. split; [eapply nth_error_In; eauto|unfold in_i; lia]. }
      specialize (HG _ Hm). unfold get_index in HG.
      destruct (proj2 (get_interval_spec n a ca (istart i) y i Wa Ea)) as [Ga _]; [split; [eapply nth_error_In; eauto|unfold in_i; lia]|].
      destruct (proj2 (get_interval_spec n b cb (istart i) y i' Wb Eb)) as [Gb _]; [split; [eapply nth_error_In; eauto|unfold in_i; lia]|].
      rewrite Ga, Gb in HG. cbn in HG.
      erewrite !nth_error_nth; [|rewrite !nth_error_map, Kb; reflexivity|rewrite !nth_error_map, Ka; reflexivity]. cbn. injection HG as HG. lia.
Qed.

(** ** The steps of the intervals *)
Lemma renumber_level_steps : forall n reference a a', wf n a -> steps1 a -> renumber_level n reference a = Some a' -> steps1 a'.
Proof.
  intros n reference a a' W S1 E. unfold renumber_level in E. destruct (calls_spec n a W) as (calls & Ec & F & _). rewrite Ec in E.
  destruct (mapM _ calls) as [is|] eqn:Em; [|discriminate]. injection E as <-. intros d i Hi. cbn in Hi. destruct d as [|d].
  - rewrite upd_same in Hi. apply In_nth_error in Hi as (k & Hk). destruct (mapM_spec _ _ _ Em) as [L N].
    destruct (nth_error calls k) as [[j yz]|] eqn:Ek.
    + destruct (N _ _ Ek) as (i' & Hf & Hk'). rewrite Hk in Hk'. injection Hk' as <-. destruct (get_interval n reference (istart j :: yz)); [|discriminate]. injection Hf as <-. cbn.
      apply (S1 0%nat j). rewrite <- F. apply in_map_iff. exists (j, yz). split; auto. eapply nth_error_In; eauto.
    + apply nth_error_None in Ek. assert (nth_error is k <> None) as H by congruence. apply nth_error_Some in H. lia.
  - rewrite upd_other in Hi by auto. apply (S1 (S d) i Hi).
Qed.
Lemma renumber_levels_steps : forall n reference ls at_ at', NoDup ls -> (forall l, In l ls -> wf n (at_ l)) -> (forall l, steps1 (at_ l)) ->
  renumber_levels n reference ls at_ = Some at' -> forall l, steps1 (at' l).
Proof.
  intros n reference. induction ls as [|k ls IH]; intros at_ at' N W S1 E l; cbn in E; [injection E as <-; auto|].
  destruct (renumber_level n (c_at reference k) (at_ k)) as [a|] eqn:Ea; [|discriminate]. inversion N as [|? ? N1 N2]; subst.
  apply (IH _ _ N2) with (l := l) in E; auto.
  - intros l0 H0. rewrite upd_other; [apply W; right; auto|]. intros ->. auto.
  - intros l0. unfold upd. destruct (Nat.eqb l0 k); auto. apply (renumber_level_steps n _ _ _ (W k (or_introl eq_refl)) (S1 k) Ea).
Qed.
Definition steps_one (c : ca) : Prop := forall l, steps1 (c_at c l).
Lemma renumber_steps : forall n reference c c', ca_wf n c -> steps_one c -> renumber_sub_mesh n reference c = Some c' -> steps_one c'.
Proof.
  intros n reference c c' W S1 E. unfold renumber_sub_mesh in E. destruct (renumber_levels n reference (levels c) (c_at c)) as [at'|] eqn:Ea; [|discriminate]. injection E as <-.
  destruct (levels_spec c) as (_ & S2 & _). intros l. cbn. apply (renumber_levels_steps n reference (levels c) (c_at c)); auto. unfold levels. apply seq_NoDup.
Qed.

Lemma call_lists_steps : forall n m cs, (forall l c, In (l, c) cs -> call_fields (fun st _ => st = 1) c) ->
  steps_one (ca_of_cl n m (cl_run n (hist_of cs)) false).
Proof.
  intros n m cs H l. cbn. apply lca_of_lcl_stored. cbn. apply (grid_run_all (fun st _ => st = 1)); auto.
  - apply Forall_forall. intros c Hc. unfold hist_of in Hc. apply in_map_iff in Hc as ([l0 c0] & <- & Hc). apply filter_In in Hc as [Hc _]. apply (H _ _ Hc).
  - apply grid_empty_all.
Qed.
Lemma update_cells_steps : forall n minl maxl cells tag new, update_cells n minl maxl cells tag = Some new -> steps_one new.
Proof.
  intros n minl maxl cells tag new E. unfold update_cells, tag_calls in E. destruct (ca_for_each_interval n cells) as [calls|]; [|discriminate].
  cbv beta iota in E. match type of E with context [forallb _ ?cs] => set (ops := cs) in * end. destruct (forallb _ ops); [|discriminate]. injection E as <-.
  apply call_lists_steps. intros l c Hc. unfold ops in Hc. apply in_flat_map in Hc as ([l0 [i yz]] & _ & Hc). revert Hc.
  generalize (istart i + iindex i). generalize (Z.to_nat (iend i - istart i)) as k. generalize (istart i). intros x0 k. revert x0. induction k as [|k IH]; intros x t Hc; [cbn in Hc; destruct Hc|].
  cbn in Hc. apply in_app_or in Hc as [Hc|Hc]; [|apply (IH _ _ Hc)]. revert Hc. unfold tag_body.
  repeat match goal with |- context [if ?b then _ else _] => destruct b end; intros Hc; repeat (destruct Hc as [Hc|Hc]; [injection Hc as <- <-; cbn; auto|]); try destruct Hc.
  apply in_map_iff in Hc as (z & Hz & _). injection Hz as <- <-. cbn. auto.
Qed.

(** ** What the sub-meshes contain depends on the leaves only *)
Lemma margin_same : forall n w c c' l p, same_leaves n c c' -> margin n w c l p -> margin n w c' l p.
Proof. intros n w c c' l p E (Lp & q & Hq & N). split; auto. exists q. split; auto. apply E, Hq. Qed.
Lemma refined_same : forall n minl c c' l p, same_leaves n c c' -> refined n minl c l p -> refined n minl c' l p.
Proof. intros n minl c c' l p E (H & l' & q & Hl & Hq & Ep). split; auto. exists l', q. split; auto. split; auto. apply E, Hq. Qed.
Lemma wanted_same : forall n minl w s c c' l p, same_leaves n c c' -> wanted n minl w s c l p -> wanted n minl w s c' l p.
Proof.
  intros n minl w s c c' l p E H. induction H as [l p H|l p h Lp H1 H2 H3|l p q Lp H1 H2|l p Lp _ IH H].
  - apply wanted_margin. apply (margin_same n w c); auto.
  - apply (wanted_parent _ _ _ _ _ _ _ h); auto; [apply (margin_same n w c); auto|]. intros Y. apply H2. apply (refined_same n minl c'); auto using same_leaves_sym.
  - apply (wanted_grand _ _ _ _ _ _ _ q); auto. apply E; auto.
  - apply wanted_child; auto. apply (refined_same n minl c); auto.
Qed.
Lemma split_same : forall n c c' l p, same_leaves n c c' -> split_at n c l p -> split_at n c' l p.
Proof. intros n c c' l p E (l' & q & A & B & C). exists l', q. split; auto. split; auto. apply E; auto. Qed.

Section Contents.
  Variables (n m minl maxl : nat) (w s : Z) (c c' : ca) (r r' : mr_mesh).
  Hypothesis HI : mr_input n m minl maxl w s c.
  Hypothesis HI' : mr_input n m minl maxl w s c'.
  Hypothesis HR : update_sub_mesh n m minl maxl w s c = Some r.
  Hypothesis HR' : update_sub_mesh n m minl maxl w s c' = Some r'.
  Hypothesis SL : same_leaves n c c'.

  Lemma all_same : same_leaves n (r_all r) (r_all r').
  Proof.
    destruct (C54_contents n m minl maxl w s c HI) as (r0 & E & _ & _ & A & B). rewrite HR in E. injection E as <-.
    destruct (C54_contents n m minl maxl w s c' HI') as (r0 & E & _ & _ & A' & B'). rewrite HR' in E. injection E as <-.
    intros l q. destruct (Nat.eq_dec maxl minl) as [Eq|Ne].
    - rewrite (proj1 (B Eq l q)), (proj1 (B' Eq l q)). split; apply margin_same; auto using same_leaves_sym.
    - rewrite (proj1 (A Ne l q)), (proj1 (A' Ne l q)). split; apply wanted_same; auto using same_leaves_sym.
  Qed.
  Lemma proj_same : same_leaves n (r_proj r) (r_proj r').
  Proof.
    destruct (C54_contents n m minl maxl w s c HI) as (r0 & E & _ & _ & A & B). rewrite HR in E. injection E as <-.
    destruct (C54_contents n m minl maxl w s c' HI') as (r0 & E & _ & _ & A' & B'). rewrite HR' in E. injection E as <-.
    intros l q. destruct (Nat.eq_dec maxl minl) as [Eq|Ne].
    - split; intros H; exfalso; [apply (proj2 (B Eq l q) H)|apply (proj2 (B' Eq l q) H)].
    - rewrite (proj2 (A Ne l q)), (proj2 (A' Ne l q)). split; intros [X Y]; (split; [eapply wanted_same; [|exact X]|eapply refined_same; [|exact Y]]); auto using same_leaves_sym.
  Qed.

  (** The numbers of the cells of the reference. *)
  Lemma reference_same : forall l p, ca_mem n (r_all r) l p -> ca_get_index n (ca_update_index (r_all r)) l p = ca_get_index n (ca_update_index (r_all r')) l p.
  Proof.
    destruct (C54_contents n m minl maxl w s c HI) as (r0 & E & W & _). rewrite HR in E. injection E as <-.
    destruct (C54_contents n m minl maxl w s c' HI') as (r0 & E & W' & _). rewrite HR' in E. injection E as <-.
    destruct (W (r_all r)) as (WA & _); auto. destruct (W' (r_all r')) as (WA' & _); auto.
    destruct (ca_update_index_spec n _ WA) as (cs & [S1 M1] & _ & _ & G & _). destruct (ca_update_index_spec n _ WA') as (cs' & [S2 M2] & _ & _ & G' & _).
    assert (cs' = cs). { apply (ca_enumeration_unique n (r_all r')); split; auto. intros l p. rewrite M1. apply all_same. } subst cs'.
    intros l p Hp. apply M1 in Hp. apply In_nth_error in Hp as (j & Hj). rewrite (G _ _ _ Hj), (G' _ _ _ Hj). auto.
  Qed.

  (** The comparison of the numbered leaves. *)
  Lemma same_leaves_same_mesh : forall d d', steps_one c -> steps_one c' ->
    renumber_sub_mesh n (ca_update_index (r_all r)) c = Some d -> numbered_as n m c r d (ca_update_index (r_all r)) ->
    renumber_sub_mesh n (ca_update_index (r_all r')) c' = Some d' -> numbered_as n m c' r' d' (ca_update_index (r_all r')) ->
    same_mesh n minl maxl d d' = true.
  Proof.
    intros d d' S1 S1' E N E' N'. destruct HI as (W & Mc & Hm & _). destruct HI' as (W' & _).
    apply (renumber_steps _ _ _ _ W S1) in E. apply (renumber_steps _ _ _ _ W' S1') in E'.
    destruct N as (Wd & Md & Ld & Sd & _ & RA & IX & _). destruct N' as (Wd' & Md' & Ld' & Sd' & _ & RA' & IX' & _).
    unfold same_mesh. apply forallb_forall. intros l Hl. apply in_seq in Hl.
    assert (Lm : (l <= m)%nat) by lia.
    assert (MM : forall p, ca_mem n d l p <-> ca_mem n d' l p). { intros p. rewrite <- (Sd l p), <- (Sd' l p). apply SL. }
    apply numbered_eqb; auto.
    - apply Wd; lia.
    - apply Wd'; lia.
    - rewrite Ld, Ld'; auto.
    - intros p. specialize (MM p). unfold ca_mem in MM. rewrite Md, Md' in MM. tauto.
    - intros p Hp. assert (Hc : ca_mem n c l p). { apply Sd. split; [lia|auto]. } assert (Hc' : ca_mem n c' l p) by (apply SL; auto).
      destruct (IX l p Hc) as [I1 I2]. destruct (IX' l p Hc') as [I1' I2']. unfold ca_get_index in I2, I2'.
      rewrite I2, I2'. apply reference_same. apply RA; auto.
  Qed.
End Contents.

(** ** The new mesh depends on what the flags of the leaves ask for *)
Lemma tag_body_same : forall n minl maxl l yz x t t',
  (Z.testbit t 2 = true <-> Z.testbit t' 2 = true) -> (wants_coarsen minl l t <-> wants_coarsen minl l t') ->
  Z.testbit t 0 || Z.testbit t 1 || Z.testbit t 2 = true -> Z.testbit t' 0 || Z.testbit t' 1 || Z.testbit t' 2 = true ->
  tag_body n minl maxl l yz x t = tag_body n minl maxl l yz x t'.
Proof.
  intros n minl maxl l yz x t t' R C A A'. unfold tag_body. rewrite !has_refine, !has_keep, !has_coarsen. unfold wants_coarsen in C.
  destruct (Nat.ltb_spec minl l); destruct (Z.testbit t 2), (Z.testbit t' 2), (Z.testbit t 0), (Z.testbit t' 0), (Z.testbit t 1), (Z.testbit t' 1); cbn in A, A'; try discriminate; try reflexivity; exfalso; intuition discriminate.
Qed.
Lemma update_cells_ext : forall n minl maxl cells tag tag', ca_wf n cells ->
  (forall l x y k, ca_mem n cells l (x :: y) -> ca_get_index n cells l (x :: y) = Some k -> tag_body n minl maxl l y x (tag k) = tag_body n minl maxl l y x (tag' k)) ->
  update_cells n minl maxl cells tag = update_cells n minl maxl cells tag'.
Proof.
  intros n minl maxl cells tag tag' W H. unfold update_cells, tag_calls. destruct (ca_calls_spec n cells W) as (calls & E & V & M). rewrite E. cbv beta iota.
  assert (X : flat_map (fun '(level, (i, yz)) => tag_loop n minl maxl level tag yz (Z.to_nat (iend i - istart i)) (istart i) (istart i + iindex i)) calls =
              flat_map (fun '(level, (i, yz)) => tag_loop n minl maxl level tag' yz (Z.to_nat (iend i - istart i)) (istart i) (istart i + iindex i)) calls).
  { assert (L : forall l i yz, In (l, (i, yz)) calls -> forall k x, istart i <= x -> x + Z.of_nat k <= iend i ->
      tag_loop n minl maxl l tag yz k x (x + iindex i) = tag_loop n minl maxl l tag' yz k x (x + iindex i)).
    { intros l i yz Hin. induction k as [|k IH]; intros x Hx Hk; [reflexivity|]. cbn [tag_loop]. f_equal.
      - apply H; [apply M; exists i; split; auto; unfold in_i; lia|]. rewrite Z.add_comm. apply (ca_call_index n cells calls); auto. unfold in_i; lia.
      - replace (x + iindex i + 1) with (x + 1 + iindex i) by lia. apply IH; lia. }
    clear -L V. assert (V' : forall l i yz, In (l, (i, yz)) calls -> istart i < iend i) by (intros l i yz Hi; apply (V _ _ _ Hi)). clear V. induction calls as [|[l [i yz]] calls IH]; [reflexivity|]. cbn [flat_map].
    rewrite IH by (intros; eauto using in_cons). f_equal. apply (L l i yz (or_introl eq_refl)); [lia|]. pose proof (V' l i yz (or_introl eq_refl)). lia. }
  rewrite X. reflexivity.
Qed.

(** ** Details that agree where they are looked at *)
Section Close.
  Variables (n minl maxl top : nat) (eps factor : Q) (enlarged : bool) (cells : ca).
  Definition close (d d' : lfield) : Prop :=
    (forall l q x y, (l <= top)%nat -> ca_mem n cells l q -> ancestor 1 (x :: y) = ancestor 1 q -> (d l x y == d' l x y)%Q) /\
    (forall l q x y, (minl <= l)%nat -> (S l <= top)%nat -> ca_mem n cells (S l) q -> ancestor 1 q = x :: y -> (d l x y == d' l x y)%Q).
  Lemma close_sym : forall d d', close d d' -> close d' d.
  Proof. intros d d' [A B]. split; [intros l q x y H1 H2 H3; symmetry; apply (A l q x y H1 H2 H3)|intros l q x y H0 H1 H2 H3; symmetry; apply (B l q x y H0 H1 H2 H3)]. Qed.

  Lemma asked_close : forall d d', close d d' -> forall l q, asked n maxl top eps factor cells d l q -> asked n maxl top eps factor cells d' l q.
  Proof using Type.
    intros d d' [A _] l q (Hq & H1 & H2 & H). split; auto. split; auto. split; auto. destruct q as [|x y]; [destruct Hq as (_ & Lq & _); discriminate|].
    unfold size in *. cbn [hd tl] in *. rewrite <- (A l (x :: y) x y H1 Hq eq_refl). auto.
  Qed.
  Lemma quiet_close : forall d d', close d d' -> forall l q, ca_mem n cells l q -> quiet n minl maxl top eps factor d l q -> quiet n minl maxl top eps factor d' l q.
  Proof using Type.
    intros d d' [A B] l q Hq (H1 & H2 & H3). split; auto. split.
    - intros c Hc. specialize (H2 c Hc). destruct Hc as (Lc & Ec & _). destruct c as [|x y]; [discriminate|]. unfold size in *. cbn [hd tl] in *. rewrite <- (A l q x y) by (auto; lia). auto.
    - destruct l as [|l]; [lia|]. cbn [Nat.pred] in *. destruct (ancestor 1 q) as [|x y] eqn:Ea.
      { apply (f_equal (@length Z)) in Ea. rewrite ancestor_length in Ea. destruct Hq as (_ & Lq & _). rewrite Lq in Ea. discriminate. }
      unfold size in *. cbn [hd tl] in *. rewrite <- (B l q x y) by (auto; lia). auto.
  Qed.
  Lemma stays_close : forall d d', close d d' -> forall l q, ca_mem n cells l q -> stays n minl maxl top eps factor cells d l q -> stays n minl maxl top eps factor cells d' l q.
  Proof using Type.
    intros d d' C l q Hq [H|(y & N & H)]; [left|right].
    - intros X. apply H. apply (quiet_close d' d (close_sym _ _ C)); auto.
    - exists y. split; auto. apply (asked_close d d'); auto.
  Qed.
  Lemma refine_close : forall d d', close d d' -> forall l q, to_refine n minl maxl top eps factor enlarged cells d l q -> to_refine n minl maxl top eps factor enlarged cells d' l q.
  Proof using Type.
    intros d d' C l q H. induction H as [l q H|l q y He Hq Hy Hl Ht Hs|l q y Hq _ IH Ht].
    - apply refine_asked. apply (asked_close d d'); auto.
    - apply (refine_margin _ _ _ _ _ _ _ _ _ l q y); auto. apply (stays_close d d'); auto.
    - apply (refine_pulled _ _ _ _ _ _ _ _ _ l q y); auto.
  Qed.
  Lemma coarsen_close : forall d d', close d d' -> forall l q, to_coarsen n minl maxl top eps factor enlarged cells d l q -> to_coarsen n minl maxl top eps factor enlarged cells d' l q.
  Proof using Type.
    intros d d' C l q (Hq & HQ & HS). split; auto. split; [apply (quiet_close d d'); auto|]. intros q' Lq' Eq'. destruct (HS q' Lq' Eq') as (A1 & A2 & A3 & A4).
    split; auto. split; auto. split.
    - intros y Ny Hy. apply (A3 y Ny). apply (refine_close d' d (close_sym _ _ C)); auto.
    - intros He y Hy Ny Hs. apply (A4 He y Hy Ny). apply (stays_close d' d (close_sym _ _ C)); auto.
  Qed.
End Close.
