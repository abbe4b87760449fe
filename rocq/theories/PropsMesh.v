(** Properties C25-C29, C43, C48: meshes, ghosts, numbering of the sub-meshes, fields. *)
From Verif Require Import Base IntervalModel Spec LoiModel LoiProofs IntervalProofs LcaModel LcaSpec GridProofs
  InitProofs SearchProofs IterProofs LcaProofs LcaProofs2 LcaProofs3 RowsProofs CellArrayModel CellArrayProofs
  PropsLca PropsCellArray SubsetModel TreeProofs SubsetSpec SubsetProofs2 PropsSubset StencilModel NumberingProofs
  StencilProofs MeshModel MeshProofs.
Open Scope Z_scope.

(** ** C26: the subdomain is the set of the descendants, on the finest level, of the leaves *)

Theorem C26_subdomain : forall n maxl cells, ca_wf n cells ->
  (forall l q, ca_mem n cells l q -> (l <= maxl)%nat) ->
  exists a, construct_subdomain n maxl cells = Some a /\ wf n a /\ a_level a = maxl /\
    forall p, lca_mem n a p <-> exists l, ca_mem n cells l (ancestor (maxl - l) p).
Proof.
  intros n maxl cells W HL. unfold construct_subdomain.
  destruct (ca_calls_spec n cells W) as (calls & E & V & M). rewrite E.
  assert (HB : forall l i yz, In (l, (i, yz)) calls -> (l <= maxl)%nat).
  { intros l i yz H. apply (HL l (istart i :: yz)). apply M. exists i. split; auto.
    destruct (V _ _ _ H). unfold in_i. lia. }
  assert (HF : forallb (fun '(level, _) => Nat.leb level maxl) calls = true).
  { apply forallb_forall. intros [l [i yz]] H. apply Nat.leb_le. eauto. }
  rewrite HF. set (f := fun x : nat * (interval * list Z) => let (level, y) := x in let (i, yz) := y in subdomain_calls n (maxl - level) i yz).
  assert (D : Forall (call_dim n) (flat_map f calls)).
  { apply all_calls. intros [l [i yz]] c Hin Hc. apply in_map_iff in Hc as (st & <- & Hst).
    cbn [call_dim]. apply nested_loop_length in Hst. rewrite add_yz_length; rewrite map_length; destruct (V _ _ _ Hin); lia. }
  assert (A : Forall call_adds (flat_map f calls)).
  { apply all_calls. intros [l [i yz]] c Hin Hc. apply in_map_iff in Hc as (st & <- & Hst).
    destruct (V _ _ _ Hin) as [V1 _]. cbn [call_adds ishl istart iend]. rewrite !Z.shiftl_mul_pow2 by lia.
    apply Z.mul_lt_mono_pos_r; auto. apply Z.pow_pos_nonneg; lia. }
  eexists. split; [reflexivity|]. fold (client_lca n maxl (flat_map f calls)). spl.
  - apply client_lca_wf; auto. apply adds_filled; auto.
  - apply client_lca_level; auto.
  - intros p. rewrite client_lca_mem by auto. split.
    + intros (Hp & c & Hc & Ha). apply in_flat_map in Hc as ([l [i yz]] & Hin & Hc).
      destruct p as [|x yp]; [discriminate|]. exists l.
      destruct (proj1 (subdomain_call_spec n (maxl - l) i yz x yp (proj2 (V _ _ _ Hin)))) as [H1 H2]; [exists c; auto|].
      cbn [ancestor map]. fold (ancestor (maxl - l) yp). rewrite <- H2. apply M. eauto.
    + intros (l & Hm). destruct p as [|x yp].
      { destruct Hm as [_ [Hm _]]. discriminate. }
      assert (Hl : length (x :: yp) = S n) by (destruct Hm as [_ [Hm _]]; rewrite ancestor_length in Hm; auto).
      split; auto. cbn [ancestor map] in Hm. fold (ancestor (maxl - l) yp) in Hm. apply M in Hm as (i & Hin & Hx).
      destruct (proj2 (subdomain_call_spec n (maxl - l) i (ancestor (maxl - l) yp) x yp (proj2 (V _ _ _ Hin))) (conj Hx eq_refl)) as (c & Hc & Ha).
      exists c. split; auto. apply in_flat_map. exists (l, (i, ancestor (maxl - l) yp)). auto.
Qed.

(** Leaves on levels 1 and 2, finest level 3 of the subdomain. *)
Definition exLeaves : nat -> list lcl_call := fun l =>
  match l with
  | 1%nat => [AddI [0] (mk 0 2); AddI [1] (mk (-1) 1)]
  | 2%nat => [AddI [2] (mk 2 4); AddI [3] (mk 2 4)]
  | _ => []
  end.
Definition exCells : ca := client_ca 1 3 exLeaves false.
Lemma exCells_wf : ca_wf 1 exCells.
Proof.
  apply raw_wf. intros l Hl. split; [|apply adds_filled];
    destruct l as [|[|[|l]]]; repeat constructor; simpl; lia.
Qed.
Example C26_case : ca_wf 1 exCells /\
  option_map (fun a => for_each_interval 1 a) (construct_subdomain 1 3 exCells) =
  Some (Some [(mk 0 8, [0]); (mk 0 8, [1]); (mk 0 8, [2]); (mk 0 8, [3]);
              (mk (-4) 8, [4]); (mk (-4) 8, [5]); (mk (-4) 8, [6]); (mk (-4) 8, [7])]) /\
  (* a level above the maximum makes the unsigned shift wrap around *)
  construct_subdomain 1 1 exCells = None.
Proof. split; [exact exCells_wf|]. vm_compute. auto. Qed.

(** ** C29: the ghosts of a uniform mesh *)

Theorem C29_ghost_layer : forall n gw cells, 0 <= gw -> wf n cells ->
  exists a, uniform_ghosts n gw cells = Some a /\ wf n a /\ a_level a = a_level cells /\
    forall p, lca_mem n a p <-> length p = S n /\
      exists q, lca_mem n cells q /\ forall k, (k <= n)%nat -> Z.abs (nth k p 0 - nth k q 0) <= gw.
Proof.
  intros n gw cells Hg W. unfold uniform_ghosts.
  destruct (calls_spec n cells W) as (calls & E & _ & V & M & _). rewrite E.
  set (f := fun x : interval * list Z => let (i, yz) := x in ghost_calls n gw i yz).
  assert (D : Forall (call_dim n) (flat_map f calls)).
  { apply all_calls. intros [i yz] c Hin Hc. apply in_map_iff in Hc as (st & <- & Hst).
    cbn [call_dim]. apply nested_loop_length in Hst. rewrite add_yz_length; destruct (V _ _ Hin); lia. }
  assert (A : Forall call_adds (flat_map f calls)).
  { apply all_calls. intros [i yz] c Hin Hc. apply in_map_iff in Hc as (st & <- & Hst).
    destruct (V _ _ Hin) as [V1 _]. unfold mk. cbn [call_adds istart iend]. lia. }
  eexists. split; [reflexivity|]. fold (client_lca n (a_level cells) (flat_map f calls)). spl.
  - apply client_lca_wf; auto. apply adds_filled; auto.
  - apply client_lca_level; auto.
  - intros p. rewrite client_lca_mem by auto. split; intros [Hp H]; split; auto.
    + destruct H as (c & Hc & Ha). apply in_flat_map in Hc as ([i yz] & Hin & Hc).
      destruct p as [|x yp]; [discriminate|]. destruct (V _ _ Hin) as [V1 V2].
      destruct (proj1 (ghost_call_spec n gw i yz x yp Hg V1 V2)) as ((y & Hy & Hxy) & _ & H); [exists c; auto|].
      exists (y :: yz). split; [apply M; eauto|]. intros [|k] Hk; cbn [nth]; [exact Hxy|apply H; lia].
    + destruct H as (q & Hq & H). destruct p as [|x yp]; [discriminate|]. destruct q as [|y yz]; [destruct Hq; discriminate|].
      apply M in Hq as (i & Hin & Hy). destruct (V _ _ Hin) as [V1 V2].
      destruct (proj2 (ghost_call_spec n gw i yz x yp Hg V1 V2)) as (c & Hc & Ha).
      * spl; auto; [exists y; split; auto; apply (H 0%nat); lia|intros k Hk; apply (H (S k)); lia].
      * exists c. split; auto. apply in_flat_map. exists (i, yz). auto.
Qed.

Definition exU : list lcl_call := [AddI [0] (mk 0 3); AddI [1] (mk 0 1); AddI [4] (mk 6 7)].
Example C29_case : option_map (fun a => for_each_interval 1 a) (uniform_ghosts 1 1 (client_lca 1 4 exU)) =
  Some (Some [(mk (-1) 4, [-1]); (mk (-1) 4, [0]); (mk (-1) 4, [1]); (mk (-1) 2, [2]);
              (mk 5 8, [3]); (mk 5 8, [4]); (mk 5 8, [5])]).
Proof. vm_compute. auto. Qed.

(** ** C25: the union of the finer cells, projected *)

(** Level [l] of the result holds exactly the ancestors of the leaves of all the finer
    levels handled, from [lo] (the smallest level above 0 asked for) to [maxl]. *)
Theorem C25_union : forall n minl maxl cells,
  (forall l, (l <= maxl)%nat -> wf n (c_at cells l) /\ a_level (c_at cells l) = l) ->
  (forall l q k, (l <= maxl)%nat -> lca_mem n (c_at cells l) q -> (k <= n)%nat -> nth k q 0 + 3 < 2 ^ 31 - 1) ->
  exists u, construct_union n minl maxl cells = Some u /\
    (forall l, wf n (u l) /\ a_level (u l) = l) /\
    (forall l p, lca_mem n (u l) p <->
       (Nat.pred minl <= l)%nat /\ exists l' q, (l < l' <= maxl)%nat /\ lca_mem n (c_at cells l') q /\ p = ancestor (l' - l) q).
Proof.
  intros n minl maxl cells W B. unfold construct_union, union_levels.
  set (lo := if Nat.eqb minl 0 then 1%nat else minl).
  assert (Elo : Nat.pred lo = Nat.pred minl /\ (1 <= lo)%nat) by (unfold lo; destruct (Nat.eqb_spec minl 0); lia).
  destruct Elo as [Elo Hlo]. rewrite <- Elo. clearbody lo.
  set (fin := fun l p => exists l' q, (l < l' <= maxl)%nat /\ lca_mem n (c_at cells l') q /\ p = ancestor (l' - l) q).
  (* [m] more levels to handle, [lo + m - 1] down to [lo] *)
  assert (G : forall m u, (lo + m <= S maxl)%nat ->
    (forall l, wf n (u l) /\ a_level (u l) = l) ->
    (forall l p, lca_mem n (u l) p <-> (Nat.pred (lo + m) <= l)%nat /\ fin l p) ->
    exists u', union_loop n cells (rev (seq lo m)) u = Some u' /\ (forall l, wf n (u' l) /\ a_level (u' l) = l) /\
      (forall l p, lca_mem n (u' l) p <-> (Nat.pred lo <= l)%nat /\ fin l p)).
  { induction m as [|m IH]; intros u Hm Wu Mu.
    - exists u. split; [reflexivity|]. split; [exact Wu|]. rewrite Nat.add_0_r in Mu. auto.
    - rewrite seq_S, rev_app_distr. cbn [rev app union_loop]. set (L := (lo + m)%nat).
      unfold union_step. rewrite on_make_op.
      set (t := Nd Union (More (Lf (leaf_of (NMesh (c_at cells L)))) (One (Lf (leaf_of (NMesh (u L))))))).
      destruct (W L ltac:(lia)) as [WL EL]. destruct (Wu L) as [WuL EuL].
      assert (HO : operands_ok n (Nat.pred L) t).
      { assert (F : finest t = L) by (unfold finest, t; cbn; rewrite EL, EuL; lia).
        intros lf Hlf. rewrite F. replace (Nat.min (Nat.pred L) L) with (Nat.pred L) by lia.
        assert (Bd : forall q, (lca_mem n (c_at cells L) q \/ lca_mem n (u L) q) -> forall k, (k <= n)%nat -> nth k q 0 + 3 < 2 ^ 31 - 1).
        { intros q [Hq|Hq] k Hk; [apply (B L q k); [lia|exact Hq|exact Hk]|].
          apply Mu in Hq as (_ & l' & q' & Hl' & Hq' & ->). rewrite nth_ancestor.
          pose proof (B l' q' k ltac:(lia) Hq' Hk) as Bq.
          assert (P : 0 < 2 ^ Z.of_nat (l' - L)) by (apply Z.pow_pos_nonneg; lia).
          pose proof (proj1 (div_iff (nth k q' 0) _ _ P) eq_refl). nia. }
        assert (X : Z.max 0 (Z.of_nat (Nat.pred L) - Z.of_nat L) = 0) by lia.
        unfold t in Hlf. cbn [tin ain] in Hlf. destruct Hlf as [->| ->]; cbn [l_node leaf_of]; unfold operand_ok; cbn [simple node_mesh node_vect];
          spl; auto; intros q k Hq Hk; rewrite ?EL, ?EuL, X, vadd_nil by apply Hq; rewrite Z.mul_1_r;
          pose proof (Bd q ltac:(auto) k Hk); lia. }
      destruct (C22_array_of_subset n (Nat.pred L) t HO) as (a & Ea & Wa & La & Ma). rewrite Ea.
      apply IH; [lia| |].
      + intros l. destruct (Nat.eq_dec l (Nat.pred L)) as [->|Hne]; [rewrite upd_same; auto|rewrite upd_other; auto].
      + intros l p. destruct (Nat.eq_dec l (Nat.pred L)) as [->|Hne].
        2:{ rewrite upd_other, Mu by auto. split; intros [A1 A2]; split; auto; unfold L in *; lia. }
        rewrite upd_same, Ma. unfold expr_mem, t. cbn [tmap amap tsem aany l_node leaf_of].
        assert (Lp : forall q, lca_mem n (c_at cells L) q -> length (ancestor 1 q) = S n) by (intros q [Hq _]; rewrite ancestor_length; auto).
        split.
        * intros [Hp [H|H]]; (split; [lia|]); apply denotes_mesh_coarse in H; auto; try (rewrite ?EL, ?EuL; lia);
            rewrite ?EL, ?EuL in H; destruct H as (q & Hq & ->).
          -- exists L, q. spl; auto; unfold L in *; lia.
          -- apply Mu in Hq as (_ & l' & q' & Hl' & Hq' & ->). exists l', q'. split; [lia|]. split; auto.
             rewrite ancestor_add. f_equal. lia.
        * intros (_ & l' & q & Hl' & Hq & ->). rewrite ancestor_length. split; [apply Hq|].
          destruct (Nat.eq_dec l' L) as [->|Hn].
          -- left. apply denotes_mesh_coarse; [rewrite EL; lia|rewrite ancestor_length; apply Hq|]. rewrite EL. exists q. auto.
          -- right. apply denotes_mesh_coarse; [rewrite EuL; lia|rewrite ancestor_length; apply Hq|]. rewrite EuL.
             exists (ancestor (l' - L) q). split.
             ++ apply Mu. split; [unfold L; lia|]. exists l', q. spl; auto; lia.
             ++ rewrite ancestor_add. f_equal. lia. }
  assert (E0 : forall l, wf n (upd lca_empty maxl (lca_empty maxl) l) /\ a_level (upd lca_empty maxl (lca_empty maxl) l) = l /\
     (forall p, ~ lca_mem n (upd lca_empty maxl (lca_empty maxl) l) p)).
  { intros l. assert (X : upd lca_empty maxl (lca_empty maxl) l = lca_empty l).
    { destruct (Nat.eq_dec l maxl) as [->|]; [apply upd_same|apply upd_other; auto]. }
    rewrite X. assert (N : lca_no_cells n (lca_empty l)) by (split; auto). spl; auto.
    - left. auto.
    - intros p. apply no_cells_mem. auto. }
  destruct (Nat.le_gt_cases lo (S maxl)) as [Hle|Hgt].
  - apply (G (S maxl - lo)%nat); [lia|intros l; destruct (E0 l) as (X1 & X2 & _); auto|].
    intros l p. split; [intros H; destruct (E0 l) as (_ & _ & N); destruct (N p H)|].
    intros (A1 & l' & q & Hl' & _). lia.
  - replace (S maxl - lo)%nat with 0%nat by lia. cbn [seq rev union_loop]. eexists. split; [reflexivity|]. split; [intros l; destruct (E0 l) as (X1 & X2 & _); auto|].
    intros l p. split; [intros H; destruct (E0 l) as (_ & _ & N); destruct (N p H)|].
    intros (A1 & l' & q & Hl' & _). lia.
Qed.

Example C25_case :
  option_map (fun u => map (fun l => for_each_interval 1 (u l)) [0; 1; 2; 3]%nat) (construct_union 1 0 3 exCells) =
  Some [Some [(mk (-1) 1, [0])]; Some [(mk 1 2, [1])]; Some []; Some []] /\
  option_map (fun u => map (fun l => for_each_interval 1 (u l)) [0; 1; 2; 3]%nat) (construct_union 1 2 3 exCells) =
  Some [Some []; Some [(mk 1 2, [1])]; Some []; Some []].
Proof. vm_compute. auto. Qed.

(** Its hypotheses hold for these leaves. *)
Example C25_hypotheses : forall l, (l <= 3)%nat -> (wf 1 (c_at exCells l) /\ a_level (c_at exCells l) = l) /\
  forall q k, lca_mem 1 (c_at exCells l) q -> (k <= 1)%nat -> nth k q 0 + 3 < 2 ^ 31 - 1.
Proof.
  intros l Hl. change (c_at exCells l) with (client_lca 1 l (exLeaves l)).
  assert (D : Forall (call_dim 1) (exLeaves l)) by (destruct l as [|[|[|l]]]; repeat constructor).
  split; [split; [apply (exCells_wf l Hl)|apply client_lca_level; auto]|].
  intros q k Hq Hk. apply client_lca_mem in Hq as (Hp & c & Hc & Ha); auto.
  destruct q as [|x [|y [|z q]]]; try discriminate Hp.
  destruct l as [|[|[|l]]]; cbn [exLeaves In] in Hc; try tauto;
    destruct Hc as [<-|[<-|[]]]; cbn [added tl nth] in Ha; destruct Ha as [Hy Hx]; injection Hy as ->;
    unfold in_i, mk in Hx; cbn [istart iend] in Hx; destruct k as [|[|k]]; cbn [nth]; lia.
Qed.

(** ** C27: the sub-meshes share the numbering of the reference *)

Theorem C27_shared_numbering : forall n subs k r,
  nth_error subs k = Some r ->
  (forall c, In c subs -> ca_wf n c /\ c_max c = c_max r /\ forall l p, ca_mem n c l p -> ca_mem n r l p) ->
  exists subs' r', renumbering n subs k = Some subs' /\ nth_error subs' k = Some r' /\ length subs' = length subs /\
    (* the reference numbers its cells from 0, without hole or repetition *)
    (forall l p, ca_mem n r' l p <-> ca_mem n r l p) /\
    (forall l p, ca_mem n r' l p -> exists i, ca_get_index n r' l p = Some i /\ 0 <= i < ca_nb_cells r') /\
    (forall l p l' p' i, ca_mem n r' l p -> ca_mem n r' l' p' -> ca_get_index n r' l p = Some i ->
       ca_get_index n r' l' p' = Some i -> l = l' /\ p = p') /\
    (* every sub-mesh keeps its cells and finds the same index for them *)
    (forall id c c', nth_error subs id = Some c -> nth_error subs' id = Some c' ->
       (forall l p, ca_mem n c' l p <-> ca_mem n c l p) /\
       (forall l p, ca_mem n c l p -> ca_get_index n c' l p = ca_get_index n r' l p)).
Proof.
  intros n subs k r Hr H. unfold renumbering. rewrite Hr. cbn [option_map].
  set (ref := ca_update_index r). pose proof (nth_error_In _ _ Hr) as Hin.
  destruct (H r Hin) as (Wr & _ & _).
  destruct (ca_update_index_spec n r Wr) as (_ & _ & Wref & _ & _ & _ & SS). fold ref in Wref, SS.
  pose proof (numbered_update n r Wr) as NU. fold ref in NU.
  assert (Mx : c_max ref = c_max r) by reflexivity.
  assert (Mr : forall l p, ca_mem n ref l p <-> ca_mem n r l p).
  { intros l p. unfold ca_mem. rewrite Mx, (shape_mem n _ _ (SS l)). tauto. }
  assert (Sub : forall c, In c subs -> exists c', renumber_sub_mesh n ref c = Some c' /\
     (forall l p, ca_mem n c' l p <-> ca_mem n c l p) /\
     (forall l p, ca_mem n c l p -> ca_get_index n c' l p = ca_get_index n ref l p)).
  { intros c Hc. destruct (H c Hc) as (Wc & Mc & Inc). unfold renumber_sub_mesh.
    destruct (levels_spec c) as (S1 & S2 & S3).
    destruct (renumber_levels_spec n ref (levels c) (c_at c)) as (at' & E & P1 & P2 & P3).
    - unfold levels. apply seq_NoDup.
    - intros l Hl. specialize (S2 l Hl). spl; [apply Wref; lia|apply Wc; auto|].
      intros p Hp. apply (Mr l p). apply Inc. split; auto.
    - rewrite E. eexists. spl; [reflexivity| |].
      + intros l p. unfold ca_mem. cbn [c_max c_at]. rewrite (shape_mem n _ _ (proj1 (P1 l))). tauto.
      + intros l p [Hl Hm]. unfold ca_get_index. cbn [c_at]. apply P3; auto. apply S3; auto.
        apply (nonempty_mem n); eauto. }
  set (f := fun x : nat * ca => let (id, c) := x in if Nat.eqb id k then Some ref else renumber_sub_mesh n ref c).
  assert (Nc : forall id c, nth_error subs id = Some c -> nth_error (combine (seq 0 (length subs)) subs) id = Some (id, c)).
  { clear. intros id c E. assert (G : forall l s j x, nth_error l j = Some x -> nth_error (combine (seq s (length l)) l) j = Some ((s + j)%nat, x : ca)).
    { induction l as [|y l IH]; intros s [|j] x Hx; try discriminate; cbn [nth_error length seq combine] in *.
      - injection Hx as <-. rewrite Nat.add_0_r. auto.
      - rewrite (IH (S s) j x Hx). do 2 f_equal. lia. }
    apply (G subs 0%nat id c E). }
  destruct (mapM_total f (combine (seq 0 (length subs)) subs)) as (subs' & E).
  { intros [id c] Hc. unfold f. destruct (Nat.eqb id k); eauto. apply in_combine_r in Hc.
    destruct (Sub c Hc) as (c' & E & _). eauto. }
  exists subs', ref. rewrite E. destruct (mapM_spec f _ subs' E) as [L N]. spl; auto.
  - destruct (N k (k, r) (Nc _ _ Hr)) as (y & Hy & Hk). unfold f in Hy. rewrite Nat.eqb_refl in Hy. congruence.
  - rewrite L, combine_length, seq_length. lia.
  - intros l p Hp. apply (numbered_index n ref l p NU Hp).
  - intros l p l' p' i H1 H2 H3 H4. apply (numbered_inj n ref l p l' p' i NU H1 H2 H3 H4).
  - intros id c c' H1 H2. destruct (N id (id, c) (Nc _ _ H1)) as (y & Hy & Hk).
    assert (y = c') by congruence. subst y. unfold f in Hy. destruct (Nat.eqb_spec id k) as [->|Hne].
    + injection Hy as <-. assert (c = r) by congruence. subst c. auto.
    + destruct (Sub c (nth_error_In _ _ H1)) as (c0 & E0 & A & B). assert (c0 = c') by congruence. subst c0. auto.
Qed.

(** Cells, and a reference that extends the rows and has one more level. *)
Definition exRefHist : nat -> list lcl_call := fun l =>
  match l with
  | 0%nat => [AddI [0] (mk (-1) 1)]
  | 1%nat => [AddI [0] (mk (-1) 3); AddI [1] (mk (-2) 3); AddI [2] (mk 0 1)]
  | 2%nat => [AddI [2] (mk 0 4); AddI [3] (mk 2 6)]
  | _ => []
  end.
Definition exRef : ca := client_ca 1 3 exRefHist false.
Example C27_case :
  option_map (map (fun c => ca_for_each_interval 1 c)) (renumbering 1 [exCells; exRef] 1) =
  Some [Some [(1%nat, (mkI 0 2 1 3, [0])); (1%nat, (mkI (-1) 1 1 8, [1]));
              (2%nat, (mkI 2 4 1 12, [2])); (2%nat, (mkI 2 4 1 14, [3]))];
        Some [(0%nat, (mkI (-1) 1 1 1, [0]));
              (1%nat, (mkI (-1) 3 1 3, [0])); (1%nat, (mkI (-2) 3 1 8, [1])); (1%nat, (mkI 0 1 1 11, [2]));
              (2%nat, (mkI 0 4 1 12, [2])); (2%nat, (mkI 2 6 1 14, [3]))]].
Proof. vm_compute. auto. Qed.
Lemma exRef_wf : ca_wf 1 exRef.
Proof.
  apply raw_wf. intros l Hl. split; [|apply adds_filled];
    destruct l as [|[|[|l]]]; repeat constructor; simpl; lia.
Qed.

(** Its hypotheses hold. *)
Lemma exRef_contains : forall l p, ca_mem 1 exCells l p -> ca_mem 1 exRef l p.
Proof.
  intros l p [Hl H]. split; auto. change (c_at exCells l) with (client_lca 1 l (exLeaves l)) in H.
  change (c_at exRef l) with (client_lca 1 l (exRefHist l)).
  assert (D : forall h, (h = exLeaves \/ h = exRefHist) -> Forall (call_dim 1) (h l)).
  { intros h [->| ->]; destruct l as [|[|[|l]]]; repeat constructor. }
  apply client_lca_mem in H as (Hp & c & Hc & Ha); [|apply D; auto].
  apply client_lca_mem; [apply D; auto|]. split; auto.
  destruct p as [|x [|y [|z p]]]; try discriminate Hp.
  destruct l as [|[|[|l]]]; cbn [exLeaves In] in Hc; try tauto;
    destruct Hc as [<-|[<-|[]]]; cbn [added tl nth] in Ha; destruct Ha as [Hy Hx]; injection Hy as ->;
    unfold in_i, mk in Hx; cbn [istart iend] in Hx.
  - exists (AddI [0] (mk (-1) 3)). split; [simpl; auto|]. simpl. split; auto. unfold in_i. simpl. lia.
  - exists (AddI [1] (mk (-2) 3)). split; [simpl; auto|]. simpl. split; auto. unfold in_i. simpl. lia.
  - exists (AddI [2] (mk 0 4)). split; [simpl; auto|]. simpl. split; auto. unfold in_i. simpl. lia.
  - exists (AddI [3] (mk 2 6)). split; [simpl; auto|]. simpl. split; auto. unfold in_i. simpl. lia.
Qed.

(** The same for a uniform mesh: every cell has the index of its place in the
    enumeration of the cells and ghosts. *)
Theorem C29_uniform_numbering : forall n gw level cs, 0 <= gw -> Forall (call_dim n) cs -> rows_filled cs ->
  exists cells reference, uniform_mesh n gw (lcl_run n level cs) = Some (cells, reference) /\
    (forall p, lca_mem n cells p <-> length p = S n /\ exists c, In c cs /\ added c p) /\
    (forall p, lca_mem n reference p <-> length p = S n /\
       exists q, lca_mem n cells q /\ forall k, (k <= n)%nat -> Z.abs (nth k p 0 - nth k q 0) <= gw) /\
    (forall p, lca_mem n cells p -> get_index n cells p = get_index n reference p) /\
    exists all, enumeration n reference all /\ forall j p, nth_error all j = Some p -> get_index n reference p = Some (Z.of_nat j).
Proof.
  intros n gw level cs Hg D F. unfold uniform_mesh. fold (client_lca n level cs).
  pose proof (client_lca_wf n level cs D F) as W.
  destruct (C29_ghost_layer n gw _ Hg W) as (g & E & Wg & _ & Mg). rewrite E.
  pose proof (update_index_shape 0 g) as SS.
  assert (Wr : wf n (update_index g)).
  { destruct Wg as [Wg|Wg]; [left; eapply no_cells_shape; eauto|right; eapply shape_wf; eauto]. }
  assert (Mr : forall p, lca_mem n (update_index g) p <-> lca_mem n g p) by (intros p; apply (shape_mem n _ _ SS)).
  destruct (renumber_level_spec n (update_index g) (client_lca n level cs) Wr W) as (c & Ec & SSc & _ & GI).
  { intros p Hp. apply Mr, Mg. split; [apply Hp|]. exists p. split; auto. intros. lia. }
  rewrite Ec. exists c, (update_index g).
  assert (Mc : forall p, lca_mem n c p <-> lca_mem n (client_lca n level cs) p) by (intros p; apply (shape_mem n _ _ SSc)).
  spl; auto.
  - intros p. rewrite Mc. apply client_lca_mem; auto.
  - intros p. rewrite Mr, Mg. split; intros (A & q & B & C); (split; [auto|]); exists q; (split; [apply Mc; auto|auto]).
  - intros p Hp. apply GI, Mc. auto.
  - destruct (for_each_interval_correct n _ Wg) as (calls & _ & H2 & H3 & _).
    destruct (update_index_spec 0 n _ (cells_of_calls calls) Wg (conj H2 H3)) as (_ & E' & G & _).
    exists (cells_of_calls calls). auto.
Qed.

Example C29_numbering_case : option_map (fun '(c, r) => (for_each_interval 1 c, for_each_interval 1 r)) (uniform_mesh 1 1 (lcl_run 1 4 exU)) =
  Some (Some [(mkI 0 3 1 6, [0]); (mkI 0 1 1 11, [1]); (mkI 6 7 1 16, [4])],
        Some [(mkI (-1) 4 1 1, [-1]); (mkI (-1) 4 1 6, [0]); (mkI (-1) 4 1 11, [1]); (mkI (-1) 2 1 16, [2]);
              (mkI 5 8 1 13, [3]); (mkI 5 8 1 16, [4]); (mkI 5 8 1 19, [5])]).
Proof. vm_compute. auto. Qed.

(** ** C28: what a field view addresses *)

(** The x-coordinates designated by an interval with a step. *)
Definition strided (i : interval) (x : Z) : Prop := exists j, 0 <= j /\ x = istart i + j * istep i /\ x < iend i.

(** When the cells of the row are there, from the start to the last strided one, the
    view holds one position for each strided cell, in order, and this position is
    the index of the cell; positions are distinct and inside the storage. *)
Theorem C28_view_addresses_cells : forall n reference level i yz,
  numbered n reference -> (level <= c_max reference)%nat -> length yz = n ->
  (forall r, In r (a_cells (c_at reference level) 0) -> istep r = 1) ->
  0 < istep i -> istart i < iend i ->
  (forall x y, strided i x -> istart i <= y <= x -> lca_mem n (c_at reference level) (y :: yz)) ->
  exists positions, field_view n reference level i yz = Some (Some positions) /\
    Forall2 (fun x pos => strided i x /\ ca_get_index n reference level (x :: yz) = Some pos)
      (loop_values (istart i) (iend i) (istep i)) positions /\
    (forall x, strided i x -> In x (loop_values (istart i) (iend i) (istep i))) /\
    NoDup positions /\ Forall (fun pos => 0 <= pos < ca_nb_cells reference) positions.
Proof.
  intros n reference level i yz N Hl Hn Hs1 Hst Hv H. pose proof N as [W _]. specialize (W level Hl).
  assert (S0 : strided i (istart i)) by (exists 0; lia).
  assert (Hm : lca_mem n (c_at reference level) (istart i :: yz)) by (apply (H (istart i)); auto; lia).
  destruct (get_interval_mem n _ _ _ W Hm) as (r & Hr & Hir & Hall).
  destruct (get_interval_maximal n _ _ yz r W Hn Hr) as (_ & _ & _ & _ & Hmax).
  assert (Hsr : istep r = 1).
  { apply Hs1. unfold get_interval in Hr. destruct (find n (c_at reference level) (istart i :: yz)) as [[k|]|]; try discriminate.
    eapply nth_error_In; eauto. }
  assert (Hin : forall x, strided i x -> in_i r x).
  { intros x Hx. unfold in_i. pose proof (H x) as Hx'. destruct Hx as (j & Hj & -> & Hlt).
    unfold in_i in Hir. assert (0 <= j * istep i) by nia. split; [lia|].
    destruct (Z.lt_ge_cases (istart i + j * istep i) (iend r)); auto. exfalso. apply Hmax. apply Hx'; [exists j; auto|lia]. }
  assert (Hlast : iend i - istep i <= iend r - 1).
  { set (j := (iend i - istart i - 1) / istep i).
    assert (Hd : iend i - istart i - 1 = istep i * j + (iend i - istart i - 1) mod istep i) by (apply Z.div_mod; lia).
    pose proof (Z.mod_pos_bound (iend i - istart i - 1) (istep i) Hst).
    assert (0 <= j) by (apply Z.div_pos; lia).
    assert (S1 : strided i (istart i + j * istep i)) by (exists j; spl; auto; lia).
    apply Hin in S1. unfold in_i in S1. lia. }
  unfold field_view. rewrite Hr, Hsr.
  destruct (Z.ltb_spec (iend r - 1) (iend i - istep i)); [lia|]. destruct (Z.ltb_spec (istart i) (istart r)); [unfold in_i in Hir; lia|].
  cbn [orb]. eexists. split; [reflexivity|].
  assert (Hsh : loop_values (iindex r + istart i) (iindex r + iend i) (istep i) = map (Z.add (iindex r)) (loop_values (istart i) (iend i) (istep i))).
  { unfold loop_values. replace (iindex r + iend i - (iindex r + istart i)) with (iend i - istart i) by lia.
    rewrite map_map. apply map_ext. intros. lia. }
  assert (Hidx : forall x, strided i x -> ca_get_index n reference level (x :: yz) = Some (iindex r + x)).
  { intros x Hx. unfold ca_get_index, get_index.
    destruct (calls_spec n _ W) as (cr & Er & _).
    destruct (proj1 (get_interval_spec n _ cr _ yz r W Er) (conj Hr Hn)) as [Hc _].
    rewrite (proj1 (proj2 (get_interval_spec n _ cr x yz r W Er) (conj Hc (Hin x Hx)))). reflexivity. }
  rewrite Hsh. pose proof (loop_values_sorted (istart i) (iend i) (istep i) Hst) as Srt.
  assert (LV : forall x, In x (loop_values (istart i) (iend i) (istep i)) <-> strided i x) by (intros x; apply loop_values_In; auto).
  spl.
  - assert (G : forall l, (forall x, In x l -> strided i x) ->
      Forall2 (fun x pos => strided i x /\ ca_get_index n reference level (x :: yz) = Some pos) l (map (Z.add (iindex r)) l)).
    { induction l as [|x l IH]; intros Hx; constructor; [split; auto; try apply Hidx; apply Hx; left; auto|].
      apply IH. intros y Hy. apply Hx. right. auto. }
    apply G. intros x Hx. apply LV. auto.
  - apply LV.
  - apply FinFun.Injective_map_NoDup; [intros x y; lia|]. eapply (sorted_NoDup _ Z.lt); [intros x; lia|exact Srt].
  - apply Forall_map. apply Forall_forall. intros x Hx. apply LV in Hx.
    destruct (numbered_index n reference level (x :: yz) N) as (k & Hk & Hb).
    + split; [exact Hl|]. apply (H x); [exact Hx|]. destruct Hx as (j & Hj & -> & _). nia.
    + rewrite (Hidx x Hx) in Hk. injection Hk as ->. auto.
Qed.

(** With a whole number of steps the check throws exactly when a cell is missing. *)
Theorem C28_check_complete : forall n reference level i yz,
  numbered n reference -> (level <= c_max reference)%nat -> length yz = n ->
  (forall r, In r (a_cells (c_at reference level) 0) -> istep r = 1) ->
  0 < istep i -> istart i < iend i -> (iend i - istart i) mod istep i = 0 ->
  lca_mem n (c_at reference level) (istart i :: yz) ->
  let all_there := forall y, istart i <= y <= iend i - istep i -> lca_mem n (c_at reference level) (y :: yz) in
  (all_there -> exists positions, field_view n reference level i yz = Some (Some positions)) /\
  (~ all_there -> field_view n reference level i yz = Some None).
Proof.
  intros n reference level i yz N Hl Hn Hs1 Hst Hv Hal Hm all_there. pose proof N as [W _]. specialize (W level Hl).
  apply Z.mod_divide in Hal as (q & Hq); [|lia].
  split.
  - intros H. destruct (C28_view_addresses_cells n reference level i yz N Hl Hn Hs1 Hst Hv) as (ps & E & _); [|eauto].
    intros x y (j & Hj & -> & Hlt) Hy. apply H. assert (j <= q - 1) by nia. assert (j * istep i <= (q - 1) * istep i) by nia. lia.
  - intros H. unfold field_view. destruct (get_interval_mem n _ _ _ W Hm) as (r & Hr & Hir & Hall). rewrite Hr.
    assert (Hsr : istep r = 1).
    { apply Hs1. unfold get_interval in Hr. destruct (find n (c_at reference level) (istart i :: yz)) as [[k|]|]; try discriminate.
      eapply nth_error_In; eauto. }
    rewrite Hsr. destruct (Z.ltb_spec (iend r - 1) (iend i - istep i)) as [|Hge]; [reflexivity|]. exfalso. apply H.
    intros y Hy. apply Hall. unfold in_i in *. lia.
Qed.

(** A start that is no cell is not detected: the search yields -1 and the vector of
    intervals is read at that position. *)
Theorem C28_missing_start_undetected : forall n reference level i yz,
  ca_wf n reference -> (level <= c_max reference)%nat -> length yz = n ->
  ~ lca_mem n (c_at reference level) (istart i :: yz) -> field_view n reference level i yz = None.
Proof.
  intros n reference level i yz W Hl Hn H. unfold field_view.
  destruct (get_interval n (c_at reference level) (istart i :: yz)) as [r|] eqn:E; [|reflexivity]. exfalso. apply H.
  exact (proj1 (get_interval_maximal n _ _ yz r (W level Hl) Hn E)).
Qed.

(** Without the alignment the check is not sufficient: with the row [0, 2) and the
    interval [0, 3) of step 2 the view holds the position of x = 2, which belongs to
    the cell that follows in the storage. *)
Definition exRow : nat -> list lcl_call := fun l => match l with 0%nat => [AddI [0] (mk 0 2); AddI [1] (mk 0 2)] | _ => [] end.
Theorem C28_unaligned_step_refuted : exists n reference level i yz ps,
  numbered n reference /\ (level <= c_max reference)%nat /\ length yz = n /\
  (forall r, In r (a_cells (c_at reference level) 0) -> istep r = 1) /\ 0 < istep i /\ istart i < iend i /\
  field_view n reference level i yz = Some (Some ps) /\ strided i 2 /\
  ~ lca_mem n (c_at reference level) (2 :: yz) /\ In 2 ps /\ ca_get_index n reference level [0; 1] = Some 2.
Proof.
  exists 1%nat, (client_ca 1 0 exRow true), 0%nat, (mkI 0 3 2 0), [0], [0; 2].
  assert (G : good_hist 1 0 exRow).
  { intros l Hl. split; [|apply adds_filled]; destruct l; repeat constructor. }
  spl; simpl; auto; try lia.
  - apply numbered_client. auto.
  - intros r Hr. vm_compute in Hr. destruct Hr as [<-|[<-|[]]]; reflexivity.
  - exists 1. simpl. lia.
  - intros Hm. assert (Hc : ca_mem 1 (client_ca 1 0 exRow true) 0 [2; 0]) by (split; auto).
    apply (client_mem 1 0 exRow true G) in Hc. destruct Hc as (_ & _ & c & Hc & Ha). simpl in Hc.
    destruct Hc as [<-|[<-|[]]]; simpl in Ha; destruct Ha as [A1 A2]; [|discriminate]. unfold in_i in A2. simpl in A2. lia.
Qed.

Example C28_case : field_view 1 (ca_update_index exRef) 1 (mk (-1) 2) [1] = Some (Some [7; 8; 9]) /\
  field_view 1 (ca_update_index exRef) 1 (mkI (-2) 3 2 0) [1] = Some (Some [6; 8; 10]) /\
  field_view 1 (ca_update_index exRef) 1 (mk (-1) 4) [1] = Some None /\
  field_view 1 (ca_update_index exRef) 1 (mk 3 4) [1] = None.
Proof. vm_compute. auto. Qed.

(** ** C43: partition over the ranks *)

(** The position in the traversal of the interval holding a cell. *)
Definition at_interval (n : nat) (domain : lca) (p : list Z) (k : nat) : Prop :=
  exists calls i, for_each_interval n domain = Some calls /\ nth_error calls k = Some (i, tl p) /\ in_i i (nth 0 p 0).

Lemma partition_spec : forall n domain size rank, wf n domain ->
  let chunk := (lca_nb_intervals n domain / size)%nat in
  exists a, partition_mesh n domain size rank = Some a /\ wf n a /\ a_level a = a_level domain /\
    forall p, lca_mem n a p <-> length p = S n /\ exists k, at_interval n domain p k /\ (rank * chunk <= k < (rank + 1) * chunk)%nat.
Proof.
  intros n domain size rank W chunk. unfold partition_mesh, partition_calls.
  destruct (calls_spec n domain W) as (calls & E & _ & V & M & _). rewrite E. fold chunk.
  set (f := fun x : nat * (interval * list Z) => let (k, y) := x in let (i, yz) := y in
     if Nat.leb (rank * chunk) k && Nat.ltb k ((rank + 1) * chunk) then [AddI yz i] else []).
  assert (Nc : forall k x, In (k, x) (combine (seq 0 (length calls)) calls) <-> nth_error calls k = Some x).
  { clear. assert (G : forall l s k (x : interval * list Z), In (k, x) (combine (seq s (length l)) l) <-> (s <= k)%nat /\ nth_error l (k - s) = Some x).
    { induction l as [|y l IH]; intros s k x; cbn [length seq combine In].
      - split; [intros []|]. intros [_ H]. destruct (k - s)%nat; discriminate.
      - rewrite IH. split.
        + intros [H|[H1 H2]]; [injection H as <- <-; rewrite Nat.sub_diag; auto|].
          split; [lia|]. replace (k - s)%nat with (S (k - S s)) by lia. auto.
        + intros [H1 H2]. destruct (Nat.eq_dec k s) as [->|Hne].
          * rewrite Nat.sub_diag in H2. injection H2 as ->. auto.
          * right. split; [lia|]. replace (k - s)%nat with (S (k - S s)) in H2 by lia. auto. }
    intros k x. rewrite G, Nat.sub_0_r. split; [tauto|split; [lia|auto]]. }
  assert (Fin : forall c x, In c (f x) -> exists k i yz, x = (k, (i, yz)) /\ c = AddI yz i /\ (rank * chunk <= k < (rank + 1) * chunk)%nat).
  { intros c [k [i yz]] Hc. unfold f in Hc.
    destruct (Nat.leb_spec (rank * chunk) k); [|destruct Hc]. destruct (Nat.ltb_spec k ((rank + 1) * chunk)); [|destruct Hc].
    destruct Hc as [<-|[]]. exists k, i, yz. spl; auto. }
  assert (D : Forall (call_dim n) (flat_map f (combine (seq 0 (length calls)) calls))).
  { apply all_calls. intros [k x] c Hin Hc. apply Nc, nth_error_In in Hin. apply Fin in Hc as (k' & i & yz & Ex & -> & _).
    injection Ex as <- ->. cbn [call_dim]. apply (V i yz Hin). }
  assert (A : Forall call_adds (flat_map f (combine (seq 0 (length calls)) calls))).
  { apply all_calls. intros [k x] c Hin Hc. apply Nc, nth_error_In in Hin. apply Fin in Hc as (k' & i & yz & Ex & -> & _).
    injection Ex as <- ->. cbn [call_adds]. apply (V i yz Hin). }
  eexists. split; [reflexivity|]. fold (client_lca n (a_level domain) (flat_map f (combine (seq 0 (length calls)) calls))). spl.
  - apply client_lca_wf; auto. apply adds_filled; auto.
  - apply client_lca_level; auto.
  - intros p. rewrite client_lca_mem by auto. split; intros [Hp H]; split; auto.
    + destruct H as (c & Hc & Ha). apply in_flat_map in Hc as ([k x] & Hin & Hc). apply Nc in Hin.
      apply Fin in Hc as (k' & i & yz & Ex & -> & Hk). injection Ex as <- ->. cbn [added] in Ha. destruct Ha as [Hy Hx].
      exists k. split; auto. exists calls, i. rewrite Hy. auto.
    + destruct H as (k & (calls' & i & E' & Hk & Hx) & Hb). assert (calls' = calls) by congruence. subst calls'.
      exists (AddI (tl p) i). split; [|cbn [added]; auto]. apply in_flat_map. exists (k, (i, tl p)). split; [apply Nc; auto|].
      unfold f. destruct (Nat.leb_spec (rank * chunk) k); [|lia]. destruct (Nat.ltb_spec k ((rank + 1) * chunk)); [|lia]. left. auto.
Qed.

Lemma at_interval_unique : forall n domain p k k', wf n domain -> at_interval n domain p k -> at_interval n domain p k' -> k = k'.
Proof.
  intros n domain p k k' W (calls & i & E & Hk & Hi) (calls' & i' & E' & Hk' & Hi').
  assert (calls' = calls) by congruence. subst calls'.
  destruct (calls_spec n domain W) as (c0 & E0 & _ & _ & _ & _ & Sp). assert (c0 = calls) by congruence. subst c0.
  destruct (Nat.lt_trichotomy k k') as [L|[L|L]]; auto.
  - specialize (Sp _ _ _ _ _ Hk Hk' L). unfold in_i in *. lia.
  - specialize (Sp _ _ _ _ _ Hk' Hk L). unfold in_i in *. lia.
Qed.

(** Part of C43: a rank holds only cells of the domain, no cell goes to two ranks. *)
Theorem C43_at_most_one_rank_partial : forall n domain size, wf n domain ->
  (forall rank, exists a, partition_mesh n domain size rank = Some a /\ wf n a /\ a_level a = a_level domain /\
     forall p, lca_mem n a p -> lca_mem n domain p) /\
  (forall rank rank' a a' p, partition_mesh n domain size rank = Some a -> partition_mesh n domain size rank' = Some a' ->
     lca_mem n a p -> lca_mem n a' p -> rank = rank').
Proof.
  intros n domain size W. split.
  - intros rank. destruct (partition_spec n domain size rank W) as (a & E & Wa & La & M). exists a. spl; auto.
    intros p Hp. apply M in Hp as (Hl & k & (calls & i & Ec & Hk & Hi) & _).
    destruct (calls_spec n domain W) as (c0 & E0 & _ & _ & M0 & _). assert (c0 = calls) by congruence. subst c0.
    destruct p as [|x yz]; [discriminate|]. apply M0. exists i. split; auto. eapply nth_error_In; eauto.
  - intros rank rank' a a' p E E' H H'.
    destruct (partition_spec n domain size rank W) as (a0 & E0 & _ & _ & M). assert (a0 = a) by congruence. subst a0.
    destruct (partition_spec n domain size rank' W) as (a0 & E0' & _ & _ & M'). assert (a0 = a') by congruence. subst a0.
    apply M in H as (_ & k & Hk & Hb). apply M' in H' as (_ & k' & Hk' & Hb').
    pose proof (at_interval_unique n domain p k k' W Hk Hk'). subst k'. nia.
Qed.

(** Exactly when every cell goes to some rank: the chunks reach the number of
    x-intervals of the domain. *)
Theorem C43_all_cells_iff : forall n domain size, wf n domain -> (0 < size)%nat ->
  ((forall p, lca_mem n domain p -> exists rank a, (rank < size)%nat /\ partition_mesh n domain size rank = Some a /\ lca_mem n a p) <->
   (length (a_cells domain 0) <= size * (lca_nb_intervals n domain / size))%nat).
Proof.
  intros n domain size W Hs. destruct (calls_spec n domain W) as (calls & E & F & V & M & _).
  assert (L : length calls = length (a_cells domain 0)) by (rewrite <- F, map_length; auto). rewrite <- L.
  set (chunk := (lca_nb_intervals n domain / size)%nat). split.
  - intros H. destruct (Nat.le_gt_cases (length calls) (size * chunk)) as [|Hgt]; auto. exfalso.
    destruct (nth_error calls (size * chunk)) as [[i yz]|] eqn:Ek; [|apply nth_error_None in Ek; lia].
    pose proof (nth_error_In _ _ Ek) as Hin. destruct (V _ _ Hin) as [Vi _].
    assert (Hi : in_i i (istart i)) by (unfold in_i; lia).
    destruct (H (istart i :: yz)) as (rank & a & Hr & Ea & Hm); [apply M; eauto|].
    destruct (partition_spec n domain size rank W) as (a0 & E0 & _ & _ & M0). assert (a0 = a) by congruence. subst a0.
    apply M0 in Hm as (_ & k & Hk & Hb). fold chunk in Hb.
    assert (k = size * chunk)%nat by (eapply at_interval_unique; eauto; exists calls, i; auto). nia.
  - intros H [|x yz] Hp; [destruct Hp; discriminate|]. pose proof Hp as [Hl _]. apply M in Hp as (i & Hin & Hi).
    apply In_nth_error in Hin as (k & Hk). assert (Hlt : (k < length calls)%nat) by (apply nth_error_Some; congruence).
    assert (Hc : (0 < chunk)%nat) by (destruct chunk; lia).
    destruct (partition_spec n domain size (k / chunk) W) as (a & Ea & _ & _ & M0).
    exists (k / chunk)%nat, a. spl; auto.
    + apply Nat.div_lt_upper_bound; lia.
    + apply M0. split; auto. exists k. split; [exists calls, i; auto|]. fold chunk.
      pose proof (Nat.div_mod k chunk ltac:(lia)). pose proof (Nat.mod_upper_bound k chunk ltac:(lia)). nia.
Qed.

(** C43 is false of the code: nb_intervals() also counts the intervals of the other
    dimensions, and the remainder of the division is given to nobody. A box of four
    rows over three ranks loses the last row; a segment over two ranks goes to none. *)
Definition exDomain2 : lca := client_lca 1 2 [AddI [0] (mk 0 4); AddI [1] (mk 0 4); AddI [2] (mk 0 4); AddI [3] (mk 0 4)].
Definition exDomain1 : lca := client_lca 0 2 [AddI [] (mk 0 4)].
Theorem C43_refuted :
  (wf 1 exDomain2 /\ lca_mem 1 exDomain2 [0; 3] /\
   forall rank a, (rank < 3)%nat -> partition_mesh 1 exDomain2 3 rank = Some a -> ~ lca_mem 1 a [0; 3]) /\
  (wf 0 exDomain1 /\ lca_mem 0 exDomain1 [2] /\
   forall rank a, (rank < 2)%nat -> partition_mesh 0 exDomain1 2 rank = Some a -> ~ lca_mem 0 a [2]).
Proof.
  assert (D2 : Forall (call_dim 1) [AddI [0] (mk 0 4); AddI [1] (mk 0 4); AddI [2] (mk 0 4); AddI [3] (mk 0 4)]) by (repeat constructor).
  assert (D1 : Forall (call_dim 0) [AddI [] (mk 0 4)]) by (repeat constructor).
  assert (W2 : wf 1 exDomain2) by (apply client_lca_wf; auto; apply adds_filled; repeat constructor).
  assert (W1 : wf 0 exDomain1) by (apply client_lca_wf; auto; apply adds_filled; repeat constructor).
  assert (A2 : at_interval 1 exDomain2 [0; 3] 3) by (eexists; exists (mk 0 4); spl; [vm_compute; reflexivity|reflexivity|unfold in_i; simpl; lia]).
  assert (A1 : at_interval 0 exDomain1 [2] 0) by (eexists; exists (mk 0 4); spl; [vm_compute; reflexivity|reflexivity|unfold in_i; simpl; lia]).
  spl; auto.
  - apply client_lca_mem; auto. split; auto. exists (AddI [3] (mk 0 4)). split; [simpl; auto|]. split; auto. unfold in_i. simpl. lia.
  - intros rank a Hr E H. destruct (partition_spec 1 exDomain2 3 rank W2) as (a0 & E0 & _ & _ & M).
    assert (a0 = a) by congruence. subst a0. apply M in H as (_ & k & Hk & Hb).
    pose proof (at_interval_unique _ _ _ _ _ W2 Hk A2). subst k.
    replace (lca_nb_intervals 1 exDomain2 / 3)%nat with 1%nat in Hb by (vm_compute; auto). lia.
  - apply client_lca_mem; auto. split; auto. exists (AddI [] (mk 0 4)). split; [simpl; auto|]. split; auto. unfold in_i. simpl. lia.
  - intros rank a Hr E H. destruct (partition_spec 0 exDomain1 2 rank W1) as (a0 & E0 & _ & _ & M).
    assert (a0 = a) by congruence. subst a0. apply M in H as (_ & k & Hk & Hb).
    replace (lca_nb_intervals 0 exDomain1 / 2)%nat with 0%nat in Hb by (vm_compute; auto). lia.
Qed.

(** A case where nothing is lost: two ranks. *)
Example C43_case :
  map (fun rank => option_map (for_each_interval 1) (partition_mesh 1 exDomain2 2 rank)) [0; 1]%nat =
  [Some (Some [(mk 0 4, [0]); (mk 0 4, [1])]); Some (Some [(mk 0 4, [2]); (mk 0 4, [3])])] /\
  map (fun rank => option_map (for_each_interval 1) (partition_mesh 1 exDomain2 3 rank)) [0; 1; 2]%nat =
  [Some (Some [(mk 0 4, [0])]); Some (Some [(mk 0 4, [1])]); Some (Some [(mk 0 4, [2])])].
Proof. vm_compute. auto. Qed.

(** ** C48: serialisation and swap *)

(** Part of C48: intervals, offsets and levels of every array and the minimum level
    come back; so do the archive's contents when saved again. *)
Theorem C48_what_is_restored_partial : forall m t,
  length (m_cells t) = length (m_cells m) -> length (m_union t) = length (m_union m) ->
  let r := mesh_load (mesh_save m) t in
  map g_lca (m_cells r) = map g_lca (m_cells m) /\ g_lca (m_domain r) = g_lca (m_domain m) /\
  g_lca (m_subdomain r) = g_lca (m_subdomain m) /\ map g_lca (m_union r) = map g_lca (m_union m) /\
  m_min_level r = m_min_level m /\
  (* the rest is that of the mesh loaded into *)
  m_max_level r = m_max_level t /\ m_periodic r = m_periodic t /\ m_neighbours r = m_neighbours t /\
  map g_origin (m_cells r) = map g_origin (m_cells t) /\ map g_scaling (m_cells r) = map g_scaling (m_cells t).
Proof.
  intros m t Lc Lu. unfold mesh_load, mesh_save. cbn [ar_cells ar_domain ar_subdomain ar_union ar_levels m_cells m_domain m_subdomain m_union m_min_level m_max_level m_periodic m_neighbours snd].
  assert (G : forall l l', length l' = length l -> map g_lca (load_list l l') = map g_lca l /\
    map g_origin (load_list l l') = map g_origin l' /\ map g_scaling (load_list l l') = map g_scaling l').
  { unfold load_list. induction l as [|x l IH]; intros [|y l'] H; try discriminate; auto. cbn [combine map].
    destruct (IH l') as (A & B & C); [simpl in H; lia|]. spl; f_equal; auto. }
  destruct (G _ _ Lc) as (A & B & C). destruct (G _ _ Lu) as (A' & _). spl; auto.
Qed.

(** C48 is false of the code: the maximum level, the periodicity, the origin and the
    scaling factor are not written. *)
Definition exMesh : mesh :=
  mkMesh [mkG exDomain1 [5] 3] (mkG exDomain1 [5] 3) (mkG exDomain1 [5] 3) [mkG exDomain1 [5] 3] 2 7 [true] [1%nat].
Definition exDefault : mesh :=
  mkMesh [mkG (lca_empty 0) [0] 1] (mkG (lca_empty 0) [0] 1) (mkG (lca_empty 0) [0] 1) [mkG (lca_empty 0) [0] 1] 0 0 [false] [].
Theorem C48_restore_refuted : let r := mesh_load (mesh_save exMesh) exDefault in
  m_max_level r <> m_max_level exMesh /\ m_periodic r <> m_periodic exMesh /\
  g_origin (m_domain r) <> g_origin (m_domain exMesh) /\ g_scaling (m_domain r) <> g_scaling (m_domain exMesh).
Proof. vm_compute. spl; discriminate. Qed.

(** swap exchanges everything but the periodicity; two swaps restore both meshes. *)
Theorem C48_swap_partial : forall a b,
  let (a', b') := mesh_swap a b in
  (m_cells a', m_domain a', m_subdomain a', m_union a', m_min_level a', m_max_level a', m_neighbours a') =
  (m_cells b, m_domain b, m_subdomain b, m_union b, m_min_level b, m_max_level b, m_neighbours b) /\
  (m_cells b', m_domain b', m_subdomain b', m_union b', m_min_level b', m_max_level b', m_neighbours b') =
  (m_cells a, m_domain a, m_subdomain a, m_union a, m_min_level a, m_max_level a, m_neighbours a) /\
  mesh_swap a' b' = (a, b) /\ (m_periodic a = m_periodic b -> (a', b') = (b, a)).
Proof. intros [] []. cbn. spl; auto. intros ->. auto. Qed.
Theorem C48_swap_refuted : exists a b, fst (mesh_swap a b) <> b.
Proof. exists exMesh, exDefault. discriminate. Qed.

Print Assumptions C25_union.
Print Assumptions C26_subdomain.
Print Assumptions C27_shared_numbering.
Print Assumptions C28_view_addresses_cells.
Print Assumptions C28_check_complete.
Print Assumptions C28_missing_start_undetected.
Print Assumptions C28_unaligned_step_refuted.
Print Assumptions C29_ghost_layer.
Print Assumptions C29_uniform_numbering.
Print Assumptions C43_at_most_one_rank_partial.
Print Assumptions C43_all_cells_iff.
Print Assumptions C43_refuted.
Print Assumptions C48_what_is_restored_partial.
Print Assumptions C48_restore_refuted.
Print Assumptions C48_swap_partial.
Print Assumptions C48_swap_refuted.
