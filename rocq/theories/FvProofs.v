(** The finite volume step and the correction of the fluxes (property C67). *)
From Coq Require Import QArith Permutation.
From Verif Require Import Base IntervalModel Spec IntervalProofs LoiModel LcaModel LcaSpec LcaProofs LcaProofs2 LcaProofs3 RowsProofs CellArrayModel CellArrayProofs PropsLca PropsCellArray
  SubsetModel TreeProofs SubsetSpec SubsetProofs2 PropsSubset StencilModel NumberingProofs StencilProofs PropsStencil MeshModel MeshProofs PropsMesh
  NumModel NumProofs NumSpec PropsNum AdaptModel AdaptProofs TagProofs PropsAdapt GradModel GradProofs PropsGrad InterfaceModel InterfaceProofs PropsInterface
  TransferProofs PropsTransfer MrModel MrProofs PropsMr GeomModel GhostModel GhostProofs PropsGhost BcProofs HartenModel HartenProofs HartenProofs2 DetermProofs
  FluxModel BoundaryProofs PropsBoundary FluxProofs PropsFlux FvModel.
Notation stored := GhostModel.stored.
Notation fold_calls := HartenModel.fold_calls.
Open Scope Z_scope.

(** ** Assignments *)
Lemma mapM_map : forall A B (g : A -> option B) (G : A -> B) l, (forall x, In x l -> g x = Some (G x)) -> mapM g l = Some (map G l).
Proof.
  intros A B g G l. induction l as [|x l IH]; intros H; auto. cbn [mapM map]. rewrite H, IH; [auto| |left; auto]. intros; apply H; right; auto.
Qed.

Lemma row_update_spec : forall n reference level g G i yz v, (forall p, In p (row_cells i yz) -> g p = Some (G p) /\ stored n reference level p = true) ->
  exists v', row_update n reference level g i yz v = Some v' /\
    (forall p, In p (row_cells i yz) -> cell_value v' level p = G p) /\
    (forall l p, ~ (l = level /\ In p (row_cells i yz)) -> cell_value v' l p = cell_value v l p).
Proof.
  intros n reference level g G i yz v H. unfold row_update.
  rewrite (mapM_map _ _ g G) by (intros; apply H; auto). set (ws := map (fun x => (x, yz, G (x :: yz))) (strided i)).
  assert (A : assign i yz (map G (row_cells i yz)) = Some ws).
  { unfold row_cells. rewrite map_map. rewrite (assign_map _ i yz (fun x => x) (fun x => G (x :: yz)) (strided i)); auto. rewrite map_id. auto. }
  rewrite A. assert (F : forallb (stored n reference level) (row_cells i yz) = true) by (apply forallb_forall; intros; apply H; auto).
  unfold checked. rewrite F. eexists. split; [reflexivity|].
  assert (W : forall x y, (In (x :: y) (row_cells i yz) <-> In (x, y) (map fst ws))).
  { intros x y. unfold ws, row_cells. rewrite map_map. rewrite !in_map_iff. cbn [fst]. split; intros (z & E & Hz); exists z; split; auto; congruence. }
  assert (R : forall x y q, In (x, y, q) ws -> q = G (x :: y)).
  { intros x y q Hq. apply in_map_iff in Hq as (z & E & _). congruence. }
  split.
  - intros p Hp. pose proof Hp as Hp'. apply in_map_iff in Hp' as (x & <- & Hx). cbn [cell_value]. rewrite InitProofs.upd_same.
    destruct (write_all_spec (fun x y q => q = G (x :: y)) ws (v level) x yz R) as [[_ E]|[N _]]; auto. exfalso. apply N. apply W. auto.
  - intros l p Hp. destruct p as [|x y]; auto. cbn [cell_value]. destruct (Nat.eq_dec l level) as [->|Ne]; [|rewrite InitProofs.upd_other; auto].
    rewrite InitProofs.upd_same. destruct (write_all_spec (fun x y q => q = G (x :: y)) ws (v level) x y R) as [[I _]|[_ E]]; auto. exfalso. apply Hp. split; auto. apply W. auto.
Qed.

Section Update.
  Variables (n : nat) (scaling dt : Q) (op : fv_op) (cells reference : ca) (u : lfield) (G : nat -> list Z -> Q).
  Hypothesis HW : ca_wf n cells.
  Hypothesis H1 : steps_one cells.
  Hypothesis HG : forall l p, ca_mem n cells l p -> stored n reference l p = true /\ finite_volume n scaling op l p = Some (G l p).

  Lemma ca_calls_steps : forall calls l i yz, ca_for_each_interval n cells = Some calls -> In (l, (i, yz)) calls -> istep i = 1.
  Proof using H1 HW. clear HG.
    intros calls l i yz E Hin. destruct (ca_calls_level n cells calls l i yz E Hin) as (Hl & cl & Ecl & Hi).
    assert (W : wf n (c_at cells l)). { destruct (levels_spec cells) as (_ & S2 & _). apply HW. apply S2. auto. }
    destruct (calls_spec n _ W) as (cl' & Ecl' & Em & _). rewrite Ecl in Ecl'. injection Ecl' as <-. apply (H1 l 0%nat). rewrite <- Em. apply in_map_iff. exists (i, yz). auto.
  Qed.

  Lemma fv_update_spec : forall v, exists v', fv_update n scaling dt op cells reference u v = Some v' /\
    (forall l p, ca_mem n cells l p -> cell_value v' l p = (cell_value u l p - dt * G l p)%Q) /\
    (forall l p, ~ ca_mem n cells l p -> cell_value v' l p = cell_value v l p).
  Proof.
    intros v. unfold fv_update. destruct (ca_calls_spec n cells HW) as (calls & E & V & M). rewrite E.
    assert (ST : forall l i yz, In (l, (i, yz)) calls -> istep i = 1) by (intros; eapply ca_calls_steps; eauto).
    assert (IN : forall l i yz p, In (l, (i, yz)) calls -> In p (row_cells i yz) -> ca_mem n cells l p).
    { intros l i yz p Hc Hp. apply in_map_iff in Hp as (x & <- & Hx). apply strided_In in Hx; [|eapply ST; eauto]. apply M. exists i. auto. }
    assert (IV : forall l p, ca_mem n cells l p -> exists i yz, In (l, (i, yz)) calls /\ In p (row_cells i yz)).
    { intros l p Hp. destruct p as [|x y]; [destruct Hp as (_ & L & _); discriminate|]. apply M in Hp as (i & Hi & Hx). exists i, y. split; auto.
      apply in_map_iff. exists x. split; auto. apply strided_In; [eapply ST; eauto|auto]. }
    assert (T : forall cs v, (forall c, In c cs -> In c calls) -> exists v',
      fold_tags (fun v '(level, (i, yz)) => row_update n reference level
        (fun p => let* a := read n reference u level p in let* b := finite_volume n scaling op level p in Some (a - dt * b)%Q) i yz v) cs v = Some v' /\
      (forall l p, (exists i yz, In (l, (i, yz)) cs /\ In p (row_cells i yz)) -> cell_value v' l p = (cell_value u l p - dt * G l p)%Q) /\
      (forall l p, ~ (exists i yz, In (l, (i, yz)) cs /\ In p (row_cells i yz)) -> cell_value v' l p = cell_value v l p)).
    { induction cs as [|[l0 [i0 yz0]] cs IH]; intros v0 Hcs.
      - exists v0. split; [reflexivity|]. split; auto. intros l p (i & yz & [] & _).
      - cbn [fold_tags].
        destruct (row_update_spec n reference l0 (fun p => let* a := read n reference u l0 p in let* b := finite_volume n scaling op l0 p in Some (a - dt * b)%Q)
          (fun p => (cell_value u l0 p - dt * G l0 p)%Q) i0 yz0 v0) as (v1 & E1 & A1 & B1).
        { intros p Hp. destruct (HG l0 p) as [Hs Hf]; [apply (IN l0 i0 yz0); auto; apply Hcs; left; auto|]. unfold read. rewrite Hs, Hf. auto. }
        rewrite E1. destruct (IH v1) as (v2 & E2 & A2 & B2); [intros; apply Hcs; right; auto|]. exists v2. split; auto.
        assert (DEC : forall l p, (exists i yz, In (l, (i, yz)) cs /\ In p (row_cells i yz)) \/ ~ (exists i yz, In (l, (i, yz)) cs /\ In p (row_cells i yz))).
        { intros l p. destruct (existsb (fun '(l', (i, yz)) => Nat.eqb l l' && existsb (zlist_eqb p) (row_cells i yz)) cs) eqn:Ex.
          - left. apply existsb_exists in Ex as ([l' [i yz]] & Hc & Hx). apply andb_prop in Hx as [Hl Hx]. apply Nat.eqb_eq in Hl. subst l'.
            apply existsb_exists in Hx as (q & Hq & Eq). apply zlist_eqb_eq in Eq. subst q. eauto.
          - right. intros (i & yz & Hc & Hp). assert (existsb (fun '(l', (i, yz)) => Nat.eqb l l' && existsb (zlist_eqb p) (row_cells i yz)) cs = true); [|congruence].
            apply existsb_exists. exists (l, (i, yz)). split; auto. rewrite Nat.eqb_refl. apply existsb_exists. exists p. split; auto. apply zlist_eqb_eq. auto. }
        split; intros l p Hp.
        + destruct (DEC l p) as [D|D]; [apply A2; auto|]. rewrite B2 by auto. destruct Hp as (i & yz & [Hc|Hc] & Hi); [|exfalso; apply D; eauto].
          injection Hc as <- <- <-. apply A1. auto.
        + rewrite B2 by (intros (i & yz & Hc & Hi); apply Hp; exists i, yz; split; [right|]; auto). apply B1. intros [-> Hi]. apply Hp. exists i0, yz0. split; [left|]; auto. }
    destruct (T calls v (fun c H => H)) as (v' & E' & A & B). exists v'. split; [exact E'|]. split; intros l p Hp; [apply A; auto|].
    apply B. intros (i & yz & Hc & Hi). apply Hp. eapply IN; eauto.
  Qed.
End Update.

(** ** The correction *)
Lemma NoDup_split : forall A (a b : list A), NoDup (a ++ b) -> NoDup a /\ (forall x, In x a -> ~ In x b) /\ NoDup b.
Proof.
  intros A a b. induction a as [|x a IH]; intros H; [split; [constructor|split; auto]|]. cbn [app] in H. inversion_clear H as [|? ? Hx Hn].
  destruct (IH Hn) as (H1 & H2 & H3). rewrite in_app_iff in Hx. split; [constructor; tauto|]. split; auto. intros y [->|Hy]; auto.
Qed.

(** [v'] is [v] plus [D] (in the cells of the right dimension). *)
Definition adds (n : nat) (v v' : lfield) (D : nat -> list Z -> Q) : Prop :=
  forall l p, length p = S n -> (cell_value v' l p == cell_value v l p + D l p)%Q.
Lemma fold_adds : forall n A (f : lfield -> A -> option lfield) (D : A -> nat -> list Z -> Q) xs v,
  (forall x v, In x xs -> exists v', f v x = Some v' /\ adds n v v' (D x)) ->
  exists v', fold_tags f xs v = Some v' /\ adds n v v' (fun l p => sum_over (fun x => D x l p) xs).
Proof.
  intros n A f D xs. induction xs as [|x xs IH]; intros v H.
  - exists v. split; auto. intros l p _. rewrite sum_nil. ring.
  - cbn [fold_tags]. destruct (H x v) as (v1 & E1 & A1); [left; auto|]. rewrite E1. destruct (IH v1) as (v2 & E2 & A2); [intros; apply H; right; auto|].
    exists v2. split; auto. intros l p Lp. rewrite (A2 l p Lp), (A1 l p Lp), sum_cons. ring.
Qed.

Section Correct.
  Variables (n : nat) (scaling dt : Q) (op : fv_op) (cells reference : ca) (l0 d : nat) (s : Z) (C : list Z -> Q).
  Hypothesis HC : forall p, ca_mem n cells l0 p -> (exists q, ca_mem n cells (S l0) q /\ ancestor 1 (vadd n q (unit_mult n d (- s))) = p) ->
    stored n reference l0 p = true /\ exists c f, side_flux op s d l0 p = Some c /\ sum_flux (side_flux op s d (S l0)) (side_children n d s p) = Some f /\
      (C p == inject_Z s * (dt / cell_length scaling l0 * (c - f / inject_Z (2 ^ Z.of_nat n))))%Q.
  Hypothesis HW : forall l, (l <= S l0)%nat -> wf n (c_at cells l) /\ a_level (c_at cells l) = l.
  Hypothesis HM : (S l0 <= c_max cells)%nat.
  Hypothesis HB : forall l q k, ca_mem n cells l q -> (k <= n)%nat -> 2 * (nth k q 0 + 3) < 2 ^ 31 - 1.
  Hypothesis Hd : (d <= n)%nat.
  Hypothesis Hs : s = 1 \/ s = -1.

  Definition beside (p : list Z) : Prop := ca_mem n cells l0 p /\ exists q, ca_mem n cells (S l0) q /\ ancestor 1 (vadd n q (unit_mult n d (- s))) = p.

  Lemma leaf_at : forall l p, (l <= S l0)%nat -> (ca_mem n cells l p <-> lca_mem n (c_at cells l) p).
  Proof using HM. clear -HM. intros l p Hl. unfold ca_mem. split; [intros [_ H]; auto|]. intros H. split; auto. lia. Qed.

  Lemma finer_set : exists calls, subset_calls n (finer_beside n cells l0 d s) = Some calls /\
    (forall i yz, In (i, yz) calls -> length yz = n /\ istep i = 1) /\ NoDup (cells_of_calls calls) /\ forall p, In p (cells_of_calls calls) <-> beside p.
  Proof using HW HM HB Hd Hs.
    clear HC C. unfold finer_beside. destruct (HW l0 ltac:(lia)) as [Wa La]. destruct (HW (S l0) ltac:(lia)) as [Wc Lc].
    rewrite on_make_op. set (t := Nd Intersect _).
    assert (F : finest t = S l0) by (unfold finest, t; cbn; rewrite La, Lc; lia).
    destruct (C18_levels n l0 t) as (calls & E & V & N & _ & X).
    { intros lf Hlf. rewrite F. replace (Nat.min l0 (S l0)) with l0 by lia. unfold t in Hlf. cbn [tin ain] in Hlf.
      destruct Hlf as [->| ->]; cbn [l_node leaf_of]; unfold operand_ok; cbn [simple node_mesh node_vect translate];
        (split; [exact I|]); (split; [auto|]); intros q k Hq Hk; rewrite ?La, ?Lc.
      - rewrite nth_vadd by auto. replace (Z.max 0 (Z.of_nat l0 - Z.of_nat (S l0))) with 0 by lia.
        apply leaf_at in Hq; [|lia]. pose proof (HB _ _ _ Hq Hk).
        assert (-1 <= nth k (unit_mult n d (- s)) 0 <= 1). { rewrite nth_unit by auto. destruct (Nat.eqb k d); lia. } lia.
      - rewrite vadd_nil by apply Hq. replace (Z.max 0 (Z.of_nat l0 - Z.of_nat l0)) with 0 by lia.
        apply leaf_at in Hq; [|lia]. pose proof (HB _ _ _ Hq Hk). lia. }
    assert (Y : forall p, length p = S n -> (expr_mem n l0 t p <-> beside p)).
    { intros p Lp. unfold expr_mem, t, beside. cbn.
      rewrite (denotes_coarse n _ p l0 (S l0)) by (auto; cbn [node_mesh translate]; lia). cbn [node_mesh node_vect translate].
      rewrite denotes_mesh_fine by (auto; lia). rewrite La, Nat.sub_diag, ancestor_0. replace (S l0 - l0)%nat with 1%nat by lia. rewrite <- leaf_at by lia.
      split; intros [H1 H2]; (split; [auto|]).
      - destruct H1 as (q & Hq & ->). exists q. rewrite leaf_at by lia. auto.
      - destruct H2 as (q & Hq & <-). exists q. rewrite leaf_at in Hq by lia. auto.
      - auto. }
    exists calls. split; auto. split; [intros i yz Hin; split; [apply (V i yz Hin)|apply (subset_calls_step n _ calls i yz E Hin)]|]. split; auto. intros p.
    assert (Lc' : In p (cells_of_calls calls) -> length p = S n).
    { intros Hin. apply visited_In in Hin as (i & yz & x & Hin & _ & ->). cbn [length]. f_equal. apply (V i yz Hin). }
    split.
    - intros Hin. apply Y; auto. apply X; auto.
    - intros Hb. assert (Lp : length p = S n) by apply Hb. apply X; auto. apply Y; auto.
  Qed.

  Lemma correct_side : forall v, exists v', apply_tags n (finer_beside n cells l0 d s) (correct_op n scaling dt op reference l0 d s) v = Some v' /\
    forall l p, (l = l0 /\ beside p -> (cell_value v' l p == cell_value v l p + C p)%Q) /\ (~ (l = l0 /\ beside p) -> cell_value v' l p = cell_value v l p).
  Proof.
    intros v. destruct finer_set as (calls & E & V & N & X). unfold apply_tags. rewrite E, fold_calls_tags.
    assert (T : forall cs v, (forall c, In c cs -> In c calls) -> NoDup (cells_of_calls cs) -> exists v',
      fold_tags (fun t '(i, yz) => correct_op n scaling dt op reference l0 d s i yz t) cs v = Some v' /\
      forall l p, (l = l0 /\ In p (cells_of_calls cs) -> (cell_value v' l p == cell_value v l p + C p)%Q) /\
                  (~ (l = l0 /\ In p (cells_of_calls cs)) -> cell_value v' l p = cell_value v l p)).
    { induction cs as [|[i yz] cs IH]; intros v0 Hcs Nd.
      - exists v0. split; auto. intros l p. split; [intros [_ []]|auto].
      - assert (RC : forall p, In p (row_cells i yz) <-> In p (cells_of_calls [(i, yz)])).
        { intros p. rewrite <- row_cells_In by (intros i' yz' [Ec|[]]; injection Ec as <- <-; apply (V i yz); apply Hcs; left; auto). cbn [flat_map]. rewrite app_nil_r. tauto. }
        change ((i, yz) :: cs) with ([(i, yz)] ++ cs) in Nd. unfold cells_of_calls in Nd. rewrite flat_map_app in Nd. fold (cells_of_calls [(i, yz)]) in Nd. fold (cells_of_calls cs) in Nd.
        assert (CO : forall p, In p (cells_of_calls ((i, yz) :: cs)) <-> In p (row_cells i yz) \/ In p (cells_of_calls cs)).
        { intros p. rewrite RC. change ((i, yz) :: cs) with ([(i, yz)] ++ cs). unfold cells_of_calls. rewrite flat_map_app, in_app_iff. tauto. }
        apply NoDup_split in Nd as (N1 & ND & N2).
        assert (BS : forall p, In p (row_cells i yz) -> beside p).
        { intros p Hp. apply X. apply RC in Hp. unfold cells_of_calls in *. cbn [flat_map] in Hp. rewrite app_nil_r in Hp. apply in_flat_map. exists (i, yz). split; [apply Hcs; left; auto|auto]. }
        cbn [fold_tags]. unfold correct_op at 1.
        set (fl := fun p => match side_flux op s d l0 p with Some c => match sum_flux (side_flux op s d (S l0)) (side_children n d s p) with Some f =>
            inject_Z s * (dt / cell_length scaling l0 * (c - f / inject_Z (2 ^ Z.of_nat n))) | None => 0 end | None => 0 end%Q).
        assert (FL : forall p, beside p -> (C p == fl p)%Q).
        { intros p [Hp1 Hp2]. destruct (HC p Hp1 Hp2) as (_ & c & f & Ec & Ef & EC). unfold fl. rewrite Ec, Ef. auto. }
        destruct (row_update_spec n reference l0 (fun p => let* a := read n reference v0 l0 p in let* c := side_flux op s d l0 p in
            let* f := sum_flux (side_flux op s d (S l0)) (side_children n d s p) in
            Some (a + inject_Z s * (dt / cell_length scaling l0 * (c - f / inject_Z (2 ^ Z.of_nat n))))%Q)
          (fun p => (cell_value v0 l0 p + fl p)%Q) i yz v0) as (v1 & E1 & A1 & B1).
        { intros p Hp. destruct (HC p (proj1 (BS p Hp)) (proj2 (BS p Hp))) as (Hst & c & f & Ec & Ef & _). split; auto. unfold read, fl. rewrite Hst, Ec, Ef. reflexivity. }
        rewrite E1. destruct (IH v1) as (v2 & E2 & Q2); [intros; apply Hcs; right; auto|auto|]. exists v2. split; auto. intros l p. destruct (Q2 l p) as [A2 B2]. split.
        + intros [-> Hp]. apply CO in Hp as [Hp|Hp].
          * rewrite B2; [|intros [_ Hc]; apply RC in Hp; apply (ND p); auto]. rewrite (A1 p Hp), (FL p (BS p Hp)). reflexivity.
          * rewrite A2 by auto. rewrite B1; [reflexivity|]. intros [_ Hr]. apply RC in Hr. apply (ND p); auto.
        + intros Hp. rewrite B2 by (intros [-> Hc]; apply Hp; split; auto; apply CO; auto). apply B1. intros [-> Hr]. apply Hp. split; auto. apply CO; auto. }
    destruct (T calls v (fun c H => H) N) as (v' & E' & Q). exists v'. split; auto. intros l p. destruct (Q l p) as [A B]. rewrite (X p) in A, B. auto.
  Qed.
End Correct.
