(** Proofs about the criteria of HartenModel: the tags they give. *)
From Coq Require Import QArith Qabs.
From Verif Require Import Base IntervalModel Spec IntervalProofs LoiModel LcaModel LcaSpec LcaProofs RowsProofs CellArrayModel CellArrayProofs PropsLca PropsCellArray
  SubsetModel TreeProofs SubsetSpec SubsetProofs2 PropsSubset StencilModel NumberingProofs StencilProofs PropsStencil MeshModel MeshProofs
  NumModel NumProofs NumSpec PropsNum AdaptModel AdaptProofs TagProofs PropsAdapt TransferProofs PropsTransfer MrModel MrProofs PropsMr
  GhostModel GhostProofs PropsGhost BcProofs PropsOuter HartenModel HartenProofs HartenProofs2 HartenProofs3 PropsHarten DetailProofs.
Open Scope Z_scope.

(** On level [l] the tags of the cells [c] of [D] go through [F c], the others do not change. *)
Definition rewrites (n l : nat) (F : list Z -> Z -> Z) (D : list Z -> Prop) (t t' : tfield) : Prop :=
  forall l' c, length c = S n -> (l' = l /\ D c /\ tg t' l' c = F c (tg t l' c)) \/ (~ (l' = l /\ D c) /\ tg t' l' c = tg t l' c).

Lemma rewrites_none : forall n l F t, rewrites n l F (fun _ => False) t t.
Proof. intros n l F t l' c _. right. tauto. Qed.
Lemma rewrites_ext : forall n l F F' (D D' : list Z -> Prop) t t', (forall c, length c = S n -> (D c <-> D' c)) -> (forall c v, length c = S n -> D c -> F c v = F' c v) ->
  rewrites n l F D t t' -> rewrites n l F' D' t t'.
Proof.
  intros n l F F' D D' t t' HD HF H l' c Lc. pose proof (HD c Lc). destruct (H l' c Lc) as [(A & B & C)|(A & B)]; [left|right; tauto].
  split; auto. split; [tauto|]. rewrite C. apply HF; auto.
Qed.
Lemma rewrites_union : forall n l F D D' t t1 t2, (forall c v, F c (F c v) = F c v) -> rewrites n l F D t t1 -> rewrites n l F D' t1 t2 -> rewrites n l F (fun c => D c \/ D' c) t t2.
Proof.
  intros n l F D D' t t1 t2 HF H1 H2 l' c Lc.
  destruct (H1 l' c Lc) as [(A & B & C)|(A & B)], (H2 l' c Lc) as [(A' & B' & C')|(A' & B')].
  - left. split; auto. split; auto. rewrite C', C. apply HF.
  - left. split; auto. split; auto. congruence.
  - left. split; auto. split; auto. congruence.
  - right. split; [tauto|congruence].
Qed.
Lemma rewrites_compose : forall n l F G D t t1 t2, rewrites n l F D t t1 -> rewrites n l G D t1 t2 -> rewrites n l (fun c v => G c (F c v)) D t t2.
Proof.
  intros n l F G D t t1 t2 H1 H2 l' c Lc.
  destruct (H1 l' c Lc) as [(A & B & C)|(A & B)], (H2 l' c Lc) as [(A' & B' & C')|(A' & B')]; try tauto.
  - left. split; auto. split; auto. congruence.
  - right. split; auto. congruence.
Qed.
Lemma fold_rewrites : forall n l F A (f : tfield -> A -> option tfield) (D : A -> list Z -> Prop) (xs : list A) t, (forall c v, F c (F c v) = F c v) ->
  (forall x t, In x xs -> exists t', f t x = Some t' /\ rewrites n l F (D x) t t') ->
  exists t', fold_tags f xs t = Some t' /\ rewrites n l F (fun c => exists x, In x xs /\ D x c) t t'.
Proof.
  intros n l F A f D xs t HF. revert t. induction xs as [|x xs IH]; intros t H.
  - exists t. split; auto. eapply rewrites_ext; [| |apply (rewrites_none n l F t)]; [|auto]. intros c _. split; [tauto|]. intros (x & [] & _).
  - cbn [fold_tags]. destruct (H x t ltac:(left; auto)) as (t1 & E1 & R1). rewrite E1. destruct (IH t1) as (t2 & E2 & R2); [intros; apply H; right; auto|].
    exists t2. split; auto. eapply rewrites_ext; [| |apply (rewrites_union _ _ _ _ _ _ _ _ HF R1 R2)]; [|auto]. intros c _. cbn [In]. split.
    + intros [X|(z & Hz & X)]; [exists x|exists z]; auto.
    + intros (z & [->|Hz] & X); [left|right; exists z]; auto.
Qed.

Lemma update_view_rewrites : forall n reference f level A (h : A -> list Z) (g : A -> bool) (G : list Z -> bool) (xs : list A) t,
  (forall x, In x xs -> stored n reference level (h x) = true /\ h x <> [] /\ g x = G (h x)) -> NoDup (map h xs) ->
  exists t', update_view n reference f level (map h xs) (map g xs) t = Some t' /\
    rewrites n level (fun c v => if G c then f v else v) (fun c => exists x, In x xs /\ c = h x) t t'.
Proof.
  intros n reference f level A h g G xs t HS ND. unfold update_view.
  assert (X : forallb (stored n reference level) (map h xs) = true).
  { apply forallb_forall. intros p Hp. apply in_map_iff in Hp as (x & <- & Hx). apply HS. auto. }
  rewrite X, !map_length, Nat.eqb_refl. cbn [andb checked]. eexists. split; [reflexivity|].
  intros l' c Lc. unfold tg. destruct c as [|x yz]; [discriminate|]. cbn [hd tl]. rewrite map_map.
  rewrite masked_spec by (rewrite <- (map_map h cut); apply NoDup_cut; auto; intros q Hq; apply in_map_iff in Hq as (a & <- & Ha); apply HS; auto).
  destruct (Nat.eqb_spec l' level) as [->|Hl]; cbn [andb]; [|right; split; [tauto|auto]].
  destruct (existsb (fun a => eqc (cut (h a)) (x, yz)) xs) eqn:E.
  - apply existsb_exists in E as (a & Ha & E). apply eqc_eq in E. assert (Eh : h a = x :: yz) by (apply cut_inj; [apply HS; auto|discriminate|exact E]).
    left. split; auto. split; [exists a; auto|].
    assert (EG : existsb (fun a => g a && eqc (cut (h a)) (x, yz)) xs = G (x :: yz)).
    { destruct (G (x :: yz)) eqn:EG.
      - apply existsb_exists. exists a. split; auto. destruct (HS a Ha) as (_ & _ & ->). rewrite Eh, EG. apply eqc_eq. reflexivity.
      - apply not_true_is_false. intros H. apply existsb_exists in H as (b & Hb & H). apply andb_true_iff in H as [H1 H2]. apply eqc_eq in H2.
        assert (Ehb : h b = x :: yz) by (apply cut_inj; [apply HS; auto|discriminate|exact H2]). destruct (HS b Hb) as (_ & _ & Eg). rewrite Ehb in Eg. congruence. }
    rewrite EG. reflexivity.
  - right. split.
    + intros (_ & a & Ha & Eh). assert (F : existsb (fun a => eqc (cut (h a)) (x, yz)) xs = true); [|congruence].
      apply existsb_exists. exists a. split; auto. rewrite <- Eh. apply eqc_eq. reflexivity.
    + assert (EG : existsb (fun a => g a && eqc (cut (h a)) (x, yz)) xs = false); [|rewrite EG; reflexivity].
      apply not_true_is_false. intros H. apply existsb_exists in H as (b & Hb & H). apply andb_true_iff in H as [H1 H2].
      assert (F : existsb (fun a => eqc (cut (h a)) (x, yz)) xs = true); [|congruence]. apply existsb_exists. exists b. auto.
Qed.

(** The view of the child number [k]. *)
Definition glue (c : Z * list Z) : list Z := fst c :: snd c.
Definition kth_child (yz : list Z) (k : nat) (x : Z) : list Z := glue (nth k (children x yz) (0, [])).
Lemma child_cells_map : forall i yz k, child_cells i yz k = map (kth_child yz k) (strided i).
Proof. intros i yz k. unfold child_cells, child_view. rewrite map_map. apply map_ext. intros x. unfold kth_child, glue. destruct (nth k (children x yz) (0, [])). reflexivity. Qed.
Lemma children_length : forall x yz, length (children x yz) = length (parities (S (length yz))).
Proof. intros. unfold children. apply map_length. Qed.
Lemma kth_child_parent : forall x yz k, (k < length (parities (S (length yz))))%nat -> ancestor 1 (kth_child yz k x) = x :: yz /\ length (kth_child yz k x) = S (length yz).
Proof.
  intros x yz k Hk. unfold kth_child, glue. assert (H : In (nth k (children x yz) (0, [])) (children x yz)) by (apply nth_In; rewrite children_length; auto).
  destruct (nth k (children x yz) (0, [])) as [cx cy]. apply children_In in H as (H1 & H2 & H3). cbn [fst snd]. rewrite ancestor_cons. change (2 ^ Z.of_nat 1) with 2.
  split; [f_equal; auto|cbn [length]; lia].
Qed.
Lemma parent_kth : forall x yz c, length c = S (length yz) -> ancestor 1 c = x :: yz -> exists k, (k < length (parities (S (length yz))))%nat /\ c = kth_child yz k x.
Proof.
  intros x yz [|cx cy] Lc E; [discriminate|]. rewrite ancestor_cons in E. change (2 ^ Z.of_nat 1) with 2 in E. injection E as E1 E2.
  assert (H : In (cx, cy) (children x yz)) by (apply children_In; cbn [length] in Lc; split; [auto|split; [lia|auto]]).
  apply (In_nth _ _ (0, [])) in H as (k & Hk & E). exists k. rewrite children_length in Hk. split; auto. unfold kth_child. rewrite E. reflexivity.
Qed.
Lemma kth_child_NoDup : forall i yz k, 0 < istep i -> (k < length (parities (S (length yz))))%nat -> NoDup (map (kth_child yz k) (strided i)).
Proof.
  intros i yz k Hi Hk. assert (G : forall xs, NoDup xs -> NoDup (map (kth_child yz k) xs)).
  { induction xs as [|x xs IH]; intros ND; constructor; inversion_clear ND as [|? ? N1 N2]; auto.
    intros H. apply in_map_iff in H as (z & E & Hz). apply (f_equal (ancestor 1)) in E. destruct (kth_child_parent x yz k Hk) as [-> _] in E.
    destruct (kth_child_parent z yz k Hk) as [Ez _]. rewrite Ez in E. injection E as ->. contradiction. }
  apply G, strided_NoDup. auto.
Qed.

(** All the children of the cells of a row, with a mask that depends on the child. *)
Lemma children_rewrites : forall n reference f level (g : nat -> Z -> bool) (G : list Z -> bool) i yz t, istep i = 1 -> length yz = n -> (forall v, f (f v) = f v) ->
  (forall x k, In x (strided i) -> (k < length (parities (S (length yz))))%nat -> stored n reference level (kth_child yz k x) = true /\ g k x = G (kth_child yz k x)) ->
  exists t', fold_tags (fun t k => update_view n reference f level (child_cells i yz k) (map (g k) (strided i)) t) (seq 0 (length (parities (S (length yz))))) t = Some t' /\
    rewrites n level (fun c v => if G c then f v else v) (fun c => In (ancestor 1 c) (row_cells i yz)) t t'.
Proof.
  intros n reference f level g G i yz t Hst Ly Hf H.
  destruct (fold_rewrites n level (fun c v => if G c then f v else v) _ (fun t k => update_view n reference f level (child_cells i yz k) (map (g k) (strided i)) t)
    (fun k c => exists x, In x (strided i) /\ c = kth_child yz k x) (seq 0 (length (parities (S (length yz))))) t) as (t' & E & R).
  - intros c v. destruct (G c); auto.
  - intros k t0 Hk. apply in_seq in Hk. rewrite child_cells_map. apply update_view_rewrites.
    + intros x Hx. destruct (H x k Hx ltac:(lia)) as [H1 H2]. split; auto. split; auto. discriminate.
    + apply kth_child_NoDup; lia.
  - exists t'. split; auto. eapply rewrites_ext; [| |exact R]; [|auto]. intros c Lc. unfold row_cells. rewrite in_map_iff. split.
    + intros (k & Hk & x & Hx & ->). apply in_seq in Hk. destruct (kth_child_parent x yz k ltac:(lia)) as [-> _]. exists x. auto.
    + intros (x & E0 & Hx). destruct (parent_kth x yz c ltac:(lia) (eq_sym E0)) as (k & Hk & ->). exists k. split; [apply in_seq; lia|]. exists x. auto.
Qed.

(** ** The two criteria *)

(** The details below the threshold; in dimension 1 only the one of the first child. *)
Definition calm (d : lfield) (l : nat) (eps : Q) (p : list Z) : bool :=
  forallb (fun c => below (Qabs (at_cell d (S l) c)) eps) (match tl p with [] => firstn 1 (children (hd 0 p) (tl p)) | _ => children (hd 0 p) (tl p) end).
Definition over (d : lfield) (l : nat) (eps : Q) (p : list Z) : bool := below eps (Qabs (d l (hd 0 p) (tl p))).

Definition coarsen_tag (minl : nat) (d : lfield) (l : nat) (eps : Q) (c : list Z) (v : Z) : Z :=
  if Nat.ltb minl (S l) && calm d l eps (ancestor 1 c) then flag_coarsen else v.
Definition refine_tag (n maxl : nat) (d : lfield) (l : nat) (eps : Q) (c : list Z) (v : Z) : Z :=
  if Nat.ltb (S l) maxl && over d (S l) eps c then flag_refine
  else if over d l (eps / inject_Z (2 ^ Z.of_nat (S n)))%Q (ancestor 1 c) then Z.lor v flag_keep else v.

Lemma lor_idem : forall v f, Z.lor (Z.lor v f) f = Z.lor v f.
Proof. intros. rewrite <- Z.lor_assoc, Z.lor_diag. reflexivity. Qed.
Lemma coarsen_idem : forall minl d l eps c v, coarsen_tag minl d l eps c (coarsen_tag minl d l eps c v) = coarsen_tag minl d l eps c v.
Proof. intros. unfold coarsen_tag. destruct (_ && _); auto. Qed.
Lemma refine_idem : forall n maxl d l eps c v, refine_tag n maxl d l eps c (refine_tag n maxl d l eps c v) = refine_tag n maxl d l eps c v.
Proof. intros. unfold refine_tag. destruct (Nat.ltb (S l) maxl && _); auto. destruct (over _ _ _ _); auto. apply lor_idem. Qed.

Lemma to_coarsen_spec : forall n reference d eps minl l i yz t, istep i = 1 -> length yz = n ->
  (forall c, length c = S n -> In (ancestor 1 c) (row_cells i yz) -> stored n reference (S l) c = true) ->
  exists t', to_coarsen_mr n reference d eps minl l i yz t = Some t' /\ rewrites n (S l) (coarsen_tag minl d l eps) (fun c => In (ancestor 1 c) (row_cells i yz)) t t'.
Proof.
  intros n reference d eps minl l i yz t Hst Ly HS. unfold to_coarsen_mr. destruct (Nat.ltb minl (S l)) eqn:EM.
  - unfold set_view.
    destruct (children_rewrites n reference (fun _ => flag_coarsen) (S l) (fun _ x => calm d l eps (x :: yz)) (fun c => calm d l eps (ancestor 1 c)) i yz t Hst Ly) as (t' & E & R).
    + auto.
    + intros x k Hx Hk. destruct (kth_child_parent x yz k Hk) as [E1 E2]. rewrite E1. split; auto. apply HS; [lia|]. rewrite E1. apply in_map_iff. exists x. auto.
    + exists t'. split; [rewrite <- E; unfold calm; cbn [hd tl]; reflexivity|]. eapply rewrites_ext; [| |exact R]; [tauto|]. intros c v _ _. unfold coarsen_tag. rewrite EM. reflexivity.
  - exists t. split; auto. intros l' c Lc. unfold coarsen_tag. rewrite EM. cbn [andb].
    destruct (in_dec (list_eq_dec Z.eq_dec) (ancestor 1 c) (row_cells i yz)) as [H|H]; [|right; split; [tauto|auto]].
    destruct (Nat.eq_dec l' (S l)); [left; auto|right; split; [tauto|auto]].
Qed.

Lemma to_refine_spec : forall n reference d eps maxl l i yz t, istep i = 1 -> length yz = n ->
  (forall c, length c = S n -> In (ancestor 1 c) (row_cells i yz) -> stored n reference (S l) c = true) ->
  (forall p, In p (row_cells i yz) -> stored n reference l p = true) ->
  exists t', to_refine_mr n reference d eps maxl l i yz t = Some t' /\ rewrites n (S l) (refine_tag n maxl d l eps) (fun c => In (ancestor 1 c) (row_cells i yz)) t t'.
Proof.
  intros n reference d eps maxl l i yz t Hst Ly HS HP. unfold to_refine_mr.
  assert (CP : forallb (stored n reference l) (row_cells i yz) = true) by (apply forallb_forall; auto). rewrite CP. cbn [checked].
  assert (HC : forall x k, In x (strided i) -> (k < length (parities (S (length yz))))%nat -> stored n reference (S l) (kth_child yz k x) = true).
  { intros x k Hx Hk. destruct (kth_child_parent x yz k Hk) as [E1 E2]. apply HS; [lia|]. rewrite E1. apply in_map_iff. exists x. auto. }
  set (e := (eps / inject_Z (2 ^ Z.of_nat (S n)))%Q).
  destruct (children_rewrites n reference (fun v => Z.lor v flag_keep) (S l) (fun _ x => over d l e (x :: yz)) (fun c => over d l e (ancestor 1 c)) i yz t Hst Ly) as (t1 & E1 & R1).
  - intros v. apply lor_idem.
  - intros x k Hx Hk. split; auto. destruct (kth_child_parent x yz k Hk) as [-> _]. auto.
  - unfold over in E1. cbn [hd tl] in E1. unfold or_view. rewrite E1. destruct (Nat.ltb (S l) maxl) eqn:EM.
    + unfold set_view.
      destruct (children_rewrites n reference (fun _ => flag_refine) (S l) (fun k x => over d (S l) eps (kth_child yz k x)) (fun c => over d (S l) eps c) i yz t1 Hst Ly) as (t2 & E2 & R2).
      * auto.
      * intros x k Hx Hk. split; auto.
      * exists t2. split.
        { rewrite <- E2. clear. generalize (seq 0 (length (parities (S (length yz))))) as ks. intros ks. revert t1. induction ks as [|k ks IH]; intros t1; auto.
          cbn [fold_tags]. assert (X : map (fun c => below eps (Qabs (at_cell d (S l) c))) (child_view i yz k) = map (fun x => over d (S l) eps (kth_child yz k x)) (strided i)).
          { unfold child_view. rewrite map_map. apply map_ext. intros x. reflexivity. }
          rewrite X. destruct (update_view _ _ _ _ _ _ _); auto. }
        eapply rewrites_ext; [| |exact (rewrites_compose _ _ _ _ _ _ _ _ R1 R2)]; [tauto|]. intros c v _ _. unfold refine_tag. rewrite EM. cbn [andb]. reflexivity.
    + exists t1. split; auto. eapply rewrites_ext; [| |exact R1]; [tauto|]. intros c v _ _. unfold refine_tag. rewrite EM. reflexivity.
Qed.

Section Criteria.
  Variables (n m minl maxl : nat) (w : Z) (s : nat) (cells : ca) (lo hi : list Z) (r : mr_mesh).
  Hypothesis HI : ghost_input n m minl maxl w s cells lo hi.
  Hypothesis HR : update_sub_mesh n m minl maxl w (Z.of_nat s) cells = Some r.
  Notation leaf l p := (ca_mem n cells l p).
  Notation ref l p := (ca_mem n (r_all r) l p).
  Notation parent l p := (has_leaf n cells l p).

  Lemma parent_op : forall l (op : interval -> list Z -> tfield -> option tfield) F t, (S l <= maxl)%nat -> (forall c v, F c (F c v) = F c v) ->
    (forall i yz t, istep i = 1 -> length yz = n -> (forall p, In p (row_cells i yz) -> parent l p) ->
       exists t', op i yz t = Some t' /\ rewrites n (S l) F (fun c => In (ancestor 1 c) (row_cells i yz)) t t') ->
    exists t', apply_tags n (on (inter (c_at cells (S l)) (c_at (r_all r) l)) l) op t = Some t' /\ rewrites n (S l) F (fun c => parent l (ancestor 1 c)) t t'.
  Proof.
    intros l op F t Hl HF Hop. destruct (parent_calls _ _ _ _ _ _ _ _ _ _ HI HR l (c_at cells (S l)) (c_at (r_all r) l) Hl ltac:(auto)) as (calls & EC & V & _ & M).
    unfold apply_tags. rewrite EC, fold_calls_tags.
    assert (RC : forall i yz p, In (i, yz) calls -> In p (row_cells i yz) -> In p (cells_of_calls calls)).
    { intros i yz p Hin Hp. apply in_map_iff in Hp as (x & <- & Hx). apply cells_of_calls_step; [intros i0 yz0 H0; apply (V _ _ H0)|]. exists i. auto. }
    destruct (fold_rewrites n (S l) F _ (fun t '(i, yz) => op i yz t) (fun '(i, yz) c => In (ancestor 1 c) (row_cells i yz)) calls t HF) as (t' & E & R).
    - intros [i yz] t0 Hin. destruct (V i yz Hin) as (Ly & _ & Hst). apply Hop; auto. intros p Hp. apply M. eapply RC; eauto.
    - exists t'. split; auto. eapply rewrites_ext; [| |exact R]; [|auto]. intros c Lc. rewrite <- M. split.
      + intros ([i yz] & Hin & Hq). eapply RC; eauto.
      + intros Hq. assert (La : length (ancestor 1 c) = S n) by (rewrite ancestor_length; auto). destruct (ancestor 1 c) as [|x yz] eqn:Ea; [discriminate|].
        apply cells_of_calls_step in Hq as (i & Hin & Hx); [|intros i0 yz0 H0; apply (V _ _ H0)]. exists (i, yz). split; auto. apply in_map_iff. exists x. auto.
  Qed.

  Definition eps_of (eps : Q) (l : nat) : Q := (eps / inject_Z (2 ^ (Z.of_nat (S n) * Z.of_nat (maxl - l))))%Q.
  Definition criteria_tag (eps factor : Q) (d : lfield) (l : nat) (c : list Z) (v : Z) : Z :=
    refine_tag n maxl d l (factor * eps_of eps (S l)) c (coarsen_tag minl d l (eps_of eps (S l)) c v).

  Lemma criteria_step_spec : forall eps factor d l t, (minl <= S l <= maxl)%nat -> Z.of_nat (S n) * Z.of_nat (maxl - minl) < 31 ->
    exists t', criteria_step n minl maxl eps factor cells (r_all r) d t (S l) = Some t' /\
      rewrites n (S l) (criteria_tag eps factor d l) (fun c => parent l (ancestor 1 c)) t t'.
  Proof.
    intros eps factor d l t Hl H31. pose proof (hm_top _ _ _ _ _ _ _ _ _ HI) as HT. unfold criteria_step, eps_level.
    assert (X : (Z.of_nat (S n) * Z.of_nat (maxl - S l) <? 31) = true) by (apply Z.ltb_lt; nia). rewrite X. fold (eps_of eps (S l)).
    assert (HS : forall i yz, (forall p, In p (row_cells i yz) -> parent l p) -> forall c, length c = S n -> In (ancestor 1 c) (row_cells i yz) -> stored n (r_all r) (S l) c = true).
    { intros i yz HP c Lc Hc. apply HP in Hc as (q & Hq & E). apply (ref_stored _ _ _ _ _ _ _ _ _ _ HI HR); [lia|auto|]. apply (family_ref _ _ _ _ _ _ _ _ _ _ HI HR l q); auto. }
    destruct (parent_op l (to_coarsen_mr n (r_all r) d (eps_of eps (S l)) minl l) (coarsen_tag minl d l (eps_of eps (S l))) t) as (t1 & E1 & R1); [lia|intros; apply coarsen_idem| |].
    { intros i yz t0 Hst Ly HP. apply to_coarsen_spec; auto. apply HS. auto. }
    rewrite E1.
    destruct (parent_op l (to_refine_mr n (r_all r) d (factor * eps_of eps (S l)) maxl l) (refine_tag n maxl d l (factor * eps_of eps (S l))) t1) as (t2 & E2 & R2);
      [lia|intros; apply refine_idem| |].
    { intros i yz t0 Hst Ly HP. apply to_refine_spec; auto; [apply HS; auto|]. intros p Hp. apply (ref_stored _ _ _ _ _ _ _ _ _ _ HI HR); [lia| |].
      - apply in_map_iff in Hp as (x & <- & _). cbn. lia.
      - apply (has_leaf_ref _ _ _ _ _ _ _ _ _ _ HI HR). auto. }
    exists t2. split; auto. exact (rewrites_compose _ _ _ _ _ _ _ _ R1 R2).
  Qed.

  (** The tags after the criteria. *)
  Lemma criteria_spec : forall eps factor d top t, (1 <= minl)%nat -> (top <= maxl)%nat -> Z.of_nat (S n) * Z.of_nat (maxl - minl) < 31 ->
    exists t', criteria n minl maxl top eps factor cells (r_all r) d t = Some t' /\ (forall c, length c = S n -> tg t' 0%nat c = tg t 0%nat c) /\
      forall l c, length c = S n -> ((minl <= S l <= top)%nat /\ parent l (ancestor 1 c) /\ tg t' (S l) c = criteria_tag eps factor d l c (tg t (S l) c)) \/
        (~ ((minl <= S l <= top)%nat /\ parent l (ancestor 1 c)) /\ tg t' (S l) c = tg t (S l) c).
  Proof.
    intros eps factor d top t H1 Ht H31. unfold criteria.
    assert (G : forall k a t, (minl <= a)%nat -> (a + k <= S maxl)%nat -> exists t', fold_tags (criteria_step n minl maxl eps factor cells (r_all r) d) (seq a k) t = Some t' /\ (forall c, length c = S n -> tg t' 0%nat c = tg t 0%nat c) /\
      forall l c, length c = S n -> ((a <= S l < a + k)%nat /\ parent l (ancestor 1 c) /\ tg t' (S l) c = criteria_tag eps factor d l c (tg t (S l) c)) \/
        (~ ((a <= S l < a + k)%nat /\ parent l (ancestor 1 c)) /\ tg t' (S l) c = tg t (S l) c)).
    { induction k as [|k IH]; intros a t0 Ha Hk.
      - exists t0. split; auto. split; auto. intros l c Lc. right. split; [lia|auto].
      - cbn [seq fold_tags]. destruct a as [|a]; [lia|]. destruct (criteria_step_spec eps factor d a t0 ltac:(lia) H31) as (t1 & E1 & R1). rewrite E1.
        destruct (IH (S (S a)) t1 ltac:(lia) ltac:(lia)) as (t2 & E2 & Z2 & R2). exists t2. split; auto. split.
        { intros c Lc. rewrite Z2 by auto. destruct (R1 0%nat c Lc) as [(A & _)|(_ & A)]; [discriminate|auto]. }
        intros l c Lc. pose proof (R1 (S l) c Lc) as R1'. pose proof (R2 l c Lc) as R2'.
        destruct R2' as [(A & B & C)|(A & B)].
        + left. split; [lia|]. split; auto. destruct R1' as [(A' & B' & C')|(A' & B')]; [exfalso; lia|congruence].
        + rewrite B. destruct R1' as [(A' & B' & C')|(A' & B')].
          * injection A' as ->. left. split; [lia|]. auto.
          * right. split; auto. intros [X Y]. destruct (Nat.eq_dec (S l) (S a)) as [E|E]; [injection E as ->; apply A'; auto|]. apply A. split; [lia|auto]. }
    destruct (Nat.le_gt_cases minl (S top)) as [Hm|Hm].
    - destruct (G (S top - minl)%nat minl t ltac:(lia) ltac:(lia)) as (t' & E & Z & R). exists t'. split; auto. split; auto. intros l c Lc. destruct (R l c Lc) as [(A & B)|(A & B)]; [left|right].
      + split; [lia|auto].
      + split; auto. intros [X Y]. apply A. split; [lia|auto].
    - replace (S top - minl)%nat with 0%nat by lia. exists t. split; auto. split; auto. intros l c Lc. right. split; [lia|auto].
  Qed.
End Criteria.
