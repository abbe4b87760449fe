(** Proofs about is_graduated and make_graduation. *)
From Coq Require Import Permutation.
From Verif Require Import Base IntervalModel Spec LoiModel LcaModel LcaSpec LcaProofs LcaProofs3 RowsProofs CellArrayModel CellArrayProofs
  PropsLca PropsCellArray SubsetModel TreeProofs SubsetSpec SubsetProofs2 PropsSubset StencilModel StencilProofs NumberingProofs MeshModel MeshProofs PropsMesh
  AdaptModel AdaptProofs TagProofs GradModel.
Open Scope Z_scope.

(** ** One set *)
Lemma grad_set_spec : forall n c level below s, (below <= level)%nat ->
  wf n (c_at c level) -> a_level (c_at c level) = level -> wf n (c_at c below) -> a_level (c_at c below) = below ->
  (forall q k, lca_mem n (c_at c level) q -> (k <= n)%nat -> nth k q 0 + nth k s 0 + 3 < 2 ^ 31 - 1) ->
  (forall q k, lca_mem n (c_at c below) q -> (k <= n)%nat -> nth k q 0 + 3 < 2 ^ 31 - 1) ->
  exists calls, subset_calls n (grad_set c level below s) = Some calls /\
    (forall i yz, In (i, yz) calls -> length yz = n /\ istart i < iend i /\ istep i = 1) /\
    forall p, In p (cells_of_calls calls) <->
      lca_mem n (c_at c below) p /\ exists q, lca_mem n (c_at c level) q /\ p = ancestor (level - below) (vadd n q s).
Proof.
  intros n c level below s Hle W1 L1 W2 L2 B1 B2. unfold grad_set. rewrite on_make_op.
  set (t := Nd Intersect (More (Lf (leaf_of (NTrans s (NMesh (c_at c level))))) (One (Lf (leaf_of (NMesh (c_at c below))))))).
  assert (F : finest t = Nat.max level below) by (transitivity (Nat.max (a_level (c_at c level)) (a_level (c_at c below))); [reflexivity|congruence]).
  assert (HO : operands_ok n below t).
  { intros lf Hlf. rewrite F. replace (Nat.min below (Nat.max level below)) with below by lia. unfold t in Hlf. cbn [tin ain] in Hlf.
    destruct Hlf as [->| ->]; cbn [l_node leaf_of]; unfold operand_ok; cbn [simple node_mesh node_vect]; spl; auto; intros q k Hq Hk.
    - rewrite nth_vadd by auto. rewrite L1. replace (Z.max 0 (Z.of_nat below - Z.of_nat level)) with 0 by lia. specialize (B1 q k Hq Hk). lia.
    - rewrite vadd_nil by apply Hq. rewrite L2. replace (Z.max 0 (Z.of_nat below - Z.of_nat below)) with 0 by lia. specialize (B2 q k Hq Hk). lia. }
  destruct (C18_levels n below t HO) as (calls & E & V & _ & _ & M). exists calls. spl; auto.
  - intros i yz Hin. destruct (V i yz Hin). spl; auto. eapply subset_calls_step; eauto.
  - intros p. split.
    + intros Hp. assert (Lp : length p = S n).
      { unfold cells_of_calls in Hp. apply in_flat_map in Hp as ([i yz] & Hin & Hp). apply in_map_iff in Hp as (x & <- & _).
        cbn [length]. f_equal. apply (V i yz Hin). }
      apply (M p Lp) in Hp. destruct Hp as [H1 H2]. 
      apply (denotes_coarse n (NTrans s (NMesh (c_at c level))) p below level L1 Hle Lp) in H1.
      apply (denotes_mesh_fine n (c_at c below) p below) in H2; [|lia|auto].
      rewrite L2, Nat.sub_diag, ancestor_0 in H2. split; auto.
    + intros [H2 H1]. assert (Lp : length p = S n) by apply H2. apply (M p Lp). split.
      * apply (denotes_coarse n (NTrans s (NMesh (c_at c level))) p below level L1 Hle Lp). exact H1.
      * apply (denotes_mesh_fine n (c_at c below) p below); [lia|auto|]. rewrite L2, Nat.sub_diag, ancestor_0. auto.
Qed.

Lemma no_cells_no_calls : forall n calls, (forall i yz, In (i, yz) calls -> length yz = n /\ istart i < iend i /\ istep i = 1) ->
  (calls = [] <-> forall p, ~ In p (cells_of_calls calls)).
Proof.
  intros n calls V. split; [intros -> p []|]. destruct calls as [|[i yz] calls]; auto. intros H. exfalso.
  destruct (V i yz) as (_ & H1 & _); [left; auto|]. apply (H (istart i :: yz)). apply cells_of_calls_In. exists i. split; [left; auto|]. unfold in_i. lia.
Qed.

(** ** The cases *)
Lemma grad_cases_In : forall minl maxl stencil level below s, In (level, below, s) (grad_cases minl maxl stencil) <->
  (minl <= below)%nat /\ (below + 2 <= level <= maxl)%nat /\ In s stencil.
Proof.
  intros minl maxl stencil level below s. unfold grad_cases. rewrite in_flat_map. setoid_rewrite in_flat_map. setoid_rewrite in_map_iff. split.
  - intros (l & Hl & b & Hb & s' & E & Hs). apply pair_equal_spec in E as [E <-]. apply pair_equal_spec in E as [<- <-].
    apply in_seq in Hl, Hb. spl; auto; lia.
  - intros (H1 & H2 & H3). exists level. split; [apply in_seq; lia|]. exists below. split; [apply in_seq; lia|]. exists s. auto.
Qed.

(** The leaf [p] has a leaf two or more levels finer in its stencil. *)
Definition too_coarse (n : nat) (c : ca) (stencil : list (list Z)) (l : nat) (p : list Z) : Prop :=
  ca_mem n c l p /\ exists l' q s, ca_mem n c l' q /\ (l + 2 <= l')%nat /\ In s stencil /\ ancestor (l' - l) (vadd n q s) = p.

Definition range_ok (n : nat) (stencil : list (list Z)) (c : ca) : Prop :=
  ca_wf n c /\ (forall l, (l <= c_max c)%nat -> a_level (c_at c l) = l) /\
  forall l q k, ca_mem n c l q -> (k <= n)%nat -> nth k q 0 + 3 < 2 ^ 31 - 1 /\ forall s, In s stencil -> nth k q 0 + nth k s 0 + 3 < 2 ^ 31 - 1.

Lemma case_spec : forall n stencil c level below s, range_ok n stencil c -> (level <= c_max c)%nat -> (below + 2 <= level)%nat -> In s stencil ->
  exists calls, subset_calls n (grad_set c level below s) = Some calls /\
    (forall i yz, In (i, yz) calls -> length yz = n /\ istart i < iend i /\ istep i = 1) /\
    forall p, In p (cells_of_calls calls) <->
      ca_mem n c below p /\ exists q, ca_mem n c level q /\ p = ancestor (level - below) (vadd n q s).
Proof.
  intros n stencil c level below s (W & L & B) Hl Hb Hs.
  destruct (grad_set_spec n c level below s) as (calls & E & V & M); auto; try (apply W; lia); try (apply L; lia); try lia.
  { intros q k Hq Hk. apply (B level q k); auto. split; auto. }
  { intros q k Hq Hk. apply (B below q k); auto. split; auto. lia. }
  exists calls. spl; auto. intros p. rewrite M. unfold ca_mem. split.
  - intros (H1 & q & H2 & ->). split; [split; [lia|auto]|]. exists q. auto.
  - intros ([_ H1] & q & [_ H2] & ->). split; auto. exists q. auto.
Qed.

(** ** is_graduated *)
Lemma no_call_spec : forall n stencil c cases, range_ok n stencil c ->
  (forall level below s, In (level, below, s) cases -> (level <= c_max c)%nat /\ (below + 2 <= level)%nat /\ In s stencil) ->
  exists b, no_call n c cases = Some b /\
    (b = true <-> forall level below s, In (level, below, s) cases ->
       forall p q, ca_mem n c below p -> ca_mem n c level q -> ancestor (level - below) (vadd n q s) <> p).
Proof.
  intros n stencil c cases R. induction cases as [|[[level below] s] cases IH]; intros H.
  - exists true. split; auto. split; auto.
  - destruct (H level below s) as (H1 & H2 & H3); [left; auto|].
    destruct (case_spec n stencil c level below s R H1 H2 H3) as (calls & E & V & M).
    destruct IH as (b & Eb & Hb); [intros; apply H; right; auto|]. cbn [no_call]. rewrite E.
    destruct calls as [|a calls].
    + exists b. split; auto. rewrite Hb. split.
      * intros G level' below' s' [Ec|Hin]; [|eauto]. apply pair_equal_spec in Ec as [Ec <-]. apply pair_equal_spec in Ec as [<- <-].
        intros p q Hp Hq Ea. apply (M p). split; auto. exists q. auto.
      * intros G level' below' s' Hin. apply G. right. auto.
    + exists false. split; auto. split; [discriminate|]. intros G. exfalso.
      assert (Hne : ~ (forall p, ~ In p (cells_of_calls (a :: calls)))) by (rewrite <- (no_cells_no_calls n) by exact V; discriminate).
      apply Hne. intros p Hp. apply M in Hp as (Hp & q & Hq & Ea). apply (G level below s (or_introl eq_refl) p q); auto.
Qed.

(** ** Tags *)
Lemma tag_view_spec : forall n c below tag i yz, numbered n c -> (below <= c_max c)%nat ->
  (forall r, In r (a_cells (c_at c below) 0) -> istep r = 1) -> length yz = n -> istart i < iend i -> istep i = 1 ->
  (forall x, in_i i x -> lca_mem n (c_at c below) (x :: yz)) ->
  exists tag', tag_view n c below tag i yz = Some tag' /\
    forall k, tag' k = true <-> tag k = true \/ exists x, in_i i x /\ ca_get_index n c below (x :: yz) = Some k.
Proof.
  intros n c below tag i yz N Hb Hs Hl Hi Hst Hm.
  destruct (C28_view_addresses_cells n c below i yz N Hb Hl Hs) as (ps & E & F & I & _); [lia|lia| |].
  { intros x y (j & Hj & -> & Hx) Hy. apply Hm. unfold in_i. lia. }
  unfold tag_view. rewrite E. eexists. split; [reflexivity|]. intros k. rewrite orb_true_iff, existsb_exists. setoid_rewrite Z.eqb_eq.
  assert (G : (exists x, In x ps /\ k = x) <-> exists x, in_i i x /\ ca_get_index n c below (x :: yz) = Some k).
  { assert (SI : forall x, in_i i x <-> In x (loop_values (istart i) (iend i) (istep i))).
    { intros x. rewrite loop_values_In by lia. rewrite Hst. unfold in_i. split; [intros H; exists (x - istart i); lia|intros (j & Hj & -> & Hx); lia]. }
    setoid_rewrite SI. clear - F. induction F as [|x p xs ps Hx F IH].
    - split; intros (? & [] & _).
    - split.
      + intros (y & [<-|Hy] & ->).
        * exists x. split; [left; auto|apply Hx].
        * destruct (proj1 IH) as (z & Hz & Ez); [eauto|]. exists z. split; [right; auto|auto].
      + intros (y & [<-|Hy] & Ey).
        * exists p. split; [left; auto|]. destruct Hx as [_ Hx]. congruence.
        * destruct (proj2 IH) as (z & Hz & Ez); [eauto|]. exists z. split; [right; auto|auto]. }
  rewrite G. tauto.
Qed.

Lemma tag_views_spec : forall n c below calls tag, numbered n c -> (below <= c_max c)%nat ->
  (forall r, In r (a_cells (c_at c below) 0) -> istep r = 1) ->
  (forall i yz, In (i, yz) calls -> length yz = n /\ istart i < iend i /\ istep i = 1) ->
  (forall p, In p (cells_of_calls calls) -> ca_mem n c below p) ->
  exists tag', tag_views n c below tag calls = Some tag' /\
    forall k, tag' k = true <-> tag k = true \/ exists p, In p (cells_of_calls calls) /\ ca_get_index n c below p = Some k.
Proof.
  intros n c below calls. induction calls as [|[i yz] calls IH]; intros tag N Hb Hs V Hm.
  - exists tag. split; auto. intros k. split; auto. intros [H|(p & [] & _)]; auto.
  - cbn [tag_views]. destruct (V i yz) as (V1 & V2 & V3); [left; auto|].
    assert (CI : forall p, In p (cells_of_calls ((i, yz) :: calls)) <-> (exists x, in_i i x /\ p = x :: yz) \/ In p (cells_of_calls calls)).
    { intros p. unfold cells_of_calls. cbn [flat_map]. rewrite in_app_iff, in_map_iff. setoid_rewrite zrange_In. unfold in_i.
      split; (intros [(x & H1 & H2)|H]; [left|right; auto]); exists x; auto. }
    destruct (tag_view_spec n c below tag i yz N Hb Hs V1 V2 V3) as (t1 & E1 & T1).
    { intros x Hx. apply (Hm (x :: yz)). apply CI. left. eauto. }
    rewrite E1. destruct (IH t1 N Hb Hs) as (t2 & E2 & T2); [intros; apply V; right; auto|intros p Hp; apply Hm, CI; auto|].
    exists t2. split; auto. intros k. rewrite T2, T1. setoid_rewrite CI. split.
    + intros [[H|(x & Hx & Ek)]|(p & Hp & Ek)]; [auto|right; exists (x :: yz); eauto|right; eauto].
    + intros [H|(p & [(x & Hx & ->)|Hp] & Ek)]; [auto|left; right; eauto|right; eauto].
Qed.

Definition steps1 (c : ca) : Prop := forall l r, (l <= c_max c)%nat -> In r (a_cells (c_at c l) 0) -> istep r = 1.

Lemma grad_tags_spec : forall n stencil c cases tag, range_ok n stencil c -> numbered n c -> steps1 c ->
  (forall level below s, In (level, below, s) cases -> (level <= c_max c)%nat /\ (below + 2 <= level)%nat /\ In s stencil) ->
  exists tag', grad_tags n c tag cases = Some tag' /\
    forall k, tag' k = true <-> tag k = true \/
      exists level below s p q, In (level, below, s) cases /\ ca_mem n c below p /\ ca_mem n c level q /\
        ancestor (level - below) (vadd n q s) = p /\ ca_get_index n c below p = Some k.
Proof.
  intros n stencil c cases. induction cases as [|[[level below] s] cases IH]; intros tag R N S1 H.
  - exists tag. split; auto. intros k. split; auto. intros [Hk|(? & ? & ? & ? & ? & [] & _)]; auto.
  - destruct (H level below s) as (H1 & H2 & H3); [left; auto|].
    destruct (case_spec n stencil c level below s R H1 H2 H3) as (calls & E & V & M). cbn [grad_tags]. rewrite E.
    destruct (tag_views_spec n c below calls tag N) as (t1 & E1 & T1); [lia|intros r Hr; apply (S1 below); auto; lia|exact V|intros p Hp; apply M; auto|].
    rewrite E1. destruct (IH t1 R N S1) as (t2 & E2 & T2); [intros; apply H; right; auto|].
    exists t2. split; auto. intros k. rewrite T2, T1. setoid_rewrite M. split.
    + intros [[Hk|(p & (Hp & q & Hq & Ep) & Ek)]|(l & b & s' & p & q & Hin & Hr)]; [auto| |].
      * right. exists level, below, s, p, q. spl; auto. left; auto.
      * right. exists l, b, s', p, q. split; [right; auto|auto].
    + intros [Hk|(l & b & s' & p & q & [Ec|Hin] & Hp & Hq & Ep & Ek)]; [auto| |].
      * apply pair_equal_spec in Ec as [Ec <-]. apply pair_equal_spec in Ec as [<- <-]. left. right. exists p. split; auto. split; auto. exists q. auto.
      * right. exists l, b, s', p, q. auto.
Qed.

(** ** The new cell list *)
Definition tag01 (tag : Z -> bool) (k : Z) : Z := if tag k then flag_refine else flag_keep.

Lemma grad_body_tag : forall n minl maxl level yz x (t : bool), (t = true -> (level < maxl)%nat) ->
  grad_body n level yz x t = tag_body n minl maxl level yz x (if t then flag_refine else flag_keep).
Proof.
  intros n minl maxl level yz x t H. unfold grad_body, tag_body. destruct t.
  - change (has flag_refine flag_refine) with true. cbv iota. rewrite (proj2 (Nat.ltb_lt level maxl)) by auto. reflexivity.
  - reflexivity.
Qed.

Lemma grad_calls_tag : forall n maxl c tag, ca_wf n c ->
  (forall l p k, ca_mem n c l p -> ca_get_index n c l p = Some k -> tag k = true -> (l < maxl)%nat) ->
  grad_calls n c tag = tag_calls n 0 maxl c (tag01 tag).
Proof.
  intros n maxl c tag W H. unfold grad_calls, tag_calls. destruct (ca_calls_spec n c W) as (calls & E & V & M). rewrite E. f_equal.
  assert (G : forall k level yz x itag, (forall j, (j < k)%nat -> tag (itag + Z.of_nat j) = true -> (level < maxl)%nat) ->
    grad_loop n level tag yz k x itag = tag_loop n 0 maxl level (tag01 tag) yz k x itag).
  { induction k as [|k IH]; intros level yz x itag HT; auto. cbn [grad_loop tag_loop]. rewrite IH.
    - f_equal. apply grad_body_tag. intros Ht. apply (HT 0%nat); [lia|]. rewrite Z.add_0_r. auto.
    - intros j Hj Ht. apply (HT (S j)); [lia|]. replace (itag + Z.of_nat (S j)) with (itag + 1 + Z.of_nat j) by lia. auto. }
  rewrite !flat_map_concat_map. f_equal. apply map_ext_in. intros [l [i yz]] Hin. apply G. intros j Hj Ht.
  destruct (V _ _ _ Hin) as [V1 _]. set (x := istart i + Z.of_nat j). assert (Hx : in_i i x) by (unfold in_i, x; lia).
  apply (H l (x :: yz) (iindex i + x)).
  - apply M. eauto.
  - apply (ca_call_index n c calls l i yz x W E Hin Hx).
  - replace (iindex i + x) with (istart i + iindex i + Z.of_nat j) by (unfold x; lia). auto.
Qed.

(** ** The meshes of the loop *)

(** The CellArrays made from a CellList whose intervals have step 1, and numbered. *)
Definition made (n : nat) (c : ca) : Prop :=
  exists m hist, c = client_ca n m hist true /\ good_hist n m hist /\ forall l, (l <= m)%nat -> Forall (call_fields (fun st _ => st = 1)) (hist l).

Lemma renumber_steps : forall l acc, map istep (fst (renumber acc l)) = map istep l.
Proof.
  induction l as [|i l IH]; intros acc; auto. cbn [renumber]. specialize (IH (acc + isize i)). destruct (renumber (acc + isize i) l) as [l' acc'].
  cbn [fst map istep] in *. f_equal; auto.
Qed.
Lemma update_levels_steps : forall ks acc at_ l, map istep (a_cells (fst (update_levels ks acc at_) l) 0) = map istep (a_cells (at_ l) 0).
Proof.
  induction ks as [|k ks IH]; intros acc at_ l; auto. cbn [update_levels]. destruct (lca_is_empty (at_ k)); [apply IH|].
  unfold update_index_from. pose proof (renumber_steps (a_cells (at_ k) 0) acc) as R. destruct (renumber acc (a_cells (at_ k) 0)) as [m acc'].
  rewrite IH. unfold upd. destruct (Nat.eqb_spec l k) as [->|]; auto.
Qed.

Lemma made_ok : forall n c, made n c -> ca_wf n c /\ numbered n c /\ steps1 c /\ forall l, (l <= c_max c)%nat -> a_level (c_at c l) = l.
Proof.
  intros n c (m & hist & -> & G & F). pose proof (numbered_client n m hist G) as N. pose proof N as [W _].
  destruct (ca_update_index_spec n _ (raw_wf n m hist G)) as (_ & _ & _ & _ & _ & LV & _).
  change (ca_update_index (client_ca n m hist false)) with (client_ca n m hist true) in LV. spl; auto.
  - intros l r Hl Hr. assert (E : map istep (a_cells (c_at (client_ca n m hist true) l) 0) = map istep (a_cells (c_at (client_ca n m hist false) l) 0)).
    { apply update_levels_steps. }
    apply (in_map istep) in Hr. rewrite E in Hr. apply in_map_iff in Hr as (r' & <- & Hr).
    apply (client_lca_stored (fun st _ => st = 1) n l (hist l) eq_refl (F l Hl) 0%nat r' Hr).
  - intros l Hl. rewrite LV. apply client_lca_level; apply G; auto.
Qed.

Lemma made_eqb : forall n c c', made n c -> made n c' -> c_max c = c_max c' ->
  (ca_eqb n c c' = true <-> forall l p, ca_mem n c l p <-> ca_mem n c' l p).
Proof.
  intros n c c' (m & hist & -> & G & F) (m' & hist' & -> & G' & F') E. cbn in E. subst m'.
  rewrite C15_cell_arrays_equal_iff_same_cells by auto. split; intros H l p; specialize (H l p); rewrite !client_mem in *; auto.
Qed.

Theorem grad_step_spec : forall n stencil minl maxl c, made n c -> range_ok n stencil c -> (maxl <= c_max c)%nat ->
  (forall l q, ca_mem n c l q -> (minl <= l <= maxl)%nat) ->
  exists new (A : nat -> list Z -> action), grad_step n minl maxl stencil c = Some new /\ made n new /\ c_max new = c_max c /\
    (forall l q, ca_mem n c l q -> (A l q = Refine /\ too_coarse n c stencil l q) \/ (A l q = Stay /\ ~ too_coarse n c stencil l q)) /\
    forall l p, ca_mem n new l p <-> exists l0 q, ca_mem n c l0 q /\ length p = S n /\ moves (A l0 q) l0 q l p.
Proof.
  intros n stencil minl maxl c HM R Hm HL. destruct (made_ok n c HM) as (W & N & S1 & LV). unfold grad_step.
  destruct (grad_tags_spec n stencil c (grad_cases minl maxl stencil) (fun _ => false) R N S1) as (tag & E & T).
  { intros level below s H. apply grad_cases_In in H as (H1 & H2 & H3). spl; auto; lia. }
  rewrite E.
  assert (TC : forall l p k, ca_mem n c l p -> ca_get_index n c l p = Some k -> (tag k = true <-> too_coarse n c stencil l p)).
  { intros l p k Hp Hk. rewrite T. split.
    - intros [H|(level & below & s & p' & q & Hin & Hp' & Hq & Ep & Ek)]; [discriminate|].
      destruct (numbered_inj n c l p below p' k N Hp Hp' Hk Ek) as [-> ->]. apply grad_cases_In in Hin as (H1 & H2 & H3).
      split; auto. exists level, q, s. spl; auto. lia.
    - intros (_ & l' & q & s & Hq & Hl & Hs & Ep). right. exists l', l, s, p, q. spl; auto. apply grad_cases_In.
      pose proof (HL _ _ Hp). pose proof (HL _ _ Hq). spl; auto; lia. }
  assert (LT : forall l p, too_coarse n c stencil l p -> (l < maxl)%nat).
  { intros l p (_ & l' & q & s & Hq & Hl & _). pose proof (HL _ _ Hq). lia. }
  rewrite (grad_calls_tag n maxl c tag W).
  2:{ intros l p k Hp Hk Ht. apply (LT l p). apply (TC l p k); auto. }
  destruct (tag_calls_spec n 0 maxl c (tag01 tag) W Hm) as (cs & Ec & FB & G & F & M). rewrite Ec, FB.
  exists (client_ca n (c_max c) (hist_of cs) true).
  exists (fun l q => match ca_get_index n c l q with Some k => act 0 maxl l (tag01 tag k) | None => Drop end). spl; auto.
  - exists (c_max c), (hist_of cs). spl; auto.
  - intros l q Hq. destruct (numbered_index n c l q N Hq) as (k & Hk & _). rewrite Hk. unfold tag01. specialize (TC l q k Hq Hk).
    destruct (tag k).
    + left. pose proof (proj1 TC eq_refl) as H. split; auto. unfold act. change (Z.testbit flag_refine 2) with true. cbv iota.
      rewrite (proj2 (Nat.ltb_lt l maxl)); auto. apply (LT l q). auto.
    + right. split; [reflexivity|]. intros H. apply TC in H. discriminate.
  - intros l p. rewrite client_mem by auto. rewrite M. split.
    + intros (l0 & q & k & Hq & Hk & Hp & Hmv). exists l0, q. rewrite Hk. auto.
    + intros (l0 & q & Hq & Hp & Hmv). destruct (numbered_index n c l0 q N Hq) as (k & Hk & _). rewrite Hk in Hmv. exists l0, q, k. auto.
Qed.
