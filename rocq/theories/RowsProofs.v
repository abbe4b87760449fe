(** Which rows a client history creates, and when none of them is left empty. *)
From Verif Require Import Base IntervalModel Spec LoiModel LoiProofs LcaModel LcaSpec GridProofs InitProofs
  LcaProofs3.
Open Scope Z_scope.

Lemma adds_filled : forall cs, Forall call_adds cs -> rows_filled cs.
Proof. intros cs H c Hc. rewrite Forall_forall in H. exists c. auto. Qed.

Fixpoint path_in (n : nat) : grid n -> list Z -> Prop :=
  match n with
  | O => fun _ _ => True
  | S m => fun g yz => exists sub, In (nth m yz 0, sub) g /\ path_in m sub yz
  end.

Fixpoint grid_semi (n : nat) : grid n -> Prop :=
  match n with
  | O => fun _ => True
  | S m => fun g => Forall (fun kv => (m <> 0%nat -> grid_is_empty m (snd kv) = false) /\ grid_semi m (snd kv)) g
  end.

Lemma path_in_empty : forall n yz, n <> 0%nat -> ~ path_in n (grid_empty n) yz.
Proof. destruct n; intros yz H; [congruence|]. intros (s & [] & _). Qed.

Lemma grid_update_path : forall n (g : grid n) r f yz,
  (forall l, normal l -> normal (f l)) -> grid_ok n g ->
  path_in n (grid_update n r f g) yz ->
  (n <> 0%nat /\ path_in n g yz) \/ (forall k, (k < n)%nat -> nth k yz 0 = nth k r 0).
Proof.
  induction n as [|m IH]; intros g r f yz Hf Hok Hp.
  - right. intros; lia.
  - simpl in Hok. destruct Hok as [Hs Hok]. rewrite Forall_forall in Hok. cbn [grid_update path_in] in Hp.
    destruct Hp as (sub & Hin & Hp).
    destruct (map_update_spec _ (grid_empty m) (nth m r 0) (grid_update m r f) g Hs) as (v0 & Hv0 & _ & HI).
    apply HI in Hin as [[Hk ->]|[Hk Hin]].
    + assert (Hok0 : grid_ok m v0).
      { destruct Hv0 as [Hin|[-> _]]; [apply Hok in Hin; auto|apply grid_empty_ok]. }
      destruct (IH v0 r f yz Hf Hok0 Hp) as [[Hm Hp']|Heq].
      * left. split; [lia|]. destruct Hv0 as [Hin|[-> _]].
        -- exists v0. rewrite Hk. auto.
        -- exfalso. eapply path_in_empty; eauto.
      * right. intros k Hlt. destruct (Nat.eq_dec k m) as [->|]; auto. apply Heq. lia.
    + left. split; [lia|]. exists sub. auto.
Qed.

Lemma grid_update_semi : forall n (g : grid n) r f, grid_semi n g -> grid_semi n (grid_update n r f g).
Proof.
  induction n as [|m IH]; intros g r f H; auto. cbn [grid_update grid_semi] in *.
  assert (He : forall v : grid m, m <> 0%nat -> grid_is_empty m (grid_update m r f v) = false).
  { intros v Hm. destruct m; [congruence|]. cbn [grid_update grid_is_empty].
    destruct (map_update _ _ _ _) eqn:E; auto. apply map_update_nonnil in E. tauto. }
  apply map_update_forall with (P := fun v => (m <> 0%nat -> grid_is_empty m v = false) /\ grid_semi m v); auto.
  - split; auto. apply IH. destruct m; simpl; auto.
  - intros v [_ Hv]. auto.
Qed.

Lemma grid_mem_coords : forall n (g : grid n) p q, (forall k, (k <= n)%nat -> nth k p 0 = nth k q 0) ->
  grid_mem n g p -> grid_mem n g q.
Proof.
  induction n as [|m IH]; intros g p q H Hm; simpl in *.
  - rewrite <- H by lia. auto.
  - destruct Hm as (sub & Hin & Hm). exists sub. rewrite <- H by lia. split; auto.
    eapply IH; [|eauto]. intros; apply H; lia.
Qed.

Lemma full_of_paths : forall n (g : grid n), grid_ok n g -> grid_semi n g ->
  (forall yz, length yz = n -> path_in n g yz -> exists x, grid_mem n g (x :: yz)) -> grid_full n g.
Proof.
  induction n as [|m IH]; intros g Hok Hs Hp; simpl; auto.
  cbn [grid_ok grid_semi] in Hok, Hs. destruct Hok as [Hk Hok]. rewrite Forall_forall in *.
  intros [k sub] Hin. simpl. pose proof (Hok _ Hin) as Ho. pose proof (Hs _ Hin) as [He Hse]. simpl in Ho, He, Hse.
  assert (P : forall yz, length yz = m -> path_in m sub yz -> exists x, grid_mem m sub (x :: yz)).
  { intros yz Hyz Hpath. destruct (Hp (yz ++ [k])) as (x & Hm).
    - rewrite app_length. simpl. lia.
    - exists sub. rewrite app_nth2, Hyz, Nat.sub_diag by lia. split; [exact Hin|].
      clear - Hyz Hpath.
      assert (G : forall j (s : grid j), (j <= m)%nat -> path_in j s yz -> path_in j s (yz ++ [k])).
      { induction j as [|j IHj]; intros s Hj H; simpl in *; auto. destruct H as (s' & H1 & H2).
        exists s'. rewrite app_nth1 by lia. split; auto. apply IHj; auto. lia. }
      apply G; auto.
    - exists x. cbn [grid_mem] in Hm. destruct Hm as (sub' & Hin' & Hm).
      replace (nth (S m) (x :: yz ++ [k]) 0) with k in Hin'
        by (simpl; rewrite app_nth2, Hyz, Nat.sub_diag by lia; auto).
      rewrite (keys_unique _ g k sub' sub Hk Hin' Hin) in Hm.
      eapply grid_mem_coords; [|exact Hm]. intros [|j] Hj; auto. simpl. rewrite app_nth1 by lia. auto. }
  split.
  - destruct m as [|m']; [|apply He; lia]. destruct (P [] eq_refl I) as (x & Hx). simpl in *.
    destruct sub; auto. apply covers_nil in Hx. tauto.
  - apply IH; auto.
Qed.

Lemma added_row : forall n c, call_dim n c -> call_adds c ->
  exists x, added c (x :: call_row c).
Proof.
  intros n [yz|yz i|yz p|cell] Hd Ha; simpl in *; try tauto.
  - exists (istart i). split; auto. unfold in_i. simpl. lia.
  - exists p. auto.
  - destruct cell as [|x cell]; [discriminate|]. exists x. auto.
Qed.

Lemma call_row_len : forall n c, call_dim n c -> length (call_row c) = n.
Proof. intros n [yz|yz i|yz p|cell] H; simpl in *; auto. destruct cell; simpl in *; lia. Qed.

Lemma grid_run_path : forall n cs g yz, n <> 0%nat -> grid_ok n g -> Forall (call_dim n) cs ->
  path_in n (fold_left (grid_step n) cs g) yz ->
  path_in n g yz \/ exists c, In c cs /\ forall k, (k < n)%nat -> nth k yz 0 = nth k (call_row c) 0.
Proof.
  intros n cs. induction cs as [|c cs IH]; intros g yz Hn Hok Hd Hp; simpl in *; auto.
  inv Hd. destruct (grid_step_spec n g c Hok H1) as [Hok' _].
  destruct (IH _ yz Hn Hok' H2 Hp) as [H|(c' & H & K)]; [|right; exists c'; auto].
  assert (G : (n <> 0%nat /\ path_in n g yz) \/ (forall k, (k < n)%nat -> nth k yz 0 = nth k (call_row c) 0)).
  { destruct c; simpl in *; eapply grid_update_path in H; auto;
      intros; unfold add_point; apply add_interval_normal; auto. }
  destruct G as [[_ G]|G]; auto. right. exists c. auto.
Qed.

Lemma grid_run_filled : forall n cs, Forall (call_dim n) cs -> rows_filled cs ->
  grid_full n (fold_left (grid_step n) cs (grid_empty n)).
Proof.
  intros n cs Hd Hf. destruct (Nat.eq_dec n 0) as [->|E0]; [simpl; auto|].
  destruct (grid_run_spec n cs (grid_empty n) (grid_empty_ok n) Hd) as [Hok Hmem].
  apply full_of_paths; auto.
  - assert (G : forall cs g, grid_semi n g -> grid_semi n (fold_left (grid_step n) cs g)).
    { clear. induction cs as [|c cs IH]; intros g Hg; simpl; auto. apply IH. destruct c; apply grid_update_semi; auto. }
    apply G. destruct n; simpl; auto.
  - intros yz Hyz Hpath.
    destruct (grid_run_path n cs _ yz E0 (grid_empty_ok n) Hd Hpath) as [H|(c & Hc & Heq)].
    + exfalso. eapply path_in_empty; eauto.
    + rewrite Forall_forall in Hd. assert (yz = call_row c).
      { apply nth_ext_eq; [rewrite (call_row_len n); auto|]. rewrite Hyz. auto. }
      subst yz. destruct (Hf c Hc) as (c' & Hc' & Hr & Ha). rewrite <- Hr.
      destruct (added_row n c' (Hd c' Hc') Ha) as (x & Hx). exists x. apply Hmem.
      * simpl. rewrite (call_row_len n); auto.
      * right. exists c'. auto.
Qed.

Lemma client_lca_mem : forall n level cs, Forall (call_dim n) cs ->
  forall p, lca_mem n (client_lca n level cs) p <-> length p = S n /\ exists c, In c cs /\ added c p.
Proof.
  intros n level cs Hd p.
  destruct (grid_run_spec n cs (grid_empty n) (grid_empty_ok n) Hd) as [Hok Hmem].
  destruct (lca_of_lcl_spec false n (lcl_run n level cs)) as (_ & _ & HM); auto; [discriminate|].
  split.
  - intros H. pose proof H as [Hp _]. split; auto. apply HM in H; auto. apply Hmem in H as [H|H]; auto.
    exfalso. eapply grid_empty_mem; eauto.
  - intros [Hp H]. apply HM; auto. apply Hmem; auto.
Qed.

Lemma client_lca_level : forall n level cs, Forall (call_dim n) cs -> a_level (client_lca n level cs) = level.
Proof.
  intros n level cs Hd. destruct (grid_run_spec n cs (grid_empty n) (grid_empty_ok n) Hd) as [Hok _].
  destruct (lca_of_lcl_spec false n (lcl_run n level cs)) as (H & _); auto. discriminate.
Qed.

Lemma client_lca_wf : forall n level cs, Forall (call_dim n) cs -> rows_filled cs -> wf n (client_lca n level cs).
Proof.
  intros n level cs Hd Hf. destruct (grid_run_spec n cs (grid_empty n) (grid_empty_ok n) Hd) as [Hok _].
  destruct (lca_of_lcl_spec true n (lcl_run n level cs)) as (_ & H & _); auto.
  - intros _. apply grid_run_filled; auto.
  - unfold client_lca. destruct (grid_is_empty n (l_grid (lcl_run n level cs))); [left; auto|right; apply H].
Qed.

Lemma client_lca_wf_weak : forall n level cs, Forall (call_dim n) cs ->
  lca_no_cells n (client_lca n level cs) \/ wf_weak n (client_lca n level cs).
Proof.
  intros n level cs Hd. destruct (grid_run_spec n cs (grid_empty n) (grid_empty_ok n) Hd) as [Hok _].
  destruct (lca_of_lcl_spec false n (lcl_run n level cs)) as (_ & H & _); auto; [discriminate|].
  unfold client_lca. destruct (grid_is_empty n (l_grid (lcl_run n level cs))); [left; auto|right; apply H].
Qed.

Lemma client_lca_stored : forall (P : Z -> Z -> Prop) n level cs, P 1 0 -> Forall (call_fields P) cs ->
  stored (fields P) (client_lca n level cs).
Proof.
  intros P n level cs P0 Hc. apply lca_of_lcl_stored. apply grid_run_all; auto. apply grid_empty_all.
Qed.
