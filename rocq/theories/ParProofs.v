(** Lemmas on tasks and schedules. *)
From Verif Require Import Base IntervalModel LoiModel LcaModel CellArrayModel SubsetModel ParModel.
Open Scope Z_scope.

Section Proofs.
  Context {L V : Type} (start : L) (W : Z -> Prop).
  Notation op := (@op L V). Notation call := (@call L V). Notation machine := (@machine L V).

  (** The operation writes only in the cells [K], and what it does depends only on its local
      variables, on those cells and on what is outside of [W]. *)
  Definition own (K : list Z) (o : op) : Prop :=
    (forall loc st st', (forall j, In j K \/ ~ W j -> st j = st' j) ->
       fst (o loc st) = fst (o loc st') /\ forall j, In j K -> snd (o loc st) j = snd (o loc st') j) /\
    forall loc st j, ~ In j K -> snd (o loc st) j = st j.

  Lemma run_ops_own : forall K os, Forall (own K) os -> (forall k, In k K -> W k) -> forall loc st,
    (forall st', (forall j, In j K \/ ~ W j -> st j = st' j) -> forall j, In j K -> run_ops os loc st j = run_ops os loc st' j) /\
    forall j, ~ In j K -> run_ops os loc st j = st j.
  Proof.
    intros K os F WK. induction F as [|o os [O1 O2] F IH]; intros loc st; cbn [run_ops]; [split; auto|].
    destruct (o loc st) as [loc1 st1] eqn:E. split.
    - intros st' H. destruct (o loc st') as [loc2 st2] eqn:E'. destruct (O1 loc st st' H) as [A B]. rewrite E, E' in A, B. cbn [fst snd] in A, B. subst loc2.
      apply IH. intros j [Hj|Hj]; auto. assert (N : ~ In j K) by (intros X; apply Hj, WK; auto).
      pose proof (O2 loc st j N) as X. pose proof (O2 loc st' j N) as X'. rewrite E in X. rewrite E' in X'. cbn [snd] in X, X'. rewrite X, X'. auto.
    - intros j Hj. rewrite (proj2 (IH loc1 st1)) by auto. pose proof (O2 loc st j Hj) as X. rewrite E in X. exact X.
  Qed.

  Definition labels (cs : list call) : list Z := flat_map fst cs.
  Definition good_calls (cs : list call) : Prop := NoDup (labels cs) /\ forall K os, In (K, os) cs -> (forall k, In k K -> W k) /\ Forall (own K) os.

  Lemma run_calls_spec : forall cs st, good_calls cs ->
    (forall K os k, In (K, os) cs -> In k K -> run_calls start cs st k = run_ops os start st k) /\
    forall j, ~ In j (labels cs) -> run_calls start cs st j = st j.
  Proof.
    induction cs as [|[K os] cs IH]; intros st [N G]; [split; [intros K os k []|auto]|].
    unfold labels in N. cbn [flat_map fst] in N. fold (labels cs) in N. destruct (G K os ltac:(left; auto)) as [WK F].
    assert (NK : forall j, In j K -> ~ In j (labels cs)).
    { intros j Hj Hj'. clear -N Hj Hj'. induction K as [|k K IH]; [destruct Hj|]. cbn [app] in N. inversion N as [|? ? N1 N2]; subst. destruct Hj as [->|Hj]; auto. apply N1, in_app_iff. auto. }
    assert (G' : good_calls cs).
    { split; [|intros; apply G; right; auto]. clear -N. induction K as [|k K IH]; auto. cbn [app] in N. inversion N; subst. auto. }
    unfold run_calls. cbn [fold_left snd]. fold (run_calls start cs (run_ops os start st)). destruct (IH (run_ops os start st) G') as [I1 I2].
    destruct (run_ops_own K os F WK start st) as [_ R2]. split.
    - intros K' os' k [E|H] Hk.
      + injection E as <- <-. apply I2. apply NK. auto.
      + rewrite (I1 K' os' k H Hk). destruct (G K' os' ltac:(right; auto)) as [WK' F']. apply (run_ops_own K' os' F' WK'); auto.
        intros j [Hj|Hj]; apply R2; intros Hj'; [|apply Hj, WK; auto].
        apply (NK j Hj'). apply in_flat_map. exists (K', os'). auto.
    - intros j Hj. unfold labels in Hj. cbn [flat_map fst] in Hj. fold (labels cs) in Hj. rewrite in_app_iff in Hj. rewrite I2 by tauto. apply R2. tauto.
  Qed.

  (** The calls that remain, with the local variables of those which have begun. *)
  Definition fresh (c : call) : L * call := (start, c).
  Definition task_rest (t : L * list call) : list (L * call) :=
    match snd t with [] => [] | c :: cs => (fst t, c) :: map fresh cs end.
  Definition rest (m : machine) : list (L * call) := flat_map task_rest (m_active m) ++ flat_map (map fresh) (m_pending m).
  Definition key (e : L * call) : list Z := fst (snd e).
  Definition keys : list (L * call) -> list Z := flat_map key.

  Record invariant (T : Z -> V) (r : list (L * call)) (st : Z -> V) : Prop := {
    i_keys : NoDup (keys r);
    i_own : forall loc K os, In (loc, (K, os)) r -> (forall k, In k K -> W k) /\ Forall (own K) os;
    i_todo : forall loc K os k, In (loc, (K, os)) r -> In k K -> run_ops os loc st k = T k;
    i_done : forall j, ~ In j (keys r) -> st j = T j }.

  Lemma NoDup_middle : forall (X K Y : list Z), NoDup (X ++ K ++ Y) -> NoDup (X ++ Y) /\ forall j, In j K -> ~ In j (X ++ Y).
  Proof.
    intros X K Y N. assert (P : Permutation (X ++ K ++ Y) (K ++ (X ++ Y))) by (rewrite !app_assoc; apply Permutation_app_tail, Permutation_app_comm).
    apply (Permutation_NoDup P) in N. clear P. induction K as [|k K IH]; [split; auto|]. cbn [app] in N. inversion N as [|? ? N1 N2]; subst. destruct (IH N2) as [A B].
    split; auto. intros j [->|Hj]; auto. intros H. apply N1, in_app_iff. auto.
  Qed.

  Lemma inv_op : forall T X Y loc K o os st, invariant T (X ++ (loc, (K, o :: os)) :: Y) st ->
    invariant T (X ++ (fst (o loc st), (K, os)) :: Y) (snd (o loc st)).
  Proof.
    intros T X Y loc K o os st [N O D F].
    destruct (O loc K (o :: os)) as [WK Fo]; [apply in_app_iff; right; left; auto|]. inversion Fo as [|? ? O1 Fo']; subst.
    assert (KE : keys (X ++ (fst (o loc st), (K, os)) :: Y) = keys (X ++ (loc, (K, o :: os)) :: Y)) by (unfold keys; rewrite !flat_map_app; reflexivity).
    assert (NK : forall e j, In e (X ++ Y) -> In j (key e) -> ~ In j K).
    { intros e j He Hj Hj'. unfold keys in N. rewrite flat_map_app in N. cbn [flat_map] in N. apply NoDup_middle in N as [_ N].
      apply (N j Hj'). rewrite <- flat_map_app. apply in_flat_map. exists e. auto. }
    constructor.
    - rewrite KE. auto.
    - intros loc' K' os' H. apply in_app_iff in H as [H|[H|H]].
      + apply (O loc'). apply in_app_iff. auto.
      + injection H as <- <- <-. auto.
      + apply (O loc'). apply in_app_iff. right. right. auto.
    - intros loc' K' os' k H Hk.
      assert (OLD : In (loc', (K', os')) (X ++ Y) -> run_ops os' loc' (snd (o loc st)) k = T k).
      { intros H'.
        assert (H'' : In (loc', (K', os')) (X ++ (loc, (K, o :: os)) :: Y)) by (apply in_app_iff in H' as [|]; apply in_app_iff; [left|right; right]; auto).
        rewrite <- (D loc' K' os' k H'' Hk). destruct (O loc' K' os' H'') as [WK' F']. symmetry. apply (run_ops_own K' os' F' WK'); auto.
        intros j Hj. symmetry. apply O1. destruct Hj as [Hj|Hj]; [apply (NK _ j H' Hj)|]. intros Hj'. apply Hj, WK. auto. }
      apply in_app_iff in H as [H|[H|H]]; [apply OLD; apply in_app_iff; auto| |apply OLD; apply in_app_iff; auto].
      injection H as <- <- <-. rewrite <- (D loc K (o :: os) k); [|apply in_app_iff; right; left; auto|auto]. cbn [run_ops]. destruct (o loc st); reflexivity.
    - intros j Hj. rewrite KE in Hj. rewrite <- (F j Hj). apply O1. intros Hj'. apply Hj. unfold keys. apply in_flat_map. exists (loc, (K, o :: os)). split; auto.
      apply in_app_iff. right. left. auto.
  Qed.

  Lemma inv_end : forall T X Y loc K st, invariant T (X ++ (loc, (K, [])) :: Y) st -> invariant T (X ++ Y) st.
  Proof.
    intros T X Y loc K st [N O D F].
    assert (SUB : forall e, In e (X ++ Y) -> In e (X ++ (loc, (K, [])) :: Y)) by (intros e He; apply in_app_iff in He as [|]; apply in_app_iff; [left|right; right]; auto).
    constructor; eauto.
    - unfold keys in *. rewrite flat_map_app in N |- *. cbn [flat_map] in N. apply NoDup_middle in N as [N _]. auto.
    - intros j Hj. destruct (in_dec Z.eq_dec j K) as [HK|HK].
      + apply (D loc K [] j); auto. apply in_app_iff. right. left. auto.
      + apply F. unfold keys in *. rewrite flat_map_app in Hj |- *. cbn [flat_map]. rewrite !in_app_iff in *. cbn [key fst snd]. tauto.
  Qed.

  Lemma flat_fresh : forall (cs : list call) (t : L * list call), t = (start, cs) -> task_rest t = map fresh cs.
  Proof. intros [|c cs] t ->; reflexivity. Qed.

  Lemma split_active : forall (ts : list (L * list call)) i t, nth_error ts i = Some t -> ts = firstn i ts ++ t :: skipn (S i) ts.
  Proof.
    induction ts as [|u ts IH]; intros [|i] t H; try discriminate; cbn in *; [congruence|]. f_equal. apply IH. auto.
  Qed.

  Lemma inv_step : forall T m c, invariant T (rest m) (m_store m) -> invariant T (rest (step start m c)) (m_store (step start m c)).
  Proof.
    intros T m c H. unfold step. destruct c as [|i].
    - destruct (m_pending m) as [|cs pending] eqn:E; auto. unfold rest in *. cbn [m_pending m_active m_store]. rewrite E in H. cbn [flat_map] in H.
      rewrite flat_map_app. cbn [flat_map]. rewrite app_nil_r, (flat_fresh cs _ eq_refl), <- app_assoc. exact H.
    - destruct (nth_error (m_active m) i) as [[loc [|[K [|o os]] cs]]|] eqn:E; auto; pose proof (split_active _ _ _ E) as SP; unfold rest in *.
      + rewrite SP in H. unfold replace. cbn [m_pending m_active m_store]. rewrite flat_map_app in H |- *. cbn [flat_map] in H |- *.
        rewrite (flat_fresh cs _ eq_refl). unfold task_rest at 2 in H. cbn [fst snd] in H.
        repeat rewrite <- app_assoc in *. cbn [app] in *. apply inv_end in H. exact H.
      + rewrite SP in H. rewrite flat_map_app in H. cbn [flat_map] in H. unfold task_rest at 2 in H. cbn [fst snd] in H.
        repeat rewrite <- app_assoc in H. cbn [app] in H. apply inv_op in H. destruct (o loc (m_store m)) as [loc' st'] eqn:EO. cbn [fst snd] in H.
        unfold replace. cbn [m_pending m_active m_store]. rewrite flat_map_app. cbn [flat_map]. unfold task_rest at 2. cbn [fst snd].
        repeat rewrite <- app_assoc. cbn [app]. exact H.
  Qed.

  Lemma inv_run : forall T schedule m, invariant T (rest m) (m_store m) -> invariant T (rest (run start m schedule)) (m_store (run start m schedule)).
  Proof. intros T. induction schedule as [|c s IH]; intros m H; auto. cbn [run fold_left]. apply IH. apply inv_step. auto. Qed.

  Lemma complete_rest : forall m : machine, complete m = true -> rest m = [].
  Proof.
    intros m H. unfold complete in H. unfold rest. destruct (m_pending m); [|discriminate]. cbn [flat_map]. rewrite app_nil_r.
    induction (m_active m) as [|[loc [|c cs]] ts IH]; cbn in H; [reflexivity| |discriminate]. cbn [flat_map]. unfold task_rest at 1. cbn [snd app]. auto.
  Qed.

  Theorem region_spec : forall tasks st schedule st', good_calls (concat tasks) -> region start tasks st schedule = Some st' ->
    forall j, st' j = run_calls start (concat tasks) st j.
  Proof.
    intros tasks st schedule st' G H j. unfold region in H. destruct (complete (run start (mkM tasks [] st) schedule)) eqn:C; [|discriminate]. injection H as <-.
    assert (KE : forall cs : list call, keys (map fresh cs) = labels cs) by (induction cs as [|c cs IH]; auto; unfold keys, labels in *; cbn [map flat_map]; rewrite IH; auto).
    assert (RE : rest (mkM tasks [] st) = map fresh (concat tasks)) by (unfold rest; cbn [m_active m_pending flat_map app]; rewrite flat_map_concat_map, concat_map; auto).
    destruct (run_calls_spec (concat tasks) st G) as [R1 R2]. destruct G as [N G].
    assert (I : invariant (run_calls start (concat tasks) st) (rest (mkM tasks [] st)) (m_store (mkM tasks [] st))).
    { rewrite RE. constructor; rewrite ?KE; auto.
      - intros loc K os Hin. apply in_map_iff in Hin as (c & E & Hc). unfold fresh in E. injection E as <- ->. auto.
      - intros loc K os k Hin Hk. apply in_map_iff in Hin as (c & E & Hc). unfold fresh in E. injection E as <- ->. symmetry. apply (R1 K os); auto.
      - intros i Hi. symmetry. apply R2. auto. }
    apply (inv_run _ schedule) in I. rewrite (complete_rest _ C) in I. apply I. intros [].
  Qed.

  (** ** Termination *)
  Definition call_size (c : call) : nat := S (length (snd c)).
  Definition calls_size (cs : list call) : nat := list_sum (map call_size cs).
  Definition size (m : machine) : nat :=
    (list_sum (map (fun t => calls_size (snd t)) (m_active m)) + list_sum (map (fun cs => S (calls_size cs)) (m_pending m)))%nat.

  Lemma sum_cons : forall a l, list_sum (a :: l) = (a + list_sum l)%nat. Proof. reflexivity. Qed.
  Lemma size_cons : forall k os (cs : list call), calls_size ((k, os) :: cs) = (S (length os) + calls_size cs)%nat. Proof. reflexivity. Qed.
  Lemma step_size : forall m c, step start m c = m \/ S (size (step start m c)) = size m.
  Proof.
    intros m [|i]; unfold step.
    - destruct (m_pending m) as [|cs pending] eqn:E; auto. right. unfold size. cbn [m_active m_pending]. rewrite E, map_app, list_sum_app.
      cbn [map snd]. rewrite !sum_cons. cbn [list_sum fold_right]. unfold ParModel.task. lia.
    - destruct (nth_error (m_active m) i) as [[loc [|[K [|o os]] cs]]|] eqn:E; auto; right; pose proof (split_active _ _ _ E) as SP.
      + unfold size. cbn [m_active m_pending]. rewrite SP at 2. unfold replace. rewrite !map_app, !list_sum_app. cbn [map snd]. rewrite !sum_cons, !size_cons. cbn [length]. unfold ParModel.task. lia.
      + destruct (o loc (m_store m)) as [loc' st']. unfold size. cbn [m_active m_pending]. rewrite SP at 2. unfold replace. rewrite !map_app, !list_sum_app. cbn [map snd].
        rewrite !sum_cons, !size_cons. cbn [length]. unfold ParModel.task. lia.
  Qed.

  Lemma progress : forall m : machine, complete m = false -> exists c, S (size (step start m c)) = size m.
  Proof.
    intros m H. unfold complete in H. destruct (m_pending m) as [|cs pending] eqn:E.
    - assert (A : exists i loc c cs, nth_error (m_active m) i = Some (loc, c :: cs)).
      { clear E. induction (m_active m) as [|[loc [|c cs]] ts IH]; cbn in H; [discriminate| |exists 0%nat, loc, c, cs; auto].
        destruct IH as (i & l & c & cs & Hi); auto. exists (S i), l, c, cs. auto. }
      destruct A as (i & loc & [k os] & cs & A). exists (S i). destruct (step_size m (S i)) as [X|]; auto. exfalso.
      pose proof (split_active _ _ _ A) as SP. unfold step in X. rewrite A in X. destruct os as [|o os].
      + assert (Y : m_active m = replace i (start, cs) (m_active m)) by (rewrite <- X at 1; auto).
        assert (Z : map (fun t => length (snd t)) (m_active m) = map (fun t => length (snd t)) (replace i (start, cs) (m_active m))) by congruence.
        apply (f_equal list_sum) in Z. rewrite SP in Z at 1. unfold replace in Z. rewrite !map_app, !list_sum_app in Z. cbn [map snd length] in Z. rewrite !sum_cons in Z. unfold ParModel.task in Z. lia.
      + destruct (o loc (m_store m)) as [loc' st'] eqn:EO.
        assert (Y : m_active m = replace i (loc', (k, os) :: cs) (m_active m)) by (rewrite <- X at 1; auto).
        assert (Z : map (fun t => calls_size (snd t)) (m_active m) = map (fun t => calls_size (snd t)) (replace i (loc', (k, os) :: cs) (m_active m))) by congruence.
        apply (f_equal list_sum) in Z. rewrite SP in Z at 1. unfold replace in Z. rewrite !map_app, !list_sum_app in Z. cbn [map snd] in Z. rewrite !sum_cons, !size_cons in Z. cbn [length] in Z. unfold ParModel.task in Z. lia.
    - exists 0%nat. destruct (step_size m 0) as [X|]; auto. exfalso. unfold step in X. rewrite E in X. apply (f_equal m_pending) in X. rewrite E in X. cbn in X.
      apply (f_equal (@length _)) in X. cbn in X. lia.
  Qed.

  (** The number of choices that did something. *)
  Fixpoint useful (m : machine) (schedule : list nat) : nat :=
    match schedule with [] => O | c :: s => ((size m - size (step start m c)) + useful (step start m c) s)%nat end.
  Lemma useful_spec : forall s m, (useful m s + size (run start m s) = size m)%nat.
  Proof.
    induction s as [|c s IH]; intros m; cbn [useful run fold_left]; auto. specialize (IH (step start m c)). unfold run in IH.
    destruct (step_size m c) as [E|E]; [rewrite E in *|]; lia.
  Qed.
  Lemma can_end : forall k m, (size m <= k)%nat -> exists s, complete (run start m s) = true.
  Proof.
    induction k as [|k IH]; intros m H; (destruct (complete m) eqn:E; [exists []; auto|]); destruct (progress m E) as (c & Hc); [lia|].
    destruct (IH (step start m c)) as (s & Hs); [lia|]. exists (c :: s). auto.
  Qed.
  Lemma region_ends : forall (tasks : list (list call)) (st : Z -> V) schedule, exists more, region start tasks st (schedule ++ more) <> None.
  Proof.
    intros tasks st schedule. destruct (can_end _ (run start (mkM tasks [] st) schedule) (le_n _)) as (s & Hs). exists s. unfold region, run.
    rewrite fold_left_app. unfold run in Hs. rewrite Hs. discriminate.
  Qed.
End Proofs.
