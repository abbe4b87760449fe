(** Executions of the ranks: every schedule ends in the same state. *)
From Verif Require Import Base IntervalModel LoiModel LcaModel CellArrayModel SubsetModel MeshModel MpiModel.
Open Scope Z_scope.

Section Runs.
  Context {St Msg : Type} (size : nat) (buffered : nat -> nat -> bool).
  Notation world := (world St Msg). Notation instr := (instr St Msg).
  Notation step := (@step St Msg size buffered).

  Definition same (w w' : world) : Prop := (forall r, w_proc w r = w_proc w' r) /\ forall s d t, w_chan w s d t = w_chan w' s d t.
  Lemma same_refl : forall w, same w w. Proof. split; auto. Qed.
  Lemma same_sym : forall w w', same w w' -> same w' w. Proof. intros w w' [A B]. split; auto. Qed.
  Lemma same_trans : forall a b c, same a b -> same b c -> same a c. Proof. intros a b c [A B] [C D]. split; intros; [rewrite A|rewrite B]; auto. Qed.

  Lemma free_spec : forall (w : world) r, free size buffered w r = true <-> forall d t, (d < size)%nat -> (t < size)%nat -> buffered r d = true \/ w_chan w r d t = [].
  Proof.
    intros w r. unfold free. rewrite forallb_forall. split.
    - intros H d t Hd Ht. specialize (H d ltac:(apply in_seq; lia)). apply orb_true_iff in H as [H|H]; auto. right. rewrite forallb_forall in H.
      specialize (H t ltac:(apply in_seq; lia)). destruct (w_chan w r d t); auto. discriminate.
    - intros H d Hd. apply in_seq in Hd. destruct (buffered r d) eqn:B; auto. cbn [orb]. apply forallb_forall. intros t Ht. apply in_seq in Ht.
      destruct (H d t) as [X| ->]; auto; try lia; congruence.
  Qed.

  Lemma free_ext : forall (w w' : world) r, (forall d t, w_chan w r d t = w_chan w' r d t) -> free size buffered w r = free size buffered w' r.
  Proof. intros w w' r H. apply eq_true_iff_eq. rewrite !free_spec. split; intros F d t Hd Ht; [rewrite <- H|rewrite H]; auto. Qed.

  Lemma set_proc_ext : forall w w' r p r', same w w' -> set_proc w r p r' = set_proc w' r p r'.
  Proof. intros w w' r p r' [A _]. unfold set_proc. rewrite A. auto. Qed.
  Lemma set_chan_ext : forall w w' s d t ms s' d' t', same w w' -> set_chan w s d t ms s' d' t' = set_chan w' s d t ms s' d' t'.
  Proof. intros w w' s d t ms s' d' t' [_ B]. unfold set_chan. rewrite B. auto. Qed.

  Lemma step_same : forall w w' r w1, same w w' -> step w r = Some w1 -> exists w1', step w' r = Some w1' /\ same w1 w1'.
  Proof.
    intros w w' r w1 Hs H. pose proof Hs as [A B]. unfold MpiModel.step in *. rewrite <- (A r). destruct (p_code (w_proc w r)) as [|[dst tag pk|src tag up|] code]; [discriminate| | |].
    - destruct (pk (p_mem (w_proc w r))) as [m|]; [|discriminate]. injection H as <-. eexists. split; [reflexivity|]. split; cbn [w_proc w_chan]; intros.
      + apply set_proc_ext. auto.
      + rewrite B. apply set_chan_ext. auto.
    - rewrite <- B. destruct (w_chan w src r tag) as [|m ms]; [discriminate|]. destruct (up (p_mem (w_proc w r)) m) as [mem|]; [|discriminate]. injection H as <-.
      eexists. split; [reflexivity|]. split; cbn [w_proc w_chan]; intros; [apply set_proc_ext|apply set_chan_ext]; auto.
    - rewrite <- (free_ext w w' r) by (intros; apply B). destruct (free size buffered w r); [|discriminate]. injection H as <-.
      eexists. split; [reflexivity|]. split; cbn [w_proc w_chan]; intros; auto. apply set_proc_ext. auto.
  Qed.

  (** What a step of another rank leaves. *)
  Lemma step_other : forall w r w1, step w r = Some w1 ->
    (forall r', r' <> r -> w_proc w1 r' = w_proc w r') /\
    (forall s d t, s <> r -> w_chan w1 s d t = w_chan w s d t \/ d = r /\ exists m, w_chan w s d t = m :: w_chan w1 s d t) /\
    (forall s d t, d <> r -> w_chan w1 s d t = w_chan w s d t \/ s = r /\ exists m, w_chan w1 s d t = w_chan w s d t ++ [m]).
  Proof.
    intros w r w1 H. unfold MpiModel.step in H. destruct (p_code (w_proc w r)) as [|[dst tag pk|src tag up|] code]; [discriminate| | |].
    - destruct (pk (p_mem (w_proc w r))) as [m|]; [|discriminate]. injection H as <-. cbn [w_proc w_chan]. split; [|split].
      + intros r' Hr. unfold set_proc. destruct (Nat.eqb_spec r' r); congruence.
      + intros s d t Hs. left. unfold set_chan. destruct (Nat.eqb_spec s r); [congruence|auto].
      + intros s d t Hd. unfold set_chan. destruct (Nat.eqb_spec s r) as [->|]; auto. destruct (Nat.eqb_spec d dst) as [->|]; auto. destruct (Nat.eqb_spec t tag) as [->|]; auto.
        right. split; auto. eexists. try reflexivity. 
    - destruct (w_chan w src r tag) as [|m ms] eqn:E; [discriminate|]. destruct (up (p_mem (w_proc w r)) m) as [mem|]; [|discriminate]. injection H as <-. cbn [w_proc w_chan]. split; [|split].
      + intros r' Hr. unfold set_proc. destruct (Nat.eqb_spec r' r); congruence.
      + intros s d t Hs. unfold set_chan. destruct (Nat.eqb_spec s src) as [->|]; auto. destruct (Nat.eqb_spec d r) as [->|]; auto. destruct (Nat.eqb_spec t tag) as [->|]; auto.
        right. split; auto. eexists. try reflexivity. exact E.
      + intros s d t Hd. left. unfold set_chan. destruct (Nat.eqb_spec d r); [congruence|]. rewrite andb_false_r. auto.
    - destruct (free size buffered w r); [|discriminate]. injection H as <-. cbn [w_proc w_chan]. split; [|split]; auto.
      intros r' Hr. unfold set_proc. destruct (Nat.eqb_spec r' r); congruence.
  Qed.

  Ltac eqb := repeat match goal with |- context [Nat.eqb ?a ?b] => destruct (Nat.eqb_spec a b); subst; cbn [andb] in *; try congruence end.

  (** Two ranks that can move do not hinder each other. *)
  Lemma diamond : forall w a b wa wb, a <> b -> step w a = Some wa -> step w b = Some wb ->
    exists wab wba, step wa b = Some wab /\ step wb a = Some wba /\ same wab wba.
  Proof.
    intros w a b wa wb N Ha Hb. destruct (step_other w a wa Ha) as (PA & _ & CA). destruct (step_other w b wb Hb) as (PB & _ & CB).
    pose proof (PA b ltac:(auto)) as Pb. pose proof (PB a ltac:(auto)) as Pa.
    (* the step of b after a, and of a after b *)
    assert (Sb : forall m ms s t, w_chan w s b t = m :: ms -> exists ms', w_chan wa s b t = m :: ms' /\ (s <> a -> ms' = ms)).
    { intros m ms s t E. destruct (CA s b t ltac:(auto)) as [X|[-> [m' X]]]; rewrite X, E; cbn [app]; eexists; split; eauto. congruence. }
    assert (Sa : forall m ms s t, w_chan w s a t = m :: ms -> exists ms', w_chan wb s a t = m :: ms' /\ (s <> b -> ms' = ms)).
    { intros m ms s t E. destruct (CB s a t ltac:(auto)) as [X|[-> [m' X]]]; rewrite X, E; cbn [app]; eexists; split; eauto. congruence. }
    assert (Fb : free size buffered w b = true -> free size buffered wa b = true).
    { destruct (step_other w a wa Ha) as (_ & C & _). rewrite !free_spec. intros F d t Hd Ht. destruct (F d t Hd Ht) as [X|X]; auto. right.
      destruct (C b d t ltac:(auto)) as [Y|[_ [m Y]]]; congruence. }
    assert (Fa : free size buffered w a = true -> free size buffered wb a = true).
    { destruct (step_other w b wb Hb) as (_ & C & _). rewrite !free_spec. intros F d t Hd Ht. destruct (F d t Hd Ht) as [X|X]; auto. right.
      destruct (C a d t ltac:(auto)) as [Y|[_ [m Y]]]; congruence. }
    clear CA CB. unfold MpiModel.step at 1. rewrite Pb. unfold MpiModel.step at 1. rewrite Pa. unfold MpiModel.step in Ha, Hb.
    destruct (p_code (w_proc w a)) as [|[da ta pka|sa ta upa|] ca]; [discriminate| | |];
    (destruct (p_code (w_proc w b)) as [|[db tb pkb|sb tb upb|] cb]; [discriminate| | |]);
    repeat match goal with
         | H : context [match ?pk (p_mem (w_proc w ?r)) with Some _ => _ | None => _ end] |- _ => let E := fresh "E" in destruct (pk (p_mem (w_proc w r))) eqn:E; [|discriminate]
         | H : context [match w_chan w ?s ?r ?t with [] => _ | _ => _ end] |- _ => let E := fresh "E" in destruct (w_chan w s r t) eqn:E; [discriminate|]
         | H : context [match ?up (p_mem (w_proc w ?r)) ?m with Some _ => _ | None => _ end] |- _ => let E := fresh "E" in destruct (up (p_mem (w_proc w r)) m) eqn:E; [|discriminate]
         | H : context [if free size buffered w ?r then _ else _] |- _ => let E := fresh "E" in destruct (free size buffered w r) eqn:E; [|discriminate]
         end;
    injection Ha as <-; injection Hb as <-;
    try match goal with
         | E : w_chan w ?s b ?t = ?m :: ?ms |- _ => let X := fresh "ms'" in let Y := fresh "Y" in let Z := fresh "Z" in destruct (Sb m ms s t E) as (X & Y & Z); rewrite Y
         end;
    try match goal with
         | E : w_chan w ?s a ?t = ?m :: ?ms |- _ => let X := fresh "ms'" in let Y := fresh "Y" in let Z := fresh "Z" in destruct (Sa m ms s t E) as (X & Y & Z); rewrite Y
         end; clear Sa Sb;
    try rewrite (Fb eq_refl); try rewrite (Fa eq_refl);
    repeat match goal with
         | E : ?x = Some ?m |- context [match ?x with Some _ => _ | None => _ end] => rewrite E
         end;
    (eexists; eexists; split; [reflexivity|]; split; [reflexivity|]; split; cbn [w_proc w_chan];
    [intros r; unfold set_proc; cbn [w_proc]; eqb; reflexivity|]);
    intros src0 dst0 tag0; cbn [w_chan] in *; unfold set_chan in *; cbn [w_chan] in *;
    try reflexivity; eqb; auto;
    try (match goal with E : _ = _ :: _ |- _ => rewrite E in * end; cbn [app] in *; try congruence).
    all: clear Fa Fb PA PB Pa Pb; repeat match goal with H : context [Nat.eqb ?x ?y] |- _ => destruct (Nat.eqb_spec x y); subst; cbn [andb] in *; try congruence end.
    all: match goal with E : w_chan _ _ _ _ = _ :: _, H : _ ++ _ = _ :: _ |- _ => rewrite E in H; cbn [app] in H; congruence | H : _ = _ :: _ |- _ => congruence end.
  Qed.

  (** ** Runs *)
  (** [w] reaches [f] in [k] steps. *)
  Inductive reach : nat -> world -> world -> Prop :=
  | reach_here : forall w f, same w f -> reach 0 w f
  | reach_step : forall k w r w1 f, step w r = Some w1 -> reach k w1 f -> reach (S k) w f.
  Definition finished (w : world) : Prop := forall r, p_code (w_proc w r) = [].

  Lemma reach_same : forall k w w' f, same w w' -> reach k w' f -> reach k w f.
  Proof.
    intros k w w' f Hs H. revert w Hs. induction H as [w' f H|k w' r w1 f H R IH]; intros w Hs.
    - constructor. eapply same_trans; eauto.
    - destruct (step_same w' w r w1 (same_sym _ _ Hs) H) as (w1' & E & S1). econstructor; eauto. apply IH. apply same_sym. auto.
  Qed.
  Lemma reach_trans : forall k a b, reach k a b -> forall j c, reach j b c -> reach (k + j) a c.
  Proof.
    intros k a b H. induction H as [w f H|k w r w1 f H R IH]; intros j c Hc; cbn [Nat.add].
    - eapply reach_same; eauto.
    - econstructor; eauto.
  Qed.
  Lemma reach_one : forall w r w1 f, step w r = Some w1 -> same w1 f -> reach 1 w f.
  Proof. intros. econstructor; eauto. constructor. auto. Qed.

  Lemma finished_stuck : forall w r, finished w -> step w r = None.
  Proof. intros w r H. unfold MpiModel.step. rewrite H. auto. Qed.
  Lemma finished_same : forall w w', same w w' -> finished w -> finished w'.
  Proof. intros w w' [A _] F r. rewrite <- A. apply F. Qed.

  (** From a state that can end in [f], whatever step is made leads to one that can end in [f], one step earlier. *)
  Lemma any_step : forall k w f, finished f -> reach k w f -> forall r w1, step w r = Some w1 -> exists j, k = S j /\ reach j w1 f.
  Proof.
    induction k as [|k IH]; intros w f F R r w1 H; inversion R as [? ? Hs|? ? r' w2 ? H2 R2]; subst.
    - pose proof (finished_same _ _ (same_sym _ _ Hs) F) as Fw. rewrite (finished_stuck w r Fw) in H. discriminate.
    - exists k. split; auto. destruct (Nat.eq_dec r r') as [->|N]; [congruence|].
      destruct (diamond w r r' w1 w2 N H H2) as (w12 & w21 & E12 & E21 & S12).
      destruct (IH w2 f F R2 r w21 E21) as (j & -> & Rj). econstructor; [exact E12|]. eapply reach_same; eauto.
  Qed.
  Lemma any_run : forall schedule k w f, finished f -> reach k w f -> exists j, reach j (run size buffered w schedule) f.
  Proof.
    induction schedule as [|r s IH]; intros k w f F R; [exists k; auto|]. unfold run. cbn [fold_left]. destruct (step w r) as [w1|] eqn:E.
    - destruct (any_step k w f F R r w1 E) as (j & -> & Rj). apply (IH j w1 f F Rj).
    - apply (IH k w f F R).
  Qed.
  Lemma reach_run : forall k w f, reach k w f -> exists s, same (run size buffered w s) f.
  Proof.
    induction 1 as [w f H|k w r w1 f H R [s IH]]; [exists []; auto|]. exists (r :: s). unfold run in *. cbn [fold_left]. rewrite H. auto.
  Qed.

  (** Every schedule: it can be continued to the end; if it is at the end, the state is [f]. *)
  Theorem schedules_agree : forall k w f, finished f -> reach k w f -> forall schedule,
    (exists more, same (run size buffered w (schedule ++ more)) f) /\
    (finished (run size buffered w schedule) -> same (run size buffered w schedule) f).
  Proof.
    intros k w f F R schedule. destruct (any_run schedule k w f F R) as (j & Rj). split.
    - destruct (reach_run _ _ _ Rj) as (s & Hs). exists s. unfold run in *. rewrite fold_left_app. auto.
    - intros Fw. inversion Rj as [|? ? r w1 ? H]; subst; auto. rewrite (finished_stuck _ r Fw) in H. discriminate.
  Qed.

  (** The number of moves is the same for all. *)
  Fixpoint moves (w : world) (schedule : list nat) : nat :=
    match schedule with [] => O | r :: s => match step w r with Some w1 => S (moves w1 s) | None => moves w s end end.
  Lemma moves_bound : forall schedule k w f, finished f -> reach k w f -> (moves w schedule <= k)%nat.
  Proof.
    induction schedule as [|r s IH]; intros k w f F R; cbn [moves]; [lia|]. destruct (step w r) as [w1|] eqn:E; [|eauto].
    destruct (any_step k w f F R r w1 E) as (j & -> & Rj). specialize (IH j w1 f F Rj). lia.
  Qed.

  (** ** One exchange *)
  Definition at_ (code : nat -> list instr) (mem : nat -> St) (chan : nat -> nat -> nat -> list Msg) : world := mkW (fun r => mkP (code r) (mem r)) chan.
  Definition upd {A} (f : nat -> A) (r : nat) (x : A) : nat -> A := fun r' => if (r' =? r)%nat then x else f r'.

  Lemma reach_ext : forall k w w' f f', same w w' -> same f f' -> reach k w' f' -> reach k w f.
  Proof.
    intros k w w' f f' Hs Hf H. eapply reach_same; eauto. clear w Hs. induction H; [constructor; eapply same_trans; eauto; apply same_sym; auto|econstructor; eauto].
  Qed.

  Section Exchange.
    Context {X : Type} (nb : nat -> list (nat * X)) (pk : nat -> nat * X -> St -> option Msg) (up : nat -> nat * X -> St -> Msg -> option St).
    Context (after : nat -> list instr) (mem mem' : nat -> St) (msg : nat -> nat -> Msg).
    Hypothesis nb_nodup : forall r, NoDup (map fst (nb r)).
    Hypothesis nb_sym : forall a b, In b (map fst (nb a)) -> In a (map fst (nb b)).
    Hypothesis nb_size : forall a b, In b (map fst (nb a)) -> (a < size)%nat.
    Hypothesis packed : forall r x, In x (nb r) -> pk r x (mem r) = Some (msg r (fst x)).
    Fixpoint unpack_all (r : nat) (xs : list (nat * X)) (m : St) : option St :=
      match xs with [] => Some m | x :: xs => match up r x m (msg (fst x) r) with Some m => unpack_all r xs m | None => None end end.
    Hypothesis unpacked : forall r, unpack_all r (nb r) (mem r) = Some (mem' r).

    Definition memb (b : nat) (xs : list (nat * X)) : bool := existsb (fun x => (fst x =? b)%nat) xs.
    Lemma memb_iff : forall b xs, memb b xs = true <-> In b (map fst xs).
    Proof.
      intros b xs. unfold memb. rewrite existsb_exists, in_map_iff. split; intros (x & A & B); exists x; [apply Nat.eqb_eq in B|apply Nat.eqb_eq in A]; auto.
    Qed.
    Lemma memb_false : forall b xs, memb b xs = false <-> ~ In b (map fst xs).
    Proof. intros b xs. rewrite <- memb_iff. destruct (memb b xs); split; congruence. Qed.

    (** The sends of one rank. *)
    Lemma sends : forall r xs code chan rest, NoDup (map fst xs) -> (forall x, In x xs -> pk r x (mem r) = Some (msg r (fst x))) ->
      code r = map (fun x => Send (fst x) (fst x) (pk r x)) xs ++ rest ->
      reach (length xs) (at_ code mem chan)
        (at_ (upd code r rest) mem (fun s d t => chan s d t ++ (if (s =? r)%nat && (d =? t)%nat && memb d xs then [msg r d] else []))).
    Proof.
      intros r xs. induction xs as [|x xs IH]; intros code chan rest N P E.
      - constructor. split; intros; unfold at_; cbn [w_proc w_chan memb existsb].
        + unfold upd. destruct (Nat.eqb_spec r0 r) as [->|]; auto. rewrite E. auto.
        + rewrite andb_false_r, app_nil_r. auto.
      - cbn [map app] in E. cbn [map] in N. inversion N as [|? ? N1 N2]; subst. cbn [length]. eapply reach_step.
        + unfold MpiModel.step, at_. cbn [w_proc p_code p_mem]. rewrite E, (P x ltac:(left; auto)). reflexivity.
        + eapply reach_ext; [| |apply (IH (upd code r (map (fun x => Send (fst x) (fst x) (pk r x)) xs ++ rest))
             (fun s d t => chan s d t ++ (if (s =? r)%nat && (d =? t)%nat && (fst x =? d)%nat then [msg r d] else [])) rest)]; auto.
          * split; intros; cbn [w_proc w_chan at_]; unfold set_proc, set_chan, upd; cbn [w_proc w_chan].
            -- destruct (Nat.eqb_spec r0 r) as [->|]; auto.
            -- destruct (Nat.eqb_spec s r) as [->|]; cbn [andb]; [|rewrite app_nil_r; auto].
               destruct (Nat.eqb_spec d (fst x)) as [->|], (Nat.eqb_spec t (fst x)) as [->|]; cbn [andb]; rewrite ?Nat.eqb_refl; cbn [andb]; auto.
               ++ destruct (Nat.eqb_spec (fst x) t); [congruence|]. cbn [andb]. rewrite app_nil_r. auto.
               ++ destruct (Nat.eqb_spec d (fst x)); [congruence|]. cbn [andb]. rewrite app_nil_r. auto.
               ++ destruct (Nat.eqb_spec (fst x) d); [congruence|]. rewrite andb_false_r, app_nil_r. auto.
          * split; intros; cbn [w_proc w_chan at_].
            -- unfold upd. destruct (Nat.eqb_spec r0 r); auto.
            -- rewrite <- app_assoc. f_equal. unfold memb. cbn [existsb]. fold (memb d xs).
               destruct ((s =? r)%nat && (d =? t)%nat) eqn:E1; cbn [andb]; auto.
               destruct (Nat.eqb_spec (fst x) d) as [<-|]; cbn [orb app]; auto. replace (memb (fst x) xs) with false; auto.
               symmetry. apply memb_false. auto.
          * intros y Hy. apply P. right. auto.
          * unfold upd. rewrite Nat.eqb_refl. auto.
    Qed.

    (** The receives of one rank. *)
    Lemma receives : forall r xs code m chan rest m' , NoDup (map fst xs) -> (forall x, In x xs -> chan (fst x) r r = [msg (fst x) r]) ->
      unpack_all r xs (m r) = Some m' -> code r = map (fun x => Recv (fst x) r (up r x)) xs ++ rest ->
      reach (length xs) (at_ code m chan)
        (at_ (upd code r rest) (upd m r m') (fun s d t => if (d =? r)%nat && (t =? r)%nat && memb s xs then [] else chan s d t)).
    Proof.
      intros r xs. induction xs as [|x xs IH]; intros code m chan rest m' N P U E.
      - cbn [unpack_all] in U. injection U as <-. constructor. split; intros; unfold at_; cbn [w_proc w_chan memb existsb].
        + unfold upd. destruct (Nat.eqb_spec r0 r) as [->|]; auto. rewrite E. auto.
        + rewrite andb_false_r. auto.
      - cbn [map app] in E. cbn [map] in N. inversion N as [|? ? N1 N2]; subst. cbn [length]. cbn [unpack_all] in U.
        destruct (up r x (m r) (msg (fst x) r)) as [m1|] eqn:U1; [|discriminate]. eapply reach_step.
        + unfold MpiModel.step, at_. cbn [w_proc p_code p_mem w_chan]. rewrite E, (P x ltac:(left; auto)), U1. reflexivity.
        + eapply reach_ext; [| |apply (IH (upd code r (map (fun x => Recv (fst x) r (up r x)) xs ++ rest)) (upd m r m1)
             (fun s d t => if (s =? fst x)%nat && (d =? r)%nat && (t =? r)%nat then [] else chan s d t) rest m')]; auto.
          * split; intros; cbn [w_proc w_chan at_]; unfold set_proc, set_chan, upd; cbn [w_proc w_chan]; auto.
            destruct (Nat.eqb_spec r0 r) as [->|]; auto.
          * split; intros; cbn [w_proc w_chan at_].
            -- unfold upd. destruct (Nat.eqb_spec r0 r); auto.
            -- unfold memb. cbn [existsb]. fold (memb s xs). destruct (Nat.eqb_spec d r) as [->|]; cbn [andb]; [|rewrite andb_false_r; auto].
               destruct (Nat.eqb_spec t r) as [->|]; cbn [andb]; [|rewrite andb_false_r; auto]. rewrite !andb_true_r. rewrite (Nat.eqb_sym (fst x)).
               destruct (s =? fst x)%nat; cbn [orb]; auto. destruct (memb s xs); auto.
          * intros y Hy. rewrite Nat.eqb_refl, andb_true_r. cbn [andb]. destruct (Nat.eqb_spec (fst y) (fst x)) as [Eq|]; [|apply P; right; auto].
            exfalso. apply N1. rewrite <- Eq. apply in_map. auto.
          * unfold upd. rewrite Nat.eqb_refl. auto.
          * unfold upd. rewrite Nat.eqb_refl. auto.
    Qed.

    Definition code3 (r : nat) : list instr := if (r <? size)%nat then Wait :: after r else after r.
    Definition code2 (r : nat) : list instr := map (fun x => Recv (fst x) r (up r x)) (nb r) ++ code3 r.
    Definition code1 (r : nat) : list instr := map (fun x => Send (fst x) (fst x) (pk r x)) (nb r) ++ code2 r.
    Definition below {A} (i : nat) (f g : nat -> A) : nat -> A := fun r => if (r <? i)%nat then f r else g r.
    Lemma below_S : forall A i (f g : nat -> A) r, upd (below i f g) i (f i) r = below (S i) f g r.
    Proof.
      intros A i f g r. unfold upd, below. destruct (Nat.eqb_spec r i) as [E|]; [rewrite E; destruct (Nat.ltb_spec i (S i)); [auto|lia]|].
      destruct (Nat.ltb_spec r i), (Nat.ltb_spec r (S i)); try lia; auto.
    Qed.
    Lemma below_i : forall A i (f g : nat -> A), below i f g i = g i. Proof. intros. unfold below. rewrite Nat.ltb_irrefl. auto. Qed.

    Definition sent (i : nat) (s d t : nat) : list Msg := if (s <? i)%nat && (d =? t)%nat && memb d (nb s) then [msg s d] else [].
    Definition left (i : nat) (s d t : nat) : list Msg := if (negb (d <? i))%nat && (s <? size)%nat && (d =? t)%nat && memb d (nb s) then [msg s d] else [].

    Lemma phase1 : forall i, (i <= size)%nat -> exists k, reach k (at_ code1 mem (fun _ _ _ => [])) (at_ (below i code2 code1) mem (sent i)).
    Proof.
      induction i as [|i IH]; intros Hi.
      - exists O. constructor. split; intros; unfold at_; cbn [w_proc w_chan]; auto.
      - destruct IH as (k & R); [lia|]. eexists. eapply reach_trans; [exact R|].
        eapply reach_ext; [apply same_refl| |apply (sends i (nb i) (below i code2 code1) (sent i) (code2 i))]; auto.
        + split; intros; cbn [at_ w_proc w_chan]; [rewrite below_S; auto|]. unfold sent.
          destruct (Nat.eqb_spec s i) as [->|]; cbn [andb].
          * rewrite Nat.ltb_irrefl. destruct (Nat.ltb_spec i (S i)); [|lia]. cbn [andb app]. auto.
          * rewrite app_nil_r. destruct (Nat.ltb_spec s i), (Nat.ltb_spec s (S i)); try lia; auto.
        + rewrite below_i. reflexivity.
    Qed.
    Lemma phase2 : forall i, (i <= size)%nat -> exists k, reach k (at_ code2 mem (sent size)) (at_ (below i code3 code2) (below i mem' mem) (left i)).
    Proof.
      induction i as [|i IH]; intros Hi.
      - exists O. constructor. split; intros; unfold at_; cbn [w_proc w_chan]; auto.
      - destruct IH as (k & R); [lia|]. eexists. eapply reach_trans; [exact R|].
        eapply reach_ext; [apply same_refl| |apply (receives i (nb i) (below i code3 code2) (below i mem' mem) (left i) (code3 i) (mem' i))]; auto.
        + split; intros; cbn [at_ w_proc w_chan]; [rewrite !below_S; auto|]. unfold left.
          destruct (Nat.eqb_spec d i) as [->|]; cbn [andb].
          * destruct (Nat.ltb_spec i (S i)); [|lia]. cbn [negb andb]. destruct (Nat.eqb_spec t i) as [->|]; cbn [andb].
            -- destruct (memb s (nb i)) eqn:M; auto. rewrite Nat.ltb_irrefl, Nat.eqb_refl. cbn [negb andb]. rewrite andb_true_r.
               replace (memb i (nb s)) with false; [rewrite andb_false_r; auto|]. symmetry. apply memb_false. intros Hin. apply nb_sym in Hin. apply memb_false in M. auto.
            -- destruct (Nat.eqb_spec i t); [congruence|]. rewrite andb_false_r. auto.
          * destruct (Nat.ltb_spec d i), (Nat.ltb_spec d (S i)); try lia; auto.
        + intros x Hx. unfold left. assert (Hs : In (fst x) (map fst (nb i))) by (apply in_map; auto).
          rewrite Nat.ltb_irrefl, Nat.eqb_refl. pose proof (nb_size _ _ (nb_sym _ _ Hs)) as L. apply Nat.ltb_lt in L. rewrite L. cbn [negb andb].
          pose proof (nb_sym _ _ Hs) as M. apply memb_iff in M. rewrite M. auto.
        + rewrite below_i. auto.
        + rewrite below_i. reflexivity.
    Qed.
    Lemma phase3 : forall i, (i <= size)%nat -> exists k, reach k (at_ code3 mem' (fun _ _ _ => [])) (at_ (below i after code3) mem' (fun _ _ _ => [])).
    Proof.
      induction i as [|i IH]; intros Hi.
      - exists O. constructor. split; intros; unfold at_; cbn [w_proc w_chan]; auto.
      - destruct IH as (k & R); [lia|]. eexists. eapply reach_trans; [exact R|]. eapply reach_one with (r := i).
        + unfold MpiModel.step, at_. cbn [w_proc p_code p_mem]. rewrite below_i. unfold code3 at 1. replace (i <? size)%nat with true by (symmetry; apply Nat.ltb_lt; lia).
          replace (free size buffered _ i) with true; [reflexivity|]. symmetry. apply free_spec. intros. right. auto.
        + split; [intros r'|intros; auto]. cbn [at_ w_proc w_chan]. unfold set_proc. cbn [w_proc]. rewrite <- below_S. unfold upd.
          destruct (Nat.eqb_spec r' i) as [->|]; auto.
    Qed.

    (** The ranks exchange, then go on with [after]; ranks from [size] on do not exist. *)
    Theorem exchange_reach : forall code, (forall r, (r < size)%nat -> code r = exchange r (nb r) (pk r) (up r) ++ after r) -> (forall r, (size <= r)%nat -> code r = after r) ->
      exists k, reach k (launch code mem) (launch after mem').
    Proof.
      intros code C0 C1. destruct (phase1 size (le_n _)) as (k1 & R1). destruct (phase2 size (le_n _)) as (k2 & R2). destruct (phase3 size (le_n _)) as (k3 & R3).
      exists (k1 + (k2 + k3))%nat.
      assert (NB : forall r, (size <= r)%nat -> nb r = []).
      { intros r Hr. destruct (nb r) as [|x xs] eqn:E; auto. exfalso. assert (r < size)%nat; [|lia]. apply (nb_size r (fst x)). rewrite E. left. auto. }
      assert (SN : forall s d t, sent size s d t = left 0 s d t) by (intros; unfold sent, left; destruct (s <? size)%nat; auto).
      assert (LE : forall s d t, left size s d t = []).
      { intros s d t. unfold left. destruct (Nat.ltb_spec d size); cbn [negb andb]; auto. destruct (s <? size)%nat, (d =? t)%nat; cbn [andb]; auto.
        replace (memb d (nb s)) with false; auto. symmetry. apply memb_false. intros Hin. apply nb_sym in Hin. rewrite (NB d) in Hin by auto. destruct Hin. }
      assert (BE : forall A (f g : nat -> A), (forall r, (size <= r)%nat -> f r = g r) -> forall r, below size f g r = f r).
      { intros A f g H r. unfold below. destruct (Nat.ltb_spec r size); auto. symmetry. auto. }
      assert (L3 : forall r, (size <= r)%nat -> after r = code3 r) by (intros r Hr; unfold code3; destruct (Nat.ltb_spec r size); [lia|auto]).
      assert (L2 : forall r, (size <= r)%nat -> code3 r = code2 r) by (intros r Hr; unfold code2; rewrite (NB r Hr); auto).
      assert (L1 : forall r, (size <= r)%nat -> code2 r = code1 r) by (intros r Hr; unfold code1; rewrite (NB r Hr); auto).
      assert (LM : forall r, (size <= r)%nat -> mem' r = mem r) by (intros r Hr; pose proof (unpacked r) as U; rewrite (NB r Hr) in U; cbn in U; congruence).
      assert (Sm : forall c c' m m' q q', (forall r, c r = c' r) -> (forall r, m r = m' r) -> (forall s d t, q s d t = q' s d t) -> same (at_ c m q) (at_ c' m' q')).
      { intros c c' m m' q q' A B C. split; cbn [at_ w_proc w_chan]; intros; [rewrite A, B|rewrite C]; auto. }
      eapply reach_ext; [| |eapply reach_trans; [exact R1|eapply reach_trans; [eapply reach_ext; [| |exact R2]|exact R3]]].
      - apply Sm; auto. intros r. unfold code1, code2, code3. destruct (Nat.ltb_spec r size) as [Hr|Hr].
        + rewrite C0 by auto. unfold exchange. rewrite <- !app_assoc. reflexivity.
        + rewrite (NB r Hr). cbn [map app]. auto.
      - apply Sm; auto. intros r. symmetry. apply BE. auto.
      - apply Sm; auto. 
      - apply Sm; auto. + intros r. symmetry. apply BE. auto. + intros r. symmetry. apply BE. auto.
    Qed.
  End Exchange.
End Runs.
