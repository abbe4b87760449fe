(** Elimination of the ghosts: the loop stops, and the linear combinations it leaves say the
    same as those it started with (C77). *)
From Coq Require Import QArith.
From Verif Require Import Base IntervalModel LoiModel LcaModel CellArrayModel SubsetModel StencilModel InterfaceModel GeomModel FluxModel FluxProofs NumModel GhostModel ReconModel LinFluxModel AssemblyModel.
Open Scope Z_scope.

Lemma rec_find_In : forall k r c, rec_find k r = Some c -> In (k, c) r.
Proof.
  intros k r c. induction r as [|[k' c'] r IH]; cbn [rec_find]; [discriminate|]. destruct (Z.eqb_spec k k') as [->|D]; [intros H; injection H as ->; left; auto|intros H; right; auto].
Qed.
Lemma rec_find_key : forall k r, rec_find k r <> None <-> In k (map fst r).
Proof.
  intros k r. induction r as [|[k' c'] r IH]; cbn [rec_find map fst In]; [split; [congruence|intros []]|]. destruct (Z.eqb_spec k k') as [->|D].
  - split; [auto|discriminate].
  - rewrite IH. split; [auto|intros [E|H]; [congruence|auto]].
Qed.
Definition rec_sorted (r : recursion) : Prop := StronglySorted Z.lt (map fst r).
Lemma insert_keys : forall k c r k', In k' (map fst (rec_insert k c r)) <-> k' = k \/ In k' (map fst r).
Proof.
  intros k c r k'. induction r as [|[a x] r IH]; cbn [rec_insert map fst In]; [intuition congruence|].
  destruct (k <? a); [cbn [map fst In]; intuition congruence|]. destruct (Z.eqb_spec k a) as [->|D]; cbn [map fst In]; [intuition congruence|]. rewrite IH. intuition congruence.
Qed.
Lemma insert_sorted : forall k c r, rec_sorted r -> rec_sorted (rec_insert k c r).
Proof.
  intros k c r. unfold rec_sorted. induction r as [|[a x] r IH]; intros H; cbn [rec_insert map fst] in *; [constructor; constructor|].
  inversion H as [|? ? Hr Fa]; subst. destruct (Z.ltb_spec k a) as [L|L].
  - cbn [map fst]. constructor; [exact H|]. constructor; [exact L|]. rewrite Forall_forall in *. intros y Hy. specialize (Fa y Hy). lia.
  - destruct (Z.eqb_spec k a) as [->|D]; [exact H|]. cbn [map fst]. constructor; [auto|]. rewrite Forall_forall in *. intros y Hy. apply insert_keys in Hy as [->|Hy]; [lia|auto].
Qed.
Lemma find_insert : forall k c r k', rec_sorted r -> rec_find k' (rec_insert k c r) = match rec_find k' r with Some x => Some x | None => if k' =? k then Some c else None end.
Proof.
  intros k c r k'. unfold rec_sorted. induction r as [|[a x] r IH]; intros H; cbn [rec_insert rec_find map fst] in *; [destruct (k' =? k); reflexivity|].
  inversion H as [|? ? Hr Fa]; subst. destruct (Z.ltb_spec k a) as [L|L].
  - cbn [rec_find]. destruct (Z.eqb_spec k' k) as [Ek|D]; [subst k'|destruct (k' =? a); [reflexivity|destruct (rec_find k' r); reflexivity]].
    destruct (Z.eqb_spec k a); [lia|]. destruct (rec_find k r) as [y|] eqn:E; [|reflexivity]. exfalso. apply rec_find_In in E. apply (in_map fst) in E. rewrite Forall_forall in Fa. specialize (Fa _ E). cbn in Fa. lia.
  - destruct (Z.eqb_spec k a) as [->|D]; cbn [rec_find].
    + destruct (k' =? a); [reflexivity|]. destruct (rec_find k' r); reflexivity.
    + destruct (k' =? a); [reflexivity|]. apply IH; auto.
Qed.
Lemma find_set : forall k c r k', rec_find k' (rec_set k c r) = if k' =? k then match rec_find k r with Some _ => Some c | None => None end else rec_find k' r.
Proof.
  intros k c r k'. induction r as [|[a x] r IH]; cbn [rec_set rec_find]; [destruct (k' =? k); reflexivity|].
  destruct (Z.eqb_spec k a) as [->|D]; cbn [rec_find].
  - destruct (k' =? a); reflexivity.
  - rewrite IH. destruct (Z.eqb_spec k' a) as [E|D']; [|reflexivity]. destruct (Z.eqb_spec k' k); [congruence|reflexivity].
Qed.
Lemma set_keys : forall k c r, map fst (rec_set k c r) = map fst r.
Proof. intros k c r. induction r as [|[a x] r IH]; [reflexivity|]. cbn [rec_set]. destruct (k =? a); cbn [map fst]; congruence. Qed.

(** The value of a linear combination; the equations of a map. *)
Definition comb_value (x : Z -> Q) (lc : comb) : Q := sum_over (fun '(j, q) => q * x j)%Q lc.
Definition satisfies (x : Z -> Q) (r : recursion) : Prop := forall k lc, rec_find k r = Some lc -> (x k == comb_value x lc)%Q.
Definition is_key (r : recursion) (k : Z) : Prop := rec_find k r <> None.

Lemma value_app : forall x a b, (comb_value x (a ++ b) == comb_value x a + comb_value x b)%Q.
Proof. intros. apply sum_app. Qed.
Lemma value_scale : forall x c lc, (comb_value x (map (fun '(j, q) => (j, c * q)%Q) lc) == c * comb_value x lc)%Q.
Proof. intros x c lc. unfold comb_value. rewrite sum_map, <- sum_scale. apply sum_ext. intros [j q] _. ring. Qed.

Lemma expand_value : forall x r lc, (forall j q lc', In (j, q) lc -> rec_find j r = Some lc' -> (x j == comb_value x lc')%Q) ->
  (comb_value x (fst (expand_comb r lc)) == comb_value x lc)%Q.
Proof.
  intros x r. induction lc as [|[j q] lc IH]; intros H; [reflexivity|]. cbn [expand_comb].
  assert (IH' := IH (fun j q lc' Hj => H j q lc' (or_intror Hj))). destruct (expand_comb r lc) as [lc' ch]. cbn [fst] in *. destruct (rec_find j r) as [g|] eqn:E; cbn [fst].
  - rewrite value_app, value_scale, IH'. unfold comb_value at 3. rewrite sum_cons. rewrite (H j q g (or_introl eq_refl) E). reflexivity.
  - unfold comb_value in *. rewrite !sum_cons, IH'. reflexivity.
Qed.
Lemma expand_change : forall r lc, snd (expand_comb r lc) = true <-> exists j q, In (j, q) lc /\ is_key r j.
Proof.
  intros r. induction lc as [|[j q] lc IH]; cbn [expand_comb]; [split; [discriminate|intros (? & ? & [] & _)]|].
  destruct (expand_comb r lc) as [lc' ch]. cbn [snd] in IH. unfold is_key in *. destruct (rec_find j r) as [g|] eqn:E; cbn [snd].
  - split; [intros _; exists j, q; split; [left; auto|congruence]|auto].
  - rewrite IH. split; [intros (a & b & Ha & Hb); exists a, b; split; [right; auto|auto]|].
    intros (a & b & [Ha|Ha] & Hb); [injection Ha as -> ->; congruence|eauto].
Qed.
Lemma expand_In : forall r lc i qi, In (i, qi) (fst (expand_comb r lc)) ->
  (In (i, qi) lc /\ ~ is_key r i) \/ exists j q g qg, In (j, q) lc /\ rec_find j r = Some g /\ In (i, qg) g.
Proof.
  intros r. induction lc as [|[j q] lc IH]; intros i qi; cbn [expand_comb]; [intros []|].
  destruct (expand_comb r lc) as [lc' ch]. cbn [fst] in IH. destruct (rec_find j r) as [g|] eqn:E; cbn [fst]; intros H.
  - apply in_app_or in H as [H|H].
    + apply in_map_iff in H as ([a b] & Hab & H). injection Hab as -> _. right. exists j, q, g, b. split; [left; auto|auto].
    + destruct (IH i qi H) as [[A B]|(j' & q' & g' & qg & A & B & C)]; [left; split; [right; auto|auto]|right; exists j', q', g', qg; split; [right; auto|auto]].
  - destruct H as [H|H].
    + injection H as -> ->. left. split; [left; auto|]. unfold is_key. congruence.
    + destruct (IH i qi H) as [[A B]|(j' & q' & g' & qg & A & B & C)]; [left; split; [right; auto|auto]|right; exists j', q', g', qg; split; [right; auto|auto]].
Qed.
Lemma expand_same : forall r lc, (forall j q, In (j, q) lc -> ~ is_key r j) -> fst (expand_comb r lc) = lc.
Proof.
  intros r. induction lc as [|[j q] lc IH]; intros H; [reflexivity|]. cbn [expand_comb]. assert (IH' := IH (fun j q Hj => H j q (or_intror Hj))).
  destruct (expand_comb r lc) as [lc' ch]. cbn [fst] in *. subst. destruct (rec_find j r) eqn:E; [|reflexivity]. exfalso. apply (H j q (or_introl eq_refl)). unfold is_key. congruence.
Qed.

(** ** Acyclic maps *)
Section Rank.
  Context (rank : Z -> nat).
  (** The combination of [k] uses ghosts whose rank is below that of [k] by [T] at least. *)
  Definition gap (r : recursion) (k : Z) (T : nat) : Prop := forall lc j q, rec_find k r = Some lc -> In (j, q) lc -> is_key r j -> (rank j + T <= rank k)%nat.

  Lemma set_key : forall k c r j, is_key (rec_set k c r) j <-> is_key r j.
  Proof. intros. unfold is_key. rewrite !rec_find_key, set_keys. reflexivity. Qed.

  Lemma step_gap : forall r k lc T, rec_find k r = Some lc -> (forall j, (exists d, (T <= d)%nat /\ gap r j d)) ->
    let r' := rec_set k (fst (expand_comb r lc)) r in gap r' k (2 * T) /\ forall j d, j <> k -> gap r j d -> gap r' j d.
  Proof.
    intros r k lc T E G r'. split.
    - intros lc' i q E' Hi Hk. unfold r' in *. rewrite find_set, Z.eqb_refl, E in E'. injection E' as <-. apply set_key in Hk.
      apply expand_In in Hi as [[_ N]|(j & qj & g & qg & A & B & C)]; [contradiction|].
      destruct (G k) as (d & Hd & Gd). destruct (G j) as (d' & Hd' & Gd'). assert (is_key r j) by (unfold is_key; congruence).
      specialize (Gd _ _ _ E A H). specialize (Gd' _ _ _ B C Hk). lia.
    - intros j d D Gj lc' i q E' Hi Hk. unfold r' in *. rewrite find_set in E'. destruct (Z.eqb_spec j k); [contradiction|]. apply set_key in Hk. apply (Gj _ _ _ E' Hi Hk).
  Qed.

  Lemma gap_less : forall r k T T', (T' <= T)%nat -> gap r k T -> gap r k T'.
  Proof. intros r k T T' H G lc j q A B C. specialize (G _ _ _ A B C). lia. Qed.

  (** One pass: the gap doubles. *)
  Lemma pass_gap : forall T keys r, (forall k, gap r k T) -> 
    let r' := fst (elim_pass keys r) in (forall k, gap r' k T) /\ (forall k, In k keys -> gap r' k (2 * T)) /\ (forall k, gap r k (2 * T) -> gap r' k (2 * T)) /\ map fst r' = map fst r.
  Proof.
    intros T. induction keys as [|k keys IH]; intros r G; cbn [elim_pass].
    { cbn [fst]. repeat split; auto. intros k []. }
    destruct (rec_find k r) as [lc|] eqn:E.
    - destruct (expand_comb r lc) as [lc' ch] eqn:EE. destruct (step_gap r k lc T E) as [S1 S2]; [intros j; exists T; auto|]. rewrite EE in S1, S2. cbn [fst] in S1, S2. set (r1 := rec_set k lc' r) in *.
      assert (G1 : forall j, gap r1 j T). { intros j. destruct (Z.eq_dec j k) as [->|D]; [apply (gap_less _ _ (2 * T)); [lia|exact S1]|auto]. }
      destruct (IH r1 G1) as (A & B & C & D). destruct (elim_pass keys r1) as [r2 ch2] eqn:E2. cbn [fst] in *.
      split; [exact A|]. split; [|split].
      + intros j [<-|Hj]; [apply C; exact S1|auto].
      + intros j Hj. apply C. destruct (Z.eq_dec j k) as [->|Dj]; [exact S1|auto].
      + rewrite D. apply set_keys.
    - destruct (IH r G) as (A & B & C & D). split; [exact A|]. split; [|split]; auto. intros j [<-|Hj]; [|auto]. apply C. intros lc j q E'. congruence.
  Qed.
  Lemma pass_all : forall T r, (forall k, gap r k T) -> let r' := fst (elim_pass (map fst r) r) in (forall k, gap r' k (2 * T)) /\ map fst r' = map fst r.
  Proof.
    intros T r G. destruct (pass_gap T (map fst r) r G) as (A & B & C & D). split; [|exact D]. intros k. destruct (in_dec Z.eq_dec k (map fst r)) as [I|N]; [auto|].
    apply C. intros lc j q E. exfalso. apply N. apply rec_find_key. congruence.
  Qed.

  (** When no combination uses a ghost the pass changes nothing and says so. *)
  Definition closed (r : recursion) : Prop := forall k lc j q, rec_find k r = Some lc -> In (j, q) lc -> ~ is_key r j.
  Lemma set_self : forall k c r, rec_find k r = Some c -> rec_set k c r = r.
  Proof.
    intros k c r. induction r as [|[a x] r IH]; [reflexivity|]. cbn [rec_find rec_set]. destruct (k =? a); [intros H; injection H as ->; reflexivity|intros H; rewrite IH; auto].
  Qed.
  Lemma pass_closed : forall r keys, closed r -> elim_pass keys r = (r, false).
  Proof.
    intros r keys C. induction keys as [|k keys IH]; [reflexivity|]. cbn [elim_pass]. destruct (rec_find k r) as [lc|] eqn:E; [|exact IH].
    pose proof (expand_same r lc (fun j q => C k lc j q E)) as Es. destruct (expand_comb r lc) as [lc' ch] eqn:EE. cbn [fst] in Es. subst lc'.
    rewrite (set_self _ _ _ E), IH. replace ch with false; [reflexivity|]. destruct ch; [|reflexivity]. exfalso.
    assert (X : snd (expand_comb r lc) = true) by (rewrite EE; reflexivity). apply expand_change in X as (j & q & A & B). apply (C k lc j q E A B).
  Qed.
  Lemma gap_closed : forall r T, (forall k, is_key r k -> (rank k < T)%nat) -> (forall k, gap r k T) -> closed r.
  Proof. intros r T H G k lc j q E A B. specialize (G k lc j q E A B). assert (is_key r k) by (unfold is_key; congruence). specialize (H k H0). lia. Qed.
  (** And the loop stops only then. *)
  Lemma pass_flag : forall keys r r', elim_pass keys r = (r', false) -> r' = r /\ forall k lc, In k keys -> rec_find k r = Some lc -> forall j q, In (j, q) lc -> ~ is_key r j.
  Proof.
    induction keys as [|k keys IH]; intros r r'; cbn [elim_pass]; [intros H; injection H as <-; split; [reflexivity|intros ? ? []]|].
    destruct (rec_find k r) as [lc|] eqn:E.
    - destruct (expand_comb r lc) as [lc' ch] eqn:EE. destruct (elim_pass keys (rec_set k lc' r)) as [r2 ch2] eqn:E2. intros H. injection H as <- F. apply orb_false_iff in F as [-> ->].
      assert (N : forall j q, In (j, q) lc -> ~ is_key r j). { intros j q A B. assert (X : snd (expand_comb r lc) = true) by (apply expand_change; eauto). rewrite EE in X. discriminate. }
      assert (Es := expand_same r lc N). rewrite EE in Es. cbn [fst] in Es. subst lc'. rewrite (set_self _ _ _ E) in E2. destruct (IH _ _ E2) as [-> K]. split; [reflexivity|].
      intros k' lc' [<-|Hk] E' j q; [rewrite E in E'; injection E' as <-; apply N|apply (K k' lc'); auto].
    - intros H. destruct (IH _ _ H) as [-> K]. split; [reflexivity|]. intros k' lc' [<-|Hk] E'; [congruence|apply (K k' lc'); auto].
  Qed.
End Rank.

Lemma loop_closed : forall fuel r r', elim_loop fuel r = Some r' -> closed r' /\ forall k, is_key r' k <-> is_key r k.
Proof.
  assert (K : forall keys r r' ch, elim_pass keys r = (r', ch) -> map fst r' = map fst r).
  { induction keys as [|k keys IH]; intros r r' ch; cbn [elim_pass]; [intros H; injection H as <- _; reflexivity|]. destruct (rec_find k r) as [lc|]; [|apply IH].
    destruct (expand_comb r lc) as [lc' c1]. destruct (elim_pass keys (rec_set k lc' r)) as [r2 c2] eqn:E2. intros H. injection H as <- _. rewrite (IH _ _ _ E2). apply set_keys. }
  induction fuel as [|fuel IH]; intros r r'; cbn [elim_loop]; [discriminate|]. destruct (elim_pass (map fst r) r) as [r1 ch] eqn:E. destruct ch.
  - intros H. destruct (IH _ _ H) as [C Kk]. split; [exact C|]. intros k. rewrite Kk. unfold is_key. rewrite !rec_find_key. rewrite (K _ _ _ _ E). reflexivity.
  - intros H. injection H as <-. destruct (pass_flag _ _ _ E) as [-> C]. split; [|reflexivity]. intros k lc j q Ek. apply (C k lc); auto. apply rec_find_key. congruence.
Qed.

(** ** The loop stops: the number of passes is at most two more than the logarithm of the rank. *)
Lemma loop_stops : forall rank N fuel r, (forall k, is_key r k -> (rank k < 2 ^ N)%nat) -> (N < fuel)%nat -> (forall k, gap rank r k 1) -> exists r', elim_loop fuel r = Some r'.
Proof.
  intros rank N.
  assert (G : forall m r T fuel, (forall k, is_key r k -> (rank k < T * 2 ^ m)%nat) -> (m < fuel)%nat -> (forall k, gap rank r k T) -> exists r', elim_loop fuel r = Some r').
  { induction m as [|m IH]; intros r T fuel H F GP; destruct fuel as [|fuel]; try lia; cbn [elim_loop].
    - rewrite pass_closed; [eauto|]. apply (gap_closed rank r T); [|exact GP]. intros k Hk. specialize (H k Hk). cbn in H. lia.
    - destruct (pass_all rank T r GP) as [P1 P2]. destruct (elim_pass (map fst r) r) as [r1 ch] eqn:E. cbn [fst] in *. destruct ch; [|eauto].
      apply (IH r1 (2 * T)%nat fuel); [|lia|exact P1]. intros k Hk. unfold is_key in Hk. rewrite rec_find_key, P2, <- rec_find_key in Hk. specialize (H k Hk). cbn [Nat.pow] in H. lia. }
  intros fuel r H F GP. apply (G N r 1%nat fuel); auto. intros k Hk. specialize (H k Hk). lia.
Qed.

(** ** What the loop leaves says the same as what it started with. *)
Lemma step_satisfies : forall x r k lc, rec_find k r = Some lc -> (forall q, ~ In (k, q) lc) -> (satisfies x (rec_set k (fst (expand_comb r lc)) r) <-> satisfies x r).
Proof.
  intros x r k lc E N. split; intros H.
  - assert (O : forall j lj, j <> k -> rec_find j r = Some lj -> (x j == comb_value x lj)%Q).
    { intros j lj D Ej. apply H. rewrite find_set. destruct (Z.eqb_spec j k); [contradiction|exact Ej]. }
    intros j lj Ej. destruct (Z.eq_dec j k) as [->|D]; [|auto]. rewrite E in Ej. injection Ej as <-.
    rewrite (H k (fst (expand_comb r lc))) by (rewrite find_set, Z.eqb_refl, E; reflexivity). apply expand_value. intros i q li Hi Ei. apply O; auto. intros ->. apply (N q Hi).
  - intros j lj Ej. rewrite find_set in Ej. destruct (Z.eqb_spec j k) as [->|D]; [|apply H; auto]. rewrite E in Ej. injection Ej as <-. rewrite (H k lc E). symmetry. apply expand_value.
    intros i q li _ Ei. apply H; auto.
Qed.
Lemma pass_satisfies : forall rank x T keys r, (0 < T)%nat -> (forall k, gap rank r k T) -> (satisfies x (fst (elim_pass keys r)) <-> satisfies x r).
Proof.
  intros rank x T keys. induction keys as [|k keys IH]; intros r HT G; cbn [elim_pass]; [reflexivity|]. destruct (rec_find k r) as [lc|] eqn:E; [|apply IH; auto].
  destruct (step_gap rank r k lc T E) as [S1 S2]; [intros j; exists T; auto|]. assert (SS := step_satisfies x r k lc E).
  destruct (expand_comb r lc) as [lc' ch]. cbn [fst] in *. set (r1 := rec_set k lc' r) in *.
  assert (G1 : forall j, gap rank r1 j T). { intros j. destruct (Z.eq_dec j k) as [->|D]; [apply (gap_less rank _ _ (2 * T)); [lia|exact S1]|auto]. }
  specialize (IH r1 HT G1). destruct (elim_pass keys r1) as [r2 c2]. cbn [fst] in *. rewrite IH. apply SS.
  intros q Hq. specialize (G k lc k q E Hq). assert (is_key r k) by (unfold is_key; congruence). specialize (G H). lia.
Qed.
Lemma loop_satisfies : forall rank x fuel r r', (forall k, gap rank r k 1) -> elim_loop fuel r = Some r' -> (satisfies x r' <-> satisfies x r).
Proof.
  intros rank x. assert (G : forall fuel T r r', (0 < T)%nat -> (forall k, gap rank r k T) -> elim_loop fuel r = Some r' -> (satisfies x r' <-> satisfies x r)).
  { induction fuel as [|fuel IH]; intros T r r' HT GP; cbn [elim_loop]; [discriminate|].
    assert (P := pass_satisfies rank x T (map fst r) r HT GP). destruct (pass_all rank T r GP) as [P1 _]. destruct (elim_pass (map fst r) r) as [r1 ch]. cbn [fst] in *. destruct ch.
    - intros H. rewrite (IH (2 * T)%nat r1 r'); auto. lia.
    - intros H. injection H as <-. exact P. }
  intros fuel r r'. apply G. lia.
Qed.
