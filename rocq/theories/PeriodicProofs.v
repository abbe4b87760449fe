(** Proofs about the periodic directions: the slabs, the copies and the joined tags. *)
From Coq Require Import QArith.
From Verif Require Import Base IntervalModel Spec IntervalProofs LoiModel LcaModel LcaSpec InitProofs LcaProofs LcaProofs2 LcaProofs3 RowsProofs CellArrayModel CellArrayProofs PropsLca PropsCellArray
  SubsetModel TreeProofs SubsetSpec SubsetProofs2 PropsSubset StencilModel NumberingProofs StencilProofs PropsStencil MeshModel MeshProofs
  NumModel NumProofs NumSpec PropsNum AdaptModel AdaptProofs TagProofs PropsAdapt TransferProofs PropsTransfer GradModel GradProofs PropsGrad InterfaceModel PropsInterface MrModel MrProofs PropsMr
  GhostModel GhostProofs PropsGhost BcProofs HartenModel HartenProofs HartenProofs2 PeriodicModel.
Open Scope Z_scope.

(** ** Values of one level *)
Section Values.
  Context {V : Type}.
  Implicit Types u : Z -> list Z -> V.

  Lemma get_put : forall u p q p', p <> [] -> p' <> [] -> (p' = p /\ get (put u p q) p' = q) \/ (p' <> p /\ get (put u p q) p' = get u p').
  Proof.
    intros u [|x yz] q [|x' yz'] Hp Hp'; try congruence. unfold get, put. cbn [hd tl].
    destruct (Z.eqb_spec x' x) as [->|Hx]; cbn [andb]; [|right; split; [congruence|auto]].
    destruct (zlist_eqb yz' yz) eqn:E.
    - left. apply zlist_eqb_eq in E. subst. auto.
    - right. split; auto. intros X. injection X as ->. rewrite (proj2 (zlist_eqb_eq yz yz) eq_refl) in E. discriminate.
  Qed.

  Lemma get_assign : forall n f cells u p, (forall q, In q cells -> length q = S n) -> length p = S n ->
    (In p cells /\ get (assign_row f cells u) p = f p) \/ (~ In p cells /\ get (assign_row f cells u) p = get u p).
  Proof.
    intros n f cells. unfold assign_row. induction cells as [|c cells IH]; intros u p HL Lp; [right; auto|]. cbn [fold_left].
    destruct (IH (put u c (f c)) p ltac:(intros; apply HL; right; auto) Lp) as [[A B]|[A B]].
    - left. split; [right; auto|auto].
    - pose proof (HL c (or_introl eq_refl)) as Lc. assert (Nc : c <> []) by (intros ->; discriminate). assert (Np : p <> []) by (intros ->; discriminate).
      rewrite B. destruct (get_put u c (f c) p Nc Np) as [[-> G]|[X G]].
      + left. split; [left; auto|auto].
      + right. split; auto. intros [->|Y]; auto.
  Qed.

  (** Two maps with the same values in the cells of dimension [S n]. *)
  Lemma get_cons : forall u x yz, get u (x :: yz) = u x yz.
  Proof. reflexivity. Qed.
End Values.

Lemma row_cells_In : forall i yz p, istep i = 1 -> (In p (row_cells i yz) <-> exists x, in_i i x /\ p = x :: yz).
Proof.
  intros i yz p Hs. unfold row_cells. rewrite in_map_iff. split; intros (x & A & B); exists x; [|split; [auto|]]; rewrite ?strided_In in * by auto; auto.
Qed.

Definition opt_bind_some {A B} (x : option A) (f : A -> option B) (a : A) (H : x = Some a) : (let* y := x in f y) = f a :=
  match H in _ = r return (let* y := x in f y) = match r with Some y => f y | None => None end with eq_refl => eq_refl end.

Section Copies.
  Variables (n l : nat) (reference : ca) (t : list Z).
  Hypothesis Lt : length t = S n.
  Hypothesis W : wf n (c_at reference l).
  Notation stored_at p := (lca_mem n (c_at reference l) p).

  Lemma checked_rows : forall i yz, length yz = n -> istep i = 1 ->
    (forall p, In p (row_cells i yz) -> stored_at p /\ stored_at (add_vec p t)) ->
    forallb (stored n reference l) (row_cells i yz) && forallb (stored n reference l) (moved_cells t i yz) = true.
  Proof.
    intros i yz Ly Hs H. apply andb_true_iff. split; apply forallb_forall; intros p Hp.
    - apply stored_mem; auto; apply (H p Hp).
    - unfold moved_cells in Hp. apply in_map_iff in Hp as (q & <- & Hq). apply stored_mem; auto; apply (H q Hq).
  Qed.

  Lemma moved_In : forall i yz p, In p (moved_cells t i yz) <-> exists q, In q (row_cells i yz) /\ p = add_vec q t.
  Proof. intros. unfold moved_cells. rewrite in_map_iff. split; intros (q & A & B); exists q; auto. Qed.

  Lemma call_cells : forall i yz calls p, istep i = 1 -> (In p (cells_of_calls ((i, yz) :: calls)) <-> In p (row_cells i yz) \/ In p (cells_of_calls calls)).
  Proof.
    intros i yz calls p Hs. rewrite !visited_In, row_cells_In by auto. split.
    - intros (i' & yz' & x & [E|H] & Hx & ->); [injection E as <- <-; left; eauto|right; eauto 6].
    - intros [(x & Hx & ->)|(i' & yz' & x & H & Hx & ->)]; [exists i, yz, x|exists i', yz', x]; cbn; auto.
  Qed.

  Lemma row_length : forall i yz p, istep i = 1 -> length yz = n -> In p (row_cells i yz) -> length p = S n.
  Proof. intros i yz p Hs Ly Hp. apply row_cells_In in Hp as (x & _ & ->); auto. cbn. lia. Qed.

  (** Copies: each visited cell gets the value the cell at the offset [t] had. *)
  Lemma copies : forall calls u, (forall i yz, In (i, yz) calls -> length yz = n /\ istep i = 1) ->
    (forall p, In p (cells_of_calls calls) -> stored_at p /\ stored_at (add_vec p t) /\ ~ In (add_vec p t) (cells_of_calls calls)) ->
    exists u', fold_calls (copy_op n reference l t) calls u = Some u' /\
      forall p, length p = S n -> (In p (cells_of_calls calls) /\ get u' p = get u (add_vec p t)) \/ (~ In p (cells_of_calls calls) /\ get u' p = get u p).
  Proof.
    intros calls. assert (G : forall K u0 u, (forall i yz, In (i, yz) calls -> length yz = n /\ istep i = 1) ->
      (forall p, In p (cells_of_calls calls) -> stored_at p /\ stored_at (add_vec p t) /\ ~ In (add_vec p t) K) ->
      (forall p, In p (cells_of_calls calls) -> In p K) ->
      (forall p, length p = S n -> ~ In p K -> get u p = get u0 p) ->
      exists u', fold_calls (copy_op n reference l t) calls u = Some u' /\
        forall p, length p = S n -> (In p (cells_of_calls calls) /\ get u' p = get u0 (add_vec p t)) \/ (~ In p (cells_of_calls calls) /\ get u' p = get u p)).
    { induction calls as [|[i yz] calls IH]; intros K u0 u HV HC HK HU; cbn [fold_calls].
      - exists u. split; auto.
      - destruct (HV i yz (or_introl eq_refl)) as [Ly Hs].
        assert (HR : forall p, In p (row_cells i yz) -> stored_at p /\ stored_at (add_vec p t) /\ ~ In (add_vec p t) K) by (intros p Hp; apply HC, call_cells; auto).
        unfold copy_op at 1. rewrite checked_rows by (auto; intros p Hp; split; apply HR; auto). cbn [checked].
        set (u1 := assign_row _ _ _).
        assert (A : forall p, length p = S n -> (In p (row_cells i yz) /\ get u1 p = get u0 (add_vec p t)) \/ (~ In p (row_cells i yz) /\ get u1 p = get u p)).
        { intros p Lp. destruct (get_assign n (fun p => get u (add_vec p t)) (row_cells i yz) u p) as [[X Y]|X]; auto.
          - intros q Hq. eapply row_length; eauto.
          - left. split; auto. unfold u1. rewrite Y. apply HU; [apply moved_length; auto|apply HR; auto]. }
        destruct (IH K u0 u1) as (u' & E & P).
        + intros; apply HV; right; auto.
        + intros p Hp. apply HC, call_cells; auto.
        + intros p Hp. apply HK, call_cells; auto.
        + intros p Lp Hp. destruct (A p Lp) as [[X _]|[_ X]]; [|rewrite X; auto]. exfalso. apply Hp, HK, call_cells; auto.
        + exists u'. split; [exact E|]. intros p Lp. rewrite call_cells by auto. destruct (P p Lp) as [[X Y]|[X Y]]; [left; auto|].
          destruct (A p Lp) as [[Z T]|[Z T]]; [left|right]; (split; [tauto|congruence]). }
    intros u HV HC. apply (G (cells_of_calls calls) u u); auto.
  Qed.

  (** Joined tags. *)
  Lemma joins : forall calls g, (forall i yz, In (i, yz) calls -> length yz = n /\ istep i = 1) -> NoDup (cells_of_calls calls) ->
    (forall p, In p (cells_of_calls calls) -> stored_at p /\ stored_at (add_vec p t) /\ ~ In (add_vec p t) (cells_of_calls calls)) ->
    exists g', fold_calls (join_op n reference l t) calls g = Some g' /\
      forall p, length p = S n ->
        (In p (cells_of_calls calls) -> get g' p = Z.lor (get g p) (get g (add_vec p t))) /\
        (In (add_vec p (opposite t)) (cells_of_calls calls) -> get g' p = Z.lor (get g p) (get g (add_vec p (opposite t)))) /\
        (~ In p (cells_of_calls calls) -> ~ In (add_vec p (opposite t)) (cells_of_calls calls) -> get g' p = get g p).
  Proof.
    intros calls. assert (Lo : length (opposite t) = S n) by (rewrite opposite_length; auto).
    assert (G : forall K g, (forall i yz, In (i, yz) calls -> length yz = n /\ istep i = 1) -> NoDup (cells_of_calls calls) ->
      (forall p, In p (cells_of_calls calls) -> stored_at p /\ stored_at (add_vec p t)) ->
      (forall p, In p (cells_of_calls calls) -> In p K) -> (forall p, In p K -> length p = S n /\ ~ In (add_vec p t) K) ->
      exists g', fold_calls (join_op n reference l t) calls g = Some g' /\
      forall p, length p = S n ->
        (In p (cells_of_calls calls) -> get g' p = Z.lor (get g p) (get g (add_vec p t))) /\
        (In (add_vec p (opposite t)) (cells_of_calls calls) -> get g' p = Z.lor (get g p) (get g (add_vec p (opposite t)))) /\
        (~ In p (cells_of_calls calls) -> ~ In (add_vec p (opposite t)) (cells_of_calls calls) -> get g' p = get g p)).
    { induction calls as [|[i yz] calls IH]; intros K g HV ND HC HK HD; cbn [fold_calls].
      - exists g. split; auto. intros p Lp. cbn. tauto.
      - destruct (HV i yz (or_introl eq_refl)) as [Ly Hs].
        assert (HR : forall p, In p (row_cells i yz) -> stored_at p /\ stored_at (add_vec p t)) by (intros p Hp; apply HC, call_cells; auto).
        assert (RK : forall p, In p (row_cells i yz) -> In p K) by (intros p Hp; apply HK, call_cells; auto).
        unfold join_op at 1. rewrite checked_rows by auto. cbn [checked]. set (g1 := assign_row _ (row_cells i yz) _). set (g2 := assign_row _ (moved_cells t i yz) _).
        assert (RL : forall q, In q (row_cells i yz) -> length q = S n) by (intros q Hq; eapply row_length; eauto).
        assert (ML : forall q, In q (moved_cells t i yz) -> length q = S n) by (intros q Hq; apply moved_In in Hq as (q' & Hq' & ->); apply moved_length; auto).
        assert (A1 : forall p, length p = S n -> (In p (row_cells i yz) /\ get g1 p = Z.lor (get g p) (get g (add_vec p t))) \/ (~ In p (row_cells i yz) /\ get g1 p = get g p)).
        { intros p Lp. apply (get_assign n (fun p => Z.lor (get g p) (get g (add_vec p t)))); auto. }
        assert (A2 : forall p, length p = S n -> (In p (moved_cells t i yz) /\ get g2 p = Z.lor (get g1 p) (get g1 (add_vec p (opposite t)))) \/ (~ In p (moved_cells t i yz) /\ get g2 p = get g1 p)).
        { intros p Lp. apply (get_assign n (fun q => Z.lor (get g1 q) (get g1 (add_vec q (opposite t))))); auto. }
        assert (DJ : forall p, In p (row_cells i yz) -> ~ In p (moved_cells t i yz)).
        { intros p Hp Hm. apply moved_In in Hm as (q & Hq & ->). apply (proj2 (HD q (RK q Hq))). apply RK. auto. }
        assert (MI : forall p, length p = S n -> (In p (moved_cells t i yz) <-> In (add_vec p (opposite t)) (row_cells i yz))).
        { intros p Lp. rewrite moved_In. split; [intros (q & Hq & ->); rewrite (add_opposite n) by auto; auto|]. intros Hq. exists (add_vec p (opposite t)). split; auto. rewrite (opposite_add n); auto. }
        assert (B : forall p, length p = S n ->
          (In p (row_cells i yz) -> get g2 p = Z.lor (get g p) (get g (add_vec p t))) /\
          (In (add_vec p (opposite t)) (row_cells i yz) -> get g2 p = Z.lor (get g p) (get g (add_vec p (opposite t)))) /\
          (~ In p (row_cells i yz) -> ~ In (add_vec p (opposite t)) (row_cells i yz) -> get g2 p = get g p)).
        { intros p Lp. split; [|split].
          - intros Hp. destruct (A2 p Lp) as [[X _]|[_ X]]; [destruct (DJ p Hp X)|]. rewrite X. destruct (A1 p Lp) as [[_ Y]|[Y _]]; [auto|contradiction].
          - intros Hp. destruct (A2 p Lp) as [[_ X]|[X _]]; [|destruct X; apply MI; auto]. rewrite X.
            destruct (A1 p Lp) as [[Y _]|[_ Y]]; [destruct (DJ p Y); apply MI; auto|]. rewrite Y.
            destruct (A1 (add_vec p (opposite t)) ltac:(apply moved_length; auto)) as [[_ Z]|[Z _]]; [|contradiction]. rewrite Z, (opposite_add n) by auto.
            rewrite (Z.lor_comm (get g (add_vec p (opposite t)))), Z.lor_assoc, Z.lor_diag. reflexivity.
          - intros H1 H2. destruct (A2 p Lp) as [[X _]|[_ X]]; [apply MI in X; auto; contradiction|]. rewrite X. destruct (A1 p Lp) as [[Y _]|[_ Y]]; [contradiction|auto]. }
        assert (ND' : NoDup (cells_of_calls calls) /\ forall p, In p (row_cells i yz) -> ~ In p (cells_of_calls calls)).
        { assert (EQ : cells_of_calls ((i, yz) :: calls) = cells_of_calls [(i, yz)] ++ cells_of_calls calls) by (unfold cells_of_calls; cbn [flat_map]; rewrite app_nil_r; reflexivity).
          rewrite EQ in ND. clear - ND Hs. assert (X : forall p, In p (row_cells i yz) -> In p (cells_of_calls [(i, yz)])) by (intros p Hp; apply call_cells; auto).
          set (a := cells_of_calls [(i, yz)]) in *. set (b := cells_of_calls calls) in *. clearbody a b. split.
          - clear X. induction a as [|x a IHa]; auto. inversion ND; auto.
          - intros p Hp. apply X in Hp. clear X. induction a as [|x a IHa]; [destruct Hp|]. inversion ND as [|? ? N1 N2]; subst.
            destruct Hp as [->|Hp]; auto. intros Hb. apply N1. apply in_app_iff. auto. }
        destruct ND' as [ND1 ND2].
        destruct (IH K g2) as (g' & E & P); auto.
        + intros; apply HV; right; auto.
        + intros p Hp. apply HC, call_cells; auto.
        + intros p Hp. apply HK, call_cells; auto.
        + exists g'. split; [exact E|].
          assert (CK : forall p, In p (cells_of_calls calls) -> In p K) by (intros p Hp; apply HK, call_cells; auto).
          assert (KT : forall p, In p K -> ~ In (add_vec p t) K) by (intros p Hp; apply HD; auto).
          assert (KL : forall p, In p K -> length p = S n) by (intros p Hp; apply HD; auto).
          (* a cell of the slab is not touched by the other calls *)
          assert (UN : forall p, In p K -> In (add_vec p (opposite t)) K -> False).
          { intros p H1 H2. apply (KT _ H2). rewrite (opposite_add n); auto. }
          intros p Lp. destruct (P p Lp) as (P1 & P2 & P3). destruct (B p Lp) as (B1 & B2 & B3). rewrite !call_cells by auto. split; [|split].
          * intros [Hp|Hp].
            -- rewrite P3; auto. intros Hq. apply (UN p); auto.
            -- rewrite P1 by auto. assert (Lm : length (add_vec p t) = S n) by (apply moved_length; auto).
               destruct (B (add_vec p t) Lm) as (_ & _ & Q3). rewrite (add_opposite n) in Q3 by auto.
               assert (N1 : ~ In p (row_cells i yz)) by (intros Hq; apply (ND2 p Hq); auto).
               assert (N2 : ~ In (add_vec p (opposite t)) (row_cells i yz)) by (intros Hq; apply (UN p); auto).
               assert (N3 : ~ In (add_vec p t) (row_cells i yz)) by (intros Hq; apply (KT p); auto).
               rewrite (B3 N1 N2), (Q3 N3 N1). reflexivity.
          * intros [Hp|Hp].
            -- assert (N1 : ~ In p (cells_of_calls calls)) by (intros Hq; apply (UN p); auto).
               assert (N2 : ~ In (add_vec p (opposite t)) (cells_of_calls calls)) by (intros Hq; apply (ND2 _ Hp Hq)).
               rewrite (P3 N1 N2). auto.
            -- rewrite P2 by auto. assert (Lm : length (add_vec p (opposite t)) = S n) by (apply moved_length; auto).
               destruct (B (add_vec p (opposite t)) Lm) as (_ & _ & Q3).
               assert (N1 : ~ In p (row_cells i yz)) by (intros Hq; apply (UN p); auto).
               assert (N2 : ~ In (add_vec p (opposite t)) (row_cells i yz)) by (intros Hq; apply (ND2 _ Hq); auto).
               assert (N3 : ~ In (add_vec (add_vec p (opposite t)) (opposite t)) (row_cells i yz)) by (intros Hq; apply (UN (add_vec p (opposite t))); auto).
               rewrite (B3 N1 N2), (Q3 N2 N3). reflexivity.
          * intros H1 H2. rewrite P3 by tauto. apply B3; tauto. }
    intros g HV ND HC. apply (G (cells_of_calls calls) g); auto.
    - intros p Hp. destruct (HC p Hp) as (A & B & _). auto.
    - intros p Hp. destruct (HC p Hp) as (A & _ & B). split; auto. apply A.
  Qed.
End Copies.

(** ** One level of a mesh *)

(** A cell of the domain widened by the ghosts. *)
Definition fat (n : nat) (low high : list Z) (gw : Z) (p : list Z) : Prop :=
  length p = S n /\ forall k, (k <= n)%nat -> nth k low 0 - gw <= nth k p 0 < nth k high 0 + gw.
(** The cell moved into the domain by whole periods, in the directions [P]. *)
Definition wrap (n : nat) (P : nat -> bool) (low high p : list Z) : list Z :=
  map (fun k => if P k then nth k low 0 + (nth k p 0 - nth k low 0) mod (nth k high 0 - nth k low 0) else nth k p 0) (seq 0 (S n)).
(** Two cells a whole number of periods apart. *)
Definition same_image (n : nat) (P : nat -> bool) (low high p q : list Z) : Prop :=
  length p = S n /\ length q = S n /\ forall k, (k <= n)%nat -> exists z, nth k q 0 = nth k p 0 + z * (nth k high 0 - nth k low 0) /\ (P k = false -> z = 0).

Lemma nth_wrap : forall n P low high p k, (k <= n)%nat ->
  nth k (wrap n P low high p) 0 = if P k then nth k low 0 + (nth k p 0 - nth k low 0) mod (nth k high 0 - nth k low 0) else nth k p 0.
Proof. intros. unfold wrap. apply (nth_map_seq (S n)). lia. Qed.
Lemma wrap_length : forall n P low high p, length (wrap n P low high p) = S n.
Proof. intros. unfold wrap. rewrite map_length, seq_length. auto. Qed.

Lemma same_refl : forall n P low high p, length p = S n -> same_image n P low high p p.
Proof. intros n P low high p Lp. split; auto. split; auto. intros k Hk. exists 0. split; [lia|auto]. Qed.
Lemma same_trans : forall n P low high p q r, same_image n P low high p q -> same_image n P low high q r -> same_image n P low high p r.
Proof.
  intros n P low high p q r (L1 & L2 & A) (_ & L3 & B). split; auto. split; auto. intros k Hk.
  destruct (A k Hk) as (z & E & Hz). destruct (B k Hk) as (y & E' & Hy). exists (z + y). split; [rewrite E', E; ring|]. intros X. rewrite Hz, Hy; auto.
Qed.

Lemma shift_mod : forall x N, 0 < N -> - N <= x < 2 * N -> x mod N = if x <? 0 then x + N else if N <=? x then x - N else x.
Proof.
  intros x N HN Hx. destruct (Z.ltb_spec x 0); [|destruct (Z.leb_spec N x)].
  - rewrite <- (Z.mod_small (x + N) N) by lia. rewrite <- (Z_mod_plus_full x 1 N). f_equal; lia.
  - rewrite <- (Z.mod_small (x - N) N) by lia. rewrite <- (Z_mod_plus_full x (-1) N). f_equal; lia.
  - apply Z.mod_small. lia.
Qed.

Section Level.
  Variables (n l : nat) (reference : ca) (periodic : list bool) (e : extent) (gw : Z).
  Notation low := (e_low e).
  Notation high := (e_high e).
  Notation len k := (nth k (e_high e) 0 - nth k (e_low e) 0).
  Notation per k := (nth k periodic false).
  Notation ref := (c_at reference l).
  Hypothesis HE : forall k, (k <= n)%nat -> nth k low 0 < nth k high 0 /\ nth k (e_period e) 0 = len k.
  Hypothesis HG : 1 <= gw.
  Hypothesis HN : forall k, (k <= n)%nat -> per k = true -> gw <= len k.
  Hypothesis HB : forall k, (k <= n)%nat -> nth k high 0 + gw + 3 < 2 ^ 31 - 1.
  Hypothesis W : wf n ref.
  Hypothesis EL : a_level ref = l.
  Hypothesis BM : below_max n ref.
  Hypothesis IM : forall d p, (d <= n)%nat -> per d = true -> lca_mem n ref p -> fat n low high gw p ->
    (nth d p 0 < nth d low 0 -> lca_mem n ref (add_vec p (period_vector n e d))) /\
    (nth d high 0 <= nth d p 0 -> lca_mem n ref (add_vec p (opposite (period_vector n e d)))).

  Lemma period_length : forall d, length (period_vector n e d) = S n.
  Proof. intros. apply unit_length. Qed.
  Lemma nth_period : forall d k, (d <= n)%nat -> (k <= n)%nat -> nth k (period_vector n e d) 0 = if Nat.eqb k d then len d else 0.
  Proof. intros d k Hd Hk. unfold period_vector. rewrite nth_unit, (proj2 (HE d Hd)); auto. Qed.
  Lemma nth_plus : forall d p k, (d <= n)%nat -> (k <= n)%nat -> length p = S n ->
    nth k (add_vec p (period_vector n e d)) 0 = nth k p 0 + (if Nat.eqb k d then len d else 0).
  Proof. intros d p k Hd Hk Lp. rewrite nth_add_vec by (rewrite period_length; auto). rewrite nth_period; auto. Qed.
  Lemma nth_minus : forall d p k, (d <= n)%nat -> (k <= n)%nat -> length p = S n ->
    nth k (add_vec p (opposite (period_vector n e d))) 0 = nth k p 0 - (if Nat.eqb k d then len d else 0).
  Proof. intros d p k Hd Hk Lp. rewrite nth_add_vec by (rewrite opposite_length, period_length; auto). rewrite nth_opposite, nth_period by auto. reflexivity. Qed.
  Lemma plus_length : forall d p, length p = S n -> length (add_vec p (period_vector n e d)) = S n.
  Proof. intros. apply moved_length; auto. apply period_length. Qed.
  Lemma minus_length : forall d p, length p = S n -> length (add_vec p (opposite (period_vector n e d))) = S n.
  Proof. intros. apply moved_length; auto. rewrite opposite_length. apply period_length. Qed.

  (** The calls of a slab. *)
  Lemma slab_valid : forall d a b, (d <= n)%nat -> a < b -> b <= nth d high 0 + gw ->
    exists calls, subset_calls n (inter ref (slab n l e gw d a b)) = Some calls /\
      (forall i yz, In (i, yz) calls -> length yz = n /\ istart i < iend i /\ istep i = 1) /\ NoDup (cells_of_calls calls) /\
      forall p, In p (cells_of_calls calls) <-> lca_mem n ref p /\ a <= nth d p 0 < b /\
        forall k, (k <= n)%nat -> k <> d -> nth k low 0 - gw <= nth k p 0 < nth k high 0 + gw.
  Proof.
    intros d a b Hd Hab Hb. clear HN IM.
    assert (NL : forall (f : nat -> Z) k, (k <= n)%nat -> nth k (map f (seq 0 (S n))) 0 = f k) by (intros; apply (nth_map_seq (S n)); lia).
    destruct (C14_box_array n l (map (fun k => if Nat.eqb k d then a else nth k low 0 - gw) (seq 0 (S n)))
      (map (fun k => if Nat.eqb k d then b else nth k high 0 + gw) (seq 0 (S n)))) as (BL & BW & BX & _).
    { intros k Hk. rewrite !NL by auto. destruct (Nat.eqb_spec k d); auto. pose proof (proj1 (HE k Hk)). lia. }
    fold (slab n l e gw d a b) in BL, BW, BX. set (box := slab n l e gw d a b) in *.
    assert (BX' : forall p, lca_mem n box p <-> length p = S n /\ a <= nth d p 0 < b /\ forall k, (k <= n)%nat -> k <> d -> nth k low 0 - gw <= nth k p 0 < nth k high 0 + gw).
    { intros p. rewrite BX. split; intros (L & X).
      - split; auto. split; [pose proof (X d Hd) as Y; rewrite !NL, Nat.eqb_refl in Y by auto; auto|].
        intros k Hk Hkd. pose proof (X k Hk) as Y. rewrite !NL in Y by auto. destruct (Nat.eqb_spec k d); [contradiction|auto].
      - split; auto. intros k Hk. rewrite !NL by auto. destruct (Nat.eqb_spec k d) as [->|]; [apply X|apply X; auto]. }
    assert (BB : below_max n box).
    { intros q k Hq Hk. apply BX' in Hq as (_ & Y & Z). destruct (Nat.eq_dec k d) as [->|Hkd]; [pose proof (HB d Hd); lia|]. pose proof (Z k Hk Hkd). pose proof (HB k Hk). lia. }
    assert (X : inter ref box = on (inter ref box) l).
    { unfold inter. rewrite on_make_op. unfold make_op. f_equal. unfold common_level. cbn. rewrite EL, BL. lia. }
    destruct (inter_spec n ref box l W BW) as (calls & E & V & ND & _ & C).
    - rewrite EL, BL, Nat.max_id, Nat.min_id, <- EL at 1. apply below_fits. auto.
    - rewrite EL, BL, Nat.max_id, Nat.min_id, <- BL at 1. apply below_fits. auto.
    - rewrite <- X in E. exists calls. split; auto. split; [exact V|]. split; auto.
      intros p. rewrite C. split.
      + intros (Hp & Ha & Hb'). rewrite same_denotes in Ha, Hb' by auto. split; auto. apply BX' in Hb'. tauto.
      + intros [Ha Hb']. assert (Hp : length p = S n) by apply Ha. rewrite !same_denotes by auto. split; auto. split; auto. apply BX'. auto.
  Qed.

  Lemma slab_calls : forall d a b, (d <= n)%nat -> a < b -> b <= nth d high 0 + gw ->
    exists calls, subset_calls n (inter ref (slab n l e gw d a b)) = Some calls /\
      (forall i yz, In (i, yz) calls -> length yz = n /\ istep i = 1) /\ NoDup (cells_of_calls calls) /\
      forall p, In p (cells_of_calls calls) <-> lca_mem n ref p /\ a <= nth d p 0 < b /\
        forall k, (k <= n)%nat -> k <> d -> nth k low 0 - gw <= nth k p 0 < nth k high 0 + gw.
  Proof.
    intros d a b Hd Hab Hb. destruct (slab_valid d a b Hd Hab Hb) as (calls & E & V & R). exists calls. split; auto. split; auto.
    intros i yz Hin. destruct (V i yz Hin) as (? & _ & ?); auto.
  Qed.

  (** The cells copied before and after the domain in direction [d]. *)
  Definition before (d : nat) (p : list Z) : Prop := lca_mem n ref p /\ fat n low high gw p /\ nth d p 0 < nth d low 0.
  Definition after (d : nat) (p : list Z) : Prop := lca_mem n ref p /\ fat n low high gw p /\ nth d high 0 <= nth d p 0.

  Lemma before_calls : forall d, (d <= n)%nat ->
    exists calls, subset_calls n (inter ref (slab n l e gw d (nth d low 0 - gw) (nth d low 0))) = Some calls /\
      (forall i yz, In (i, yz) calls -> length yz = n /\ istep i = 1) /\ NoDup (cells_of_calls calls) /\
      forall p, In p (cells_of_calls calls) <-> before d p.
  Proof.
    intros d Hd. pose proof (proj1 (HE d Hd)). destruct (slab_calls d (nth d low 0 - gw) (nth d low 0) Hd ltac:(lia) ltac:(lia)) as (calls & E & V & ND & C).
    exists calls. split; auto. split; auto. split; auto. intros p. rewrite C. unfold before, fat. split.
    - intros (M & X & Y). split; auto. split; [|lia]. split; [apply M|]. intros k Hk. destruct (Nat.eq_dec k d) as [->|]; auto. lia.
    - intros (M & (L & X) & Y). split; auto. split; [pose proof (X d Hd); lia|auto].
  Qed.
  Lemma after_calls : forall d, (d <= n)%nat ->
    exists calls, subset_calls n (inter ref (slab n l e gw d (nth d high 0) (nth d high 0 + gw))) = Some calls /\
      (forall i yz, In (i, yz) calls -> length yz = n /\ istep i = 1) /\ NoDup (cells_of_calls calls) /\
      forall p, In p (cells_of_calls calls) <-> after d p.
  Proof.
    intros d Hd. pose proof (proj1 (HE d Hd)). destruct (slab_calls d (nth d high 0) (nth d high 0 + gw) Hd ltac:(lia) ltac:(lia)) as (calls & E & V & ND & C).
    exists calls. split; auto. split; auto. split; auto. intros p. rewrite C. unfold after, fat. split.
    - intros (M & X & Y). split; auto. split; [|lia]. split; [apply M|]. intros k Hk. destruct (Nat.eq_dec k d) as [->|]; auto. lia.
    - intros (M & (L & X) & Y). split; auto. split; [pose proof (X d Hd); lia|auto].
  Qed.

  Lemma before_moved : forall d p, (d <= n)%nat -> per d = true -> before d p ->
    lca_mem n ref (add_vec p (period_vector n e d)) /\ fat n low high gw (add_vec p (period_vector n e d)) /\
    nth d low 0 <= nth d (add_vec p (period_vector n e d)) 0 < nth d high 0.
  Proof.
    intros d p Hd Pd (M & F & X). split; [apply (IM d p Hd Pd M F); auto|]. pose proof (proj2 F d Hd). pose proof (HN d Hd Pd).
    rewrite nth_plus, Nat.eqb_refl by (auto; apply M). split; [|lia]. split; [apply plus_length, M|].
    intros k Hk. rewrite nth_plus by (auto; apply M). destruct (Nat.eqb_spec k d) as [->|]; [lia|]. pose proof (proj2 F k Hk). lia.
  Qed.
  Lemma after_moved : forall d p, (d <= n)%nat -> per d = true -> after d p ->
    lca_mem n ref (add_vec p (opposite (period_vector n e d))) /\ fat n low high gw (add_vec p (opposite (period_vector n e d))) /\
    nth d low 0 <= nth d (add_vec p (opposite (period_vector n e d))) 0 < nth d high 0.
  Proof.
    intros d p Hd Pd (M & F & X). split; [apply (IM d p Hd Pd M F); auto|]. pose proof (proj2 F d Hd). pose proof (HN d Hd Pd).
    rewrite nth_minus, Nat.eqb_refl by (auto; apply M). split; [|lia]. split; [apply minus_length, M|].
    intros k Hk. rewrite nth_minus by (auto; apply M). destruct (Nat.eqb_spec k d) as [->|]; [lia|]. pose proof (proj2 F k Hk). lia.
  Qed.

  Definition only (d k : nat) : bool := Nat.eqb k d.
  Lemma wrap_before : forall d p, (d <= n)%nat -> per d = true -> before d p -> wrap n (only d) low high p = add_vec p (period_vector n e d).
  Proof.
    intros d p Hd Pd (M & F & X). apply (list_ext n); [apply wrap_length|apply plus_length, M|]. intros k Hk. rewrite nth_wrap, nth_plus by (auto; apply M).
    unfold only. destruct (Nat.eqb_spec k d) as [->|]; [|lia]. pose proof (proj2 F d Hd). pose proof (HN d Hd Pd). pose proof (proj1 (HE d Hd)).
    rewrite shift_mod by lia. destruct (Z.ltb_spec (nth d p 0 - nth d low 0) 0); lia.
  Qed.
  Lemma wrap_after : forall d p, (d <= n)%nat -> per d = true -> after d p -> wrap n (only d) low high p = add_vec p (opposite (period_vector n e d)).
  Proof.
    intros d p Hd Pd (M & F & X). apply (list_ext n); [apply wrap_length|apply minus_length, M|]. intros k Hk. rewrite nth_wrap, nth_minus by (auto; apply M).
    unfold only. destruct (Nat.eqb_spec k d) as [->|]; [|lia]. pose proof (proj2 F d Hd). pose proof (HN d Hd Pd). pose proof (proj1 (HE d Hd)).
    rewrite shift_mod by lia. destruct (Z.ltb_spec (nth d p 0 - nth d low 0) 0); [lia|]. destruct (Z.leb_spec (len d) (nth d p 0 - nth d low 0)); lia.
  Qed.
  Lemma wrap_within : forall d p, (d <= n)%nat -> length p = S n -> nth d low 0 <= nth d p 0 < nth d high 0 -> wrap n (only d) low high p = p.
  Proof.
    intros d p Hd Lp X. apply (list_ext n); [apply wrap_length|auto|]. intros k Hk. rewrite nth_wrap by auto.
    unfold only. destruct (Nat.eqb_spec k d) as [->|]; [|lia]. rewrite Z.mod_small; lia.
  Qed.
  Lemma three : forall d p, lca_mem n ref p -> fat n low high gw p -> before d p \/ after d p \/ nth d low 0 <= nth d p 0 < nth d high 0.
  Proof. intros d p M F. destruct (Z.lt_ge_cases (nth d p 0) (nth d low 0)); [left; split; auto|]. destruct (Z.lt_ge_cases (nth d p 0) (nth d high 0)); [right; right; lia|right; left; split; auto]. Qed.
  Lemma wrap_stored : forall d p, (d <= n)%nat -> per d = true -> lca_mem n ref p -> fat n low high gw p ->
    lca_mem n ref (wrap n (only d) low high p) /\ fat n low high gw (wrap n (only d) low high p).
  Proof.
    intros d p Hd Pd M F. destruct (three d p M F) as [B|[B|B]].
    - rewrite wrap_before by auto. apply before_moved in B; auto. tauto.
    - rewrite wrap_after by auto. apply after_moved in B; auto. tauto.
    - rewrite wrap_within; auto. apply M.
  Qed.

  (** One direction of the copies. *)
  Lemma copy_direction : forall d u, (d <= n)%nat -> per d = true ->
    exists u', periodic_direction n reference l e gw (copy_op n reference l) u d = Some u' /\
      forall p, length p = S n -> (lca_mem n ref p -> fat n low high gw p -> get u' p = get u (wrap n (only d) low high p)) /\
        (~ (lca_mem n ref p /\ fat n low high gw p) -> get u' p = get u p).
  Proof.
    intros d u Hd Pd. unfold periodic_direction, apply_tags.
    destruct (before_calls d Hd) as (c1 & E1 & V1 & _ & C1). destruct (after_calls d Hd) as (c2 & E2 & V2 & _ & C2). rewrite E1, E2.
    destruct (copies n l reference (period_vector n e d) (period_length d) W c1 u V1) as (u1 & F1 & P1).
    { intros p Hp. apply C1 in Hp. destruct (before_moved d p Hd Pd Hp) as (A & B & C). split; [apply Hp|]. split; auto. rewrite C1. intros (_ & _ & X). lia. }
    rewrite F1. destruct (copies n l reference (opposite (period_vector n e d)) ltac:(rewrite opposite_length; apply period_length) W c2 u1 V2) as (u2 & F2 & P2).
    { intros p Hp. apply C2 in Hp. destruct (after_moved d p Hd Pd Hp) as (A & B & C). split; [apply Hp|]. split; auto. rewrite C2. intros (_ & _ & X). lia. }
    rewrite F2. exists u2. split; auto. intros p Lp. specialize (P1 p Lp) as A1. specialize (P2 p Lp) as A2. rewrite C1 in A1. rewrite C2 in A2. split.
    - intros M F. destruct (three d p M F) as [B|[B|B]].
      + rewrite wrap_before by auto. destruct A2 as [[(_ & _ & X) _]|[_ A2]]; [destruct B as (_ & _ & Y); pose proof (proj1 (HE d Hd)); lia|].
        destruct A1 as [[_ A1]|[X _]]; [congruence|contradiction].
      + rewrite wrap_after by auto. destruct A2 as [[_ A2]|[X _]]; [|contradiction]. rewrite A2.
        destruct (after_moved d p Hd Pd B) as (_ & _ & Y). destruct (P1 (add_vec p (opposite (period_vector n e d))) (minus_length d p Lp)) as [[X _]|[_ X]]; [|auto].
        apply C1 in X. destruct X as (_ & _ & X). lia.
      + rewrite wrap_within by auto. destruct A2 as [[(_ & _ & X) _]|[_ A2]]; [lia|]. destruct A1 as [[(_ & _ & X) _]|[_ A1]]; [lia|]. congruence.
    - intros N. destruct A2 as [[(X & Y & _) _]|[_ A2]]; [tauto|]. destruct A1 as [[(X & Y & _) _]|[_ A1]]; [tauto|]. congruence.
  Qed.

  Definition upto (d k : nat) : bool := Nat.ltb k d && per k.

  Lemma wrap_upto : forall d p, length p = S n -> wrap n (upto d) low high (wrap n (only d) low high p) = wrap n (fun k => upto d k || only d k) low high p /\
    wrap n (only d) low high (wrap n (upto d) low high p) = wrap n (fun k => upto d k || only d k) low high p.
  Proof.
    intros d p Lp. split; (apply (list_ext n); [apply wrap_length|apply wrap_length|]); intros k Hk; rewrite !nth_wrap by auto; unfold upto, only;
      destruct (Nat.ltb_spec k d), (Nat.eqb_spec k d); cbn [andb orb]; try lia; destruct (per k); cbn [andb orb]; auto.
  Qed.
  Lemma wrap_ext : forall P Q p, (forall k, (k <= n)%nat -> P k = Q k) -> wrap n P low high p = wrap n Q low high p.
  Proof. intros P Q p H. clear - H. unfold wrap. apply map_ext_in. intros k Hk. apply in_seq in Hk. rewrite H by lia. auto. Qed.
  Lemma upto_S : forall d, per d = true -> forall k, upto (S d) k = upto d k || only d k.
  Proof. intros d Pd k. clear - Pd. unfold upto, only. destruct (Nat.eqb_spec k d) as [->|]; [rewrite Pd, Nat.ltb_irrefl; destruct (Nat.ltb_spec d (S d)); auto; lia|]. rewrite orb_false_r. f_equal. destruct (Nat.ltb_spec k (S d)), (Nat.ltb_spec k d); auto; lia. Qed.
  Lemma upto_skip : forall d, per d = false -> forall k, upto (S d) k = upto d k.
  Proof. intros d Pd k. clear - Pd. unfold upto. destruct (Nat.eq_dec k d) as [->|]; [rewrite Pd, !andb_false_r; auto|]. f_equal. destruct (Nat.ltb_spec k (S d)), (Nat.ltb_spec k d); auto; lia. Qed.
  Lemma wrap_none : forall p, length p = S n -> wrap n (upto 0) low high p = p.
  Proof. intros p Lp. apply (list_ext n); [apply wrap_length|auto|]. intros k Hk. rewrite nth_wrap by auto. reflexivity. Qed.

  Lemma wrap_upto_stored : forall d p, (d <= S n)%nat -> lca_mem n ref p -> fat n low high gw p ->
    lca_mem n ref (wrap n (upto d) low high p) /\ fat n low high gw (wrap n (upto d) low high p).
  Proof.
    induction d as [|d IH]; intros p Hd M F; [rewrite wrap_none; auto; apply M|].
    destruct (IH p ltac:(lia) M F) as [M' F']. destruct (per d) eqn:Pd.
    - rewrite (wrap_ext _ _ p (fun k _ => upto_S d Pd k)), <- (proj2 (wrap_upto d p (proj1 F))). apply wrap_stored; auto. lia.
    - rewrite (wrap_ext _ _ p (fun k _ => upto_skip d Pd k)). auto.
  Qed.

  Lemma copy_directions : forall j d u u0, (d + j = S n)%nat ->
    (forall p, length p = S n -> (lca_mem n ref p -> fat n low high gw p -> get u p = get u0 (wrap n (upto d) low high p)) /\
      (~ (lca_mem n ref p /\ fat n low high gw p) -> get u p = get u0 p)) ->
    exists u', fold_tags (fun u d => if per d then periodic_direction n reference l e gw (copy_op n reference l) u d else Some u) (seq d j) u = Some u' /\
      forall p, length p = S n -> (lca_mem n ref p -> fat n low high gw p -> get u' p = get u0 (wrap n (upto (S n)) low high p)) /\
      (~ (lca_mem n ref p /\ fat n low high gw p) -> get u' p = get u0 p).
  Proof.
    induction j as [|j IH]; intros d u u0 Hd H; cbn [seq fold_tags].
    - exists u. split; auto. assert (d = S n) as -> by lia. exact H.
    - destruct (per d) eqn:Pd.
      + destruct (copy_direction d u ltac:(lia) Pd) as (u1 & E1 & P1). rewrite E1. apply IH; [lia|]. intros p Lp. destruct (P1 p Lp) as [A B]. destruct (H p Lp) as [C D]. split.
        * intros M F. rewrite A by auto. destruct (wrap_stored d p ltac:(lia) Pd M F) as [M' F'].
          rewrite (proj1 (H _ (wrap_length _ _ _ _ _)) M' F'). rewrite (proj1 (wrap_upto d p Lp)). rewrite (wrap_ext _ _ p (fun k _ => upto_S d Pd k)). reflexivity.
        * intros N. rewrite B, D; auto.
      + apply IH; [lia|]. intros p Lp. destruct (H p Lp) as [C D]. split; auto. intros M F. rewrite C by auto. rewrite (wrap_ext _ _ p (fun k _ => upto_skip d Pd k)). reflexivity.
  Qed.

  Lemma upto_all : forall k, (k <= n)%nat -> upto (S n) k = per k.
  Proof. intros k Hk. clear - Hk. unfold upto. destruct (Nat.ltb_spec k (S n)); auto; lia. Qed.

  (** One direction of the joined tags. *)
  Definition sub (a b : Z) : Prop := forall j, Z.testbit a j = true -> Z.testbit b j = true.
  Lemma sub_lor_l : forall a b, sub a (Z.lor a b).
  Proof. intros a b j H. rewrite Z.lor_spec, H. auto. Qed.
  Lemma sub_lor_r : forall a b, sub b (Z.lor a b).
  Proof. intros a b j H. rewrite Z.lor_spec, H, orb_true_r. auto. Qed.

  Definition grown (g g' : Z -> list Z -> Z) : Prop :=
    (forall p, length p = S n -> sub (get g p) (get g' p)) /\
    (forall p j, length p = S n -> Z.testbit (get g' p) j = true -> exists q, same_image n (fun k => per k) low high p q /\ Z.testbit (get g q) j = true).

  Lemma grown_refl : forall g, grown g g.
  Proof. intros g. split; [intros p _ j; auto|]. intros p j Lp H. exists p. split; auto. apply same_refl. auto. Qed.
  Lemma grown_trans : forall g g1 g2, grown g g1 -> grown g1 g2 -> grown g g2.
  Proof.
    intros g g1 g2 [A B] [A' B']. split; [intros p Lp j H; apply A'; auto; apply A; auto|]. intros p j Lp H. destruct (B' p j Lp H) as (q & S1 & H1).
    destruct (B q j (proj1 (proj2 S1)) H1) as (r & S2 & H2). exists r. split; auto. eapply same_trans; eauto.
  Qed.
  Lemma same_plus : forall d p, (d <= n)%nat -> per d = true -> length p = S n -> same_image n (fun k => per k) low high p (add_vec p (period_vector n e d)).
  Proof.
    intros d p Hd Pd Lp. split; auto. split; [apply plus_length; auto|]. intros k Hk. rewrite nth_plus by auto. destruct (Nat.eqb_spec k d) as [->|].
    - exists 1. split; [lia|congruence].
    - exists 0. split; [lia|auto].
  Qed.
  Lemma same_minus : forall d p, (d <= n)%nat -> per d = true -> length p = S n -> same_image n (fun k => per k) low high p (add_vec p (opposite (period_vector n e d))).
  Proof.
    intros d p Hd Pd Lp. split; auto. split; [apply minus_length; auto|]. intros k Hk. rewrite nth_minus by auto. destruct (Nat.eqb_spec k d) as [->|].
    - exists (-1). split; [lia|congruence].
    - exists 0. split; [lia|auto].
  Qed.

  Lemma opposite_opposite : forall v, opposite (opposite v) = v.
  Proof. intros v. unfold opposite. rewrite map_map. rewrite <- (map_id v) at 2. apply map_ext. intros. lia. Qed.

  (** Joined over the calls, in the words of [grown]. *)
  Lemma join_calls : forall t calls g, length t = S n -> (forall i yz, In (i, yz) calls -> length yz = n /\ istep i = 1) -> NoDup (cells_of_calls calls) ->
    (forall p, In p (cells_of_calls calls) -> lca_mem n ref p /\ lca_mem n ref (add_vec p t) /\ ~ In (add_vec p t) (cells_of_calls calls)) ->
    (forall p, length p = S n -> same_image n (fun k => per k) low high p (add_vec p t) /\ same_image n (fun k => per k) low high p (add_vec p (opposite t))) ->
    exists g', fold_calls (join_op n reference l t) calls g = Some g' /\ grown g g' /\
      forall p, In p (cells_of_calls calls) -> sub (get g p) (get g' (add_vec p t)) /\ sub (get g (add_vec p t)) (get g' p).
  Proof.
    intros t calls g Lt V ND HC HS. destruct (joins n l reference t Lt W calls g V ND HC) as (g' & E & P). exists g'. split; auto.
    assert (CL : forall p, In p (cells_of_calls calls) -> length p = S n) by (intros p Hp; apply (HC p Hp)).
    assert (DE : forall p, In p (cells_of_calls calls) \/ ~ In p (cells_of_calls calls)) by (intros p; destruct (in_dec (list_eq_dec Z.eq_dec) p (cells_of_calls calls)); auto).
    split; [split|].
    - intros p Lp. destruct (P p Lp) as (A & B & C). destruct (DE p) as [H|H]; [rewrite A by auto; apply sub_lor_l|].
      destruct (DE (add_vec p (opposite t))) as [H'|H']; [rewrite B by auto; apply sub_lor_l|]. rewrite C by auto. intros j; auto.
    - intros p j Lp. destruct (P p Lp) as (A & B & C). destruct (DE p) as [H|H].
      + rewrite A, Z.lor_spec by auto. intros X. apply orb_prop in X as [X|X]; [exists p; split; auto; apply same_refl; auto|exists (add_vec p t); split; auto; apply HS; auto].
      + destruct (DE (add_vec p (opposite t))) as [H'|H'].
        * rewrite B, Z.lor_spec by auto. intros X. apply orb_prop in X as [X|X]; [exists p; split; auto; apply same_refl; auto|exists (add_vec p (opposite t)); split; auto; apply HS; auto].
        * rewrite C by auto. exists p. split; auto. apply same_refl; auto.
    - intros p Hp. assert (Lp : length p = S n) by auto. split.
      + destruct (P (add_vec p t) ltac:(apply moved_length; auto)) as (_ & B & _). rewrite (add_opposite n) in B by auto. rewrite B by auto. apply sub_lor_r.
      + rewrite (proj1 (P p Lp)) by auto. apply sub_lor_r.
  Qed.

  Lemma join_direction : forall d g, (d <= n)%nat -> per d = true ->
    exists g', periodic_direction n reference l e gw (join_op n reference l) g d = Some g' /\ grown g g' /\
      forall p, lca_mem n ref p -> fat n low high gw p ->
        sub (get g p) (get g' (wrap n (only d) low high p)) /\ sub (get g (wrap n (only d) low high p)) (get g' p).
  Proof.
    intros d g Hd Pd. unfold periodic_direction, apply_tags.
    destruct (before_calls d Hd) as (c1 & E1 & V1 & N1 & C1). destruct (after_calls d Hd) as (c2 & E2 & V2 & N2 & C2). rewrite E1, E2.
    destruct (join_calls (period_vector n e d) c1 g (period_length d) V1 N1) as (g1 & F1 & G1 & P1).
    { intros p Hp. apply C1 in Hp. destruct (before_moved d p Hd Pd Hp) as (A & B & C). split; [apply Hp|]. split; auto. rewrite C1. intros (_ & _ & X). lia. }
    { intros p Lp. split; [apply same_plus|apply same_minus]; auto. }
    rewrite F1. destruct (join_calls (opposite (period_vector n e d)) c2 g1 ltac:(rewrite opposite_length; apply period_length) V2 N2) as (g2 & F2 & G2 & P2).
    { intros p Hp. apply C2 in Hp. destruct (after_moved d p Hd Pd Hp) as (A & B & C). split; [apply Hp|]. split; auto. rewrite C2. intros (_ & _ & X). lia. }
    { intros p Lp. rewrite opposite_opposite. split; [apply same_minus|apply same_plus]; auto. }
    rewrite F2. exists g2. split; auto. split; [eapply grown_trans; eauto|]. intros p M F. assert (Lp : length p = S n) by apply M.
    destruct (three d p M F) as [B|[B|B]].
    - rewrite wrap_before by auto. destruct (P1 p (proj2 (C1 p) B)) as [X Y]. split; intros j H; apply (proj1 G2); auto; apply plus_length; auto.
    - rewrite wrap_after by auto. destruct (P2 p (proj2 (C2 p) B)) as [X Y]. split; intros j H; [apply X|apply Y]; apply (proj1 G1); auto; apply minus_length; auto.
    - rewrite wrap_within by auto. split; intros j H; apply (proj1 G2); auto; apply (proj1 G1); auto.
  Qed.

  Lemma join_directions : forall j d g g0, (d + j = S n)%nat -> grown g0 g ->
    (forall p, lca_mem n ref p -> fat n low high gw p ->
      sub (get g0 p) (get g (wrap n (upto d) low high p)) /\ sub (get g0 (wrap n (upto d) low high p)) (get g p)) ->
    exists g', fold_tags (fun u d => if per d then periodic_direction n reference l e gw (join_op n reference l) u d else Some u) (seq d j) g = Some g' /\ grown g0 g' /\
      forall p, lca_mem n ref p -> fat n low high gw p ->
        sub (get g0 p) (get g' (wrap n (upto (S n)) low high p)) /\ sub (get g0 (wrap n (upto (S n)) low high p)) (get g' p).
  Proof.
    induction j as [|j IH]; intros d g g0 Hd G H; cbn [seq fold_tags].
    - exists g. split; auto. split; auto. assert (d = S n) as -> by lia. exact H.
    - destruct (per d) eqn:Pd.
      + destruct (join_direction d g ltac:(lia) Pd) as (g1 & E1 & G1 & P1). rewrite E1. apply IH; [lia|eapply grown_trans; eauto|]. intros p M F.
        assert (Lp : length p = S n) by apply M. rewrite !(wrap_ext _ _ p (fun k _ => upto_S d Pd k)). split.
        * rewrite <- (proj2 (wrap_upto d p Lp)). destruct (wrap_upto_stored d p ltac:(lia) M F) as [M' F']. intros b X. apply (P1 _ M' F'). apply (H p M F). auto.
        * rewrite <- (proj1 (wrap_upto d p Lp)). destruct (wrap_stored d p ltac:(lia) Pd M F) as [M' F']. intros b X. apply (P1 p M F). apply (H _ M' F'). auto.
      + apply IH; [lia|auto|]. intros p M F. rewrite !(wrap_ext _ _ p (fun k _ => upto_skip d Pd k)). auto.
  Qed.
End Level.

(** ** The extent of the domain *)
Lemma extent_spec : forall n domain L lo hi l, wf n domain -> a_level domain = L ->
  (forall k, (k <= n)%nat -> nth k lo 0 < nth k hi 0) -> (forall p, lca_mem n domain p <-> inside n lo hi L p) -> (l <= L)%nat ->
  exists e, extent_at n domain l = Some e /\ forall k, (k <= n)%nat ->
    nth k (e_low e) 0 = nth k lo 0 * 2 ^ Z.of_nat l /\ nth k (e_high e) 0 = nth k hi 0 * 2 ^ Z.of_nat l /\
    nth k (e_period e) 0 = (nth k hi 0 - nth k lo 0) * 2 ^ Z.of_nat l.
Proof.
  intros n domain L lo hi l W EL HL HD Hl.
  assert (PL : 0 < 2 ^ Z.of_nat L) by (apply Z.pow_pos_nonneg; lia).
  assert (NL : forall (f : nat -> Z) k, (k <= n)%nat -> nth k (map f (seq 0 (S n))) 0 = f k) by (intros; apply (nth_map_seq (S n)); lia).
  (* the two corners *)
  set (c1 := map (fun k => nth k lo 0 * 2 ^ Z.of_nat L) (seq 0 (S n))). set (c2 := map (fun k => nth k hi 0 * 2 ^ Z.of_nat L - 1) (seq 0 (S n))).
  assert (M1 : lca_mem n domain c1).
  { apply HD. split; [unfold c1; rewrite map_length, seq_length; auto|]. intros k Hk. unfold c1. rewrite NL by auto. pose proof (HL k Hk). nia. }
  assert (M2 : lca_mem n domain c2).
  { apply HD. split; [unfold c2; rewrite map_length, seq_length; auto|]. intros k Hk. unfold c2. rewrite NL by auto. pose proof (HL k Hk). nia. }
  destruct W as [W|W]; [exfalso; eapply no_cells_mem; eauto|].
  assert (X : forall d, (d <= n)%nat -> min_start (a_cells domain d) = Some (nth d lo 0 * 2 ^ Z.of_nat L) /\ max_end (a_cells domain d) = Some (nth d hi 0 * 2 ^ Z.of_nat L)).
  { intros d Hd. destruct (extents n domain d W Hd) as (m & M & E1 & E2 & B & (p1 & Mp1 & N1) & (p2 & Mp2 & N2)).
    apply HD in Mp1 as [_ Mp1]. apply HD in Mp2 as [_ Mp2]. specialize (Mp1 d Hd). specialize (Mp2 d Hd). pose proof (B c1 M1) as B1. pose proof (B c2 M2) as B2.
    unfold c1 in B1. unfold c2 in B2. rewrite NL in B1, B2 by auto. rewrite E1, E2. split; f_equal; lia. }
  set (G1 := fun d => nth d lo 0 * 2 ^ Z.of_nat L). set (G2 := fun d => nth d hi 0 * 2 ^ Z.of_nat L).
  assert (MM : forall (g : nat -> option Z) (G : nat -> Z), (forall d, (d <= n)%nat -> g d = Some (G d)) -> mapM g (seq 0 (S n)) = Some (map G (seq 0 (S n)))).
  { intros g G H. assert (Y : forall ls, (forall x, In x ls -> g x = Some (G x)) -> mapM g ls = Some (map G ls)).
    { induction ls as [|x ls IH]; intros K; auto. cbn [mapM map]. rewrite K, IH; [auto| |left; auto]. intros; apply K; right; auto. }
    apply Y. intros x Hx. apply in_seq in Hx. apply H. lia. }
  unfold extent_at, min_indices, max_indices. rewrite (MM _ G1 (fun d Hd => proj1 (X d Hd))), (MM _ G2 (fun d Hd => proj2 (X d Hd))), EL.
  destruct (Nat.leb_spec l L); [|lia]. cbn [checked]. eexists. split; [reflexivity|]. intros k Hk. cbn [e_low e_high e_period].
  assert (SH : forall a, Z.shiftr (a * 2 ^ Z.of_nat L) (Z.of_nat (L - l)) = a * 2 ^ Z.of_nat l).
  { intros a. rewrite Z.shiftr_div_pow2 by lia. replace (Z.of_nat L) with (Z.of_nat l + Z.of_nat (L - l)) by lia. rewrite Z.pow_add_r, Z.mul_assoc by lia.
    apply Z.div_mul. pose proof (Z.pow_pos_nonneg 2 (Z.of_nat (L - l))). lia. }
  rewrite !map_map. split; [rewrite NL by auto; apply SH|]. split; [rewrite NL by auto; apply SH|].
  assert (CB : combine (map G1 (seq 0 (S n))) (map G2 (seq 0 (S n))) = map (fun k => (G1 k, G2 k)) (seq 0 (S n))).
  { clear. generalize (seq 0 (S n)). induction l as [|x l IH]; auto. cbn. f_equal. auto. }
  rewrite CB, map_map, NL by auto. unfold G1, G2. rewrite <- Z.mul_sub_distr_r. apply SH.
Qed.
