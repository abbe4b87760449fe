(** A step of the finite volumes: the balance of each leaf (property C67). *)
From Coq Require Import QArith Qpower Permutation Field.
From Verif Require Import Base IntervalModel Spec IntervalProofs LoiModel LcaModel LcaSpec LcaProofs LcaProofs2 LcaProofs3 RowsProofs CellArrayModel CellArrayProofs PropsLca PropsCellArray
  SubsetModel TreeProofs SubsetSpec SubsetProofs2 PropsSubset StencilModel NumberingProofs StencilProofs PropsStencil MeshModel MeshProofs PropsMesh
  NumModel NumProofs NumSpec PropsNum AdaptModel AdaptProofs TagProofs PropsAdapt GradModel GradProofs PropsGrad InterfaceModel InterfaceProofs PropsInterface
  TransferProofs PropsTransfer MrModel MrProofs PropsMr GeomModel GhostModel GhostProofs PropsGhost BcProofs HartenModel HartenProofs HartenProofs2 DetermProofs
  FluxModel BoundaryProofs PropsBoundary FluxProofs PropsFlux IterProofs FvModel FvProofs FvProofs2.
Open Scope Z_scope.
Notation stored := GhostModel.stored.

(** ** The flux through a face *)

(** The fluxes of the leaves through their lower and upper faces are [L] and [R], and the two
    cells beside a leaf agree with it on them. *)
Definition flux_ok (n : nat) (cells : ca) (op : fv_op) (L R : nat -> nat -> list Z -> Q) : Prop :=
  forall d l p, (d <= n)%nat -> ca_mem n cells l p ->
    left_flux op d l p = Some (L d l p) /\ right_flux op d l p = Some (R d l p) /\
    right_flux op d l (vadd n p (unit_mult n d (-1))) = Some (L d l p) /\ left_flux op d l (vadd n p (unit_mult n d 1)) = Some (R d l p).

(** Between two leaves, [c2] above [c1]: the flux that the finer one computes. *)
Definition face_flux (L R : nat -> nat -> list Z -> Q) (d : nat) (c1 c2 : nat * list Z) : Q :=
  if Nat.leb (fst c2) (fst c1) then R d (fst c1) (snd c1) else L d (fst c2) (snd c2).
(** The leaves at the two ends of the box. *)
Definition at_top (hi : list Z) (d : nat) (c : nat * list Z) : bool := nth d (snd c) 0 + 1 =? nth d hi 0 * 2 ^ Z.of_nat (fst c).
Definition at_bottom (lo : list Z) (d : nat) (c : nat * list Z) : bool := nth d (snd c) 0 =? nth d lo 0 * 2 ^ Z.of_nat (fst c).

(** What leaves a cell in the direction [d]: through its interior faces and those of the box. *)
Definition inner_out (n : nat) (scaling : Q) (cs : list (nat * list Z)) (L R : nat -> nat -> list Z -> Q) (d : nat) (c : nat * list Z) : Q :=
  (sum_over (fun c2 => if shareb n d c c2 then face_area n scaling c c2 * face_flux L R d c c2 else 0) cs -
   sum_over (fun c1 => if shareb n d c1 c then face_area n scaling c1 c * face_flux L R d c1 c else 0) cs)%Q.
Definition outer_out (n : nat) (scaling : Q) (lo hi : list Z) (L R : nat -> nat -> list Z -> Q) (d : nat) (c : nat * list Z) : Q :=
  ((if at_top hi d c then area n scaling (fst c) * R d (fst c) (snd c) else 0) -
   (if at_bottom lo d c then area n scaling (fst c) * L d (fst c) (snd c) else 0))%Q.

Lemma sum_flat : forall A B (f : B -> Q) (g : A -> list B) xs, (sum_over f (flat_map g xs) == sum_over (fun x => sum_over f (g x)) xs)%Q.
Proof.
  intros A B f g xs. induction xs as [|x xs IH]; [reflexivity|]. cbn [flat_map]. rewrite sum_app, sum_cons, IH. reflexivity.
Qed.
Lemma sum_flux_spec : forall f g ps, (forall p, In p ps -> f p = Some (g p)) -> exists q, sum_flux f ps = Some q /\ (q == sum_over g ps)%Q.
Proof.
  intros f g ps. induction ps as [|p ps IH]; intros H; [exists 0%Q; split; [auto|reflexivity]|]. destruct IH as (q & E & Eq); [intros; apply H; right; auto|].
  exists (g p + q)%Q. cbn [sum_flux]. rewrite (H p (or_introl eq_refl)), E. split; auto. rewrite sum_cons, Eq. reflexivity.
Qed.

Section Balance.
  Variables (n minl maxl : nat) (scaling dt : Q) (op op' : fv_op) (cells reference : ca) (lo hi : list Z) (L R : nat -> nat -> list Z -> Q).
  Hypothesis HT : tiles n cells lo hi.
  Hypothesis HR : forall l q, ca_mem n cells l q -> (minl <= l <= maxl)%nat.
  Hypothesis HG : graded_axes n cells.
  Hypothesis HW : ca_wf n cells.
  Hypothesis HL : forall l, (l <= c_max cells)%nat -> a_level (c_at cells l) = l.
  Hypothesis HM : (maxl <= c_max cells)%nat.
  Hypothesis H1 : steps_one cells.
  Hypothesis HB : forall l q k, ca_mem n cells l q -> (k <= n)%nat -> 2 * (nth k q 0 + 3) < 2 ^ 31 - 1.
  Hypothesis HS : ~ (scaling == 0)%Q.
  Hypothesis HF : forall l p, ca_mem n cells l p -> stored n reference l p = true.
  Hypothesis HO : flux_ok n cells op L R.
  Hypothesis HO' : flux_ok n cells op' L R.
  Variable cs : list (nat * list Z).
  Hypothesis HN : NoDup cs.
  Hypothesis HE : forall l p, In (l, p) cs <-> ca_mem n cells l p.
  Notation leaf := (ca_mem n cells).

  Definition sf (d : nat) (s : Z) (l : nat) (p : list Z) : Q := if s =? 1 then R d l p else L d l p.
  Lemma sf_own : forall o d s l p, flux_ok n cells o L R -> (d <= n)%nat -> s = 1 \/ s = -1 -> leaf l p -> side_flux o s d l p = Some (sf d s l p).
  Proof using. clear. intros o d s l p H Hd [->| ->] Hp; unfold side_flux, sf; cbn [Z.eqb Pos.eqb]; apply (H d l p Hd Hp). Qed.
  Lemma sf_other : forall o d s l p, flux_ok n cells o L R -> (d <= n)%nat -> s = 1 \/ s = -1 -> leaf l p ->
    side_flux o s d l (vadd n p (unit_mult n d (- s))) = Some (sf d (- s) l p).
  Proof using. clear. intros o d s l p H Hd [->| ->] Hp; unfold side_flux, sf; cbn [Z.eqb Z.opp Pos.eqb]; apply (H d l p Hd Hp). Qed.

  (** The leaves with finer leaves on a side. *)
  Definition finerb (d : nat) (s : Z) (l : nat) (p : list Z) : bool := existsb (fun c => Nat.eqb (fst c) (S l) && touchesb n d s (l, p) c) cs.
  Definition mean_flux (d : nat) (s : Z) (l : nat) (p : list Z) : Q :=
    (sum_over (sf d (- s) (S l)) (face_kids n d s p) / inject_Z (2 ^ Z.of_nat n))%Q.
  Definition corr (d : nat) (s : Z) (l : nat) (p : list Z) : Q := (inject_Z s * (dt / cell_length scaling l * (sf d s l p - mean_flux d s l p)))%Q.

  Lemma finerb_spec : forall d s l p, finerb d s l p = true <-> exists q, leaf (S l) q /\ touches n d s l p (S l) q.
  Proof using HE. clear HT HR HG HW HL HM H1 HB HS HF HO HO' HN.
    intros d s l p. unfold finerb. rewrite existsb_exists. split.
    - intros ([l2 q] & Hc & E). apply andb_true_iff in E as [E T]. apply Nat.eqb_eq in E. cbn [fst] in E. subst l2. apply touchesb_spec in T. exists q. split; auto. apply HE. auto.
    - intros (q & Hq & T). exists (S l, q). split; [apply HE; auto|]. cbn [fst]. rewrite Nat.eqb_refl. cbn [andb]. apply touchesb_spec. auto.
  Qed.
  Lemma beside_finer : forall d s l p, (d <= n)%nat -> s = 1 \/ s = -1 -> leaf l p -> (beside n cells l d s p <-> finerb d s l p = true).
  Proof using HE HT. clear HR HG HW HL HM H1 HB HS HF HO HO' HN L R.
    intros d s l p Hd Hs Hp. rewrite finerb_spec. unfold beside. assert (Lp : length p = S n) by apply Hp. split.
    - intros (_ & q & Hq & A). exists q. split; auto. assert (Lq : length q = S n) by apply Hq. apply touches_fine; auto. replace (S l - l)%nat with 1%nat by lia. split; auto.
      assert (NE : ancestor 1 q <> p). { intros E. destruct HT as (NO & _). assert (l = S l) by (apply (NO l (S l) p q Hp Hq); [lia|replace (S l - l)%nat with 1%nat by lia; auto]). lia. }
      assert (OTH : forall k, (k <= n)%nat -> k <> d -> nth k q 0 / 2 = nth k p 0).
      { intros k Hk Ne. rewrite <- A, nth_ancestor, nth_vadd, nth_unit by auto. destruct (Nat.eqb_spec k d); [contradiction|]. rewrite Z.add_0_r. reflexivity. }
      assert (DD : (nth d q 0 - s) / 2 = nth d p 0). { rewrite <- A, nth_ancestor, nth_vadd, nth_unit, Nat.eqb_refl by auto. reflexivity. }
      assert (ND : nth d q 0 / 2 <> nth d p 0).
      { intros E. apply NE. apply (list_ext n); [rewrite ancestor_length; auto|auto|]. intros k Hk. rewrite nth_ancestor. change (2 ^ Z.of_nat 1) with 2. destruct (Nat.eq_dec k d) as [->|Ne]; auto. }
      apply (list_ext n); [rewrite ancestor_length; auto|apply vadd_length|]. intros k Hk. rewrite nth_ancestor, nth_vadd, nth_unit by auto. change (2 ^ Z.of_nat 1) with 2.
      destruct (Nat.eqb_spec k d) as [->|Ne]; [|rewrite OTH by auto; lia]. destruct Hs as [->| ->]; lia.
    - intros (q & Hq & T). split; auto. exists q. split; auto. apply touches_fine in T as [T _]; auto; [|apply Hq]. replace (S l - l)%nat with 1%nat in T by lia. auto.
  Qed.
  Lemma finer_case : forall d s l p, (d <= n)%nat -> s = 1 \/ s = -1 -> leaf l p -> finerb d s l p = true -> finer_neighbours n cells d s l p.
  Proof using HE HT HR HG. clear HW HL HM H1 HB HS HF HO HO' HN L R.
    intros d s l p Hd Hs Hp E. apply finerb_spec in E as (q & Hq & T). destruct (side_cases n minl maxl cells lo hi HT HR HG d s Hd Hs l p Hp) as [[_ H]|[(l2 & p2 & _ & Hl & _ & U)|H]]; auto.
    - exfalso. apply (H (S l) q); auto.
    - exfalso. specialize (U _ _ Hq T). injection U as U _. lia.
  Qed.
  Lemma finer_below : forall d s l p, finerb d s l p = true -> (l < maxl)%nat.
  Proof using HE HR. clear HT HG HW HL HM H1 HB HS HF HO HO' HN L R. intros d s l p E. apply finerb_spec in E as (q & Hq & _). apply HR in Hq. lia. Qed.

  (** The flux through a side after the correction is the sum of the fluxes through the faces. *)
  Lemma side_balance : forall d s l p, (d <= n)%nat -> s = 1 \/ s = -1 -> leaf l p ->
    (sum_over (fun c2 => if touchesb n d s (l, p) c2 then face_area n scaling (l, p) c2 * (if s =? 1 then face_flux L R d (l, p) c2 else face_flux L R d c2 (l, p)) else 0) cs +
     (if (if s =? 1 then at_top hi d (l, p) else at_bottom lo d (l, p)) then area n scaling l * sf d s l p else 0) ==
     area n scaling l * (if finerb d s l p then mean_flux d s l p else sf d s l p))%Q.
  Proof.
    intros d s l p Hd Hs Hp. assert (Lp : length p = S n) by apply Hp. pose proof (proj1 (proj2 HT) l p Hp) as Ip.
    assert (END : (if s =? 1 then at_top hi d (l, p) else at_bottom lo d (l, p)) = true <-> ~ inside n lo hi l (vadd n p (unit_mult n d s))).
    { destruct Ip as [_ Ip]. pose proof (Ip d Hd) as Id.
      assert (X : inside n lo hi l (vadd n p (unit_mult n d s)) <-> nth d lo 0 * 2 ^ Z.of_nat l <= nth d p 0 + s < nth d hi 0 * 2 ^ Z.of_nat l).
      { split.
        - intros [_ H]. specialize (H d Hd). rewrite nth_vadd, nth_unit, Nat.eqb_refl in H by auto. auto.
        - intros H. split; [apply vadd_length|]. intros k Hk. rewrite nth_vadd, nth_unit by auto. destruct (Nat.eqb_spec k d) as [->|Ne]; auto. specialize (Ip k Hk). lia. }
      rewrite X. unfold at_top, at_bottom. cbn [fst snd]. destruct Hs as [->| ->]; cbn [Z.eqb Pos.eqb]; rewrite Z.eqb_eq; lia. }
    destruct (side_cases n minl maxl cells lo hi HT HR HG d s Hd Hs l p Hp) as [NB|[(l2 & p2 & ON)|FN]].
    - rewrite (side_sum_none n cells lo hi d s cs HE l p _ NB). destruct NB as [NI NB]. rewrite (proj2 END NI).
      destruct (finerb d s l p) eqn:E; [exfalso; apply finerb_spec in E as (q & Hq & T); apply (NB _ _ Hq T)|]. ring.
    - rewrite (side_sum_one n cells d s cs HN HE l p l2 p2 _ ON). destruct ON as (H2 & Hl & T & U).
      destruct (finerb d s l p) eqn:E; [exfalso; apply finerb_spec in E as (q & Hq & T'); specialize (U _ _ Hq T'); injection U as U _; lia|].
      assert (IN : inside n lo hi l (vadd n p (unit_mult n d s))).
      { pose proof (touches_coarse n cells d s Hd Hs l p l2 p2 Hp H2 Hl T) as Q2. pose proof (proj1 (proj2 HT) _ _ H2) as I2. rewrite <- Q2 in I2.
        replace l with (l2 + (l - l2))%nat by lia. apply (proj2 (inside_ancestor n lo hi l2 (l - l2) _)). replace (l2 + (l - l2))%nat with l by lia. split; [apply vadd_length|exact I2]. }
      destruct (if s =? 1 then at_top hi d (l, p) else at_bottom lo d (l, p)) eqn:EE; [exfalso; apply (proj1 END eq_refl); auto|].
      assert (FA : face_area n scaling (l, p) (l2, p2) = area n scaling l) by (unfold face_area; cbn [fst]; f_equal; lia). rewrite FA.
      assert (FF : (if s =? 1 then face_flux L R d (l, p) (l2, p2) else face_flux L R d (l2, p2) (l, p)) = sf d s l p).
      { unfold face_flux, sf. cbn [fst snd]. destruct Hs as [->| ->]; cbn [Z.eqb Pos.eqb].
        - destruct (Nat.leb_spec l2 l); [reflexivity|lia].
        - destruct (Nat.leb_spec l l2); [|reflexivity]. assert (l2 = l) by lia. subst l2. pose proof (touches_coarse n cells d (-1) Hd (or_intror eq_refl) l p l p2 Hp H2 Hl T) as Q2.
          rewrite Nat.sub_diag, ancestor_0 in Q2. destruct (HO d l p Hd Hp) as (_ & _ & E3 & _). destruct (HO d l p2 Hd H2) as (_ & E2 & _). rewrite Q2 in E3. congruence. }
      rewrite FF. ring.
    - rewrite (side_sum_finer n cells d s cs HN HE l p _ FN). destruct FN as [F1 F2].
      assert (KN : face_kids n d s p <> []). { intros E. pose proof (face_kids_length n d s p Hd) as X. rewrite E in X. cbn [length] in X. pose proof (Nat.pow_nonzero 2 n). lia. }
      assert (E : finerb d s l p = true).
      { apply finerb_spec. destruct (face_kids n d s p) as [|z zs] eqn:K; [contradiction|]. exists z. apply F1. left. auto. }
      assert (IN : inside n lo hi l (vadd n p (unit_mult n d s))).
      { apply finerb_spec in E as (q & Hq & T). pose proof (proj1 (proj2 HT) _ _ Hq) as Iq. apply touches_fine in T as [_ T]; auto; [|apply Hq]. replace (S l - l)%nat with 1%nat in T by lia.
        rewrite <- T. apply (proj1 (inside_ancestor n lo hi l 1 q)). replace (l + 1)%nat with (S l) by lia. auto. }
      rewrite E. destruct (if s =? 1 then at_top hi d (l, p) else at_bottom lo d (l, p)) eqn:EE; [exfalso; apply (proj1 END eq_refl); auto|].
      rewrite (sum_ext _ _ (fun z => area n scaling (S l) * sf d (- s) (S l) z)%Q).
      + rewrite sum_scale. unfold mean_flux. rewrite <- (area_half n scaling l). rewrite Nat2Z.inj_pow. change (Z.of_nat 2) with 2.
        assert (P : ~ (inject_Z (2 ^ Z.of_nat n) == 0)%Q). { change 0%Q with (inject_Z 0). rewrite inject_Z_injective. pose proof (Z.pow_pos_nonneg 2 (Z.of_nat n)). lia. }
        field. auto.
      + intros z Hz. unfold face_area. cbn [fst]. replace (Nat.max l (S l)) with (S l) by lia. unfold face_flux, sf. cbn [fst snd]. destruct Hs as [->| ->]; cbn [Z.eqb Z.opp Pos.eqb].
        * destruct (Nat.leb_spec (S l) l); [lia|reflexivity].
        * destruct (Nat.leb_spec l (S l)); [reflexivity|lia].
  Qed.

  (** The step. *)
  Definition net (l : nat) (p : list Z) : Q := (sum_over (fun d => - L d l p + R d l p) (seq 0 (S n)) / cell_length scaling l)%Q.
  Definition in_list (l : nat) (p : list Z) : bool := existsb (cell_eqb (l, p)) cs.
  Lemma in_list_spec : forall l p, in_list l p = true <-> leaf l p.
  Proof using HE. clear HT HR HG HW HL HM H1 HB HS HF HO HO' HN.
    intros l p. unfold in_list. rewrite existsb_exists, <- HE. split; [intros (c & Hc & E); apply cell_eqb_spec in E; subst c; auto|]. intros H. exists (l, p). split; auto. apply cell_eqb_spec. auto.
  Qed.
  Definition delta (level d : nat) (s : Z) (l : nat) (p : list Z) : Q := if Nat.eqb l level && in_list l p && finerb d s l p then corr d s l p else 0%Q.

  Lemma fv_spec : forall l p, leaf l p -> exists g, finite_volume n scaling op l p = Some g /\ (g == net l p)%Q.
  Proof using HO. clear HT HR HG HW HL HM H1 HB HS HF HO' HN HE.
    intros l p Hp. unfold finite_volume, net.
    assert (G : forall ds, (forall d, In d ds -> (d <= n)%nat) -> exists q, fv_sum op l p ds = Some q /\ (q == sum_over (fun d => - L d l p + R d l p) ds)%Q).
    { induction ds as [|d ds IH]; intros H; [exists 0%Q; split; [auto|reflexivity]|]. destruct IH as (q & E & Eq); [intros; apply H; right; auto|].
      destruct (HO d l p (H d (or_introl eq_refl)) Hp) as (E1 & E2 & _). cbn [fv_sum]. rewrite E1, E2, E. eexists. split; [reflexivity|]. rewrite sum_cons, Eq. reflexivity. }
    destruct (G (seq 0 (S n))) as (q & E & Eq); [intros d Hd; apply in_seq in Hd; lia|]. rewrite E. eexists. split; [reflexivity|]. rewrite Eq. reflexivity.
  Qed.

  Lemma correct_adds : forall level d s v, (minl <= level < maxl)%nat -> (d <= n)%nat -> s = 1 \/ s = -1 ->
    exists v', apply_tags n (finer_beside n cells level d s) (correct_op n scaling dt op' reference level d s) v = Some v' /\ adds n v v' (delta level d s).
  Proof using HT HR HG HW HL HM HB HF HO' HE. clear H1 HS HO HN.
    intros level d s v Hl Hd Hs. destruct (correct_side n scaling dt op' cells reference level d s (corr d s level)) with (v := v) as (v' & E & A); auto.
    - intros p Hp (q & Hq & Aq). split; [apply HF; auto|]. exists (sf d s level p).
      assert (FB : finerb d s level p = true). { apply beside_finer; auto. split; auto. exists q. auto. }
      destruct (finer_case d s level p Hd Hs Hp FB) as [F1 _]. assert (Lp : length p = S n) by apply Hp.
      destruct (sum_flux_spec (side_flux op' s d (S level)) (fun z => sf d (- s) (S level) (vadd n z (unit_mult n d s))) (side_children n d s p)) as (f & Ef & Eq).
      { intros z Hz. apply side_children_In in Hz as (Lz & _ & Hz); auto. rewrite <- (sf_other op' d s (S level) _ HO' Hd Hs (proj1 (F1 _ Hz))). rewrite unit_back by auto. reflexivity. }
      exists f. split; [apply sf_own; auto|]. split; auto. unfold corr, mean_flux.
      rewrite <- (sum_perm _ _ _ _ (side_children_perm n d s p Hd Hs Lp)), sum_map, <- Eq. reflexivity.
    - intros l Hl'. split; [apply HW; lia|apply HL; lia].
    - lia.
    - exists v'. split; auto. intros l p Lp. destruct (A l p) as [A1 A2]. unfold delta. destruct (Nat.eqb_spec l level) as [->|Ne]; cbn [andb].
      + destruct (in_list level p) eqn:I; cbn [andb].
        * apply in_list_spec in I. destruct (finerb d s level p) eqn:F.
          -- apply A1. split; auto. apply beside_finer; auto.
          -- rewrite A2; [ring|]. intros [_ B]. apply beside_finer in B; auto. congruence.
        * rewrite A2; [ring|]. intros [_ [B _]]. apply in_list_spec in B. congruence.
      + rewrite A2; [ring|]. intros [B _]. contradiction.
  Qed.

  Lemma correction_spec : forall v, exists v', flux_correction n minl maxl scaling dt op' cells reference v = Some v' /\
    adds n v v' (fun l p => if in_list l p then sum_over (fun d => (if finerb d 1 l p then corr d 1 l p else 0) + (if finerb d (-1) l p then corr d (-1) l p else 0)) (seq 0 (S n)) else 0)%Q.
  Proof using HT HR HG HW HL HM HB HF HO' HE. clear H1 HS HO HN.
    intros v. unfold flux_correction.
    destruct (fold_adds n nat (correct_level n scaling dt op' cells reference) (fun level l p => sum_over (fun x => delta level (fst x) (snd x) l p) (sides_of n)) (seq minl (maxl - minl)) v) as (v' & E & A).
    { intros level w Hl. apply in_seq in Hl. unfold correct_level.
      apply (fold_adds n (nat * Z) (fun v '(d, s) => apply_tags n (finer_beside n cells level d s) (correct_op n scaling dt op' reference level d s) v) (fun x => delta level (fst x) (snd x))).
      intros [d s] w' Hx. cbn [fst snd]. unfold sides_of in Hx. apply in_flat_map in Hx as (d' & Hd' & Hx). apply in_seq in Hd'.
      apply correct_adds; [lia| |]; destruct Hx as [Hx|[Hx|[]]]; injection Hx as <- <-; auto; lia. }
    exists v'. split; auto. intros l p Lp. rewrite (A l p Lp). apply Qplus_comp; [reflexivity|]. destruct (in_list l p) eqn:I.
    2:{ apply sum_zero. intros level _. apply sum_zero. intros [d s] _. unfold delta. rewrite I, andb_false_r. reflexivity. }
    pose proof (HR l p (proj1 (in_list_spec l p) I)) as Rl.
    set (T := sum_over (fun d => (if finerb d 1 l p then corr d 1 l p else 0) + (if finerb d (-1) l p then corr d (-1) l p else 0))%Q (seq 0 (S n))).
    assert (X : forall level, (sum_over (fun x => delta level (fst x) (snd x) l p) (sides_of n) == if Nat.eqb level l then T else 0)%Q).
    { intros level. unfold sides_of. rewrite sum_flat. rewrite Nat.eqb_sym. destruct (Nat.eqb l level) eqn:El.
      - apply sum_ext. intros d _. rewrite !sum_cons, sum_nil. cbn [fst snd]. unfold delta. rewrite El, I. cbn [andb]. ring.
      - apply sum_zero. intros d _. rewrite !sum_cons, sum_nil. cbn [fst snd]. unfold delta. rewrite El. cbn [andb]. ring. }
    rewrite (sum_ext _ _ (fun level => if Nat.eqb level l then T else 0%Q)) by (intros; apply X).
    destruct (Nat.eq_dec l maxl) as [->|Ne].
    - rewrite sum_zero. 2:{ intros level Hl. apply in_seq in Hl. destruct (Nat.eqb_spec level maxl); [lia|reflexivity]. }
      symmetry. apply sum_zero. intros d _. destruct (finerb d 1 maxl p) eqn:F; [apply finer_below in F; lia|]. destruct (finerb d (-1) maxl p) eqn:F'; [apply finer_below in F'; lia|]. ring.
    - apply (sum_pick _ Nat.eqb (fun _ => T) (seq minl (maxl - minl)) l Nat.eqb_eq (seq_NoDup _ _)). apply in_seq. lia.
  Qed.

  Lemma step_balance : forall u v, exists w, fv_step n minl maxl scaling dt true op op' cells reference u v = Some w /\
    (forall l p, leaf l p -> (volume n scaling l * (cell_value w l p - cell_value u l p) ==
       - dt * sum_over (fun d => inner_out n scaling cs L R d (l, p) + outer_out n scaling lo hi L R d (l, p)) (seq 0 (S n)))%Q) /\
    (forall l p, length p = S n -> ~ leaf l p -> (cell_value w l p == cell_value v l p)%Q).
  Proof.
    intros u v. unfold fv_step. set (G := fun l p => match finite_volume n scaling op l p with Some g => g | None => 0%Q end).
    destruct (fv_update_spec n scaling dt op cells reference u G HW H1) with (v := v) as (v1 & E1 & A1 & B1).
    { intros l p Hp. split; [apply HF; auto|]. unfold G. destruct (fv_spec l p Hp) as (g & E & _). rewrite E. auto. }
    destruct (correction_spec v1) as (w & E2 & A2). rewrite E1. exists w. split; auto. split.
    - intros l p Hp. assert (Lp : length p = S n) by apply Hp. rewrite (A2 l p Lp), (A1 l p Hp), (proj2 (in_list_spec l p) Hp). destruct (fv_spec l p Hp) as (g & E & Eg). unfold G. rewrite E, Eg. unfold net.
      set (h := cell_length scaling l). assert (Hh : ~ (h == 0)%Q) by (apply (edge_nonzero scaling l HS)).
      assert (V : (volume n scaling l == h * area n scaling l)%Q). { unfold volume, area. rewrite Nat2Z.inj_succ. unfold Z.succ. rewrite Qpower_plus by (apply edge_nonzero; auto). change (edge scaling l) with h. change (h ^ 1)%Q with h. ring. }
      assert (D : forall d, (d <= n)%nat -> (inner_out n scaling cs L R d (l, p) + outer_out n scaling lo hi L R d (l, p) ==
        area n scaling l * ((if finerb d 1 l p then mean_flux d 1 l p else R d l p) - (if finerb d (-1) l p then mean_flux d (-1) l p else L d l p)))%Q).
      { intros d Hd. pose proof (side_balance d 1 l p Hd (or_introl eq_refl) Hp) as P. pose proof (side_balance d (-1) l p Hd (or_intror eq_refl) Hp) as M.
        unfold sf, touchesb in P, M. cbn [Z.eqb Pos.eqb] in P, M. unfold inner_out, outer_out. cbn [fst snd].
        rewrite (sum_ext _ (fun c1 => if shareb n d c1 (l, p) then face_area n scaling c1 (l, p) * face_flux L R d c1 (l, p) else 0)%Q
          (fun c1 => if shareb n d c1 (l, p) then face_area n scaling (l, p) c1 * face_flux L R d c1 (l, p) else 0)%Q).
        2:{ intros c1 _. unfold face_area. rewrite Nat.max_comm. reflexivity. }
        setoid_replace (area n scaling l * ((if finerb d 1 l p then mean_flux d 1 l p else R d l p) - (if finerb d (-1) l p then mean_flux d (-1) l p else L d l p)))%Q
          with (area n scaling l * (if finerb d 1 l p then mean_flux d 1 l p else R d l p) - area n scaling l * (if finerb d (-1) l p then mean_flux d (-1) l p else L d l p))%Q by ring.
        rewrite <- P, <- M. ring. }
      assert (DS : forall d, In d (seq 0 (S n)) -> (d <= n)%nat) by (intros d Hd; apply in_seq in Hd; lia).
      rewrite (sum_ext _ _ _ _ (fun d Hd => D d (DS d Hd))). rewrite V.
      clear -Hh. generalize (seq 0 (S n)) as ds. intros ds.
      set (a := area n scaling l).
      assert (Z : (h * (- dt * (sum_over (fun d => - L d l p + R d l p) ds / h) + sum_over (fun d => (if finerb d 1 l p then corr d 1 l p else 0) + (if finerb d (-1) l p then corr d (-1) l p else 0)) ds) ==
        - dt * sum_over (fun d => (if finerb d 1 l p then mean_flux d 1 l p else R d l p) - (if finerb d (-1) l p then mean_flux d (-1) l p else L d l p)) ds)%Q).
      { induction ds as [|d ds IH]; [rewrite !sum_nil; field; auto|]. rewrite !sum_cons.
        setoid_replace (h * (- dt * ((- L d l p + R d l p + sum_over (fun d => - L d l p + R d l p) ds) / h) +
           ((if finerb d 1 l p then corr d 1 l p else 0) + (if finerb d (-1) l p then corr d (-1) l p else 0) +
            sum_over (fun d => (if finerb d 1 l p then corr d 1 l p else 0) + (if finerb d (-1) l p then corr d (-1) l p else 0)) ds)))%Q
        with (- dt * (- L d l p + R d l p) + h * ((if finerb d 1 l p then corr d 1 l p else 0) + (if finerb d (-1) l p then corr d (-1) l p else 0)) +
          h * (- dt * (sum_over (fun d => - L d l p + R d l p) ds / h) + sum_over (fun d => (if finerb d 1 l p then corr d 1 l p else 0) + (if finerb d (-1) l p then corr d (-1) l p else 0)) ds))%Q by (field; auto).
        rewrite IH. unfold corr, sf. fold h. cbn [Z.eqb Pos.eqb]. change (inject_Z 1) with 1%Q. change (inject_Z (-1)) with (-(1))%Q.
        destruct (finerb d 1 l p), (finerb d (-1) l p); field; auto. }
      rewrite sum_scale.
      setoid_replace (h * a * (cell_value u l p - dt * (sum_over (fun d => - L d l p + R d l p) ds / h) + sum_over (fun d => (if finerb d 1 l p then corr d 1 l p else 0) + (if finerb d (-1) l p then corr d (-1) l p else 0)) ds - cell_value u l p))%Q
        with (a * (h * (- dt * (sum_over (fun d => - L d l p + R d l p) ds / h) + sum_over (fun d => (if finerb d 1 l p then corr d 1 l p else 0) + (if finerb d (-1) l p then corr d (-1) l p else 0)) ds)))%Q by ring.
      rewrite Z. ring.
    - intros l p Lp Np. rewrite (A2 l p Lp). rewrite B1 by auto. destruct (in_list l p) eqn:I; [apply in_list_spec in I; contradiction|]. ring.
  Qed.
End Balance.

(** The fluxes through the interior faces cancel. *)
Lemma inner_cancel : forall n scaling cs L R d, (sum_over (inner_out n scaling cs L R d) cs == 0)%Q.
Proof.
  intros n scaling cs L R d. unfold inner_out.
  set (f := fun x y => if shareb n d x y then (face_area n scaling x y * face_flux L R d x y)%Q else 0%Q).
  transitivity (sum_over (fun x => sum_over (fun y => f x y) cs + - (1) * sum_over (fun y => f y x) cs) cs)%Q.
  { apply sum_ext. intros x _. unfold f. ring. }
  rewrite sum_plus, sum_scale. rewrite (sum_swap _ _ (fun x y => f y x)). ring.
Qed.
