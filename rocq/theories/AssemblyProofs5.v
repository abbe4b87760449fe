(** Proofs about the assembly of the matrix: the sum over the directions (C78). *)
From Coq Require Import QArith.
From Verif Require Import Base IntervalModel Spec LoiModel LcaModel LcaSpec LcaProofs LcaProofs3 RowsProofs CellArrayModel CellArrayProofs
  PropsLca PropsCellArray SubsetModel TreeProofs SubsetSpec SubsetProofs2 PropsSubset StencilModel NumberingProofs StencilProofs PropsStencil
  MeshModel MeshProofs PropsMesh AdaptModel AdaptProofs TagProofs PropsAdapt InterfaceModel InterfaceProofs PropsInterface GeomModel FluxModel BoundaryProofs PropsBoundary FluxProofs NumModel NumProofs GhostModel
  ReconModel ReconProofs PropsFlux LinFluxModel LinFluxProofs LinFluxProofs2 PropsLinFlux AssemblyModel AssemblyProofs AssemblyProofs2 AssemblyProofs3 AssemblyProofs4.
Open Scope Z_scope.

Definition iterm (fs : nat) (u : output) (i : Z) (k : nat) (e : iface * (coeffs * coeffs)) : Q :=
  (hit i (first_index (fst (fst e)) 0) (lin_value fs u (fst (snd e)) (snd (fst e)) k) + hit i (first_index (fst (fst e)) 1) (lin_value fs u (snd (snd e)) (snd (fst e)) k))%Q.
Definition bterm (fs : nat) (u : output) (i : Z) (k : nat) (e : iface * coeffs) : Q := hit i (first_index (fst (fst e)) 0) (lin_value fs u (snd e) (snd (fst e)) k).
Lemma hit_comp : forall i j a b, (a == b)%Q -> (hit i j a == hit i j b)%Q.
Proof. intros i j a b E. unfold hit. destruct (i =? j); [exact E|reflexivity]. Qed.

(** A face in common with another leaf or, with the fluxes on the boundary, with the outside. *)
Definition has_face (n : nat) (cells : ca) (domain : lca) (ib : bool) (l : nat) (p : list Z) : Prop :=
  (exists d l' p', (d <= n)%nat /\ ca_mem n cells l' p' /\ (share_face n d l p l' p' \/ share_face n d l' p' l p)) \/
  (ib = true /\ exists d s, (d <= n)%nat /\ (s = 1 \/ s = -1) /\ outside n domain l (vadd n p (unit_mult n d s))).

Section Sum.
  Context (n m : nat) (hist : nat -> list lcl_call) (maxl : nat) (st : stencil) (cells : ca) (domain : lca) (scaling : Q) (ib : bool) (lfs : nat -> lin_flux).
  Context (LM : lin_mesh n m hist maxl st cells domain scaling ib lfs).
  Notation ref := (client_ca n m hist true).
  Context (y : layout) (HN : ly_cells y = ca_nb_cells ref) (rec : recursion) (HD : ib = true -> direct n m hist cells domain lfs rec).
  Let NR : numbered n ref := numbered_client n m hist (lm_hist _ _ _ _ _ _ _ _ _ _ LM).
  Notation Elt := (elt_ok n m hist cells y).
  Notation Belt := (belt_ok n m hist cells y rec).
  Notation flux fs u := (fun d => linear_flux fs scaling u (lfs d)).

  Lemma imatch_sum : forall os fs u L evs i k, (k < os)%nat -> imatch n m hist cells y os fs u L evs -> (sum_over (ev_term i k) evs == sum_over (iterm fs u i k) L)%Q.
  Proof.
    intros os fs u L evs i k Hk F. induction F as [|e ev L evs [_ [E1 E2]] F IH]; [reflexivity|]. rewrite !sum_cons, IH. unfold ev_term, iterm. destruct (E2 k Hk) as [A B]. rewrite <- E1.
    rewrite (hit_comp i (first_index (fst (fst e)) 0) _ _ A), (hit_comp i (first_index (fst (fst e)) 1) _ _ B). reflexivity.
  Qed.
  Lemma bmatch_sum : forall os fs u L evs i k, (k < os)%nat -> bmatch n m hist cells y rec os fs u L evs -> (sum_over (bev_term i k) evs == sum_over (bterm fs u i k) L)%Q.
  Proof.
    intros os fs u L evs i k Hk F. induction F as [|e ev L evs [_ [E1 E2]] F IH]; [reflexivity|]. rewrite !sum_cons, IH. unfold bev_term, bterm. rewrite <- E1.
    rewrite (hit_comp i (first_index (fst (fst e)) 0) _ _ (E2 k Hk)). reflexivity.
  Qed.
  Lemma Forall2_left : forall (A B : Type) (P : A -> Prop) (Q : A -> B -> Prop) l l', Forall2 (fun a b => P a /\ Q a b) l l' -> Forall P l.
  Proof. intros A B P Q l l' F. induction F as [|a b l l' [H _] F IH]; constructor; auto. Qed.

  Definition listed (ds : list nat) (Ls : list (list (iface * (coeffs * coeffs)))) (Bs : list (list (iface * coeffs))) : Prop :=
    all_opt (fun d => lin_interior_cells n maxl scaling ref cells d (lfs d)) ds = Some Ls /\
    (if ib then all_opt (fun d => lin_boundary_cells n scaling ref cells domain d (lfs d)) ds = Some Bs else Bs = []) /\ Forall Elt (concat Ls) /\ Forall Belt (concat Bs).

  Lemma dirs_cells : forall os fs u ds out o, (forall d, In d ds -> (d <= n)%nat) -> scheme_apply_dirs n maxl scaling ref cells domain ib (flux fs u) ds out = Some o ->
    exists Ls Bs, listed ds Ls Bs /\ forall i k, (k < os)%nat -> (o i k == out i k + sum_over (iterm fs u i k) (concat Ls) + sum_over (bterm fs u i k) (concat Bs))%Q.
  Proof.
    intros os fs u. induction ds as [|d ds IH]; intros out o Hd H; cbn [scheme_apply_dirs] in H.
    - injection H as <-. exists [], []. split; [split; [reflexivity|]; split; [destruct ib; reflexivity|]; split; constructor|]. intros i k _. cbn [concat]. rewrite !sum_nil. ring.
    - destruct (scheme_apply_dir n maxl scaling ref cells domain ib d (linear_flux fs scaling u (lfs d)) out) as [o1|] eqn:E1; [|discriminate]. cbv beta iota zeta in H.
      destruct (IH _ _ (fun d h => Hd d (or_intror h)) H) as (Ls & Bs & (A1 & A2 & A3 & A4) & S1). unfold scheme_apply_dir in E1.
      destruct (scheme_interior n maxl scaling ref cells d (linear_flux fs scaling u (lfs d))) as [evs|] eqn:Ei; [|discriminate]. destruct (add_interior evs out) as [o2|] eqn:E2; [|discriminate].
      destruct (interior_match n m hist maxl st cells domain scaling ib lfs LM y HN os fs u d evs (Hd d (or_introl eq_refl)) Ei) as (L & EL & ML). pose proof (add_interior_inv _ _ _ E2) as I2.
      assert (SB : exists B, (if ib then lin_boundary_cells n scaling ref cells domain d (lfs d) = Some B else B = []) /\ Forall Belt B /\ forall i k, (k < os)%nat -> (o1 i k == o2 i k + sum_over (bterm fs u i k) B)%Q).
      { destruct ib eqn:Eib.
        - destruct (scheme_boundary n scaling ref cells domain d (linear_flux fs scaling u (lfs d))) as [bvs|] eqn:Eb; [|discriminate].
          destruct (boundary_match n m hist maxl st cells domain scaling true lfs LM y HN rec os fs u d bvs eq_refl (HD eq_refl) (Hd d (or_introl eq_refl)) Eb) as (B & EB & MB). exists B. split; [exact EB|]. split; [eapply Forall2_left; exact MB|].
          intros i k Hk. rewrite (add_boundary_inv _ _ _ E1), (bmatch_sum _ _ _ _ _ _ _ Hk MB). reflexivity.
        - injection E1 as <-. exists []. split; [reflexivity|]. split; [constructor|]. intros i k _. rewrite sum_nil. ring. }
      destruct SB as (B & EB & FB & SB). exists (L :: Ls), (if ib then B :: Bs else []). split.
      + unfold listed. cbn [all_opt]. rewrite EL, A1. split; [reflexivity|]. split; [destruct ib; [rewrite EB, A2|]; reflexivity|]. split; [cbn [concat]; apply Forall_app; split; [eapply Forall2_left; exact ML|exact A3]|].
        destruct ib; [cbn [concat]; apply Forall_app; auto|constructor].
      + intros i k Hk. rewrite S1, SB, I2, (imatch_sum _ _ _ _ _ _ _ Hk ML) by auto. cbn [concat]. rewrite sum_app. destruct ib.
        * cbn [concat]. rewrite sum_app. ring.
        * subst Bs B. cbn [concat]. rewrite !sum_nil. ring.
  Qed.

  (** The interfaces that are visited do not depend on the field. *)
  Lemma scheme_cells : exists Ls Bs, listed (seq 0 (S n)) Ls Bs /\ forall os fs u, exists o, scheme_apply_to n maxl scaling ref cells domain ib (flux fs u) = Some o /\
    forall i k, (k < os)%nat -> (o i k == sum_over (iterm fs u i k) (concat Ls) + sum_over (bterm fs u i k) (concat Bs))%Q.
  Proof.
    assert (SN : forall d, In d (seq 0 (S n)) -> (d <= n)%nat) by (intros d H; apply in_seq in H; lia).
    assert (G : forall os fs u, exists o Ls Bs, scheme_apply_to n maxl scaling ref cells domain ib (flux fs u) = Some o /\ listed (seq 0 (S n)) Ls Bs /\
      forall i k, (k < os)%nat -> (o i k == sum_over (iterm fs u i k) (concat Ls) + sum_over (bterm fs u i k) (concat Bs))%Q).
    { intros os fs u. destruct (nf_balance _ _ _ _ _ _ _ _ _ _ LM (flux fs u) (fun _ => eq_refl)) as (o & E & _). destruct (dirs_cells os fs u _ _ _ SN E) as (Ls & Bs & A & SS). exists o, Ls, Bs.
      split; [exact E|]. split; [exact A|]. intros i k Hk. rewrite SS by auto. ring. }
    destruct (G 0%nat 0%nat (fun _ _ => 0%Q)) as (o0 & Ls & Bs & _ & A & _). exists Ls, Bs. split; [exact A|]. intros os fs u. destruct (G os fs u) as (o & Ls' & Bs' & E & A' & SS). exists o. split; [exact E|].
    destruct A as (A1 & A2 & _), A' as (B1 & B2 & _). assert (Ls' = Ls) by congruence. assert (Bs' = Bs) by (destruct ib; congruence). subst Ls' Bs'. exact SS.
  Qed.

  Context (RR : forall k lc j q, rec_find k rec = Some lc -> In (j, q) lc -> cellok y j).

  Definition touched (Ls : list (list (iface * (coeffs * coeffs)))) (Bs : list (list (iface * coeffs))) (r : Z) : Prop :=
    (exists e, In e (concat Ls) /\ rows_of y (fst (fst e)) r) \/ (exists e, In e (concat Bs) /\ rows_of y (fst (fst e)) r).

  Definition ieff (e : iface * (coeffs * coeffs)) (x : Z -> Q) (r : Z) : Q :=
    sum_over (fun fi => at_row r (row_index y (first_index (fst (fst e)) 0) fi) (lin_value (ly_fs y) (xv y rec x) (fst (snd e)) (snd (fst e)) fi) +
      at_row r (row_index y (first_index (fst (fst e)) 1) fi) (lin_value (ly_fs y) (xv y rec x) (snd (snd e)) (snd (fst e)) fi))%Q (seq 0 (ly_os y)).
  Definition beff (e : iface * coeffs) (x : Z -> Q) (r : Z) : Q :=
    sum_over (fun fi => at_row r (row_index y (first_index (fst (fst e)) 0) fi) (lin_value (ly_fs y) (fun c j => x (col_index y c j)) (snd e) (snd (fst e)) fi)) (seq 0 (ly_os y)).

  Lemma scheme_acts : forall Ls Bs, listed (seq 0 (S n)) Ls Bs ->
    acts y (assemble_scheme y rec n maxl scaling ref cells domain ib lfs) (fun x r => sum_over (fun e => ieff e x r) (concat Ls) + sum_over (fun e => beff e x r) (concat Bs))%Q (touched Ls Bs) (touched Ls Bs).
  Proof.
    intros Ls Bs (A1 & A2 & A3 & A4).
    assert (AI : acts y (fold_opt (assemble_interface y rec) (concat Ls)) (fun x r => sum_over (fun e => ieff e x r) (concat Ls)) (fun r => exists e, In e (concat Ls) /\ rows_of y (fst (fst e)) r) (fun r => exists e, In e (concat Ls) /\ rows_of y (fst (fst e)) r)).
    { apply (acts_fold y _ (assemble_interface y rec) ieff (fun e => rows_of y (fst (fst e))) (fun e => rows_of y (fst (fst e)))). intros [[cs es] [lcs rcs]] He. rewrite Forall_forall in A3.
      destruct (A3 _ He) as (a & b & E & _ & _ & Ha & Hb & He' & L1 & L2). cbn [fst snd] in *. subst cs. exact (interface_acts y rec RR a b es lcs rcs Ha Hb He' L1 L2). }
    assert (AB : acts y (fold_opt (assemble_boundary_interface y) (concat Bs)) (fun x r => sum_over (fun e => beff e x r) (concat Bs)) (fun r => exists e, In e (concat Bs) /\ rows_of y (fst (fst e)) r) (fun r => exists e, In e (concat Bs) /\ rows_of y (fst (fst e)) r)).
    { apply (acts_fold y _ (assemble_boundary_interface y) beff (fun e => rows_of y (fst (fst e))) (fun e => rows_of y (fst (fst e)))). intros [[cs es] co] He. rewrite Forall_forall in A4.
      destruct (A4 _ He) as (a & E & _ & Ha & He' & L1). cbn [fst snd] in *. subst cs. apply (boundary_acts y rec RR a es co Ha); [|exact L1]. eapply Forall_impl; [|exact He']. intros c [H _]. exact H. }
    unfold assemble_scheme, all_interior, all_boundary. rewrite A1. cbn [option_map]. destruct ib.
    - rewrite A2. cbn [option_map]. exact (acts_seq y _ _ _ _ _ _ _ _ AI AB).
    - subst Bs. intros s. destruct (AI s) as (s' & E & P1 & P2 & P3). rewrite E. exists s'. split; [reflexivity|]. split; [intros x r; rewrite P1; cbn [concat]; rewrite sum_nil; ring|].
      split; [intros r c H; apply P2; intros H'; apply H; left; exact H'|]. intros i. rewrite P3. unfold touched. cbn [concat]. split; intros [H1 H2]; (split; [exact H1|]); intros H; apply H2; [|left; exact H].
      destruct H as [H|(e & He & _)]; [exact H|destruct He].
  Qed.

  (** In the row of a cell: the explicit scheme. *)
  Lemma scheme_row : forall Ls Bs x k fi o, listed (seq 0 (S n)) Ls Bs -> cellok y k -> (fi < ly_os y)%nat ->
    (forall i k, (k < ly_os y)%nat -> (o i k == sum_over (iterm (ly_fs y) (xv y rec x) i k) (concat Ls) + sum_over (bterm (ly_fs y) (xv y rec x) i k) (concat Bs))%Q) ->
    (sum_over (fun e => ieff e x (row_index y k fi)) (concat Ls) + sum_over (fun e => beff e x (row_index y k fi)) (concat Bs) == o k fi)%Q.
  Proof.
    intros Ls Bs x k fi o (A1 & A2 & A3 & A4) Hk Hf SS. rewrite SS by exact Hf. rewrite Forall_forall in A3, A4. apply Qplus_comp; apply sum_ext; intros e He.
    - destruct (A3 e He) as (a & b & E & _ & _ & Ha & Hb & _). unfold ieff, iterm. rewrite sum_plus. rewrite E. change (first_index [a; b] 0) with (sc_index a). change (first_index [a; b] 1) with (sc_index b).
      rewrite (at_cell y rec RR k fi (sc_index a) (fun f => lin_value (ly_fs y) (xv y rec x) (fst (snd e)) (snd (fst e)) f) Hk Ha Hf), (at_cell y rec RR k fi (sc_index b) (fun f => lin_value (ly_fs y) (xv y rec x) (snd (snd e)) (snd (fst e)) f) Hk Hb Hf). reflexivity.
    - destruct (A4 e He) as (a & E & _ & Ha & Hs & _). unfold beff, bterm. rewrite E. change (first_index [a] 0) with (sc_index a).
      rewrite (at_cell y rec RR k fi (sc_index a) (fun f => lin_value (ly_fs y) (fun c j => x (col_index y c j)) (snd e) (snd (fst e)) f) Hk Ha Hf). apply hit_comp. unfold lin_value.
      apply sum_ext. intros j _. apply sum_ext. intros [mt c] Hin. apply in_combine_r in Hin. rewrite Forall_forall in Hs. destruct (Hs c Hin) as [_ EN]. unfold xv. rewrite EN. reflexivity.
  Qed.

  (** The rows are those of the leaves which have a face. *)
  Lemma touched_leaf : forall Ls Bs r, listed (seq 0 (S n)) Ls Bs -> touched Ls Bs r -> exists l p i fi, ca_mem n cells l p /\ ca_get_index n ref l p = Some i /\ (fi < ly_os y)%nat /\ r = row_index y i fi.
  Proof.
    intros Ls Bs r (_ & _ & A3 & A4) H. rewrite Forall_forall in A3, A4. assert (K : forall c fi, is_leaf n m hist cells c -> (fi < ly_os y)%nat -> r = row_index y (sc_index c) fi ->
      exists l p i fi, ca_mem n cells l p /\ ca_get_index n ref l p = Some i /\ (fi < ly_os y)%nat /\ r = row_index y i fi).
    { intros c fi [H1 (_ & _ & H2)] Hf E. exists (sc_level c), (sc_coord c), (sc_index c), fi. auto. }
    destruct H as [(e & He & fi & c & Hf & Hc & E)|(e & He & fi & c & Hf & Hc & E)].
    - destruct (A3 e He) as (a & b & Ec & Ha & Hb & _). rewrite Ec in Hc. destruct Hc as [<-|[<-|[]]]; eauto.
    - destruct (A4 e He) as (a & Ec & Ha & _). rewrite Ec in Hc. destruct Hc as [<-|[]]; eauto.
  Qed.

  Lemma all_opt_In : forall (A B : Type) (f : A -> option B) l bs a, all_opt f l = Some bs -> In a l -> exists b, f a = Some b /\ In b bs.
  Proof.
    intros A B f. induction l as [|a0 l IH]; intros bs a H Ha; [destruct Ha|]. cbn [all_opt] in H. destruct (f a0) as [b0|] eqn:E0; [|discriminate]. destruct (all_opt f l) as [bs0|] eqn:E1; [|discriminate]. injection H as <-.
    destruct Ha as [->|Ha]; [exists b0; split; [exact E0|left; auto]|]. destruct (IH _ _ eq_refl Ha) as (b & Eb & Hb). exists b. split; [exact Eb|right; exact Hb].
  Qed.
  Lemma face_touched : forall Ls Bs l p i fi, listed (seq 0 (S n)) Ls Bs -> ca_mem n cells l p -> has_face n cells domain ib l p -> ca_get_index n ref l p = Some i -> (fi < ly_os y)%nat -> touched Ls Bs (row_index y i fi).
  Proof.
    intros Ls Bs l p i fi (A1 & A2 & _) Hp HF Hi Hfi. pose proof LM as [G HS HM HR HB HG HC]. destruct HF as [(d & l' & p' & Hd & Hp' & HSf)|(Eib & d & s & Hd & Hs & Ho)].
    - left. assert (Hin : In d (seq 0 (S n))) by (apply in_seq; lia). destruct (all_opt_In _ _ _ _ _ _ A1 Hin) as (L & EL & HL). destruct (HG d Hd) as (G1 & G2 & G3).
      destruct (scheme_interior_spec n d maxl st (lf_stencil (lfs d)) ref cells Hd (HM d Hd) (HR d Hd) NR G1 G2 G3 scaling (linear_flux 0 scaling (fun _ _ => 0%Q) (lfs d)) eq_refl) as (fs & Ei & _ & M & C).
      destruct (interior_match n m hist maxl st cells domain scaling ib lfs LM y HN 0 0 (fun _ _ => 0%Q) d _ Hd Ei) as (L' & EL' & ML). assert (L' = L) by congruence. subst L'.
      assert (K : forall l1 p1 l2 p2, ca_mem n cells l1 p1 -> ca_mem n cells l2 p2 -> share_face n d l1 p1 l2 p2 -> exists e a b, In e (concat Ls) /\ fst (fst e) = [a; b] /\ cell_is n ref l1 p1 a /\ cell_is n ref l2 p2 b).
      { intros l1 p1 l2 p2 H1 H2 H3. assert (HI : In [(l1, p1); (l2, p2)] (map sides fs)) by (apply M; auto). apply in_map_iff in HI as (f & Ef & Hf). destruct (C f Hf) as (a & b & _ & Ec & Ca & Cb & _). unfold sides in Ef. rewrite Ec in Ef. cbn [map] in Ef.
        injection Ef as <- <- <- <-. assert (HE : In (scheme_event n scaling (flux_function (linear_flux 0 scaling (fun _ _ => 0%Q) (lfs d))) f) (map (scheme_event n scaling (flux_function (linear_flux 0 scaling (fun _ _ => 0%Q) (lfs d)))) fs)) by (apply in_map; exact Hf).
        destruct (Forall2_In_r _ _ _ _ _ _ ML HE) as (e & He & _ & E1 & _). exists e, a, b. split; [apply in_concat; eauto|]. split; [rewrite E1; exact Ec|]. auto. }
      destruct HSf as [HSf|HSf].
      + destruct (K _ _ _ _ Hp Hp' HSf) as (e & a & b & He & Ec & (_ & _ & Ca) & _). exists e. split; [exact He|]. exists fi, a. split; [exact Hfi|]. split; [rewrite Ec; left; auto|]. f_equal. congruence.
      + destruct (K _ _ _ _ Hp' Hp HSf) as (e & a & b & He & Ec & _ & (_ & _ & Cb)). exists e. split; [exact He|]. exists fi, b. split; [exact Hfi|]. split; [rewrite Ec; right; left; auto|]. f_equal. congruence.
    - right. assert (Hin : In d (seq 0 (S n))) by (apply in_seq; lia). destruct (HG d Hd) as (G1 & G2 & G3).
      destruct (scheme_boundary_spec n d domain ref cells scaling (linear_flux 0 scaling (fun _ _ => 0%Q) (lfs d)) Hd (HB Eib d Hd) NR G1 G2 G3) as (evs & o1 & o2 & Ei & P & F1 & F2).
      revert A2 HD. rewrite Eib. intros A2 HD'. destruct (all_opt_In _ _ _ _ _ _ A2 Hin) as (L & EL & HL).
      assert (LM' : lin_mesh n m hist maxl st cells domain scaling true lfs) by (rewrite <- Eib; exact LM).
      destruct (boundary_match n m hist maxl st cells domain scaling true lfs LM' y HN rec 0 0 (fun _ _ => 0%Q) d _ eq_refl (HD' eq_refl) Hd Ei) as (L' & EL' & ML). assert (L' = L) by congruence. subst L'.
      assert (K : exists (f : iface) (ev : list scell * value), In ev evs /\ fst ev = fst f /\ exists a, fst f = [a] /\ cell_is n ref l p a).
      { assert (KK : forall comput sft (o : list iface) side, faces_ok n domain ref cells comput (unit_mult n d s) sft o -> exists f, In f o /\ fst (scheme_bevent n scaling side (flux_function (linear_flux 0 scaling (fun _ _ => 0%Q) (lfs d))) f) = fst f /\ exists a, fst f = [a] /\ cell_is n ref l p a).
        { intros comput sft o side (_ & M & C). assert (HI : In [(l, p)] (map sides o)) by (apply M; exists l, p; auto). apply in_map_iff in HI as (f & Ef & Hf). destruct (C f Hf) as (a & Ec & Ca & _). unfold sides in Ef. rewrite Ec in Ef. cbn [map] in Ef. injection Ef as <- <-.
          exists f. split; [exact Hf|]. split; [reflexivity|]. exists a. auto. }
        destruct Hs as [Es|Es]; rewrite Es in KK.
        - destruct (KK _ _ o1 fst F1) as (f & Hf & E1 & a & E2 & E3). eexists f, _. split; [apply (Permutation_in _ (Permutation_sym P)), in_or_app; left; apply in_map; exact Hf|]. split; [exact E1|]. eauto.
        - destruct (KK _ _ o2 snd F2) as (f & Hf & E1 & a & E2 & E3). eexists f, _. split; [apply (Permutation_in _ (Permutation_sym P)), in_or_app; right; apply in_map; exact Hf|]. split; [exact E1|]. eauto. }
      destruct K as (f & ev & Hev & E1 & a & E2 & (_ & _ & E3)). destruct (Forall2_In_r _ _ _ _ _ _ ML Hev) as (e & He & _ & E4 & _). exists e. split; [apply in_concat; eauto|]. exists fi, a. split; [exact Hfi|]. split; [rewrite E4, E1, E2; left; auto|]. f_equal. congruence.
  Qed.
End Sum.
