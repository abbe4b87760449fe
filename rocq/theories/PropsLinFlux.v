(** C76: linear homogeneous flux-based schemes, applied by intervals of interfaces. *)
From Coq Require Import QArith Qpower Permutation.
From Verif Require Import Base IntervalModel Spec LoiModel LcaModel LcaSpec LcaProofs LcaProofs3 RowsProofs CellArrayModel CellArrayProofs
  PropsLca PropsCellArray SubsetModel TreeProofs SubsetSpec SubsetProofs2 PropsSubset StencilModel NumberingProofs StencilProofs PropsStencil
  MeshModel MeshProofs PropsMesh AdaptModel AdaptProofs TagProofs PropsAdapt GradModel GradProofs PropsGrad NumProofs InterfaceModel InterfaceProofs
  PropsInterface GeomModel PropsNum PropsTransfer FluxModel BoundaryProofs PropsBoundary FluxProofs PropsFlux GhostModel ReconModel LinFluxModel LinFluxProofs LinFluxProofs2.
Open Scope Z_scope.

(** ** The intervals of the level jumps have an even number of fine cells, or one *)
Section Even.
  Context (n d maxl : nat) (st : stencil) (cells : ca) (Hd : (d <= n)%nat) (HM : interface_mesh n d maxl st cells).
  Let dir := unit_mult n d 1.
  Let leaf := ca_mem n cells.

  Lemma neg_dir0 : neg dir = unit_mult n d (-1).
  Proof.
    apply (list_ext n); [unfold neg; rewrite map_length; apply unit_length|apply unit_length|]. intros k Hk. rewrite nth_neg. unfold dir. rewrite !nth_unit by auto.
    destruct (Nat.eqb k d); lia.
  Qed.
  Lemma neg_neg0 : neg (neg dir) = dir.
  Proof. unfold neg. rewrite map_map. rewrite <- (map_id dir) at 2. apply map_ext. intros; lia. Qed.
  Lemma add_neg0 : forall s z, length z = S n -> vadd n (vadd n z s) (neg s) = z.
  Proof. intros s z Hz. apply (list_ext n); [apply vadd_length|auto|]. intros k Hk. rewrite !nth_vadd, nth_neg by auto. lia. Qed.
  Lemma graded0 : forall l l' p q s, leaf l p -> leaf l' q -> (l + 2 <= l')%nat -> s = dir \/ s = neg dir -> ancestor (l' - l) (vadd n q s) <> p.
  Proof.
    destruct HM as [W LV MX LE RG DJ CV [D1 D2] US GR].
    assert (R : range_ok n st cells).
    { split; [exact W|]. split; [exact LV|]. intros l q k Hq Hk. specialize (RG l q k Hq Hk). split; [lia|]. intros s Hs. pose proof (US s k Hs Hk). lia. }
    destruct (C34_exact n st cells R) as (b & Eb & Hb). rewrite GR in Eb. injection Eb as <-.
    intros l l' p q s Hp Hq Hl Hs. apply (proj1 Hb eq_refl l l' p q s); auto. destruct Hs as [->| ->]; [exact D1|rewrite neg_dir0; exact D2].
  Qed.

  Lemma jump_sibling : forall s l z e, s = dir \/ s = neg dir -> length z = S n -> leaf l (ancestor 1 z) -> leaf (S l) (vadd n z s) -> d <> 0%nat ->
    (e = 1 /\ nth 0 z 0 mod 2 = 0 \/ e = -1 /\ nth 0 z 0 mod 2 = 1) ->
    let z' := vadd n z (unit_mult n 0 e) in leaf l (ancestor 1 z') /\ leaf (S l) (vadd n z' s).
  Proof.
    intros s l z e Hs Lz Hp Hq Hd0 He z'. pose proof HM as [W LV MX LE RG DJ CV [D1 D2] US GR].
    pose proof neg_dir0 as ND. pose proof neg_neg0 as NN.
    assert (Lz' : length z' = S n) by apply vadd_length.
    assert (S0 : nth 0 s 0 = 0).
    { destruct Hs as [->| ->]; [|rewrite nth_neg]; unfold dir; rewrite nth_unit by lia; destruct (Nat.eqb_spec 0 d); congruence || lia. }
    assert (Hsib : forall w u, length w = S n -> (forall k, (k <= n)%nat -> nth k u 0 = nth k w 0 + (if Nat.eqb k 0 then e else 0)) -> length u = S n ->
      nth 0 w 0 mod 2 = nth 0 z 0 mod 2 -> ancestor 1 u = ancestor 1 w).
    { intros w u Hw Hk Hu Ho. apply (list_ext n); rewrite ?ancestor_length; auto. intros k Hkn. rewrite !nth_ancestor, Hk by auto. change (2 ^ Z.of_nat 1) with 2.
      destruct (Nat.eqb_spec k 0) as [->|]; [|f_equal; lia]. clear - He Ho. destruct He as [[-> A]|[-> A]]; lia. }
    assert (Ez : ancestor 1 z' = ancestor 1 z).
    { apply Hsib; auto. intros k Hk. unfold z'. rewrite nth_vadd, nth_unit by auto. reflexivity. }
    assert (Eq : ancestor 1 (vadd n z' s) = ancestor 1 (vadd n z s)).
    { apply Hsib; try apply vadd_length; [|rewrite nth_vadd by lia; rewrite S0, Z.add_0_r; auto]. intros k Hk. unfold z'. rewrite !nth_vadd, nth_unit by auto. lia. }
    split; [rewrite Ez; auto|].
    assert (Hls : (S l <= maxl)%nat) by (apply (LE _ _ Hq)).
    destruct (corner_point n maxl (S l) (vadd n z' s) (neg s) (vadd_length _ _ _) Hls) as (zz & Lzz & Az & Bz).
    { intros k Hk. rewrite nth_neg. assert (-1 <= nth k s 0 <= 1); [|lia]. destruct Hs as [->| ->]; [apply (US dir k D1 Hk)|]. rewrite ND. apply (US _ k D2 Hk). }
    destruct (CV l (ancestor 1 z) (vadd n z s) zz Hp Hq Lzz ltac:(lia)) as (l' & Hl' & Hleaf).
    { rewrite <- Eq, <- Az, ancestor_add. f_equal. lia. }
    destruct (Nat.lt_trichotomy l' (S l)) as [Hlt|[->|Hgt]].
    + exfalso. assert (l' = S l); [|lia]. apply (DJ l' (S l) _ _ Hleaf Hq); [lia|].
      replace (S l - l')%nat with (l - l' + 1)%nat by lia. rewrite <- ancestor_add, <- Eq, <- Az, !ancestor_add. f_equal. lia.
    + rewrite Az in Hleaf. exact Hleaf.
    + exfalso. specialize (Bz l' ltac:(lia)). rewrite add_neg0 in Bz by auto.
      apply (graded0 l l' _ _ (neg s) Hp Hleaf ltac:(lia)).
      * fold dir. destruct Hs as [->| ->]; [auto|left; apply NN].
      * rewrite <- Ez, <- Bz, ancestor_add. f_equal. lia.
  Qed.

  Lemma jump_sizes : even_runs n maxl cells dir.
  Proof.
    intros l s0 calls i yz Hl Hs0 E Hin. cbv zeta. pose proof HM as [W LV MX LE RG DJ CV [D1 D2] US GR].
    pose proof neg_dir0 as ND. pose proof neg_neg0 as NN.
    assert (exists s, s0 = neg s /\ (s = dir \/ s = neg dir) /\ neg (neg s) = s) as (s & -> & Hs & NNs).
    { destruct Hs0 as [->| ->]; [exists (neg dir)|exists dir]; rewrite ?NN; auto. }
    destruct (shifted_inter_spec n (c_at cells l) (c_at cells (S l)) (neg s) (S l)) as (calls' & E' & V & NDp & SEP & M); auto.
    { apply W. lia. } { apply W. lia. } { right. rewrite LV by lia. auto. } { apply LV. lia. }
    { intros q k Hq Hk. rewrite LV by lia. replace (S l - l)%nat with 1%nat by lia. change (2 ^ Z.of_nat 1) with 2.
      assert (Hc : (l <= c_max cells)%nat) by lia. specialize (RG l q k (conj Hc Hq) Hk). lia. }
    { intros q k Hq Hk. assert (Hc : (S l <= c_max cells)%nat) by lia. specialize (RG (S l) q k (conj Hc Hq) Hk).
      assert (-1 <= nth k (neg s) 0 <= 1); [|lia]. destruct Hs as [->| ->]; [rewrite ND; apply (US _ k D2 Hk)|rewrite NN; apply (US _ k D1 Hk)]. }
    rewrite E in E'. injection E' as <-.
    assert (M' : forall z, In z (cells_of_calls calls) <-> length z = S n /\ leaf l (ancestor 1 z) /\ leaf (S l) (vadd n z s)).
    { intros z. rewrite M, LV by lia. replace (S l - l)%nat with 1%nat by lia. change (vopp (neg s)) with (neg (neg s)). rewrite NNs. unfold leaf, ca_mem.
      split; [intros (H1 & H2 & H3)|intros (H1 & (_ & H2) & (_ & H3))]; auto. spl; auto; lia. }
    destruct (V i yz Hin) as [V1 V2].
    assert (CI : forall x, in_i i x -> length (x :: yz) = S n /\ leaf l (ancestor 1 (x :: yz)) /\ leaf (S l) (vadd n (x :: yz) s)).
    { intros x Hx. apply M'. apply cells_of_calls_In. exists i. auto. }
    destruct (Nat.eq_dec d 0) as [Ed|Ed].
    - left. destruct (Z.eq_dec (iend i) (istart i + 1)) as [->|Hne]; [lia|]. exfalso.
      assert (Ex : vadd n (istart i :: yz) dir = istart i + 1 :: yz).
      { apply (list_ext n); [apply vadd_length|cbn [length]; congruence|]. intros k Hk. rewrite nth_vadd by auto. unfold dir. rewrite nth_unit, Ed by auto. destruct k; cbn [nth Nat.eqb]; lia. }
      destruct (CI (istart i)) as (A0 & A1 & A2); [unfold in_i; lia|]. destruct (CI (istart i + 1)) as (B0 & B1 & B2); [unfold in_i; lia|]. rewrite <- Ex in B1, B2.
      destruct Hs as [->| ->].
      + assert (l = S l); [|lia]. apply (DJ l (S l) _ _ B1 A2); [lia|]. f_equal. lia.
      + rewrite add_neg0 in B2 by auto. assert (l = S l); [|lia]. apply (DJ l (S l) _ _ A1 B2); [lia|]. f_equal. lia.
    - right. assert (SIB : forall x e, in_i i x -> (e = 1 /\ x mod 2 = 0 \/ e = -1 /\ x mod 2 = 1) -> in_i i (x + e)).
      { intros x e Hx He. destruct (CI x Hx) as (A0 & A1 & A2). destruct (jump_sibling s l (x :: yz) e Hs A0 A1 A2 Ed He) as [Q1 Q2].
        assert (Ez : vadd n (x :: yz) (unit_mult n 0 e) = x + e :: yz).
        { apply (list_ext n); [apply vadd_length|cbn [length]; congruence|]. intros k Hk. rewrite nth_vadd, nth_unit by auto. destruct k; cbn [nth Nat.eqb]; lia. }
        rewrite Ez in Q1, Q2. assert (Hz' : In (x + e :: yz) (cells_of_calls calls)) by (apply M'; spl; auto).
        apply cells_of_calls_In in Hz' as (j & Hj & Hjx). assert (D : {i = j} + {i <> j}) by (decide equality; apply Z.eq_dec). destruct D as [->|Ne]; [exact Hjx|]. exfalso. unfold in_i in *.
        destruct (V j yz Hj) as [_ Vj]. assert (e = 1 \/ e = -1) by (destruct He as [[-> _]|[-> _]]; auto). destruct (SEP i j yz Hin Hj Ne) as [C|C]; lia. }
      pose proof (Z.mod_pos_bound (istart i) 2 ltac:(lia)). pose proof (Z.mod_pos_bound (iend i - 1) 2 ltac:(lia)).
      assert (E0 : istart i mod 2 = 0).
      { destruct (Z.eq_dec (istart i mod 2) 0); auto. exfalso. specialize (SIB (istart i) (-1)). unfold in_i in SIB. destruct SIB; lia. }
      assert (E1 : (iend i - 1) mod 2 = 1).
      { destruct (Z.eq_dec ((iend i - 1) mod 2) 1); auto. exfalso. specialize (SIB (iend i - 1) 1). unfold in_i in SIB. destruct SIB; lia. }
      apply Nat.even_spec. exists (Z.to_nat ((iend i - istart i) / 2)). clear - E0 E1 V2. lia.
  Qed.
End Even.

(** ** The scheme by intervals against the scheme cell by cell *)

Lemma add_interior_inv : forall evs out o, add_interior evs out = Some o -> forall i k, (o i k == out i k + sum_over (ev_term i k) evs)%Q.
Proof.
  induction evs as [|[cs [lv rv]] evs IH]; intros out o H i k; cbn [add_interior] in H.
  - injection H as <-. rewrite sum_nil. ring.
  - unfold add_value in H. destruct (nth_error cs 0) as [a|] eqn:E0; [|discriminate]. destruct (nth_error cs 1) as [b|] eqn:E1; [|discriminate]. cbv beta zeta iota in H.
    rewrite (IH _ _ H), sum_cons. unfold ev_term at 2. cbn [fst snd]. unfold first_index. rewrite E0, E1. unfold hit. destruct (i =? sc_index a), (i =? sc_index b); ring.
Qed.
Lemma add_boundary_inv : forall evs out o, add_boundary evs out = Some o -> forall i k, (o i k == out i k + sum_over (bev_term i k) evs)%Q.
Proof.
  induction evs as [|[cs v] evs IH]; intros out o H i k; cbn [add_boundary] in H.
  - injection H as <-. rewrite sum_nil. ring.
  - unfold add_value in H. destruct (nth_error cs 0) as [a|] eqn:E0; [|discriminate]. cbv beta zeta iota in H.
    rewrite (IH _ _ H), sum_cons. unfold bev_term at 2. cbn [fst snd]. unfold first_index. rewrite E0. unfold hit. destruct (i =? sc_index a); ring.
Qed.

(** The runs of a direction: they exist, whatever the field, and what they add is linear. *)
Definition dir_runs (n maxl : nat) (scaling : Q) (ref cells : ca) (domain : lca) (ib : bool) (d : nat) (lf : lin_flux) (rs : list (run * (coeffs * coeffs))) (bs : list (run * coeffs)) : Prop :=
  lin_interior n maxl scaling ref cells d lf = Some rs /\ Forall run_ok rs /\
  if ib then lin_boundary n scaling ref cells domain d lf = Some bs /\ Forall brun_ok bs else bs = [].
Definition runs_effect (os fs : nat) (u : output) (rs : list (run * (coeffs * coeffs))) (bs : list (run * coeffs)) (i : Z) (k : nat) : Q :=
  (sum_over (fun e => run_effect os fs u e i k) rs + sum_over (fun e => brun_effect os fs u e i k) bs)%Q.

Lemma apply_dir_runs : forall debug n maxl os fs scaling ref cells domain ib u d lf rs bs out, dir_runs n maxl scaling ref cells domain ib d lf rs bs ->
  exists out', lin_apply_dir debug n maxl os fs scaling ref cells domain ib u d lf out = Some out' /\ forall i k, (out' i k == out i k + runs_effect os fs u rs bs i k)%Q.
Proof.
  intros debug n maxl os fs scaling ref cells domain ib u d lf rs bs out (E & R & B). unfold lin_apply_dir. rewrite E. rewrite Forall_forall in R.
  destruct (fold_add _ (fun out e => apply_run debug os fs u e out) (run_effect os fs u) rs) with (o := out) as (o1 & E1 & S1).
  { intros a o Ha. apply apply_run_spec. auto. }
  rewrite E1. destruct ib.
  - destruct B as [Eb Rb]. rewrite Eb. rewrite Forall_forall in Rb.
    destruct (fold_add _ (fun out e => apply_boundary_run os fs u e out) (brun_effect os fs u) bs) with (o := o1) as (o2 & E2 & S2).
    { intros a o Ha. apply apply_boundary_run_spec. auto. }
    exists o2. split; [exact E2|]. intros i k. rewrite S2, S1. unfold runs_effect. ring.
  - subst bs. exists o1. split; [reflexivity|]. intros i k. rewrite S1. unfold runs_effect. rewrite sum_nil. ring.
Qed.

Section Equal.
  Context (n maxl os fs : nat) (u : output) (scaling : Q) (ref cells : ca) (domain : lca) (ib : bool) (lfs : nat -> lin_flux) (nfs : nat -> normal_flux).
  Context (HS : forall d, (d <= n)%nat -> nf_stencil (nfs d) = lf_stencil (lfs d)).
  Context (HE : forall d, (d <= n)%nat -> even_runs n maxl cells (unit_mult n d 1)).
  Context (HA : forall d L, (d <= n)%nat -> agrees os fs u (flux_function (nfs d)) L (length (lf_stencil (lfs d))) (lf_cons (lfs d) (cell_length scaling L))).
  Context (LV : forall l, In l (levels cells) -> a_level (c_at cells l) = l).

  Lemma dir_equal : forall d out o, (d <= n)%nat -> scheme_apply_dir n maxl scaling ref cells domain ib d (nfs d) out = Some o ->
    exists rs bs, dir_runs n maxl scaling ref cells domain ib d (lfs d) rs bs /\ forall i k, (k < os)%nat -> (o i k == out i k + runs_effect os fs u rs bs i k)%Q.
  Proof.
    intros d out o Hd H. unfold scheme_apply_dir in H.
    destruct (scheme_interior n maxl scaling ref cells d (nfs d)) as [evs|] eqn:Ei; [|discriminate]. destruct (add_interior evs out) as [o1|] eqn:E1; [|discriminate].
    destruct (lin_interior_spec n os fs u maxl scaling ref cells d (lfs d) (nfs d) (HS d Hd) (HE d Hd) (fun L => HA d L Hd) LV evs Ei) as (rs & Er & R & S1).
    pose proof (add_interior_inv _ _ _ E1) as A1. destruct ib.
    - destruct (scheme_boundary n scaling ref cells domain d (nfs d)) as [bvs|] eqn:Eb; [|discriminate].
      destruct (lin_boundary_spec n os fs u scaling ref cells domain d (lfs d) (nfs d) (HS d Hd) (fun L => HA d L Hd) bvs Eb) as (bs & Ebs & Rb & S2).
      pose proof (add_boundary_inv _ _ _ H) as A2. exists rs, bs. split; [split; [exact Er|]; split; [exact R|]; split; auto|].
      intros i k Hk. rewrite A2, A1. unfold runs_effect. rewrite S1, S2 by auto. ring.
    - injection H as <-. exists rs, []. split; [split; [exact Er|]; split; [exact R|reflexivity]|]. intros i k Hk. rewrite A1. unfold runs_effect. rewrite sum_nil, S1 by auto. ring.
  Qed.
  Lemma dirs_equal : forall debug ds out out' o, (forall d, In d ds -> (d <= n)%nat) -> (forall i k, (k < os)%nat -> (out' i k == out i k)%Q) ->
    scheme_apply_dirs n maxl scaling ref cells domain ib nfs ds out = Some o ->
    exists o', fold_opt (fun out d => lin_apply_dir debug n maxl os fs scaling ref cells domain ib u d (lfs d) out) ds out' = Some o' /\ forall i k, (k < os)%nat -> (o' i k == o i k)%Q.
  Proof.
    intros debug. induction ds as [|d ds IH]; intros out out' o Hd H0 H; cbn [scheme_apply_dirs fold_opt] in *.
    - injection H as <-. exists out'. split; auto.
    - destruct (scheme_apply_dir n maxl scaling ref cells domain ib d (nfs d) out) as [o1|] eqn:E1; [|discriminate].
      destruct (dir_equal d out o1 (Hd d (or_introl eq_refl)) E1) as (rs & bs & R & S1).
      destruct (apply_dir_runs debug n maxl os fs scaling ref cells domain ib u d (lfs d) rs bs out' R) as (o2 & -> & S2).
      apply (IH o1 o2 o); auto. { intros d' Hd'. apply Hd. right; auto. }
      intros i k Hk. rewrite S2, S1, H0 by auto. reflexivity.
  Qed.
  Lemma lin_equal : forall debug o, scheme_apply_to n maxl scaling ref cells domain ib nfs = Some o ->
    exists o', lin_apply_to debug n maxl os fs scaling ref cells domain ib u lfs = Some o' /\ forall i k, (k < os)%nat -> (o' i k == o i k)%Q.
  Proof.
    intros debug o H. apply (dirs_equal debug (seq 0 (S n)) (fun _ _ => 0%Q)); auto; [|intros; reflexivity]. intros d Hd. apply in_seq in Hd. lia.
  Qed.
End Equal.

(** ** What the scheme must compute *)

(** The flux through a face of the level [L]: the sum over the cells of the stencil and the
    components of the field of coefficient times value, the coefficients being those for the
    size of the cells of this level. *)
Definition flux_sum (fs : nat) (u : output) (fc : coeffs) (es : list scell) (k : nat) : Q :=
  sum_over (fun '(m, e) => sum_over (fun j => m k j * u (sc_index e) j)%Q (seq 0 fs)) (combine fc es).
Definition linear_flux (fs : nat) (scaling : Q) (u : output) (lf : lin_flux) : normal_flux :=
  mkNF (lf_stencil lf) (fun es => match es with [] => fun _ => 0%Q | e :: _ => flux_sum fs u (lf_cons lf (edge scaling (sc_level e))) es end) None.

(** The hypotheses of C53 on the mesh, and coefficients for all cells of the stencil. *)
Record lin_mesh (n m : nat) (hist : nat -> list lcl_call) (maxl : nat) (st : stencil) (cells : ca) (domain : lca) (scaling : Q) (ib : bool) (lfs : nat -> lin_flux) : Prop := {
  lm_hist : good_hist n m hist;
  lm_scaling : ~ (scaling == 0)%Q;
  lm_mesh : forall d, (d <= n)%nat -> interface_mesh n d maxl st cells;
  lm_room : forall d, (d <= n)%nat -> stencil_room n d (client_ca n m hist true) cells (lf_stencil (lfs d));
  lm_boundary : ib = true -> forall d, (d <= n)%nat -> boundary_mesh n d domain (client_ca n m hist true) cells (lf_stencil (lfs d));
  lm_stencil : forall d, (d <= n)%nat -> good_stencil n d (lf_stencil (lfs d));
  lm_coeffs : forall d h, (d <= n)%nat -> length (lf_cons (lfs d) h) = length (lf_stencil (lfs d)) }.

Lemma flux_sum_value : forall fs u fc es k, (flux_sum fs u fc es k == lin_value fs u fc es k)%Q.
Proof.
  intros fs u fc es k. unfold flux_sum, lin_value. rewrite sum_swap. apply sum_ext. intros [m e] _. reflexivity.
Qed.

Lemma linear_agrees : forall os fs u scaling lf L, length (lf_cons lf (cell_length scaling L)) = length (lf_stencil lf) ->
  agrees os fs u (flux_function (linear_flux fs scaling u lf)) L (length (lf_stencil lf)) (lf_cons lf (cell_length scaling L)).
Proof.
  intros os fs u scaling lf L HL. split; [exact HL|]. intros es He F k _.
  assert (E : (nf_cons (linear_flux fs scaling u lf) es k == lin_value fs u (lf_cons lf (cell_length scaling L)) es k)%Q).
  { destruct es as [|e es]; cbn [linear_flux nf_cons].
    - unfold lin_value. rewrite sum_zero; [reflexivity|]. intros j _. destruct (lf_cons lf (cell_length scaling L)); reflexivity.
    - rewrite (Forall_inv F). apply flux_sum_value. }
  unfold flux_function. cbn [linear_flux nf_flux flux_as_conservative fst snd]. unfold flux_as_conservative. cbn [fst snd]. split; [exact E|]. rewrite E. reflexivity.
Qed.

Section Theorems.
  Context (n m : nat) (hist : nat -> list lcl_call) (maxl : nat) (st : stencil) (cells : ca) (domain : lca) (scaling : Q) (ib : bool) (lfs : nat -> lin_flux).
  Context (LM : lin_mesh n m hist maxl st cells domain scaling ib lfs).
  Let ref := client_ca n m hist true.

  Lemma lm_even : forall d, (d <= n)%nat -> even_runs n maxl cells (unit_mult n d 1).
  Proof. intros d Hd. apply (jump_sizes n d maxl st cells Hd). apply (lm_mesh _ _ _ _ _ _ _ _ _ _ LM d Hd). Qed.
  Lemma lm_level : forall l, In l (levels cells) -> a_level (c_at cells l) = l.
  Proof.
    intros l Hl. pose proof (lm_mesh _ _ _ _ _ _ _ _ _ _ LM 0%nat (Nat.le_0_l n)) as IM. apply (im_level _ _ _ _ _ IM). apply (proj1 (proj2 (levels_spec cells))). exact Hl.
  Qed.

  (** The two forms agree, with or without the assertions of the code. *)
  Lemma lin_as_nonlinear : forall debug os fs u o, scheme_apply_to n maxl scaling ref cells domain ib (fun d => linear_flux fs scaling u (lfs d)) = Some o ->
    exists o', lin_apply_to debug n maxl os fs scaling ref cells domain ib u lfs = Some o' /\ forall i k, (k < os)%nat -> (o' i k == o i k)%Q.
  Proof.
    intros debug os fs u o H. apply (lin_equal n maxl os fs u scaling ref cells domain ib lfs (fun d => linear_flux fs scaling u (lfs d))); auto.
    - apply lm_even.
    - intros d L Hd. apply linear_agrees. apply (lm_coeffs _ _ _ _ _ _ _ _ _ _ LM d _ Hd).
    - apply lm_level.
  Qed.
  Lemma nf_balance : forall nfs, (forall d, nf_stencil (nfs d) = lf_stencil (lfs d)) ->
    exists out, scheme_apply_to n maxl scaling ref cells domain ib nfs = Some out /\
    forall cs dc, enumerates n cells domain cs dc ->
      (forall l p i k, ca_mem n cells l p -> ca_get_index n ref l p = Some i ->
        (volume n scaling l * out i k == balance n scaling ref cs (a_level domain) dc ib nfs (l, p) k)%Q) /\
      (forall i k, (forall l p, ca_mem n cells l p -> ca_get_index n ref l p <> Some i) -> (out i k == 0)%Q).
  Proof.
    intros nfs H. destruct LM as [G HS HM HR HB HG HC]. apply (C53_balance n m hist maxl st cells domain scaling ib nfs); auto.
    - intros d Hd. rewrite H. auto.
    - intros Hb d Hd. rewrite H. auto.
    - intros d Hd. rewrite H. auto.
  Qed.
  Lemma all_dir_runs : forall d, (d <= n)%nat -> exists rs bs, dir_runs n maxl scaling ref cells domain ib d (lfs d) rs bs.
  Proof.
    intros d0 Hd0. set (nfs := fun d => linear_flux 0 scaling (fun _ _ => 0%Q) (lfs d)). destruct (nf_balance nfs) as (o & E & _); [reflexivity|].
    assert (G : forall ds out o, scheme_apply_dirs n maxl scaling ref cells domain ib nfs ds out = Some o -> (forall d, In d ds -> (d <= n)%nat) -> In d0 ds ->
      exists rs bs, dir_runs n maxl scaling ref cells domain ib d0 (lfs d0) rs bs).
    { induction ds as [|d ds IH]; intros out o1 H Hd Hin; [destruct Hin|]. cbn [scheme_apply_dirs] in H. destruct Hin as [->|Hi].
      - destruct (scheme_apply_dir n maxl scaling ref cells domain ib d0 (nfs d0) out) as [o2|] eqn:E1; [|discriminate].
        destruct (dir_equal n maxl 0 0 (fun _ _ => 0%Q) scaling ref cells domain ib lfs nfs (fun _ _ => eq_refl) lm_even) with (d := d0) (out := out) (o := o2) as (rs & bs & R & _); eauto.
        + intros d L Hd'. apply linear_agrees. apply (lm_coeffs _ _ _ _ _ _ _ _ _ _ LM d _ Hd').
        + apply lm_level.
      - destruct (scheme_apply_dir n maxl scaling ref cells domain ib d (nfs d) out) as [o2|]; [|discriminate]. apply (IH _ _ H); auto. intros d' Hd'. apply Hd. right; auto. }
    apply (G (seq 0 (S n)) (fun _ _ => 0%Q) o); [exact E|intros d Hd; apply in_seq in Hd; lia|apply in_seq; lia].
  Qed.
End Theorems.

(** ** The theorems *)

(** After [apply_to] the value of a leaf times its volume is the sum over its faces of the
    linear flux through the face times its area; cells which are no leaf get 0. No assertion
    of the code fails. *)
Theorem C76_balance : forall n m hist maxl st cells domain scaling ib lfs debug os fs u, lin_mesh n m hist maxl st cells domain scaling ib lfs -> let ref := client_ca n m hist true in
  exists out, lin_apply_to debug n maxl os fs scaling ref cells domain ib u lfs = Some out /\
    forall cs dc, enumerates n cells domain cs dc ->
      (forall l p i k, ca_mem n cells l p -> ca_get_index n ref l p = Some i -> (k < os)%nat ->
        (volume n scaling l * out i k == balance n scaling ref cs (a_level domain) dc ib (fun d => linear_flux fs scaling u (lfs d)) (l, p) k)%Q) /\
      (forall i k, (forall l p, ca_mem n cells l p -> ca_get_index n ref l p <> Some i) -> (k < os)%nat -> (out i k == 0)%Q).
Proof.
  intros n m hist maxl st cells domain scaling ib lfs debug os fs u LM ref.
  destruct (nf_balance _ _ _ _ _ _ _ _ _ _ LM (fun d => linear_flux fs scaling u (lfs d)) (fun _ => eq_refl)) as (o & E & B).
  destruct (lin_as_nonlinear _ _ _ _ _ _ _ _ _ _ LM debug os fs u o E) as (o' & E' & S'). exists o'. split; [exact E'|]. intros cs dc EN. destruct (B cs dc EN) as [B1 B2]. split.
  - intros l p i k Hl Hi Hk. rewrite S' by auto. apply B1; auto.
  - intros i k Hi Hk. rewrite S' by auto. apply B2; auto.
Qed.

(** Nothing is created inside: the total is what passes through the boundary. *)
Theorem C76_conservation : forall n m hist maxl st cells domain scaling ib lfs debug os fs u, lin_mesh n m hist maxl st cells domain scaling ib lfs -> let ref := client_ca n m hist true in
  exists out, lin_apply_to debug n maxl os fs scaling ref cells domain ib u lfs = Some out /\
    forall cs dc k, enumerates n cells domain cs dc -> (k < os)%nat ->
      (sum_over (fun c => volume n scaling (fst c) * out (index_of n ref c) k) cs ==
       if ib then sum_over (fun d => sum_over (fun c => boundary_balance n scaling ref (a_level domain) dc (fun d => linear_flux fs scaling u (lfs d)) d c k) cs) (seq 0 (S n)) else 0)%Q.
Proof.
  intros n m hist maxl st cells domain scaling ib lfs debug os fs u LM ref. pose proof LM as [G HS HM HR HB HG HC].
  destruct (C53_conservation n m hist maxl st cells domain scaling ib (fun d => linear_flux fs scaling u (lfs d))) as (o & E & B); auto.
  { intros d _. apply make_conservative. }
  destruct (lin_as_nonlinear _ _ _ _ _ _ _ _ _ _ LM debug os fs u o E) as (o' & E' & S'). exists o'. split; [exact E'|]. intros cs dc k EN Hk. eapply Qeq_trans; [|exact (B cs dc k EN)].
  apply sum_ext. intros c _. rewrite S' by auto. reflexivity.
Qed.

(** A constant field is in equilibrium if the sum of its coefficients does not depend on the
    size of the cells: every leaf gets 0, also next to finer or coarser leaves. *)
Theorem C76_free_stream : forall n m hist maxl st cells domain scaling lfs debug os fs (c : value) (w : nat -> value), lin_mesh n m hist maxl st cells domain scaling true lfs ->
  covers n cells domain -> aligned n cells domain ->
  (forall d h k, (d <= n)%nat -> (k < os)%nat -> (sum_over (fun mt : nat -> nat -> Q => sum_over (fun j => mt k j * c j) (seq 0 fs)) (lf_cons (lfs d) h) == w d k)%Q) ->
  exists out, lin_apply_to debug n maxl os fs scaling (client_ca n m hist true) cells domain true (fun _ => c) lfs = Some out /\ forall i k, (k < os)%nat -> (out i k == 0)%Q.
Proof.
  intros n m hist maxl st cells domain scaling lfs debug os fs c w LM CV AL HW. pose proof LM as [G HS HM HR HB HG HC].
  set (nfs := fun d => mkNF (lf_stencil (lfs d)) (fun _ => w d) None).
  destruct (C53_free_stream n m hist maxl st cells domain scaling nfs w) as (o & E & Z0); auto.
  { intros d Hd. apply (HB eq_refl d Hd). } { intros d Hd. apply make_conservative. } { intros. reflexivity. }
  destruct (lin_equal n maxl os fs (fun _ => c) scaling (client_ca n m hist true) cells domain true lfs nfs (fun _ _ => eq_refl)) with (debug := debug) (o := o) as (o' & E' & S'); auto.
  - apply (lm_even _ _ _ _ _ _ _ _ _ _ LM).
  - intros d L Hd. split; [auto|]. intros es He F k Hk. cbn [flux_function nfs nf_flux]. unfold flux_as_conservative. cbn [fst snd nf_cons].
    assert (EW : (w d k == lin_value fs (fun _ => c) (lf_cons (lfs d) (cell_length scaling L)) es k)%Q).
    { rewrite <- (HW d (cell_length scaling L) k Hd Hk), <- flux_sum_value. unfold flux_sum. specialize (HC d (cell_length scaling L) Hd). rewrite <- He in HC. clear -HC.
      revert es HC. induction (lf_cons (lfs d) (cell_length scaling L)) as [|mt fc IH]; intros [|e es] HC; try discriminate; [reflexivity|]. cbn [combine]. rewrite !sum_cons, (IH es) by (injection HC; auto). reflexivity. }
    split; [exact EW|]. rewrite <- EW. reflexivity.
  - apply (lm_level _ _ _ _ _ _ _ _ _ _ LM).
  - exists o'. split; [exact E'|]. intros i k Hk. rewrite S' by auto. apply Z0.
Qed.

(** The scheme is linear in the field. *)
Lemma lin_value_linear : forall fs a b (u v w : output) cs es k, (forall i j, (w i j == a * u i j + b * v i j)%Q) -> (lin_value fs w cs es k == a * lin_value fs u cs es k + b * lin_value fs v cs es k)%Q.
Proof.
  intros fs a b u v w cs es k H. unfold lin_value. rewrite <- !sum_scale, <- sum_plus. apply sum_ext. intros j _. rewrite <- !sum_scale, <- sum_plus. apply sum_ext. intros [mt e] _. rewrite H. ring.
Qed.
Lemma hit_linear : forall i j a b x y z, (z == a * x + b * y -> hit i j z == a * hit i j x + b * hit i j y)%Q.
Proof. intros i j a b x y z H. unfold hit. destruct (i =? j); [exact H|ring]. Qed.
Lemma effect_linear : forall os fs a b (u v w : output) rs bs i k, (forall i j, (w i j == a * u i j + b * v i j)%Q) ->
  (runs_effect os fs w rs bs i k == a * runs_effect os fs u rs bs i k + b * runs_effect os fs v rs bs i k)%Q.
Proof.
  intros os fs a b u v w rs bs i k H. unfold runs_effect.
  assert (A : (sum_over (fun e => run_effect os fs w e i k) rs == a * sum_over (fun e => run_effect os fs u e i k) rs + b * sum_over (fun e => run_effect os fs v e i k) rs)%Q).
  { rewrite <- !sum_scale, <- sum_plus. apply sum_ext. intros [r [lcs rcs]] _. unfold run_effect. destruct (r_cells r) as [|x [|y [|z l]]]; try ring. destruct (Nat.ltb k os); [|ring].
    rewrite <- !sum_scale, <- sum_plus. apply sum_ext. intros ii _. rewrite !(hit_linear _ _ a b _ _ _ (lin_value_linear fs a b u v w _ _ _ H)). ring. }
  assert (B : (sum_over (fun e => brun_effect os fs w e i k) bs == a * sum_over (fun e => brun_effect os fs u e i k) bs + b * sum_over (fun e => brun_effect os fs v e i k) bs)%Q).
  { rewrite <- !sum_scale, <- sum_plus. apply sum_ext. intros [r cs] _. unfold brun_effect. destruct (r_cells r) as [|x [|y l]]; try ring. destruct (Nat.ltb k os); [|ring].
    rewrite <- !sum_scale, <- sum_plus. apply sum_ext. intros ii _. apply hit_linear. apply lin_value_linear. exact H. }
  rewrite A, B. ring.
Qed.
Theorem C76_linear : forall n m hist maxl st cells domain scaling ib lfs debug os fs a b (u v w : output), lin_mesh n m hist maxl st cells domain scaling ib lfs ->
  (forall i j, (w i j == a * u i j + b * v i j)%Q) -> let ref := client_ca n m hist true in
  exists ou ov ow, lin_apply_to debug n maxl os fs scaling ref cells domain ib u lfs = Some ou /\ lin_apply_to debug n maxl os fs scaling ref cells domain ib v lfs = Some ov /\
    lin_apply_to debug n maxl os fs scaling ref cells domain ib w lfs = Some ow /\ forall i k, (ow i k == a * ou i k + b * ov i k)%Q.
Proof.
  intros n m hist maxl st cells domain scaling ib lfs debug os fs a b u v w LM H ref.
  assert (G : forall ds, (forall d, In d ds -> (d <= n)%nat) -> forall ou ov ow, (forall i k, (ow i k == a * ou i k + b * ov i k)%Q) ->
    exists ou' ov' ow', fold_opt (fun out d => lin_apply_dir debug n maxl os fs scaling ref cells domain ib u d (lfs d) out) ds ou = Some ou' /\
      fold_opt (fun out d => lin_apply_dir debug n maxl os fs scaling ref cells domain ib v d (lfs d) out) ds ov = Some ov' /\
      fold_opt (fun out d => lin_apply_dir debug n maxl os fs scaling ref cells domain ib w d (lfs d) out) ds ow = Some ow' /\ forall i k, (ow' i k == a * ou' i k + b * ov' i k)%Q).
  { induction ds as [|d ds IH]; intros Hd ou ov ow E; [exists ou, ov, ow; auto|]. cbn [fold_opt].
    destruct (all_dir_runs _ _ _ _ _ _ _ _ _ _ LM d (Hd d (or_introl eq_refl))) as (rs & bs & R).
    destruct (apply_dir_runs debug n maxl os fs scaling ref cells domain ib u d (lfs d) rs bs ou R) as (o1 & E1 & S1).
    destruct (apply_dir_runs debug n maxl os fs scaling ref cells domain ib v d (lfs d) rs bs ov R) as (o2 & E2 & S2).
    destruct (apply_dir_runs debug n maxl os fs scaling ref cells domain ib w d (lfs d) rs bs ow R) as (o3 & E3 & S3). rewrite E1, E2, E3.
    apply IH; [intros d' Hd'; apply Hd; right; auto|]. intros i k. rewrite S1, S2, S3, E, (effect_linear os fs a b u v w rs bs i k H). ring. }
  destruct (G (seq 0 (S n))) with (ou := fun (_ : Z) (_ : nat) => 0%Q) (ov := fun (_ : Z) (_ : nat) => 0%Q) (ow := fun (_ : Z) (_ : nat) => 0%Q) as (ou & ov & ow & E1 & E2 & E3 & S1).
  - intros d Hd. apply in_seq in Hd. lia.
  - intros. ring.
  - exists ou, ov, ow. auto.
Qed.

(** With several threads: the accesses to the local vectors are inside of them, and in
    whatever order the atomic additions of all intervals of the direction are made, the
    field becomes the one of the sequential loops. *)
Theorem C76_parallel : forall n m hist maxl st cells domain scaling ib lfs debug os fs u d, lin_mesh n m hist maxl st cells domain scaling ib lfs -> (d <= n)%nat ->
  let ref := client_ca n m hist true in
  exists rs uss, lin_interior n maxl scaling ref cells d (lfs d) = Some rs /\ Forall2 (fun e us => run_updates debug os fs u e = Some us) rs uss /\
    forall us out, Permutation us (concat uss) -> exists out', fold_opt (fun out e => apply_run debug os fs u e out) rs out = Some out' /\
      forall i k, (run_atomics us out i k == out' i k)%Q.
Proof.
  intros n m hist maxl st cells domain scaling ib lfs debug os fs u d LM Hd ref. destruct (all_dir_runs _ _ _ _ _ _ _ _ _ _ LM d Hd) as (rs & bs & E & R & _).
  assert (U : exists uss, Forall2 (fun e us => run_updates debug os fs u e = Some us) rs uss /\ forall i k, (atomics_effect (concat uss) i k == sum_over (fun e => run_effect os fs u e i k) rs)%Q).
  { clear E. induction R as [|e rs He R IH]; [exists []; split; [constructor|reflexivity]|]. destruct IH as (uss & F & S1). destruct (run_updates_spec debug os fs u e He) as (us & Eu & S2).
    exists (us :: uss). split; [constructor; auto|]. intros i k. cbn [concat]. unfold atomics_effect in *. rewrite sum_app, sum_cons, S1, S2. reflexivity. }
  destruct U as (uss & F & SU). exists rs, uss. split; [exact E|]. split; [exact F|]. intros us out P. rewrite Forall_forall in R.
  destruct (fold_add _ (fun out e => apply_run debug os fs u e out) (run_effect os fs u) rs) with (o := out) as (o1 & E1 & S1).
  { intros a o Ha. apply apply_run_spec. auto. }
  exists o1. split; [exact E1|]. intros i k. rewrite S1, run_atomics_spec, <- SU. apply Qplus_comp; [reflexivity|]. unfold atomics_effect. apply sum_perm. exact P.
Qed.

(** ** The operators *)

(** The fluxes between the cells [a] and [b]. *)
Definition pair_flux (fs : nat) (u : output) (fc : coeffs) (a b : scell) (k : nat) : Q := flux_sum fs u fc [a; b] k.
Lemma sum_diag : forall fs k (f : nat -> Q), (k < fs)%nat -> (sum_over (fun j => if Nat.eqb k j then f j else 0) (seq 0 fs) == f k)%Q.
Proof.
  intros fs k f Hk. rewrite <- (sum_only k fs f Hk). apply sum_ext. intros j _. unfold only. reflexivity.
Qed.
Lemma pair_flux_sum : forall fs u l r a b k, (pair_flux fs u [l; r] a b k == sum_over (fun j => l k j * u (sc_index a) j) (seq 0 fs) + sum_over (fun j => r k j * u (sc_index b) j) (seq 0 fs))%Q.
Proof. intros. unfold pair_flux, flux_sum. cbn [combine]. rewrite !sum_cons, sum_nil. ring. Qed.
Lemma sum_row : forall fs k (m f g : nat -> Q), (k < fs)%nat -> (forall j, (m j == if Nat.eqb k j then g j else 0)%Q) -> (sum_over (fun j => m j * f j) (seq 0 fs) == g k * f k)%Q.
Proof.
  intros fs k m f g Hk H. rewrite <- (sum_diag fs k (fun j => g j * f j)%Q Hk). apply sum_ext. intros j _. rewrite H. destruct (Nat.eqb k j); ring.
Qed.

Theorem C76_operators : forall u a b h K,
  (forall fs d k, (k < fs)%nat -> ~ (h == 0)%Q -> (pair_flux fs u (diffusion_coeffs K d h) a b k == - K d * ((u (sc_index b) k - u (sc_index a) k) / h))%Q) /\
  (forall fs d k, (k < fs)%nat -> ~ (h == 0)%Q -> (pair_flux fs u (multi_diffusion_coeffs K d h) a b k == - K k * ((u (sc_index b) k - u (sc_index a) k) / h))%Q) /\
  (forall fs d, (d < fs)%nat -> (pair_flux fs u (divergence_coeffs d h) a b 0 == (u (sc_index a) d + u (sc_index b) d) / 2)%Q) /\
  (forall d k, (pair_flux 1 u (gradient_coeffs d h) a b k == if Nat.eqb k d then (u (sc_index a) 0%nat + u (sc_index b) 0%nat) / 2 else 0)%Q) /\
  (forall d, (pair_flux 1 u (upwind_coeffs 1 K d h) a b 0 == if Qle_bool 0 (K d) then K d * u (sc_index a) 0%nat else K d * u (sc_index b) 0%nat)%Q).
Proof.
  intros u a b h K. split; [|split; [|split; [|split]]].
  - intros fs d k Hk Hh. unfold diffusion_coeffs. rewrite pair_flux_sum. unfold diag.
    rewrite (sum_row fs k _ _ (fun _ => (- 1 / h) * - K d)%Q Hk), (sum_row fs k _ _ (fun _ => (1 / h) * - K d)%Q Hk) by (intros j; destruct (Nat.eqb k j); ring). field. exact Hh.
  - intros fs d k Hk Hh. unfold multi_diffusion_coeffs. rewrite pair_flux_sum. unfold diag.
    rewrite (sum_row fs k _ _ (fun _ => (- 1 / h) * - K k)%Q Hk), (sum_row fs k _ _ (fun _ => (1 / h) * - K k)%Q Hk) by (intros j; destruct (Nat.eqb k j); ring). field. exact Hh.
  - intros fs d Hd. unfold divergence_coeffs. rewrite pair_flux_sum.
    rewrite (sum_row fs d _ _ (fun _ => 1 # 2)%Q Hd), (sum_row fs d _ _ (fun _ => 1 # 2)%Q Hd) by (intros j; rewrite (Nat.eqb_sym d j); reflexivity). field.
  - intros d k. unfold gradient_coeffs. rewrite pair_flux_sum. cbn [seq]. rewrite !sum_cons, !sum_nil. destruct (Nat.eqb k d); field.
  - intros d. unfold upwind_coeffs. cbn [Nat.eqb]. destruct (Qle_bool 0 (K d)); rewrite pair_flux_sum; cbn [seq]; rewrite !sum_cons, !sum_nil; ring.
Qed.

(** They are all in equilibrium on constants. *)
Inductive operator (os fs : nat) : (nat -> Q -> coeffs) -> Prop :=
| op_diffusion : forall K, os = fs -> operator os fs (diffusion_coeffs K)
| op_multi : forall K, os = fs -> operator os fs (multi_diffusion_coeffs K)
| op_divergence : operator os fs divergence_coeffs
| op_gradient : operator os fs gradient_coeffs
| op_upwind : forall v, operator os fs (upwind_coeffs os v).
Theorem C76_constants : forall n m hist maxl st cells domain scaling debug os fs op c, operator os fs op -> let lfs := fun d => mkLF (in_out_stencil n (unit_mult n d 1)) (op d) in
  lin_mesh n m hist maxl st cells domain scaling true lfs -> covers n cells domain -> aligned n cells domain ->
  exists out, lin_apply_to debug n maxl os fs scaling (client_ca n m hist true) cells domain true (fun _ => c) lfs = Some out /\ forall i k, (k < os)%nat -> (out i k == 0)%Q.
Proof.
  intros n m hist maxl st cells domain scaling debug os fs op c OP lfs LM CV AL.
  apply (C76_free_stream n m hist maxl st cells domain scaling lfs debug os fs c
    (fun d k => sum_over (fun mt : nat -> nat -> Q => sum_over (fun j => mt k j * c j)%Q (seq 0 fs)) (op d 1%Q)) LM CV AL).
  intros d h k _ Hk. cbn [lfs lf_cons]. destruct OP as [K ->|K ->| | |v].
  - unfold diffusion_coeffs. rewrite !sum_cons, !sum_nil, !Qplus_0_r, <- !sum_plus. apply sum_ext. intros j _. unfold diag. destruct (Nat.eqb k j); unfold Qdiv; ring.
  - unfold multi_diffusion_coeffs. rewrite !sum_cons, !sum_nil, !Qplus_0_r, <- !sum_plus. apply sum_ext. intros j _. unfold diag. destruct (Nat.eqb k j); unfold Qdiv; ring.
  - reflexivity.
  - reflexivity.
  - reflexivity.
Qed.

(** ** Examples: the mesh with three levels of C47, on the square of edge 1 *)
Definition exOp (op : nat -> Q -> coeffs) (d : nat) : lin_flux := mkLF (in_out_stencil 1 (unit_mult 1 d 1)) (op d).
Example C76_hypotheses : forall op, (forall d h, length (op d h) = 2%nat) -> lin_mesh 1 3 roomHist 3 star2 exMesh exDomain 1 true (exOp op) /\ covers 1 exMesh exDomain /\ aligned 1 exMesh exDomain.
Proof.
  intros op H. split; [|split; [exact exCovers|exact exAligned]]. constructor.
  - exact roomHist_ok.
  - discriminate.
  - exact exMesh_interface.
  - intros d Hd. apply ghosts_room; [auto|exact roomRef_ghosts].
  - intros _. exact exBoundary.
  - exact exGood.
  - intros d h _. cbn [exOp lf_cons lf_stencil]. rewrite H. reflexivity.
Qed.

(** A field with two components: the square of the index, and 1. *)
Definition exField : output := fun i j => match j with O => (inject_Z i * inject_Z i)%Q | _ => 1%Q end.
Definition exLin (debug ib : bool) (os fs : nat) (op : nat -> Q -> coeffs) (k : nat) : option (list Q) :=
  option_map (fun out : output => map (fun c => Qred (out (index_of 1 roomRef c) k)) PropsInterface.exLeaves) (lin_apply_to debug 1 3 os fs 1 roomRef exMesh exDomain ib exField (exOp op)).
Example C76_example_diffusion : exists v, exLin true true 2 2 (diffusion_coeffs (fun d => inject_Z (Z.of_nat d + 1))) 0 = Some v /\ nth 0 v 0%Q <> 0%Q /\
  Qred (sum_over (fun '(c, x) => volume 1 1 (fst c) * x)%Q (combine PropsInterface.exLeaves v)) <> 0%Q /\
  exLin true true 2 2 (diffusion_coeffs (fun d => inject_Z (Z.of_nat d + 1))) 1 = Some (map (fun _ => 0%Q) PropsInterface.exLeaves).
Proof. eexists. split; [vm_compute; reflexivity|]. split; [vm_compute; discriminate|]. split; [vm_compute; discriminate|]. vm_compute. reflexivity. Qed.
Example C76_example_conservation : exists v, exLin true false 2 2 (diffusion_coeffs (fun d => inject_Z (Z.of_nat d + 1))) 0 = Some v /\ nth 0 v 0%Q <> 0%Q /\
  Qred (sum_over (fun '(c, x) => volume 1 1 (fst c) * x)%Q (combine PropsInterface.exLeaves v)) = 0%Q.
Proof. eexists. split; [vm_compute; reflexivity|]. split; [vm_compute; discriminate|]. vm_compute. reflexivity. Qed.

(** ** Statements which do not hold *)

(** Convection of a field with several components at the velocity [v]: every component k
    should be transported, with the flux v_d u_k of the upwind cell. The coefficients fill
    the column d, so that the flux of every component is v_d u_d. *)
Theorem C76_upwind_vector_refuted :
  (forall fs u v d h a b k, (2 <= fs)%nat -> (d < fs)%nat -> (0 <= v d)%Q -> (pair_flux fs u (upwind_coeffs fs v d h) a b k == v d * u (sc_index a) d)%Q) /\
  (exists v u a b, (0 <= v 0%nat)%Q /\ ~ (pair_flux 2 u (upwind_coeffs 2 v 0%nat 1%Q) a b 1 == v 0%nat * u (sc_index a) 1%nat)%Q) /\
  (* the second component is 1 in all cells, its transport should give 0 *)
  exLin true true 2 2 (upwind_coeffs 2 (fun _ => 1%Q)) 1 <> Some (map (fun _ => 0%Q) PropsInterface.exLeaves).
Proof.
  split; [|split].
  - intros fs u v d h a b k Hf Hd Hv. unfold upwind_coeffs. destruct (Nat.eqb_spec fs 1); [lia|]. apply Qle_bool_iff in Hv. rewrite Hv. rewrite pair_flux_sum.
    rewrite (sum_row fs d _ _ (fun _ => v d)%Q Hd) by (intros j; rewrite (Nat.eqb_sym d j); reflexivity). rewrite (sum_zero _ _ (seq 0 fs)) by (intros; ring). ring.
  - exists (fun _ => 1%Q), (fun _ j => inject_Z (Z.of_nat j)), e0, e0. split; [discriminate|]. vm_compute. discriminate.
  - vm_compute. discriminate.
Qed.

(** Without the condition that the fine cells next to a coarse one come in families, the
    number of interfaces is odd: the assertion fails, and without assertions the scheme is not
    conservative. *)
Definition odd3 (l : nat) : list lcl_call := match l with 1%nat => [AddI [0] (mk 0 2)] | 2%nat => [AddI [2] (mk 0 3)] | _ => [] end.
Definition odd3Mesh : ca := client_ca 1 2 odd3 true.
Definition odd3Leaves : list (nat * list Z) := [(1%nat, [0; 0]); (1%nat, [1; 0]); (2%nat, [0; 2]); (2%nat, [1; 2]); (2%nat, [2; 2])].
Theorem C76_unaligned_refuted : is_graduated 1 odd3Mesh star2 = Some true /\ option_map leaf_cells (ca_for_each_cell 1 odd3Mesh) = Some odd3Leaves /\
  let op := diffusion_coeffs (fun _ => 1%Q) in
  lin_apply_to true 1 2 1 1 1 roomRef odd3Mesh exDomain false exField (exOp op) = None /\
  exists out, lin_apply_to false 1 2 1 1 1 roomRef odd3Mesh exDomain false exField (exOp op) = Some out /\
    ~ (sum_over (fun c => volume 1 1 (fst c) * out (index_of 1 roomRef c) 0%nat) odd3Leaves == 0)%Q.
Proof.
  split; [vm_compute; reflexivity|]. split; [vm_compute; reflexivity|]. split; [vm_compute; reflexivity|].
  set (r := lin_apply_to false 1 2 1 1 1 roomRef odd3Mesh exDomain false exField (exOp (diffusion_coeffs (fun _ => 1%Q)))).
  assert (E : option_map (fun out : output => Qred (sum_over (fun c => volume 1 1 (fst c) * out (index_of 1 roomRef c) 0%nat)%Q odd3Leaves)) r <> None /\
    option_map (fun out : output => Qeq_bool (sum_over (fun c => volume 1 1 (fst c) * out (index_of 1 roomRef c) 0%nat)%Q odd3Leaves) 0) r = Some false).
  { split; [vm_compute; discriminate|vm_compute; reflexivity]. }
  destruct r as [out|]; [|exfalso; apply (proj1 E); reflexivity]. exists out. split; [reflexivity|]. intros H. destruct E as [_ E]. cbn [option_map] in E. injection E as E.
  apply Qeq_bool_iff in H. rewrite H in E. discriminate.
Qed.

Print Assumptions C76_balance.
Print Assumptions C76_conservation.
Print Assumptions C76_free_stream.
Print Assumptions C76_linear.
Print Assumptions C76_parallel.
Print Assumptions C76_operators.
Print Assumptions C76_constants.
Print Assumptions C76_upwind_vector_refuted.
Print Assumptions C76_unaligned_refuted.
