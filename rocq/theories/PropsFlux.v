(** C53: explicit flux-based schemes are conservative, also across level jumps. *)
From Coq Require Import QArith Qpower.
From Verif Require Import Base IntervalModel Spec LoiModel LcaModel LcaSpec LcaProofs LcaProofs3 RowsProofs CellArrayModel CellArrayProofs
  PropsLca PropsCellArray SubsetModel TreeProofs SubsetSpec SubsetProofs2 PropsSubset StencilModel NumberingProofs StencilProofs PropsStencil
  MeshModel MeshProofs PropsMesh AdaptModel AdaptProofs TagProofs PropsAdapt GradModel GradProofs PropsGrad NumProofs InterfaceModel InterfaceProofs
  PropsInterface GeomModel PropsNum PropsTransfer FluxModel BoundaryProofs PropsBoundary FluxProofs.
Open Scope Z_scope.

(** ** What the scheme must compute *)

(** Cells are (level, coordinates). The edge of a cell, the area of its faces, its volume. *)
Definition edge (scaling : Q) (l : nat) : Q := (scaling / inject_Z (2 ^ Z.of_nat l))%Q.
Definition area (n : nat) (scaling : Q) (l : nat) : Q := (edge scaling l ^ Z.of_nat n)%Q.
Definition volume (n : nat) (scaling : Q) (l : nat) : Q := (edge scaling l ^ Z.of_nat (S n))%Q.

(** [share_face] and [outside] as booleans ([dc] enumerates the domain, of level [M]). *)
Definition shareb (n d : nat) (c1 c2 : nat * list Z) : bool :=
  let '(l1, p1) := c1 in let '(l2, p2) := c2 in
  ((nth d p1 0 + 1) * 2 ^ Z.of_nat l2 =? nth d p2 0 * 2 ^ Z.of_nat l1) &&
  forallb (fun k => Nat.eqb k d || ((nth k p1 0 * 2 ^ Z.of_nat l2 <? (nth k p2 0 + 1) * 2 ^ Z.of_nat l1) &&
                                    (nth k p2 0 * 2 ^ Z.of_nat l1 <? (nth k p1 0 + 1) * 2 ^ Z.of_nat l2))) (seq 0 (S n)).
Definition outsideb (n M : nat) (dc : list (list Z)) (c : nat * list Z) : bool :=
  let '(l, q) := c in
  forallb (fun z => negb (forallb (fun k => (nth k q 0 * 2 ^ Z.of_nat M <? (nth k z 0 + 1) * 2 ^ Z.of_nat l) &&
                                            (nth k z 0 * 2 ^ Z.of_nat l <? (nth k q 0 + 1) * 2 ^ Z.of_nat M)) (seq 0 (S n)))) dc.

Lemma shareb_spec : forall n d l1 p1 l2 p2, shareb n d (l1, p1) (l2, p2) = true <-> share_face n d l1 p1 l2 p2.
Proof.
  intros n d l1 p1 l2 p2. unfold shareb, share_face. rewrite andb_true_iff, Z.eqb_eq, forallb_forall. split; intros [H1 H2]; split; auto.
  - intros k Hk Hn. specialize (H2 k ltac:(apply in_seq; lia)). apply orb_true_iff in H2 as [H2|H2]; [apply Nat.eqb_eq in H2; contradiction|].
    apply andb_true_iff in H2 as [A B]. apply Z.ltb_lt in A, B. auto.
  - intros k Hk. apply in_seq in Hk. destruct (Nat.eq_dec k d) as [->|Hn]; [rewrite Nat.eqb_refl; reflexivity|].
    destruct (H2 k ltac:(lia) Hn) as [A B]. apply orb_true_iff. right. apply andb_true_iff. split; apply Z.ltb_lt; auto.
Qed.
Lemma outsideb_spec : forall n domain dc l q, (forall z, In z dc <-> lca_mem n domain z) -> (outsideb n (a_level domain) dc (l, q) = true <-> outside n domain l q).
Proof.
  intros n domain dc l q HD. unfold outsideb, outside. rewrite forallb_forall. split.
  - intros H z Hz M. apply HD in Hz. specialize (H z Hz). apply negb_true_iff in H. apply Bool.not_true_iff_false in H. apply H. apply forallb_forall.
    intros k Hk. apply in_seq in Hk. destruct (M k ltac:(lia)) as [A B]. apply andb_true_iff. split; apply Z.ltb_lt; auto.
  - intros H z Hz. apply negb_true_iff. apply Bool.not_true_iff_false. intros F. apply HD in Hz. apply (H z Hz). intros k Hk.
    rewrite forallb_forall in F. specialize (F k ltac:(apply in_seq; lia)). apply andb_true_iff in F as [A B]. apply Z.ltb_lt in A, B. auto.
Qed.

(** A cell of the reference mesh with its index. *)
Definition index_of (n : nat) (ref : ca) (c : nat * list Z) : Z := match ca_get_index n ref (fst c) (snd c) with Some i => i | None => 0 end.
Definition cell_at (n : nat) (ref : ca) (c : nat * list Z) : scell := mkSC (fst c) (snd c) (index_of n ref c).

(** The cells given to the flux function: those of the stencil around the cell of the
    finer level, on the lower side of the face. For an interior face between [c1] and
    [c2], and for a boundary face of [c] on either side. *)
Definition stencil_at (n : nat) (ref : ca) (comput : stencil) (l : nat) (o : list Z) : list scell := map (fun v => cell_at n ref (l, vadd n o v)) comput.
Definition around (n : nat) (ref : ca) (comput : stencil) (d : nat) (c1 c2 : nat * list Z) : list scell :=
  if Nat.leb (fst c2) (fst c1) then stencil_at n ref comput (fst c1) (snd c1)
  else stencil_at n ref comput (fst c2) (vadd n (snd c2) (unit_mult n d (-1))).

(** What enters the leaf [c] through its faces in direction [d]: [F d] is the flux
    function of the direction, [cs] enumerates the leaves, [ib] tells whether the
    boundary fluxes are included. *)
Section Balance.
  Context (n : nat) (scaling : Q) (ref : ca) (cs : list (nat * list Z)) (M : nat) (dc : list (list Z)) (ib : bool) (fluxes : nat -> normal_flux).
  Definition inner_flux (d : nat) (c1 c2 : nat * list Z) : value * value := flux_function (fluxes d) (around n ref (nf_stencil (fluxes d)) d c1 c2).
  Definition upper_flux (d : nat) (c : nat * list Z) : value :=
    fst (flux_function (fluxes d) (stencil_at n ref (nf_stencil (fluxes d)) (fst c) (snd c))).
  Definition lower_flux (d : nat) (c : nat * list Z) : value :=
    snd (flux_function (fluxes d) (stencil_at n ref (nf_stencil (fluxes d)) (fst c) (vadd n (snd c) (unit_mult n d (-1))))).
  Definition face_area (c1 c2 : nat * list Z) : Q := area n scaling (Nat.max (fst c1) (fst c2)).
  Definition next (d : nat) (s : Z) (c : nat * list Z) : nat * list Z := (fst c, vadd n (snd c) (unit_mult n d s)).
  Definition interior_balance (d : nat) (c : nat * list Z) (k : nat) : Q :=
    (sum_over (fun c2 => if shareb n d c c2 then face_area c c2 * fst (inner_flux d c c2) k else 0) cs +
     sum_over (fun c1 => if shareb n d c1 c then face_area c1 c * snd (inner_flux d c1 c) k else 0) cs)%Q.
  Definition boundary_balance (d : nat) (c : nat * list Z) (k : nat) : Q :=
    ((if outsideb n M dc (next d 1 c) then area n scaling (fst c) * upper_flux d c k else 0) +
     (if outsideb n M dc (next d (-1) c) then area n scaling (fst c) * lower_flux d c k else 0))%Q.
  Definition balance (c : nat * list Z) (k : nat) : Q :=
    sum_over (fun d => interior_balance d c k + (if ib then boundary_balance d c k else 0))%Q (seq 0 (S n)).
End Balance.

(** ** From events to faces *)
Lemma cell_is_at : forall n ref l p e, cell_is n ref l p e -> e = cell_at n ref (l, p).
Proof. intros n ref l p [l' p' i] (A & B & C). cbn in *. unfold cell_at, index_of. cbn [fst snd]. rewrite C. congruence. Qed.
Lemma stencil_is : forall n ref comput l o es, Forall2 (fun v e => cell_is n ref l (vadd n o v) e) comput es -> es = stencil_at n ref comput l o.
Proof. intros n ref comput l o es F. unfold stencil_at. induction F as [|v e vs es H F IH]; auto. cbn [map]. f_equal; auto. apply cell_is_at; auto. Qed.
Lemma vadd_0 : forall n z, length z = S n -> vadd n z (repeat 0 (S n)) = z.
Proof. intros n z Hz. apply (list_ext n); [apply vadd_length|auto|]. intros k Hk. rewrite nth_vadd by auto. rewrite nth_repeat. lia. Qed.

Section Faces.
  Context (n d maxl : nat) (st : stencil) (ref cells : ca) (domain : lca) (scaling : Q) (nf : normal_flux) (cs : list (nat * list Z)) (dc : list (list Z)).
  Context (Hd : (d <= n)%nat) (NR : numbered n ref) (CN : NoDup cs) (CE : forall l p, In (l, p) cs <-> ca_mem n cells l p).
  Context (DE : forall z, In z dc <-> lca_mem n domain z).
  Let comput := nf_stencil nf.
  Let F := flux_function nf.
  Let h := cell_length scaling.

  Definition pair_term (i : Z) (k : nat) (x : list (nat * list Z)) : Q :=
    match x with
    | [c1; c2] => let phi := F (around n ref comput d c1 c2) in let hf := h (Nat.max (fst c1) (fst c2)) in
        (hit i (index_of n ref c1) (contribution n (fst phi) hf (h (fst c1)) k) + hit i (index_of n ref c2) (contribution n (snd phi) hf (h (fst c2)) k))%Q
    | _ => 0%Q
    end.

  Lemma around_is : forall f a b, call_ok n d ref comput f -> fst f = [a; b] ->
    snd f = around n ref comput d (sc_level a, sc_coord a) (sc_level b, sc_coord b).
  Proof.
    intros f a b (a' & b' & o & Ef & Ha & Hb & Lo & H) E. cbv zeta in H. destruct H as (Aa & Ab & C). rewrite E in Ef. injection Ef as <- <-.
    unfold around. cbn [fst snd]. apply stencil_is in C. rewrite C. destruct (Nat.leb_spec (sc_level b) (sc_level a)) as [L|L].
    - replace (Nat.max (sc_level a) (sc_level b)) with (sc_level a) in * by lia. rewrite Nat.sub_diag, ancestor_0 in Aa. congruence.
    - replace (Nat.max (sc_level a) (sc_level b)) with (sc_level b) in * by lia. rewrite Nat.sub_diag, ancestor_0 in Ab. rewrite <- Ab. f_equal.
      symmetry. change (-1) with (- (1)). apply unit_back. auto.
  Qed.

  Lemma event_term : forall f i k, call_ok n d ref comput f ->
    let e := scheme_event n scaling F f in
    (hit i (first_index (fst e) 0) (fst (snd e) k) + hit i (first_index (fst e) 1) (snd (snd e) k))%Q = pair_term i k (sides f).
  Proof.
    intros f i k C. pose proof C as (a & b & o & Ef & Ha & Hb & _). cbv zeta. unfold sides. rewrite Ef. cbn [map pair_term fst snd].
    rewrite <- (around_is f a b C Ef). unfold scheme_event, interior_event, level_at. cbn [fst snd]. rewrite Ef. cbn [nth_error first_index].
    unfold index_of. cbn [fst snd]. destruct Ha as (_ & _ & ->), Hb as (_ & _ & ->). reflexivity.
  Qed.

  Lemma interior_sum : forall fs, NoDup (map sides fs) ->
    (forall l1 p1 l2 p2, In [(l1, p1); (l2, p2)] (map sides fs) <-> ca_mem n cells l1 p1 /\ ca_mem n cells l2 p2 /\ share_face n d l1 p1 l2 p2) ->
    (forall f, In f fs -> call_ok n d ref comput f) -> forall i k,
    (sum_over (fun e : event => hit i (first_index (fst e) 0) (fst (snd e) k) + hit i (first_index (fst e) 1) (snd (snd e) k)) (map (scheme_event n scaling F) fs) ==
     sum_over (fun c1 => sum_over (fun c2 => if shareb n d c1 c2 then pair_term i k [c1; c2] else 0) cs) cs)%Q.
  Proof.
    intros fs N S C i k. rewrite sum_map.
    rewrite (sum_ext _ _ (fun f => pair_term i k (sides f))) by (intros f Hf; pose proof (event_term f i k (C f Hf)) as E; cbv zeta in E; rewrite E; reflexivity).
    rewrite <- (sum_map _ _ sides (pair_term i k)). symmetry.
    rewrite <- (sum_prod _ _ (fun x : (nat * list Z) * (nat * list Z) => if shareb n d (fst x) (snd x) then pair_term i k [fst x; snd x] else 0%Q)).
    rewrite <- (sum_filter _ (fun x => shareb n d (fst x) (snd x)) (fun x => pair_term i k [fst x; snd x])).
    rewrite <- (sum_map _ _ (fun x : (nat * list Z) * (nat * list Z) => [fst x; snd x]) (pair_term i k)). apply sum_perm.
    apply NoDup_Permutation; auto.
    - apply NoDup_map_in; [|intros [a b] [a' b'] _ _ E; cbn in E; congruence]. apply NoDup_filter.
      clear -CN. assert (G : forall xs : list (nat * list Z), NoDup xs -> NoDup (list_prod xs cs)); [|apply G; auto].
      induction xs as [|x xs IH]; intros H; [constructor|]. inversion_clear H as [|? ? Hx Hxs]. cbn [list_prod]. apply NoDup_app2; auto.
      + apply NoDup_map_in; auto. intros a b _ _ E. congruence.
      + intros [a b] H1 H2. apply in_map_iff in H1 as (y & E & _). injection E as <- <-. apply in_prod_iff in H2 as [H2 _]. contradiction.
    - intros x. rewrite in_map_iff. split.
      + intros ([[l1 p1] [l2 p2]] & <- & H). apply filter_In in H as [H1 H2]. cbn [fst snd] in *. apply in_prod_iff in H1 as [A B]. apply CE in A, B.
        apply shareb_spec in H2. apply S. auto.
      + intros H. assert (E : exists c1 c2, x = [c1; c2]).
        { apply in_map_iff in H as (f & <- & Hf). destruct (C f Hf) as (a & b & o & E & _). unfold sides. rewrite E. cbn [map]. eauto. }
        destruct E as ([l1 p1] & [l2 p2] & ->). apply S in H as (A & B & T). exists ((l1, p1), (l2, p2)). split; auto. apply filter_In. split; [apply in_prod; apply CE; auto|].
        cbn [fst snd]. apply shareb_spec. auto.
  Qed.

  Definition side_term (side : value * value -> value) (shift : list Z) (i : Z) (k : nat) (x : list (nat * list Z)) : Q :=
    match x with
    | [c] => hit i (index_of n ref c) (contribution n (side (F (stencil_at n ref comput (fst c) (vadd n (snd c) shift)))) (h (fst c)) (h (fst c)) k)
    | _ => 0%Q
    end.
  Lemma boundary_sum : forall side s shift o, faces_ok n domain ref cells comput s shift o -> forall i k,
    (sum_over (fun e : list scell * value => hit i (first_index (fst e) 0) (snd e k)) (map (scheme_bevent n scaling side F) o) ==
     sum_over (fun c => if outsideb n (a_level domain) dc (fst c, vadd n (snd c) s) then side_term side shift i k [c] else 0) cs)%Q.
  Proof.
    intros side s shift o (N & S & C) i k. rewrite sum_map.
    rewrite (sum_ext _ _ (fun f => side_term side shift i k (sides f))).
    2:{ intros f Hf. destruct (C f Hf) as (a & Ef & Ha & Hs). unfold sides. rewrite Ef. cbn [map side_term fst snd].
        unfold scheme_bevent, boundary_event, level_at. cbn [fst snd]. rewrite Ef. cbn [nth_error first_index]. apply stencil_is in Hs. rewrite <- Hs.
        unfold index_of. cbn [fst snd]. destruct Ha as (_ & _ & ->). reflexivity. }
    rewrite <- (sum_map _ _ sides (side_term side shift i k)). symmetry.
    rewrite <- (sum_filter _ (fun c => outsideb n (a_level domain) dc (fst c, vadd n (snd c) s)) (fun c => side_term side shift i k [c])).
    rewrite <- (sum_map _ _ (fun c : nat * list Z => [c]) (side_term side shift i k)). apply sum_perm. apply NoDup_Permutation; auto.
    - apply NoDup_map_in; [|intros a b _ _ E; congruence]. apply NoDup_filter. auto.
    - intros x. rewrite in_map_iff, S. split.
      + intros ([l p] & <- & H). apply filter_In in H as [H1 H2]. cbn [fst snd] in *. apply CE in H1. apply (outsideb_spec n domain dc) in H2; auto. exists l, p. auto.
      + intros (l & p & -> & H1 & H2). exists (l, p). split; auto. apply filter_In. split; [apply CE; auto|]. cbn [fst snd]. apply outsideb_spec; auto.
  Qed.
End Faces.

(** ** One direction, then all of them *)
Definition cell_dec (a b : nat * list Z) : {a = b} + {a <> b}.
Proof. decide equality; [apply (list_eq_dec Z.eq_dec)|apply Nat.eq_dec]. Defined.
Definition cell_eqb (a b : nat * list Z) : bool := if cell_dec a b then true else false.
Lemma cell_eqb_spec : forall a b, cell_eqb a b = true <-> a = b.
Proof. intros a b. unfold cell_eqb. destruct (cell_dec a b); split; auto; discriminate. Qed.

Lemma edge_nonzero : forall scaling l, ~ (scaling == 0)%Q -> ~ (edge scaling l == 0)%Q.
Proof.
  intros scaling l H E. apply H. unfold edge in E. assert (P : 0 < 2 ^ Z.of_nat l) by (apply Z.pow_pos_nonneg; lia).
  assert (N : ~ (inject_Z (2 ^ Z.of_nat l) == 0)%Q) by (unfold Qeq; cbn; lia).
  setoid_replace scaling with (scaling / inject_Z (2 ^ Z.of_nat l) * inject_Z (2 ^ Z.of_nat l))%Q by (field; auto). rewrite E. ring.
Qed.
Lemma volume_nonzero : forall n scaling l, ~ (scaling == 0)%Q -> ~ (volume n scaling l == 0)%Q.
Proof. intros n scaling l H. unfold volume. cbn [Z.of_nat Qpower]. apply Qpower_not_0_positive. apply edge_nonzero. auto. Qed.
Lemma volume_contribution : forall n scaling phi hf l k, ~ (scaling == 0)%Q ->
  (volume n scaling l * contribution n phi (cell_length scaling hf) (cell_length scaling l) k == area n scaling hf * phi k)%Q.
Proof.
  intros n scaling phi hf l k H. pose proof (volume_nonzero n scaling l H) as V. unfold contribution, area, volume in *.
  change (cell_length scaling) with (edge scaling). field. exact V.
Qed.

Definition good_stencil (n d : nat) (s : stencil) : Prop := (forall v, In v s -> length v = S n) /\ In (repeat 0 (S n)) s /\ In (unit_mult n d 1) s.

Section Apply.
  Context (n maxl : nat) (st : stencil) (ref cells : ca) (domain : lca) (scaling : Q) (ib : bool) (fluxes : nat -> normal_flux).
  Context (NR : numbered n ref) (HS : ~ (scaling == 0)%Q).
  Context (HM : forall d, (d <= n)%nat -> interface_mesh n d maxl st cells).
  Context (HR : forall d, (d <= n)%nat -> stencil_room n d ref cells (nf_stencil (fluxes d))).
  Context (HB : ib = true -> forall d, (d <= n)%nat -> boundary_mesh n d domain ref cells (nf_stencil (fluxes d))).
  Context (HG : forall d, (d <= n)%nat -> good_stencil n d (nf_stencil (fluxes d))).

  Lemma leaf_index : forall l p, ca_mem n cells l p -> ca_get_index n ref l p = Some (index_of n ref (l, p)).
  Proof using NR HS HR.
    intros l p H. apply (sr_leaves _ _ _ _ _ (HR 0%nat (Nat.le_0_l n))) in H. destruct (numbered_index n ref l p NR H) as (i & E & _). unfold index_of. cbn [fst snd]. rewrite E. auto.
  Qed.
  Lemma leaf_index_inj : forall l p l' p', ca_mem n cells l p -> ca_mem n cells l' p' -> index_of n ref (l, p) = index_of n ref (l', p') -> (l, p) = (l', p').
  Proof using NR HS HR.
    intros l p l' p' H H' E. pose proof (leaf_index l p H) as I. pose proof (leaf_index l' p' H') as I'. rewrite <- E in I'.
    apply (sr_leaves _ _ _ _ _ (HR 0%nat (Nat.le_0_l n))) in H, H'. destruct (numbered_inj n ref l p l' p' _ NR H H' I I'). congruence.
  Qed.

  Definition enumerates (cs : list (nat * list Z)) (dc : list (list Z)) : Prop :=
    NoDup cs /\ (forall l p, In (l, p) cs <-> ca_mem n cells l p) /\ forall z, In z dc <-> lca_mem n domain z.

  Lemma hit_leaf : forall cs dc c0 c v, enumerates cs dc -> In c0 cs -> In c cs -> hit (index_of n ref c0) (index_of n ref c) v = if cell_eqb c c0 then v else 0%Q.
  Proof using NR HS HR.
    intros cs dc [l0 p0] [l p] v (_ & CE & _) H0 H. apply CE in H0, H. unfold hit. destruct (Z.eqb_spec (index_of n ref (l0, p0)) (index_of n ref (l, p))) as [E|E].
    - rewrite (leaf_index_inj _ _ _ _ H0 H E). unfold cell_eqb. destruct (cell_dec (l, p) (l, p)); [auto|contradiction].
    - unfold cell_eqb. destruct (cell_dec (l, p) (l0, p0)) as [C|C]; [|auto]. rewrite C in E. contradiction.
  Qed.

  (** The sums of [interior_sum] and [boundary_sum] at a leaf. *)
  Lemma interior_at_leaf : forall cs dc d c0 k, enumerates cs dc -> In c0 cs ->
    (volume n scaling (fst c0) * sum_over (fun c1 => sum_over (fun c2 => if shareb n d c1 c2 then pair_term n d ref scaling (fluxes d) (index_of n ref c0) k [c1; c2] else 0) cs) cs ==
     interior_balance n scaling ref cs fluxes d c0 k)%Q.
  Proof using NR HS HR.
    intros cs dc d c0 k EN H0. pose proof EN as (N & _).
    set (phi := fun c1 c2 => inner_flux n ref fluxes d c1 c2). set (hf := fun c1 c2 : nat * list Z => cell_length scaling (Nat.max (fst c1) (fst c2))).
    set (T1 := fun c1 c2 : nat * list Z => (if shareb n d c1 c2 then contribution n (fst (phi c1 c2)) (hf c1 c2) (cell_length scaling (fst c1)) k else 0)%Q).
    set (T2 := fun c1 c2 : nat * list Z => (if shareb n d c1 c2 then contribution n (snd (phi c1 c2)) (hf c1 c2) (cell_length scaling (fst c2)) k else 0)%Q).
    assert (E : (sum_over (fun c1 => sum_over (fun c2 => if shareb n d c1 c2 then pair_term n d ref scaling (fluxes d) (index_of n ref c0) k [c1; c2] else 0) cs) cs ==
      sum_over (fun c1 => if cell_eqb c1 c0 then sum_over (fun c2 => T1 c1 c2) cs else 0) cs + sum_over (fun c1 => T2 c1 c0) cs)%Q).
    { rewrite <- sum_plus. apply sum_ext. intros c1 H1.
      rewrite <- (sum_pick _ cell_eqb (fun c2 => T2 c1 c2) cs c0 cell_eqb_spec N H0).
      transitivity (sum_over (fun c2 => if cell_eqb c1 c0 then T1 c1 c2 else 0) cs + sum_over (fun c2 => if cell_eqb c2 c0 then T2 c1 c2 else 0) cs)%Q.
      - rewrite <- sum_plus. apply sum_ext. intros c2 H2. unfold T1, T2. destruct (shareb n d c1 c2).
        + unfold pair_term. rewrite (hit_leaf cs dc c0 c1), (hit_leaf cs dc c0 c2) by auto. reflexivity.
        + destruct (cell_eqb c1 c0), (cell_eqb c2 c0); ring.
      - destruct (cell_eqb c1 c0); [reflexivity|]. rewrite (sum_zero _ (fun _ => 0%Q)) by reflexivity. reflexivity. }
    rewrite E, (sum_pick _ cell_eqb (fun c1 => sum_over (fun c2 => T1 c1 c2) cs) cs c0 cell_eqb_spec N H0).
    unfold interior_balance. rewrite Qmult_plus_distr_r, <- !sum_scale.
    assert (A1 : forall c, (volume n scaling (fst c0) * T1 c0 c == if shareb n d c0 c then face_area n scaling c0 c * fst (inner_flux n ref fluxes d c0 c) k else 0)%Q).
    { intros c. unfold T1, hf. destruct (shareb n d c0 c); [|ring]. rewrite volume_contribution by auto. reflexivity. }
    assert (A2 : forall c, (volume n scaling (fst c0) * T2 c c0 == if shareb n d c c0 then face_area n scaling c c0 * snd (inner_flux n ref fluxes d c c0) k else 0)%Q).
    { intros c. unfold T2, hf. destruct (shareb n d c c0); [|ring]. rewrite volume_contribution by auto. reflexivity. }
    rewrite (sum_ext _ _ _ cs (fun c _ => A1 c)), (sum_ext _ _ _ cs (fun c _ => A2 c)). reflexivity.
  Qed.
  Lemma boundary_at_leaf : forall cs dc d c0 k, enumerates cs dc -> In c0 cs ->
    (volume n scaling (fst c0) *
      (sum_over (fun c => if outsideb n (a_level domain) dc (fst c, vadd n (snd c) (unit_mult n d 1))
                          then side_term n ref scaling (fluxes d) fst (repeat 0%Z (S n)) (index_of n ref c0) k [c] else 0) cs +
       sum_over (fun c => if outsideb n (a_level domain) dc (fst c, vadd n (snd c) (unit_mult n d (-1)%Z))
                          then side_term n ref scaling (fluxes d) snd (unit_mult n d (-1)%Z) (index_of n ref c0) k [c] else 0) cs) ==
     boundary_balance n scaling ref (a_level domain) dc fluxes d c0 k)%Q.
  Proof using NR HS HR.
    intros cs dc d c0 k EN H0. pose proof EN as (N & CE & _).
    assert (L0 : length (snd c0) = S n) by (destruct c0 as [l p]; apply CE in H0; apply H0).
    assert (G : forall side s shift, (sum_over (fun c => if outsideb n (a_level domain) dc (fst c, vadd n (snd c) s) then side_term n ref scaling (fluxes d) side shift (index_of n ref c0) k [c] else 0) cs ==
      if outsideb n (a_level domain) dc (fst c0, vadd n (snd c0) s)
      then contribution n (side (flux_function (fluxes d) (stencil_at n ref (nf_stencil (fluxes d)) (fst c0) (vadd n (snd c0) shift)))) (cell_length scaling (fst c0)) (cell_length scaling (fst c0)) k else 0)%Q).
    { intros side s shift.
      rewrite <- (sum_pick _ cell_eqb (fun c => if outsideb n (a_level domain) dc (fst c, vadd n (snd c) s) then contribution n (side (flux_function (fluxes d)
         (stencil_at n ref (nf_stencil (fluxes d)) (fst c) (vadd n (snd c) shift)))) (cell_length scaling (fst c)) (cell_length scaling (fst c)) k else 0%Q) cs c0 cell_eqb_spec N H0).
      apply sum_ext. intros c Hc. destruct (outsideb _ _ _ _); [|destruct (cell_eqb c c0); reflexivity].
      unfold side_term. rewrite (hit_leaf cs dc c0 c) by auto. reflexivity. }
    rewrite !G, Qmult_plus_distr_r. unfold boundary_balance, upper_flux, lower_flux, next. rewrite vadd_0 by auto.
    assert (V : forall (b : bool) v, (volume n scaling (fst c0) * (if b then contribution n v (cell_length scaling (fst c0)) (cell_length scaling (fst c0)) k else 0) ==
      if b then area n scaling (fst c0) * v k else 0)%Q).
    { intros [|] v; [apply volume_contribution; auto|ring]. }
    rewrite !V. reflexivity.
  Qed.

  Lemma apply_dir_spec : forall d out, (d <= n)%nat -> exists out', scheme_apply_dir n maxl scaling ref cells domain ib d (fluxes d) out = Some out' /\
    forall cs dc, enumerates cs dc ->
      (forall c k, In c cs -> (volume n scaling (fst c) * out' (index_of n ref c) k == volume n scaling (fst c) * out (index_of n ref c) k +
         (interior_balance n scaling ref cs fluxes d c k + if ib then boundary_balance n scaling ref (a_level domain) dc fluxes d c k else 0))%Q) /\
      (forall i k, (forall c, In c cs -> index_of n ref c <> i) -> (out' i k == out i k)%Q).
  Proof.
    intros d out Hd. destruct (HG d Hd) as (HC & HZ & HDC).
    destruct (scheme_interior_spec n d maxl st _ ref cells Hd (HM d Hd) (HR d Hd) NR HC HZ HDC scaling (fluxes d) eq_refl) as (fs & E & FN & FM & FC).
    unfold scheme_apply_dir. rewrite E. set (F := flux_function (fluxes d)) in *.
    destruct (add_interior_spec (map (scheme_event n scaling F) fs) out) as (o1 & E1 & S1).
    { intros e He. apply in_map_iff in He as (f & <- & Hf). destruct (FC f Hf) as (a & b & o & Ef & _). exists a, b. exact Ef. }
    rewrite E1.
    assert (I1 : forall cs dc, enumerates cs dc -> (forall c k, In c cs -> (volume n scaling (fst c) * o1 (index_of n ref c) k ==
        volume n scaling (fst c) * out (index_of n ref c) k + interior_balance n scaling ref cs fluxes d c k)%Q) /\
      (forall i k, (forall c, In c cs -> index_of n ref c <> i) -> (o1 i k == out i k)%Q)).
    { intros cs dc EN. pose proof EN as (N & CE & DE).
      assert (IS : forall i k, (o1 i k == out i k + sum_over (fun c1 => sum_over (fun c2 => if shareb n d c1 c2 then pair_term n d ref scaling (fluxes d) i k [c1; c2] else 0) cs) cs)%Q).
      { intros i k. rewrite (S1 i k). apply Qplus_comp; [reflexivity|]. apply (interior_sum n d maxl ref cells domain scaling (fluxes d) cs dc Hd N CE DE fs FN FM FC). }
      split.
      - intros c k Hc. rewrite IS.
        rewrite Qmult_plus_distr_r, (interior_at_leaf cs dc d c k EN Hc). reflexivity.
      - intros i k Hi. rewrite IS.
        rewrite sum_zero; [ring|]. intros c1 H1. apply sum_zero. intros c2 H2. destruct (shareb n d c1 c2); [|reflexivity].
        unfold pair_term, hit. pose proof (Hi c1 H1). pose proof (Hi c2 H2).
        destruct (Z.eqb_spec i (index_of n ref c1)); [congruence|]. destruct (Z.eqb_spec i (index_of n ref c2)); [congruence|]. ring. }
    destruct ib eqn:Eib.
    - destruct (scheme_boundary_spec n d domain ref cells scaling (fluxes d) Hd (HB eq_refl d Hd) NR HC HZ HDC) as (evs & b1 & b2 & E2 & P & B1 & B2).
      rewrite E2. fold F in P.
      destruct (add_boundary_spec evs o1) as (o2 & E3 & S3).
      { intros e He. eapply Permutation_in in He; [|exact P]. apply in_app_iff in He as [He|He]; apply in_map_iff in He as (f & <- & Hf);
          [destruct B1 as (_ & _ & C)|destruct B2 as (_ & _ & C)]; destruct (C f Hf) as (a & Ef & _); exists a; exact Ef. }
      rewrite E3. exists o2. split; [reflexivity|]. intros cs dc EN. pose proof EN as (N & CE & DE). destruct (I1 cs dc EN) as [J1 J2].
      assert (SB : forall i k, (o2 i k == o1 i k +
        (sum_over (fun c => if outsideb n (a_level domain) dc (fst c, vadd n (snd c) (unit_mult n d 1)) then side_term n ref scaling (fluxes d) fst (repeat 0%Z (S n)) i k [c] else 0) cs +
         sum_over (fun c => if outsideb n (a_level domain) dc (fst c, vadd n (snd c) (unit_mult n d (-1)%Z)) then side_term n ref scaling (fluxes d) snd (unit_mult n d (-1)%Z) i k [c] else 0) cs))%Q).
      { intros i k. rewrite (S3 i k), (sum_perm _ _ _ _ P), sum_app. apply Qplus_comp; [reflexivity|]. apply Qplus_comp.
        - apply (boundary_sum n ref cells domain scaling (fluxes d) cs dc N CE DE fst _ _ b1 B1).
        - apply (boundary_sum n ref cells domain scaling (fluxes d) cs dc N CE DE snd _ _ b2 B2). }
      split.
      + intros c k Hc. rewrite SB, Qmult_plus_distr_r, (boundary_at_leaf cs dc d c k EN Hc), (J1 c k Hc). ring.
      + intros i k Hi. rewrite SB, (J2 i k Hi).
        rewrite !sum_zero; [ring| |]; intros c Hc; destruct (outsideb _ _ _ _); try reflexivity; unfold side_term, hit; pose proof (Hi c Hc);
          (destruct (Z.eqb_spec i (index_of n ref c)); [congruence|reflexivity]).
    - exists o1. split; [reflexivity|]. intros cs dc EN. destruct (I1 cs dc EN) as [J1 J2]. split; [|exact J2]. intros c k Hc. rewrite (J1 c k Hc). ring.
  Qed.

  Lemma apply_dirs_spec : forall ds out, (forall d, In d ds -> (d <= n)%nat) -> exists out', scheme_apply_dirs n maxl scaling ref cells domain ib fluxes ds out = Some out' /\
    forall cs dc, enumerates cs dc ->
      (forall c k, In c cs -> (volume n scaling (fst c) * out' (index_of n ref c) k == volume n scaling (fst c) * out (index_of n ref c) k +
         sum_over (fun d => interior_balance n scaling ref cs fluxes d c k + if ib then boundary_balance n scaling ref (a_level domain) dc fluxes d c k else 0) ds)%Q) /\
      (forall i k, (forall c, In c cs -> index_of n ref c <> i) -> (out' i k == out i k)%Q).
  Proof.
    induction ds as [|d ds IH]; intros out H.
    - exists out. split; [reflexivity|]. intros cs dc _. split; [|reflexivity]. intros c k _. rewrite sum_nil. ring.
    - cbn [scheme_apply_dirs]. destruct (apply_dir_spec d out) as (o1 & E1 & S1); [apply H; left; auto|]. rewrite E1.
      destruct (IH o1) as (o2 & E2 & S2); [intros; apply H; right; auto|]. rewrite E2. exists o2. split; [reflexivity|].
      intros cs dc EN. destruct (S1 cs dc EN) as [A1 A2]. destruct (S2 cs dc EN) as [B1 B2]. split.
      + intros c k Hc. rewrite (B1 c k Hc), (A1 c k Hc), sum_cons. ring.
      + intros i k Hi. rewrite (B2 i k Hi). auto.
  Qed.
End Apply.

(** ** The theorems *)

(** After [apply_to] the value of a leaf times its volume is the sum over its faces of
    the flux through the face times its area; cells which are no leaf get 0. *)
Theorem C53_balance : forall n m hist maxl st cells domain scaling ib fluxes, good_hist n m hist -> let ref := client_ca n m hist true in
  ~ (scaling == 0)%Q -> (forall d, (d <= n)%nat -> interface_mesh n d maxl st cells) ->
  (forall d, (d <= n)%nat -> stencil_room n d ref cells (nf_stencil (fluxes d))) ->
  (ib = true -> forall d, (d <= n)%nat -> boundary_mesh n d domain ref cells (nf_stencil (fluxes d))) ->
  (forall d, (d <= n)%nat -> good_stencil n d (nf_stencil (fluxes d))) ->
  exists out, scheme_apply_to n maxl scaling ref cells domain ib fluxes = Some out /\
    forall cs dc, enumerates n cells domain cs dc ->
      (forall l p i k, ca_mem n cells l p -> ca_get_index n ref l p = Some i ->
        (volume n scaling l * out i k == balance n scaling ref cs (a_level domain) dc ib fluxes (l, p) k)%Q) /\
      (forall i k, (forall l p, ca_mem n cells l p -> ca_get_index n ref l p <> Some i) -> (out i k == 0)%Q).
Proof.
  intros n m hist maxl st cells domain scaling ib fluxes G ref HS HM HR HB HG. pose proof (numbered_client n m hist G) as NR. fold ref in NR.
  destruct (apply_dirs_spec n maxl st ref cells domain scaling ib fluxes NR HS HM HR HB HG (seq 0 (S n)) (fun _ _ => 0%Q)) as (out & E & S).
  { intros d Hd. apply in_seq in Hd. lia. }
  exists out. split; [exact E|]. intros cs dc EN. destruct (S cs dc EN) as [A B]. pose proof EN as (_ & CE & _). split.
  - intros l p i k Hl Ei. assert (index_of n ref (l, p) = i) as <- by (unfold index_of; cbn [fst snd]; rewrite Ei; auto).
    pose proof (A (l, p) k (proj2 (CE l p) Hl)) as A'. cbn [fst] in A'. rewrite A'. unfold balance. ring.
  - intros i k Hi. rewrite (B i k); [reflexivity|]. intros [l p] Hc Hx. apply CE in Hc. apply (Hi l p Hc). rewrite <- Hx.
    apply (leaf_index n ref cells scaling fluxes NR HS HR l p Hc).
Qed.

(** With conservative fluxes, nothing is created inside. *)
Definition conservative (nf : normal_flux) : Prop := forall cs k, (snd (flux_function nf cs) k == - fst (flux_function nf cs) k)%Q.
Lemma make_conservative : forall s f, conservative (mkNF s f None).
Proof. intros s f cs k. reflexivity. Qed.

Theorem C53_conservation : forall n m hist maxl st cells domain scaling ib fluxes, good_hist n m hist -> let ref := client_ca n m hist true in
  ~ (scaling == 0)%Q -> (forall d, (d <= n)%nat -> interface_mesh n d maxl st cells) ->
  (forall d, (d <= n)%nat -> stencil_room n d ref cells (nf_stencil (fluxes d))) ->
  (ib = true -> forall d, (d <= n)%nat -> boundary_mesh n d domain ref cells (nf_stencil (fluxes d))) ->
  (forall d, (d <= n)%nat -> good_stencil n d (nf_stencil (fluxes d))) -> (forall d, (d <= n)%nat -> conservative (fluxes d)) ->
  exists out, scheme_apply_to n maxl scaling ref cells domain ib fluxes = Some out /\
    forall cs dc k, enumerates n cells domain cs dc ->
      (sum_over (fun c => volume n scaling (fst c) * out (index_of n ref c) k) cs ==
       if ib then sum_over (fun d => sum_over (fun c => boundary_balance n scaling ref (a_level domain) dc fluxes d c k) cs) (seq 0 (S n)) else 0)%Q.
Proof.
  intros n m hist maxl st cells domain scaling ib fluxes G ref HS HM HR HB HG HV.
  destruct (C53_balance n m hist maxl st cells domain scaling ib fluxes G HS HM HR HB HG) as (out & E & S). fold ref in E, S.
  exists out. split; [exact E|]. intros cs dc k EN. destruct (S cs dc EN) as [A _]. pose proof EN as (N & CE & _).
  pose proof (numbered_client n m hist G) as NR. fold ref in NR.
  rewrite (sum_ext _ _ (fun c => balance n scaling ref cs (a_level domain) dc ib fluxes c k)).
  2:{ intros [l p] Hc. apply CE in Hc. cbn [fst]. apply A; auto. apply (leaf_index n ref cells scaling fluxes NR HS HR l p Hc). }
  unfold balance. rewrite sum_swap.
  transitivity (sum_over (fun d => if ib then sum_over (fun c => boundary_balance n scaling ref (a_level domain) dc fluxes d c k) cs else 0) (seq 0 (Datatypes.S n)))%Q.
  2:{ destruct ib; [reflexivity|]. apply sum_zero. reflexivity. }
  apply sum_ext. intros d Hd. apply in_seq in Hd. rewrite sum_plus. unfold interior_balance. rewrite sum_plus.
  rewrite (sum_swap _ _ (fun x y => if shareb n d y x then face_area n scaling y x * snd (inner_flux n ref fluxes d y x) k else 0)%Q).
  rewrite <- sum_plus. rewrite (sum_zero _ (fun x => (sum_over _ cs + sum_over _ cs)%Q)).
  - destruct ib; [ring|]. rewrite sum_zero by reflexivity. ring.
  - intros c _. rewrite <- sum_plus. apply sum_zero. intros c2 _. destruct (shareb n d c c2); [|ring]. unfold inner_flux.
    assert (V : forall es, (snd (flux_function (fluxes d) es) k == - fst (flux_function (fluxes d) es) k)%Q) by (intros es; apply (HV d ltac:(lia))).
    rewrite V. ring.
Qed.

(** ** Constant fluxes *)

(** The cells of the next level next to a face. *)
Fixpoint cart (cs : list (list Z)) : list (list Z) :=
  match cs with [] => [[]] | c :: cs => flat_map (fun x => map (cons x) (cart cs)) c end.
Lemma cart_In : forall cs z, In z (cart cs) <-> Forall2 (fun x c => In x c) z cs.
Proof.
  induction cs as [|c cs IH]; intros z; cbn [cart].
  - split; [intros [<-|[]]; constructor|]. intros F. inversion F. left; auto.
  - rewrite in_flat_map. split.
    + intros (x & Hx & H). apply in_map_iff in H as (y & <- & Hy). constructor; auto. apply IH. auto.
    + intros F. inversion_clear F as [|x ? y ? Hx Hy]. exists x. split; auto. apply in_map. apply IH. auto.
Qed.
Lemma cart_NoDup : forall cs, Forall (@NoDup Z) cs -> NoDup (cart cs).
Proof.
  intros cs F. induction F as [|c cs Hc F IH]; cbn [cart]; [repeat constructor; auto|].
  induction Hc as [|x c Hx Hc IHc]; cbn [flat_map]; [constructor|]. apply NoDup_app2; auto.
  - apply NoDup_map_in; auto. intros a b _ _ E. congruence.
  - intros z H1 H2. apply in_map_iff in H1 as (y & <- & _). apply in_flat_map in H2 as (x' & Hx' & H2). apply in_map_iff in H2 as (y' & E & _). congruence.
Qed.
Lemma cart_length : forall cs, length (cart cs) = fold_right (fun c k => length c * k)%nat 1%nat cs.
Proof.
  induction cs as [|c cs IH]; auto. cbn [cart fold_right]. rewrite <- IH. generalize (cart cs) as r. intros r. induction c as [|x c IHc]; auto.
  cbn [flat_map length Nat.mul]. rewrite app_length, map_length, IHc. reflexivity.
Qed.

Lemma Forall2_len : forall (A B : Type) (R : A -> B -> Prop) xs ys, Forall2 R xs ys -> length xs = length ys.
Proof. intros A B R xs ys F. induction F; cbn; auto. Qed.

Definition face_choices (n d : nat) (s : Z) (p : list Z) : list (list Z) :=
  map (fun k => if Nat.eqb k d then [if s =? 1 then 2 * (nth k p 0 + 1) else 2 * nth k p 0 - 1] else [2 * nth k p 0; 2 * nth k p 0 + 1]) (seq 0 (S n)).
Definition face_kids (n d : nat) (s : Z) (p : list Z) : list (list Z) := cart (face_choices n d s p).

Lemma face_kids_NoDup : forall n d s p, NoDup (face_kids n d s p).
Proof.
  intros n d s p. apply cart_NoDup. apply Forall_forall. intros c Hc. apply in_map_iff in Hc as (k & <- & _). destruct (Nat.eqb k d).
  - constructor; [auto|constructor].
  - constructor; [intros [H|[]]; lia|]. constructor; [auto|constructor].
Qed.
Lemma face_kids_length : forall n d s p, (d <= n)%nat -> length (face_kids n d s p) = (2 ^ n)%nat.
Proof.
  intros n d s p Hd. unfold face_kids. rewrite cart_length. unfold face_choices.
  assert (G : forall m a, fold_right (fun c k => length c * k)%nat 1%nat (map (fun k => if Nat.eqb k d then [if s =? 1 then 2 * (nth k p 0 + 1) else 2 * nth k p 0 - 1] else [2 * nth k p 0; 2 * nth k p 0 + 1]) (seq a m)) =
    (2 ^ (if (Nat.leb a d && Nat.ltb d (a + m))%bool then m - 1 else m))%nat).
  { induction m as [|m IH]; intros a; [destruct (_ && _)%bool; reflexivity|]. cbn [seq map fold_right]. rewrite IH.
    destruct (Nat.eqb_spec a d) as [->|Ne].
    - destruct (Nat.leb_spec (S d) d); [lia|]. destruct (Nat.leb_spec d d); [|lia]. destruct (Nat.ltb_spec d (d + S m)); [|lia]. cbn [andb length]. rewrite Nat.mul_1_l. f_equal. lia.
    - cbn [length]. destruct (Nat.leb_spec (S a) d), (Nat.leb_spec a d); try lia; cbn [andb].
      + replace (S a + m)%nat with (a + S m)%nat by lia. destruct (Nat.ltb_spec d (a + S m)); [|reflexivity]. destruct m as [|m]; [lia|]. cbn [Nat.sub]. rewrite Nat.sub_0_r. reflexivity.
      + reflexivity. }
  rewrite G. destruct (Nat.leb_spec 0 d); [|lia]. destruct (Nat.ltb_spec d (0 + S n)); [|lia]. cbn [andb]. f_equal. lia.
Qed.
Lemma face_kids_In : forall n d s l p z, (d <= n)%nat -> s = 1 \/ s = -1 -> length p = S n -> length z = S n ->
  (In z (face_kids n d s p) <-> touches n d s l p (S l) z).
Proof.
  intros n d s l p z Hd Hs Lp Lz. rewrite touches_fine by (auto; lia). replace (S l - l)%nat with 1%nat by lia.
  unfold face_kids. rewrite cart_In. unfold face_choices.
  assert (G : forall m a zs, Forall2 (fun x (c : list Z) => In x c) zs (map (fun k => if Nat.eqb k d then [if s =? 1 then 2 * (nth k p 0 + 1) else 2 * nth k p 0 - 1] else [2 * nth k p 0; 2 * nth k p 0 + 1]) (seq a m)) <->
    length zs = m /\ forall j, (j < m)%nat -> In (nth j zs 0) (if Nat.eqb (a + j) d then [if s =? 1 then 2 * (nth (a + j) p 0 + 1) else 2 * nth (a + j) p 0 - 1] else [2 * nth (a + j) p 0; 2 * nth (a + j) p 0 + 1])).
  { induction m as [|m IH]; intros a zs.
    - cbn [seq map]. split; [intros F; inversion F; split; auto; intros; lia|]. intros [L _]. destruct zs; [constructor|discriminate].
    - cbn [seq map]. split.
      + intros F. inversion_clear F as [|x ? ys ? Hx Hy]. apply IH in Hy as [L Hy]. split; [cbn; lia|]. intros [|j] Hj; [rewrite Nat.add_0_r; exact Hx|].
        replace (a + S j)%nat with (S a + j)%nat by lia. apply (Hy j). lia.
      + intros [L H]. destruct zs as [|x ys]; [discriminate|]. constructor.
        * specialize (H 0%nat ltac:(lia)). rewrite Nat.add_0_r in H. exact H.
        * apply IH. split; [cbn in L; lia|]. intros j Hj. specialize (H (S j) ltac:(lia)). replace (a + S j)%nat with (S a + j)%nat in H by lia. exact H. }
  rewrite G. cbn [Nat.add].
  assert (E : forall u v : list Z, length u = S n -> length v = S n -> (u = v <-> forall k, (k <= n)%nat -> nth k u 0 = nth k v 0)).
  { intros u v Lu Lv. split; [intros ->; auto|]. apply list_ext; auto. }
  rewrite !E by (rewrite ?ancestor_length, ?vadd_length; auto). split.
  - intros [_ H]. split; intros k Hk; specialize (H k ltac:(lia)); rewrite nth_ancestor, ?nth_vadd, ?nth_unit by auto; change (2 ^ Z.of_nat 1) with 2;
      destruct (Nat.eqb k d).
    + destruct H as [H|[]]. rewrite <- H. destruct Hs as [->| ->]; cbn [Z.eqb Pos.eqb]; lia.
    + destruct H as [H|[H|[]]]; rewrite <- H; lia.
    + destruct H as [H|[]]. rewrite <- H. destruct Hs as [->| ->]; cbn [Z.eqb Pos.eqb]; lia.
    + destruct H as [H|[H|[]]]; rewrite <- H; lia.
  - intros [H1 H2]. split; [auto|]. intros k Hk. specialize (H1 k ltac:(lia)). specialize (H2 k ltac:(lia)).
    rewrite nth_ancestor, ?nth_vadd, ?nth_unit in H1, H2 by lia. change (2 ^ Z.of_nat 1) with 2 in *. destruct (Nat.eqb k d); cbn [In].
    + left. destruct Hs as [->| ->]; cbn [Z.eqb Pos.eqb]; lia.
    + lia.
Qed.

Definition touchesb (n d : nat) (s : Z) (c1 c2 : nat * list Z) : bool := if s =? 1 then shareb n d c1 c2 else shareb n d c2 c1.
Lemma touchesb_spec : forall n d s l1 p1 l2 p2, touchesb n d s (l1, p1) (l2, p2) = true <-> touches n d s l1 p1 l2 p2.
Proof. intros. unfold touchesb, touches. destruct (s =? 1); apply shareb_spec. Qed.

Lemma area_half : forall n scaling l, (inject_Z (Z.of_nat (2 ^ n)) * area n scaling (S l) == area n scaling l)%Q.
Proof.
  intros n scaling l. unfold area. assert (P : 0 < 2 ^ Z.of_nat l) by (apply Z.pow_pos_nonneg; lia).
  assert (E : (edge scaling l == inject_Z 2 * edge scaling (S l))%Q).
  { unfold edge. rewrite Nat2Z.inj_succ, Z.pow_succ_r by lia. rewrite inject_Z_mult. field. unfold Qeq; cbn; lia. }
  rewrite E, Qmult_power. apply Qmult_comp; [|reflexivity]. clear. rewrite Nat2Z.inj_pow. change (Z.of_nat 2) with 2.
  induction n as [|n IH]; [reflexivity|]. rewrite Nat2Z.inj_succ, Z.pow_succ_r by lia. rewrite inject_Z_mult, IH.
  replace (Z.succ (Z.of_nat n)) with (1 + Z.of_nat n) by lia. rewrite Qpower_plus by (unfold Qeq; cbn; lia). reflexivity.
Qed.
Lemma sum_const : forall (A : Type) (a : Q) (xs : list A), (sum_over (fun _ => a) xs == inject_Z (Z.of_nat (length xs)) * a)%Q.
Proof.
  intros A a xs. induction xs as [|x xs IH]; [rewrite sum_nil; cbn; ring|]. rewrite sum_cons, IH. cbn [length]. rewrite Nat2Z.inj_succ.
  unfold Z.succ. rewrite inject_Z_plus. ring.
Qed.

Section Closed.
  Context (n d maxl : nat) (st : stencil) (cells : ca) (domain : lca) (scaling : Q) (cs : list (nat * list Z)) (dc : list (list Z)).
  Context (Hd : (d <= n)%nat) (HM : interface_mesh n d maxl st cells) (WD : wf n domain) (FN : forall l p, ca_mem n cells l p -> (l <= a_level domain)%nat).
  Context (CV : covers n cells domain) (AL : aligned n cells domain) (EN : enumerates n cells domain cs dc).

  (** The faces of a leaf on one side make up its whole side. *)
  Lemma side_closed : forall s c, s = 1 \/ s = -1 -> In c cs ->
    (sum_over (fun c2 => if touchesb n d s c c2 then face_area n scaling c c2 else 0) cs +
     (if outsideb n (a_level domain) dc (next n d s c) then area n scaling (fst c) else 0) == area n scaling (fst c))%Q.
  Proof.
    intros s [l0 p0] Hs H0. destruct EN as (N & CE & DE). pose proof (proj1 (CE _ _) H0) as L0. assert (Lp : length p0 = S n) by apply L0.
    pose proof (im_disjoint _ _ _ _ _ HM) as DJ.
    destruct (C52_faces n d s domain cells Hd Hs WD FN DJ CV AL l0 p0 L0) as [DI EX]. unfold next. cbn [fst snd].
    set (q := vadd n p0 (unit_mult n d s)) in *. assert (Lq : length q = S n) by apply vadd_length.
    assert (Hs' : - s = 1 \/ - s = -1) by lia.
    assert (COARSE : forall l2 p2, ca_mem n cells l2 p2 -> (l2 <= l0)%nat -> touches n d s l0 p0 l2 p2 -> ancestor (l0 - l2) q = p2).
    { intros l2 p2 H2 Hl T. apply touches_sym in T; [|auto]. apply touches_fine in T as [T _]; auto; [|apply H2]. rewrite Z.opp_involutive in T. exact T. }
    assert (FINE : forall l2 p2, ca_mem n cells l2 p2 -> (l0 <= l2)%nat -> touches n d s l0 p0 l2 p2 ->
      ancestor (l2 - l0) (vadd n p2 (unit_mult n d (- s))) = p0 /\ ancestor (l2 - l0) p2 = q).
    { intros l2 p2 H2 Hl T. apply touches_fine in T; auto. apply H2. }
    assert (GR : forall l2 p2, ca_mem n cells l2 p2 -> (l0 < l2)%nat -> ancestor (l2 - l0) (vadd n p2 (unit_mult n d (- s))) = p0 -> l2 = S l0).
    { intros l2 p2 H2 Hl T. destruct (Nat.eq_dec l2 (S l0)) as [->|Ne]; auto. exfalso.
      apply (graded n d maxl st [unit_mult n d 1] cells Hd HM) with (l := l0) (l' := l2) (p := p0) (q := p2) (s := unit_mult n d (- s)); auto; try lia.
      - intros v [<-|[]]. apply unit_length.
      - left; auto.
      - rewrite neg_unit_mult. destruct Hs as [->| ->]; [right|left]; reflexivity. }
    destruct (outsideb n (a_level domain) dc (l0, q)) eqn:Eo.
    - apply (outsideb_spec n domain dc) in Eo; auto. rewrite sum_zero; [ring|]. intros [l2 p2] H2. destruct (touchesb n d s (l0, p0) (l2, p2)) eqn:Et; [|reflexivity].
      exfalso. apply touchesb_spec in Et. apply (EX Eo l2 p2); auto. apply CE. auto.
    - destruct DI as [DI|(l2 & p2 & H2 & T2)]; [apply (outsideb_spec n domain dc) in DI; auto; congruence|].
      destruct (Nat.le_gt_cases l2 l0) as [C|C].
      + pose proof (COARSE l2 p2 H2 C T2) as Q2.
        rewrite (sum_ext _ _ (fun c2 => if cell_eqb c2 (l2, p2) then area n scaling l0 else 0%Q)).
        { rewrite (sum_pick _ cell_eqb (fun _ => area n scaling l0) cs (l2, p2) cell_eqb_spec N); [ring|]. apply CE. auto. }
        intros [l3 p3] H3. apply CE in H3. unfold cell_eqb. destruct (cell_dec (l3, p3) (l2, p2)) as [E|Ne].
        * injection E as -> ->. apply touchesb_spec in T2. rewrite T2. unfold face_area. cbn [fst]. replace (Nat.max l0 l2) with l0 by lia. reflexivity.
        * destruct (touchesb n d s (l0, p0) (l3, p3)) eqn:T3; [|reflexivity]. exfalso. apply touchesb_spec in T3.
          destruct (Nat.le_gt_cases l3 l0) as [C3|C3].
          -- pose proof (COARSE l3 p3 H3 C3 T3) as Q3. destruct (Nat.le_ge_cases l2 l3) as [C23|C23].
             ++ assert (E : l2 = l3). { apply (DJ l2 l3 p2 p3 H2 H3 C23). rewrite <- Q3, ancestor_add, <- Q2. f_equal. lia. } subst l3. congruence.
             ++ assert (E : l3 = l2). { apply (DJ l3 l2 p3 p2 H3 H2 C23). rewrite <- Q2, ancestor_add, <- Q3. f_equal. lia. } subst l3. congruence.
          -- destruct (FINE l3 p3 H3 ltac:(lia) T3) as [_ Q3]. assert (E : l2 = l3); [|lia]. apply (DJ l2 l3 p2 p3 H2 H3); [lia|].
             rewrite <- Q2, <- Q3, ancestor_add. f_equal. lia.
      + destruct (FINE l2 p2 H2 ltac:(lia) T2) as [B2 Q2]. pose proof (GR l2 p2 H2 C B2) as E2. subst l2. set (K := a_level domain) in *. pose proof (FN _ _ H2) as HK. fold K in HK.
        assert (ONLY : forall l3 p3, ca_mem n cells l3 p3 -> touches n d s l0 p0 l3 p3 -> l3 = S l0).
        { intros l3 p3 H3 T3. destruct (Nat.le_gt_cases l3 l0) as [C3|C3].
          - pose proof (COARSE l3 p3 H3 C3 T3) as Q3. exfalso. assert (E : l3 = S l0); [|lia]. apply (DJ l3 (S l0) p3 p2 H3 H2); [lia|].
            rewrite <- Q3, <- Q2, ancestor_add. f_equal. lia.
          - destruct (FINE l3 p3 H3 ltac:(lia) T3) as [B3 _]. apply (GR l3 p3); auto. }
        assert (ALL : forall z, length z = S n -> touches n d s l0 p0 (S l0) z -> ca_mem n cells (S l0) z).
        { intros z Lz Tz. apply touches_fine in Tz as [Bz Qz]; auto. fold q in Qz.
          destruct (corner_point n K (S l0) z (unit_mult n d (- s)) Lz HK) as (w & Lw & Aw & Bw).
          { intros k Hk. rewrite nth_unit by auto. destruct (Nat.eqb k d); lia. }
          destruct (corner_point n K (S l0) p2 (unit_mult n d (- s)) (proj1 (proj2 H2)) HK) as (w2 & Lw2 & Aw2 & _).
          { intros k Hk. rewrite nth_unit by auto. destruct (Nat.eqb k d); lia. }
          assert (D2 : lca_mem n domain w2). { apply CV. split; auto. exists (S l0). fold K. split; [auto|]. rewrite Aw2. auto. }
          assert (AQ : forall v u, ancestor (K - S l0) v = u -> ancestor (S l0 - l0) u = q -> ancestor (K - l0) v = q).
          { intros v u Hv Hu. rewrite <- Hu, <- Hv, ancestor_add. f_equal. lia. }
          assert (Dw : lca_mem n domain w). { apply (AL l0 p0 w2 w L0 D2 Lw). fold K. rewrite (AQ w2 p2), (AQ w z); auto. }
          apply CV in Dw as (_ & l4 & Hl4 & H4). fold K in Hl4, H4.
          destruct (Nat.le_gt_cases l4 l0) as [C4|C4].
          - exfalso. assert (E : l4 = S l0); [|lia]. apply (DJ l4 (S l0) _ p2 H4 H2); [lia|].
            replace (S l0 - l4)%nat with ((l0 - l4) + (S l0 - l0))%nat by lia. rewrite <- ancestor_add, Q2. rewrite <- (AQ w z Aw Qz), ancestor_add. f_equal. lia.
          - assert (E : l4 = S l0).
            { apply (GR l4 _ H4 C4). replace (l4 - l0)%nat with ((S l0 - l0) + (l4 - S l0))%nat by lia. rewrite <- ancestor_add, Bw by lia. exact Bz. }
            subst l4. rewrite Aw in H4. exact H4. }
        rewrite <- sum_filter.
        assert (P : Permutation (filter (touchesb n d s (l0, p0)) cs) (map (pair (S l0)) (face_kids n d s p0))).
        { apply NoDup_Permutation; [apply NoDup_filter; auto|apply NoDup_map_in; [apply face_kids_NoDup|intros; congruence]|].
          intros [l3 p3]. rewrite filter_In, touchesb_spec, CE, in_map_iff. split.
          - intros [H3 T3]. pose proof (ONLY l3 p3 H3 T3) as ->. exists p3. split; auto. apply (face_kids_In n d s l0); auto. apply H3.
          - intros (z & E & Hz). injection E as <- <-. assert (Lz : length z = S n).
            { unfold face_kids in Hz. apply cart_In in Hz. rewrite (Forall2_len _ _ _ _ _ Hz). unfold face_choices. rewrite map_length, seq_length. reflexivity. }
            apply (face_kids_In n d s l0) in Hz; auto. }
        rewrite (sum_perm _ _ _ _ P), sum_map.
        rewrite (sum_ext _ _ (fun _ => area n scaling (S l0))).
        2:{ intros z _. unfold face_area. cbn [fst]. replace (Nat.max l0 (S l0)) with (S l0) by lia. reflexivity. }
        rewrite sum_const, face_kids_length, area_half by auto. ring.
  Qed.
End Closed.

(** A constant flux is balanced in every leaf, whatever the levels around it. *)
Theorem C53_free_stream : forall n m hist maxl st cells domain scaling fluxes (w : nat -> value), good_hist n m hist -> let ref := client_ca n m hist true in
  ~ (scaling == 0)%Q -> (forall d, (d <= n)%nat -> interface_mesh n d maxl st cells) ->
  (forall d, (d <= n)%nat -> stencil_room n d ref cells (nf_stencil (fluxes d))) ->
  (forall d, (d <= n)%nat -> boundary_mesh n d domain ref cells (nf_stencil (fluxes d))) ->
  (forall d, (d <= n)%nat -> good_stencil n d (nf_stencil (fluxes d))) ->
  (forall d, (d <= n)%nat -> conservative (fluxes d)) -> (forall d es k, (d <= n)%nat -> (fst (flux_function (fluxes d) es) k == w d k)%Q) ->
  covers n cells domain -> aligned n cells domain ->
  exists out, scheme_apply_to n maxl scaling ref cells domain true fluxes = Some out /\ forall i k, (out i k == 0)%Q.
Proof.
  intros n m hist maxl st cells domain scaling fluxes w G ref HS HM HR HB HG HV HW CV AL.
  destruct (C53_balance n m hist maxl st cells domain scaling true fluxes G HS HM HR (fun _ => HB) HG) as (out & E & S). fold ref in E, S.
  exists out. split; [exact E|]. pose proof (HB 0%nat (Nat.le_0_l n)) as [W LV WD FN _ _ _ _].
  destruct (ca_for_each_cell_spec n cells W) as (cl & _ & (SS & CE) & _). set (cs := leaf_cells cl) in *.
  destruct (for_each_interval_correct n domain WD) as (calls & _ & _ & DE & _).
  assert (EN : enumerates n cells domain cs (cells_of_calls calls)).
  { split; [|split; auto]. clear -SS. induction SS as [|c cs SS IH F]; constructor; auto. intros Hc. rewrite Forall_forall in F. specialize (F c Hc).
    exact (lc_lt_irrefl c F). }
  destruct (S cs _ EN) as [A B]. pose proof (numbered_client n m hist G) as NR. fold ref in NR.
  intros i k. destruct (in_dec Z.eq_dec i (map (index_of n ref) cs)) as [Hi|Hi].
  - apply in_map_iff in Hi as ([l p] & <- & Hc). pose proof (proj1 (CE l p) Hc) as Hl.
    pose proof (A l p _ k Hl (leaf_index n ref cells scaling fluxes NR HS HR l p Hl)) as Ab.
    assert (Z0 : (balance n scaling ref cs (a_level domain) (cells_of_calls calls) true fluxes (l, p) k == 0)%Q).
    { unfold balance. apply sum_zero. intros d Hd. apply in_seq in Hd. assert (Hdn : (d <= n)%nat) by lia.
      assert (W1 : forall es, (fst (flux_function (fluxes d) es) k == w d k)%Q) by (intros; apply HW; auto).
      assert (W2 : forall es, (snd (flux_function (fluxes d) es) k == - w d k)%Q).
      { intros es. rewrite <- (W1 es). apply (HV d Hdn). }
      pose proof (side_closed n d maxl st cells domain scaling cs _ Hdn (HM d Hdn) WD FN CV AL EN 1 (l, p) (or_introl eq_refl) Hc) as U.
      pose proof (side_closed n d maxl st cells domain scaling cs _ Hdn (HM d Hdn) WD FN CV AL EN (-1) (l, p) (or_intror eq_refl) Hc) as L.
      cbn [touchesb Z.eqb Pos.eqb] in U, L.
      unfold interior_balance, boundary_balance, inner_flux, upper_flux, lower_flux.
      rewrite (sum_ext _ _ (fun c2 => w d k * (if shareb n d (l, p) c2 then face_area n scaling (l, p) c2 else 0))%Q).
      2:{ intros c2 _. destruct (shareb n d (l, p) c2); [rewrite W1|]; ring. }
      rewrite (sum_ext _ (fun c1 => if shareb n d c1 (l, p) then _ else 0)%Q (fun c1 => - w d k * (if shareb n d c1 (l, p) then face_area n scaling (l, p) c1 else 0))%Q).
      2:{ intros c1 _. destruct (shareb n d c1 (l, p)); [rewrite W2; unfold face_area; rewrite Nat.max_comm|]; ring. }
      rewrite !sum_scale. 
      set (SU := sum_over (fun c2 => if shareb n d (l, p) c2 then face_area n scaling (l, p) c2 else 0%Q) cs) in *.
      set (SL := sum_over (fun c2 => if shareb n d c2 (l, p) then face_area n scaling (l, p) c2 else 0%Q) cs) in *.
      assert (EU : (w d k * SU + (if outsideb n (a_level domain) (cells_of_calls calls) (next n d 1 (l, p)) then area n scaling (fst (l, p)) * w d k else 0) == w d k * area n scaling l)%Q).
      { change (area n scaling (fst (l, p))) with (area n scaling l) in *. rewrite <- U at 2. destruct (outsideb _ _ _ _); ring. }
      assert (EL : (- w d k * SL + (if outsideb n (a_level domain) (cells_of_calls calls) (next n d (-1) (l, p)) then area n scaling (fst (l, p)) * - w d k else 0) == - w d k * area n scaling l)%Q).
      { change (area n scaling (fst (l, p))) with (area n scaling l) in *. rewrite <- L at 2.
        assert (BB : forall (b : bool) a x y, (- x * y + (if b then a * - x else 0) == - x * (y + if b then a else 0))%Q) by (intros [|] a x y; ring). apply BB. }
      assert (IF : forall (b : bool) a x y, (x == y)%Q -> ((if b then a * x else 0) == (if b then a * y else 0))%Q) by (intros [|] a x y Hxy; rewrite ?Hxy; reflexivity).
      rewrite (IF _ _ _ _ (W1 _)), (IF _ _ _ _ (W2 _)). transitivity (w d k * area n scaling l + - w d k * area n scaling l)%Q; [|ring]. rewrite <- EU, <- EL. ring. }
    rewrite Z0 in Ab. apply Qmult_integral in Ab as [Ab|Ab]; auto. exfalso. apply (volume_nonzero n scaling l HS Ab).
  - apply B. intros l p Hl Ei. apply Hi. apply in_map_iff. exists (l, p). split; [|apply CE; auto]. unfold index_of. cbn [fst snd]. rewrite Ei. reflexivity.
Qed.

(** ** Examples: the mesh of C47 with three levels, on the square of edge 1 *)

(** An upwind flux of a field whose value in a cell is its index. *)
Definition exFlux (d : nat) : normal_flux :=
  mkNF (in_out_stencil 1 (unit_mult 1 d 1)) (fun es _ => match es with a :: _ => inject_Z (sc_index a) | [] => 0%Q end) None.
Lemma exGood : forall d, (d <= 1)%nat -> good_stencil 1 d (in_out_stencil 1 (unit_mult 1 d 1)).
Proof.
  intros d Hd. split; [|split].
  - intros v [<-|[<-|[]]]; [reflexivity|apply unit_length].
  - left. reflexivity.
  - right. left. reflexivity.
Qed.
Example C53_hypotheses : good_hist 1 3 roomHist /\ roomRef = client_ca 1 3 roomHist true /\ ~ (1 == 0)%Q /\ (forall d, (d <= 1)%nat -> interface_mesh 1 d 3 star2 exMesh) /\
  (forall d, (d <= 1)%nat -> stencil_room 1 d roomRef exMesh (nf_stencil (exFlux d))) /\
  (forall d, (d <= 1)%nat -> boundary_mesh 1 d exDomain roomRef exMesh (nf_stencil (exFlux d))) /\
  (forall d, (d <= 1)%nat -> good_stencil 1 d (nf_stencil (exFlux d))) /\ (forall d, (d <= 1)%nat -> conservative (exFlux d)) /\
  covers 1 exMesh exDomain /\ aligned 1 exMesh exDomain.
Proof.
  split; [exact roomHist_ok|]. split; [reflexivity|]. split; [discriminate|]. split; [exact exMesh_interface|].
  split; [intros d Hd; apply ghosts_room; [auto|exact roomRef_ghosts]|]. split; [exact exBoundary|]. split; [exact exGood|].
  split; [intros d Hd; apply make_conservative|]. split; [exact exCovers|exact exAligned].
Qed.

(** The values of the leaves, as computed by the code, with and without the boundary. *)
Definition exValues (ib : bool) (fluxes : nat -> normal_flux) : option (list Q) :=
  option_map (fun out : output => map (fun c => Qred (out (index_of 1 roomRef c) 0%nat)) PropsInterface.exLeaves) (scheme_apply_to 1 3 1 roomRef exMesh exDomain ib fluxes).
Definition exTotal (ib : bool) (fluxes : nat -> normal_flux) : option Q :=
  option_map (fun out : output => Qred (sum_over (fun c => volume 1 1 (fst c) * out (index_of 1 roomRef c) 0%nat)%Q PropsInterface.exLeaves)) (scheme_apply_to 1 3 1 roomRef exMesh exDomain ib fluxes).

Example C53_example_conservation : exTotal false exFlux = Some 0%Q /\ option_map (fun v => nth 0 v 0%Q) (exValues false exFlux) <> Some 0%Q.
Proof. split; vm_compute; [reflexivity|discriminate]. Qed.

(** A flux which is not conservative: what leaves a cell does not enter the other. *)
Definition exLeak (d : nat) : normal_flux :=
  mkNF (in_out_stencil 1 (unit_mult 1 d 1)) (fun _ _ => 0%Q) (Some (fun _ => (fun _ => 1%Q, fun _ => 0%Q))).
Example C53_example_leak : ~ conservative (exLeak 0) /\ exists t, exTotal false exLeak = Some t /\ ~ (t == 0)%Q.
Proof.
  split; [intros H; specialize (H [] 0%nat); cbn in H; discriminate|].
  eexists. split; [vm_compute; reflexivity|discriminate].
Qed.
(** A constant flux: 0 in all leaves with the boundary fluxes, not without them. *)
Definition exConstant (d : nat) : normal_flux := mkNF (in_out_stencil 1 (unit_mult 1 d 1)) (fun _ _ => inject_Z (Z.of_nat d + 2)) None.
Example C53_example_free_stream : exValues true exConstant = Some (map (fun _ => 0%Q) PropsInterface.exLeaves) /\ exValues false exConstant <> Some (map (fun _ => 0%Q) PropsInterface.exLeaves).
Proof. split; vm_compute; [reflexivity|discriminate]. Qed.

Print Assumptions C53_balance.
Print Assumptions C53_conservation.
Print Assumptions C53_free_stream.
