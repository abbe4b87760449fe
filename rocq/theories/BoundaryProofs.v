(** Proofs about the traversal of boundary interfaces. *)
From Verif Require Import Base IntervalModel Spec LoiModel LcaModel LcaSpec LcaProofs LcaProofs3 RowsProofs CellArrayModel CellArrayProofs
  PropsLca PropsCellArray SubsetModel TreeProofs SubsetSpec SubsetProofs2 PropsSubset StencilModel NumberingProofs StencilProofs PropsStencil
  MeshModel MeshProofs PropsMesh AdaptModel AdaptProofs TagProofs PropsAdapt GradModel GradProofs PropsGrad NumProofs InterfaceModel InterfaceProofs
  PropsInterface FluxModel.
Open Scope Z_scope.

(** ** The set *)
Lemma nth_scale : forall a v k, nth k (map (Z.mul a) v) 0 = a * nth k v 0.
Proof. intros a v k. rewrite <- (Z.mul_0_r a) at 1. apply map_nth. Qed.

Lemma meets_shift : forall n l M p q s, (l <= M)%nat -> 
  (meets n l p M (vadd n q (map (Z.mul (- Z.shiftl 1 (Z.of_nat (M - l)))) s)) <-> meets n l (vadd n p s) M q).
Proof.
  intros n l M p q s Hl. unfold meets. destruct (pow_split l M Hl) as (E & PJ & P).
  rewrite Z.shiftl_1_l. rewrite E. set (J := 2 ^ Z.of_nat (M - l)) in *. set (K := 2 ^ Z.of_nat l) in *. clearbody J K.
  split; intros H k Hk; specialize (H k Hk); rewrite !nth_vadd, nth_scale in * by auto; nia.
Qed.

(** The cell q of level l has no point in the domain. *)
Definition outside (n : nat) (domain : lca) (l : nat) (q : list Z) : Prop :=
  forall z, lca_mem n domain z -> ~ meets n l q (a_level domain) z.

Lemma boundary_calls : forall n cells domain l s, wf n (c_at cells l) -> a_level (c_at cells l) = l -> wf n domain -> (l <= a_level domain)%nat ->
  (forall q k, lca_mem n (c_at cells l) q -> (k <= n)%nat -> nth k q 0 + 3 < 2 ^ 31 - 1) ->
  (forall q k, lca_mem n domain q -> (k <= n)%nat -> nth k q 0 + 2 ^ Z.of_nat (a_level domain) + 3 < 2 ^ 31 - 1) ->
  (forall k, (k <= n)%nat -> -1 <= nth k s 0 <= 1) ->
  exists b calls, boundary cells domain l s = Some b /\ s_ref b = l /\ subset_calls n b = Some calls /\
    (forall i yz, In (i, yz) calls -> length yz = n /\ istart i < iend i) /\ NoDup (cells_of_calls calls) /\
    forall p, In p (cells_of_calls calls) <-> lca_mem n (c_at cells l) p /\ outside n domain l (vadd n p s).
Proof.
  intros n cells domain l s Wa La Wd Hl Ba Bd Bs. unfold boundary. destruct (Nat.ltb_spec (a_level domain) l) as [C|_]; [lia|].
  eexists. rewrite on_make_op. set (v := map (Z.mul (- Z.shiftl 1 (Z.of_nat (a_level domain - l)))) s).
  set (t := Nd Difference (More (Lf (leaf_of (NMesh (c_at cells l)))) (One (Lf (leaf_of (NTrans v (NMesh domain))))))).
  assert (F : finest t = a_level domain) by (transitivity (Nat.max (a_level (c_at cells l)) (a_level domain)); [reflexivity|lia]).
  assert (HO : operands_ok n l t).
  { intros lf Hlf. rewrite F, Nat.min_l by auto. unfold t in Hlf. cbn [tin ain] in Hlf.
    destruct Hlf as [->| ->]; cbn [l_node leaf_of]; unfold operand_ok; cbn [simple node_mesh node_vect]; spl; auto; intros q k Hq Hk.
    - rewrite vadd_nil by apply Hq. rewrite La. replace (Z.max 0 (Z.of_nat l - Z.of_nat l)) with 0 by lia. specialize (Ba q k Hq Hk). lia.
    - rewrite nth_vadd by auto. replace (Z.max 0 (Z.of_nat l - Z.of_nat (a_level domain))) with 0 by lia. specialize (Bd q k Hq Hk).
      unfold v. rewrite nth_scale, Z.shiftl_1_l. specialize (Bs k Hk). destruct (pow_split (a_level domain - l) (a_level domain) ltac:(lia)) as (E & PJ & P).
      assert (- 2 ^ Z.of_nat (a_level domain - l) * nth k s 0 <= 2 ^ Z.of_nat (a_level domain)) by nia. change (2 ^ 0) with 1. lia. }
  destruct (C18_levels n l t HO) as (calls & E & V & N & _ & M). exists calls. split; [reflexivity|]. split; [reflexivity|]. split; [exact E|].
  split; auto. split; auto.
  assert (KEY : forall p, length p = S n -> (In p (cells_of_calls calls) <-> lca_mem n (c_at cells l) p /\ outside n domain l (vadd n p s))).
  { intros p Lp. rewrite (M p Lp). unfold expr_mem, t. cbn [tmap tsem].
    assert (E1 : denotes n l p (NMesh (c_at cells l)) <-> lca_mem n (c_at cells l) p).
    { rewrite denotes_mesh_fine by (auto; lia). rewrite La, Nat.sub_diag, ancestor_0. tauto. }
    assert (E2 : denotes n l p (NTrans v (NMesh domain)) <-> exists z, lca_mem n domain z /\ meets n l (vadd n p s) (a_level domain) z).
    { unfold denotes. cbn [node_mesh node_vect]. split; intros (q & Hq & Hm); exists q; (split; [exact Hq|]).
      - unfold v in Hm. rewrite meets_shift in Hm by auto. exact Hm.
      - unfold v. rewrite meets_shift by auto. exact Hm. }
    split.
    - intros [H1 H2]. split; [apply E1; exact H1|]. intros z Hz Hm. apply H2. apply E2. eauto.
    - intros [H1 H2]. split; [apply E1; exact H1|]. intros H3. apply E2 in H3 as (z & Hz & Hm). exact (H2 z Hz Hm). }
  intros p. split.
  - intros Hp. apply KEY; auto. unfold cells_of_calls in Hp. apply in_flat_map in Hp as ([i yz] & Hin & Hp). apply in_map_iff in Hp as (x & <- & _).
    cbn [length]. f_equal. apply (V i yz Hin).
  - intros H. apply KEY; auto. apply H.
Qed.

(** ** One interval *)
Definition boundary_call (n : nat) (ref : ca) (l : nat) (comput : stencil) (z : list Z) (f : iface) : Prop :=
  (exists a, fst f = [a] /\ cell_is n ref l z a) /\ Forall2 (fun v e => cell_is n ref l (vadd n z v) e) comput (snd f).

Lemma combine_map_l : forall (A B C : Type) (f : A -> C) (a : list A) (b : list B), combine (map f a) b = map (fun x => (f (fst x), snd x)) (combine a b).
Proof. intros A B C f a. induction a as [|x a IH]; intros [|y b]; cbn; auto. f_equal. apply IH. Qed.

Lemma boundary_interval_spec : forall n ref l dir comput i yz, numbered n ref -> length dir = S n ->
  (forall v, In v comput -> length v = S n) -> In (repeat 0 (S n)) comput -> length yz = n -> istart i < iend i ->
  (forall x, in_i i x -> fits_at n ref (in_out_stencil n dir) l (x :: yz) /\ fits_at n ref comput l (x :: yz)) ->
  exists out, boundary_interval n ref dir comput (mkMI l i yz) = Some out /\
    Forall2 (boundary_call n ref l comput) (map (fun x => x :: yz) (zrange (istart i) (iend i))) out.
Proof.
  intros n ref l dir comput i yz N Ld Hc Hz Ly Hi HF.
  destruct (same_interval_spec n ref l dir comput i yz N Ld Hc Hz Ly Hi HF) as (out & E & F).
  exists (map (fun f => (firstn 1 (fst f), snd f)) out). split.
  - unfold same_level_interval in E. unfold boundary_interval. 
    destruct (for_each_stencil_sliding n ref (in_out_stencil n dir) (mkMI l i yz)) as [a|]; [|discriminate].
    destruct (for_each_stencil_sliding n ref comput (mkMI l i yz)) as [b|]; [|discriminate]. injection E as <-. f_equal. apply combine_map_l.
  - clear E. induction F as [|z f zs out [(a & b & Ef & Ha & Hb) Hcs] F IH]; cbn [map]; constructor; auto.
    split; cbn [fst snd]; auto. exists a. rewrite Ef. auto.
Qed.

(** ** One level *)
Section Level.
  Context (n : nat) (ref cells : ca) (domain : lca).
  Context (NR : numbered n ref) (W : ca_wf n cells) (LV : forall l, (l <= c_max cells)%nat -> a_level (c_at cells l) = l) (WD : wf n domain).
  Context (RG : forall l q k, ca_mem n cells l q -> (k <= n)%nat -> nth k q 0 + 3 < 2 ^ 31 - 1).
  Context (RD : forall q k, lca_mem n domain q -> (k <= n)%nat -> nth k q 0 + 2 ^ Z.of_nat (a_level domain) + 3 < 2 ^ 31 - 1).

  Lemma boundary_level_spec : forall l s comput, (l <= c_max cells)%nat -> (l <= a_level domain)%nat -> length s = S n ->
    (forall k, (k <= n)%nat -> -1 <= nth k s 0 <= 1) -> (forall v, In v comput -> length v = S n) -> In (repeat 0 (S n)) comput ->
    (forall z, ca_mem n cells l z -> outside n domain l (vadd n z s) -> fits_at n ref (in_out_stencil n s) l z /\ fits_at n ref comput l z) ->
    exists zs out, boundary_direction n ref cells domain l s comput = Some out /\ NoDup zs /\
      (forall z, In z zs <-> ca_mem n cells l z /\ outside n domain l (vadd n z s)) /\ Forall2 (boundary_call n ref l comput) zs out.
  Proof.
    intros l s comput Hl Hd Ls Bs Hc H0 HF.
    destruct (boundary_calls n cells domain l s) as (b & calls & Eb & Er & E & V & ND & M); auto.
    { intros q k Hq Hk. apply (RG l); auto. split; auto. }
    unfold boundary_direction, over_set. rewrite Eb, E, Er.
    assert (M' : forall z, In z (cells_of_calls calls) <-> ca_mem n cells l z /\ outside n domain l (vadd n z s)).
    { intros z. rewrite M. unfold ca_mem. split; [intros [A B]; auto|intros [[_ A] B]; auto]. }
    destruct (concat_calls_spec _ (boundary_call n ref l comput) (fun '(i, yz) => boundary_interval n ref s comput (mkMI l i yz)) calls) as (out & Eo & F).
    { intros i yz Hin. destruct (V i yz Hin) as [V1 V2]. apply boundary_interval_spec; auto.
      intros x Hx. destruct (proj1 (M' _) (call_interval_cells calls i yz x Hin Hx)) as [L1 L2]. apply HF; auto. }
    exists (cells_of_calls calls), out. split; [exact Eo|]. split; [exact ND|]. split; [exact M'|exact F].
  Qed.
End Level.

Lemma boundary_sides : forall n ref l comput zs out, Forall2 (boundary_call n ref l comput) zs out -> map sides out = map (fun z => [(l, z)]) zs.
Proof.
  intros n ref l comput zs out F. induction F as [|z f zs out Hc F IH]; auto. cbn [map]. f_equal; auto.
  destruct Hc as [(a & E & (A1 & A2 & _)) _]. unfold sides. rewrite E. cbn [map]. congruence.
Qed.

(** ** Levels *)
Definition got {A : Type} (o : option (list A)) : list A := match o with Some a => a | None => [] end.
Lemma each_level_got : forall (A : Type) (f : nat -> option (list A)) ls, (forall l, In l ls -> f l <> None) -> each_level f ls = Some (flat_map (fun l => got (f l)) ls).
Proof.
  intros A f ls. induction ls as [|l ls IH]; intros H; auto. cbn [each_level flat_map]. destruct (f l) as [a|] eqn:E; [|exfalso; apply (H l); auto; left; auto].
  rewrite IH by (intros; apply H; right; auto). reflexivity.
Qed.
Lemma over_levels_got : forall (A : Type) c (f : nat -> option (list A)) ls, (forall l, In l ls -> lca_is_empty (c_at c l) = false -> f l <> None) ->
  over_levels c f ls = Some (flat_map (fun l => if lca_is_empty (c_at c l) then [] else got (f l)) ls).
Proof.
  intros A c f ls. induction ls as [|l ls IH]; intros H; auto. cbn [over_levels flat_map]. rewrite IH by (intros; apply H; auto; right; auto).
  destruct (lca_is_empty (c_at c l)) eqn:E0; auto. destruct (f l) as [a|] eqn:E; [reflexivity|exfalso; apply (H l); auto; left; auto].
Qed.

(** ** Vectors *)
Lemma neg_unit_mult : forall n d s, neg (unit_mult n d s) = unit_mult n d (- s).
Proof.
  intros n d s. apply (list_ext n); [unfold neg; rewrite map_length; apply unit_length|apply unit_length|]. intros k Hk. rewrite nth_neg, !nth_unit by auto.
  destruct (Nat.eqb k d); lia.
Qed.
Lemma unit_back : forall n d s z, length z = S n -> vadd n (vadd n z (unit_mult n d s)) (unit_mult n d (- s)) = z.
Proof. intros n d s z Hz. apply (list_ext n); [apply vadd_length|auto|]. intros k Hk. rewrite !nth_vadd, !nth_unit by auto. destruct (Nat.eqb k d); lia. Qed.
