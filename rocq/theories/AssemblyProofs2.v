(** The ghosts of a mesh and their linear combinations (C77). *)
From Coq Require Import QArith.
From Verif Require Import Base IntervalModel Spec LoiModel LcaModel LcaSpec LcaProofs LcaProofs3 RowsProofs CellArrayModel CellArrayProofs
  PropsLca PropsCellArray SubsetModel TreeProofs SubsetSpec SubsetProofs2 PropsSubset StencilModel NumberingProofs StencilProofs PropsStencil
  MeshModel MeshProofs PropsMesh AdaptModel AdaptProofs TagProofs PropsAdapt InterfaceModel InterfaceProofs PropsInterface GeomModel FluxModel FluxProofs NumModel NumProofs GhostModel
  GhostProofs ReconModel ReconProofs LinFluxModel AssemblyModel AssemblyProofs.
Open Scope Z_scope.

(** ** Lists with failure *)
Lemma all_opt_some : forall (A B : Type) (f : A -> option B) (R : A -> B -> Prop) l, (forall a, In a l -> exists b, f a = Some b /\ R a b) -> exists bs, all_opt f l = Some bs /\ Forall2 R l bs.
Proof.
  intros A B f R. induction l as [|a l IH]; intros H; [exists []; split; [reflexivity|constructor]|]. cbn [all_opt].
  destruct (H a (or_introl eq_refl)) as (b & -> & Rb). destruct IH as (bs & -> & Rbs); [intros; apply H; right; auto|]. exists (b :: bs). split; [reflexivity|constructor; auto].
Qed.
Lemma each_level_some : forall (A : Type) (f : nat -> option (list A)) ls, (forall l, In l ls -> exists o, f l = Some o) ->
  exists out, each_level f ls = Some out /\ forall a, In a out <-> exists l o, In l ls /\ f l = Some o /\ In a o.
Proof.
  intros A f. induction ls as [|l ls IH]; intros H; [exists []; split; [reflexivity|]; intros a; split; [intros []|intros (? & ? & [] & _)]|]. cbn [each_level].
  destruct (H l (or_introl eq_refl)) as (o & E). destruct IH as (out & E' & S'); [intros; apply H; right; auto|]. rewrite E, E'. exists (o ++ out). split; [reflexivity|].
  intros a. rewrite in_app_iff, S'. split.
  - intros [Ha|(l' & o' & Hl & Eo & Ha)]; [exists l, o|exists l', o']; auto with datatypes.
  - intros (l' & o' & [<-|Hl] & Eo & Ha); [left; congruence|right; eauto].
Qed.
Lemma Forall2_In_l : forall (A B : Type) (R : A -> B -> Prop) xs ys x, Forall2 R xs ys -> In x xs -> exists y, In y ys /\ R x y.
Proof. intros A B R xs ys x F. induction F; intros []; subst; [eexists; split; [left; reflexivity|auto]|]. destruct (IHF H0) as (z & Hz & Hr). eauto using in_cons. Qed.

(** ** Which cells are ghosts of the two kinds *)
(** A cell with a child among the leaves, on a level which is not below all leaves; a cell
    whose parent is a leaf, on a level which is not above all leaves. *)
Definition proj_ghost (n : nat) (cg cells : ca) (l : nat) (p : list Z) : Prop :=
  ca_mem n cg l p /\ (exists q, ca_mem n cells (S l) q /\ p = ancestor 1 q) /\ exists l' p', (l' <= l)%nat /\ ca_mem n cells l' p'.
Definition pred_ghost (n : nat) (cg cells : ca) (l : nat) (p : list Z) : Prop :=
  ca_mem n cg l p /\ (0 < l)%nat /\ ca_mem n cells (Nat.pred l) (ancestor 1 p) /\ exists l' p', (l <= l')%nat /\ ca_mem n cells l' p'.

Record ghost_mesh (n order : nat) (ref cg cells : ca) : Prop := {
  gm_dim : (n <= 2)%nat;
  gm_order : (order <= 5)%nat;
  gm_wf : ca_wf n cells /\ ca_wf n cg;
  gm_max : c_max cg = c_max cells;
  gm_level : forall l, (l <= c_max cells)%nat -> a_level (c_at cells l) = l /\ a_level (c_at cg l) = l;
  gm_range : forall l q k, ca_mem n cells l q \/ ca_mem n cg l q -> (k <= n)%nat -> 2 * (nth k q 0 + 3) < 2 ^ 31 - 1;
  gm_disjoint : no_overlap n cells;
  gm_ref : forall l p, ca_mem n cg l p -> ca_mem n ref l p;
  gm_children : forall l p c, proj_ghost n cg cells l p -> length c = S n -> ancestor 1 c = p -> ca_mem n ref (S l) c;
  gm_parents : forall l p q, pred_ghost n cg cells l p -> length q = S n -> (forall k, (k <= n)%nat -> Z.abs (nth k q 0 - nth k p 0 / 2) <= Z.of_nat order) -> ca_mem n ref (Nat.pred l) q }.

Lemma ancestor1 : forall q, ancestor 1 q = map (fun x => x / 2) q.
Proof. reflexivity. Qed.

(** The children of a cell in the order of the arrays. *)
Definition child_row (p t : list Z) : list Z := map (fun '(x, v) => 2 * x + v) (combine p t).
Definition right_of (p : list Z) : list Z := match p with [] => [] | x :: yz => x + 1 :: yz end.
Definition child_list (p : list Z) (rows : list (list Z)) : list (list Z) := flat_map (fun t => [child_row p t; right_of (child_row p t)]) rows.
Ltac nd := repeat (constructor; [let H := fresh in intros H; cbn [In] in H; repeat (destruct H as [H|H]; [exfalso; injection H; intros; lia|]); destruct H|]); constructor.
Ltac fwd Q0 Q1 Q2 := let H := fresh in intros H; cbn [In] in H; repeat (destruct H as [<-|H]; [split; [reflexivity|cbn [map]; rewrite ?Q0, ?Q1, ?Q2; reflexivity]|]); destruct H.
Lemma r0 : forall p, length p = 1%nat -> NoDup (child_list p [[0]]) /\ forall c, In c (child_list p [[0]]) <-> length c = 1%nat /\ ancestor 1 c = p.
Proof.
  assert (Q1 : forall x, x = 2 * (x / 2) + 0 \/ x = 2 * (x / 2) + 0 + 1) by (intros x; Z.div_mod_to_equations; lia).
  assert (P0 : forall x, (2 * x + 0) / 2 = x) by (intros; Z.div_mod_to_equations; lia). assert (P1 : forall x, (2 * x + 1) / 2 = x) by (intros;  Z.div_mod_to_equations; lia). assert (P2 : forall x, (2 * x + 0 + 1) / 2 = x) by (intros;  Z.div_mod_to_equations; lia).
  intros [|x [|? ?]] Lp; try discriminate. unfold child_list, child_row, right_of, ancestor. change (2 ^ Z.of_nat 1) with 2. cbn [flat_map combine map app]. split; [nd|]. intros c. split; [fwd P0 P1 P2|].
  intros [L E]. destruct c as [|a [|? ?]]; try discriminate. cbn [map] in E. injection E as <-. cbn [In]. destruct (Q1 a) as [H|H]; rewrite <- H; auto.
Qed.
Lemma r1 : let rows := [[0; 0]; [0; 1]] in forall p, length p = 2%nat -> NoDup (child_list p rows) /\ forall c, In c (child_list p rows) <-> length c = 2%nat /\ ancestor 1 c = p.
Proof.
  assert (Q1 : forall x, x = 2 * (x / 2) + 0 \/ x = 2 * (x / 2) + 0 + 1) by (intros x; Z.div_mod_to_equations; lia).
  assert (Q2 : forall x, x = 2 * (x / 2) + 0 \/ x = 2 * (x / 2) + 1) by (intros x; Z.div_mod_to_equations; lia).
  assert (P0 : forall x, (2 * x + 0) / 2 = x) by (intros; Z.div_mod_to_equations; lia). assert (P1 : forall x, (2 * x + 1) / 2 = x) by (intros;  Z.div_mod_to_equations; lia). assert (P2 : forall x, (2 * x + 0 + 1) / 2 = x) by (intros;  Z.div_mod_to_equations; lia).
  intros rows [|x [|y [|? ?]]] Lp; try discriminate. unfold rows, child_list, child_row, right_of, ancestor. change (2 ^ Z.of_nat 1) with 2. cbn [flat_map combine map app]. split; [nd|]. intros c. split; [fwd P0 P1 P2|].
  intros [L E]. destruct c as [|a [|b [|? ?]]]; try discriminate. cbn [map] in E. injection E as <- <-. cbn [In]. destruct (Q1 a) as [H|H], (Q2 b) as [H'|H']; rewrite <- H, <- H'; tauto.
Qed.
Lemma r2 : let rows := [[0; 0; 0]; [0; 1; 0]; [0; 1; 1]; [0; 0; 1]] in forall p, length p = 3%nat -> NoDup (child_list p rows) /\ forall c, In c (child_list p rows) <-> length c = 3%nat /\ ancestor 1 c = p.
Proof.
  assert (Q1 : forall x, x = 2 * (x / 2) + 0 \/ x = 2 * (x / 2) + 0 + 1) by (intros x; Z.div_mod_to_equations; lia).
  assert (Q2 : forall x, x = 2 * (x / 2) + 0 \/ x = 2 * (x / 2) + 1) by (intros x; Z.div_mod_to_equations; lia).
  assert (P0 : forall x, (2 * x + 0) / 2 = x) by (intros; Z.div_mod_to_equations; lia). assert (P1 : forall x, (2 * x + 1) / 2 = x) by (intros;  Z.div_mod_to_equations; lia). assert (P2 : forall x, (2 * x + 0 + 1) / 2 = x) by (intros;  Z.div_mod_to_equations; lia).
  intros rows [|x [|y [|z [|? ?]]]] Lp; try discriminate. unfold rows, child_list, child_row, right_of, ancestor. change (2 ^ Z.of_nat 1) with 2. cbn [flat_map combine map app]. split; [nd|]. intros c. split; [fwd P0 P1 P2|].
  intros [L E]. destruct c as [|a [|b [|d [|? ?]]]]; try discriminate. cbn [map] in E. injection E as <- <- <-. cbn [In]. destruct (Q1 a) as [H|H], (Q2 b) as [H'|H'], (Q2 d) as [H2|H2]; rewrite <- H, <- H', <- H2; tauto.
Qed.

Section Sets.
  Context (n order : nat) (ref cg cells : ca) (GM : ghost_mesh n order ref cg cells) (NR : numbered n ref).

  Lemma level_range : forall l p, ca_mem n cells l p -> (min_level cells <= l <= max_level cells)%nat.
  Proof.
    intros l p [Hl Hp]. assert (W := proj1 (gm_wf _ _ _ _ _ GM) l Hl).
    assert (E : lca_is_empty (c_at cells l) = false) by (apply (nonempty_mem n); eauto). apply (proj2 (proj2 (levels_spec cells))) in E; auto.
    unfold levels in E. apply in_seq in E. lia.
  Qed.
  Lemma occupied : (min_level cells <= max_level cells)%nat -> (max_level cells <= c_max cells)%nat /\
    lca_is_empty (c_at cells (min_level cells)) = false /\ lca_is_empty (c_at cells (max_level cells)) = false.
  Proof.
    intros H. destruct (min_level_spec cells) as (_ & X2 & X3). destruct (max_level_spec cells) as (Y1 & Y2).
    assert (D : forall m, (forall l, (l <= m)%nat -> lca_is_empty (c_at cells l) = true) \/ exists l, (l <= m)%nat /\ lca_is_empty (c_at cells l) = false).
    { induction m as [|m [IH|(l & L & E)]].
      - destruct (lca_is_empty (c_at cells 0)) eqn:E; [left; intros l Hl; replace l with 0%nat by lia; auto|right; eauto].
      - destruct (lca_is_empty (c_at cells (S m))) eqn:E; [left; intros l Hl; destruct (Nat.eq_dec l (S m)) as [->|]; [auto|apply IH; lia]|right; eauto].
      - right. exists l. split; [lia|auto]. }
    destruct (D (c_max cells)) as [E|(l & L & E)].
    - rewrite (X3 E), (Y2 E) in H. lia.
    - destruct (X2 l L E). destruct (Y1 l L E). split; [lia|]. auto.
  Qed.

  Lemma inter_calls : forall t ref0 a b, t = Nd Intersect (More (Lf (leaf_of (NMesh a))) (One (Lf (leaf_of (NMesh b))))) -> wf n a -> wf n b ->
    (forall q k, lca_mem n a q \/ lca_mem n b q -> (k <= n)%nat -> 2 * (nth k q 0 + 3) < 2 ^ 31 - 1) -> (Nat.min ref0 (finest t) <= S (a_level a))%nat -> (Nat.min ref0 (finest t) <= S (a_level b))%nat ->
    exists calls, subset_calls n (inter_on a b ref0) = Some calls /\ (forall i yz, In (i, yz) calls -> length yz = n /\ istart i < iend i) /\
      forall p, length p = S n -> (In p (cells_of_calls calls) <-> denotes n ref0 p (NMesh a) /\ denotes n ref0 p (NMesh b)).
  Proof.
    intros t ref0 a b Et Wa Wb RG La Lb. unfold inter_on. rewrite on_make_op, <- Et.
    assert (HO : operands_ok n ref0 t).
    { intros lf Hlf. set (w := Nat.min ref0 (finest t)) in *.
      assert (G : forall c, (w <= S (a_level c))%nat -> forall q k, nth k q 0 + 3 < 2 ^ 30 -> 2 * (nth k q 0 + 3) < 2 ^ 31 - 1 ->
        (nth k q 0 + 2) * 2 ^ Z.max 0 (Z.of_nat w - Z.of_nat (a_level c)) + 1 < 2 ^ 31 - 1).
      { intros c Hc q k H0 H1. assert (X : Z.max 0 (Z.of_nat w - Z.of_nat (a_level c)) = 0 \/ Z.max 0 (Z.of_nat w - Z.of_nat (a_level c)) = 1) by lia.
        destruct X as [-> | ->]; [change (2 ^ 0) with 1|change (2 ^ 1) with 2]; lia. }
      rewrite Et in Hlf. cbn [tin ain] in Hlf. destruct Hlf as [-> | ->]; cbn [l_node leaf_of]; unfold operand_ok; cbn [simple node_mesh node_vect]; (split; [auto|]; split; [auto|]);
        intros q k Hq Hk; rewrite vadd_nil by apply Hq; (apply G; [auto| |apply RG; auto]); specialize (RG q k); pose proof (RG ltac:(auto) Hk); lia. }
    destruct (C18_levels n ref0 t HO) as (calls & E & V & _ & _ & M). exists calls. split; [exact E|]. split; [exact V|].
    intros p Lp. rewrite (M p Lp). unfold expr_mem. rewrite Et. cbn [tmap tsem]. reflexivity.
  Qed.

  Lemma calls_cells : forall calls p, (forall i yz, In (i, yz) calls -> length yz = n /\ istart i < iend i) -> In p (cells_of_calls calls) -> length p = S n.
  Proof.
    intros calls p V Hp. unfold cells_of_calls in Hp. apply in_flat_map in Hp as ([i yz] & Hin & Hp). apply in_map_iff in Hp as (x & <- & _). cbn [length]. f_equal. apply (V i yz Hin).
  Qed.

  Lemma proj_calls : forall l, (min_level cells <= l < max_level cells)%nat -> exists calls, subset_calls n (proj_set cg cells l) = Some calls /\
    (forall i yz, In (i, yz) calls -> length yz = n /\ istart i < iend i) /\ forall p, In p (cells_of_calls calls) <-> proj_ghost n cg cells l p.
  Proof.
    intros l Hl. destruct (occupied ltac:(lia)) as (MC & NE1 & NE2). pose proof GM as [_ _ [W1 W2] EM LV RG _ _ _ _]. destruct (LV l ltac:(lia)) as [A1 A2]. destruct (LV (S l) ltac:(lia)) as [B1 B2].
    assert (EF : finest (Nd Intersect (More (Lf (leaf_of (NMesh (c_at cg l)))) (One (Lf (leaf_of (NMesh (c_at cells (S l)))))))) = S l) by (cbn; rewrite A2, B1; lia).
    destruct (inter_calls _ l (c_at cg l) (c_at cells (S l)) eq_refl) as (calls & E & V & M).
    { apply W2; lia. } { apply W1; lia. } { intros q k [H|H] Hk; [apply (RG l)|apply (RG (S l))]; auto; [right|left]; split; auto; lia. } { lia. } { lia. }
    exists calls. split; [exact E|]. split; [exact V|].
    assert (D1 : forall p, length p = S n -> (denotes n l p (NMesh (c_at cg l)) <-> lca_mem n (c_at cg l) p)).
    { intros p Lp. rewrite denotes_mesh_fine, A2, Nat.sub_diag by (auto; lia). unfold ancestor. change (2 ^ Z.of_nat 0) with 1. rewrite (map_ext _ (fun x => x)) by (intros; apply Z.div_1_r). rewrite map_id. reflexivity. }
    assert (D2 : forall p, length p = S n -> (denotes n l p (NMesh (c_at cells (S l))) <-> exists q, lca_mem n (c_at cells (S l)) q /\ p = ancestor 1 q)).
    { intros p Lp. rewrite denotes_mesh_coarse, B1 by (auto; lia). replace (S l - l)%nat with 1%nat by lia. reflexivity. }
    assert (MIN : exists l' p', (l' <= l)%nat /\ ca_mem n cells l' p').
    { exists (min_level cells). apply (nonempty_mem n) in NE1; [|apply W1; lia]. destruct NE1 as (p & Hp). exists p. split; [lia|]. split; [lia|exact Hp]. }
    intros p. split.
    - intros Hp. assert (Lp := calls_cells _ _ V Hp). apply M in Hp as [H1 H2]; auto. apply D1 in H1; auto. apply D2 in H2 as (q & Hq & ->); auto.
      split; [split; [lia|auto]|]. split; [|exact MIN]. exists q. split; [split; [lia|auto]|reflexivity].
    - intros ([_ H1] & (q & [_ Hq] & ->) & _). assert (Lq : length q = S n) by apply Hq. assert (Lp : length (ancestor 1 q) = S n) by (unfold ancestor; rewrite map_length; auto).
      apply M; auto. split; [apply D1; auto|apply D2; eauto].
  Qed.

  Lemma pred_calls : forall l, (min_level cells < l <= max_level cells)%nat -> exists calls, subset_calls n (pred_set cg cells l) = Some calls /\
    (forall i yz, In (i, yz) calls -> length yz = n /\ istart i < iend i) /\ forall p, In p (cells_of_calls calls) <-> pred_ghost n cg cells l p.
  Proof.
    intros l Hl. destruct (occupied ltac:(lia)) as (MC & NE1 & NE2). pose proof GM as [_ _ [W1 W2] EM LV RG _ _ _ _]. destruct (LV l ltac:(lia)) as [A1 A2]. destruct (LV (Nat.pred l) ltac:(lia)) as [B1 B2].
    assert (EF : finest (Nd Intersect (More (Lf (leaf_of (NMesh (c_at cg l)))) (One (Lf (leaf_of (NMesh (c_at cells (Nat.pred l)))))))) = l) by (cbn; rewrite A2, B1; lia).
    destruct (inter_calls _ l (c_at cg l) (c_at cells (Nat.pred l)) eq_refl) as (calls & E & V & M).
    { apply W2; lia. } { apply W1; lia. } { intros q k [H|H] Hk; [apply (RG l)|apply (RG (Nat.pred l))]; auto; [right|left]; split; auto; lia. } { lia. } { lia. }
    exists calls. split; [exact E|]. split; [exact V|].
    assert (D1 : forall p, length p = S n -> (denotes n l p (NMesh (c_at cg l)) <-> lca_mem n (c_at cg l) p)).
    { intros p Lp. rewrite denotes_mesh_fine, A2, Nat.sub_diag by (auto; lia). unfold ancestor. change (2 ^ Z.of_nat 0) with 1. rewrite (map_ext _ (fun x => x)) by (intros; apply Z.div_1_r). rewrite map_id. reflexivity. }
    assert (D2 : forall p, length p = S n -> (denotes n l p (NMesh (c_at cells (Nat.pred l))) <-> lca_mem n (c_at cells (Nat.pred l)) (ancestor 1 p))).
    { intros p Lp. rewrite denotes_mesh_fine, B1 by (auto; lia). replace (l - Nat.pred l)%nat with 1%nat by lia. reflexivity. }
    assert (MAX : exists l' p', (l <= l')%nat /\ ca_mem n cells l' p').
    { exists (max_level cells). apply (nonempty_mem n) in NE2; [|apply W1; lia]. destruct NE2 as (p & Hp). exists p. split; [lia|]. split; [lia|exact Hp]. }
    intros p. split.
    - intros Hp. assert (Lp := calls_cells _ _ V Hp). apply M in Hp as [H1 H2]; auto. apply D1 in H1; auto. apply D2 in H2; auto.
      split; [split; [lia|auto]|]. split; [lia|]. split; [split; [lia|auto]|exact MAX].
    - intros ([_ H1] & _ & [_ H2] & _). assert (Lp : length p = S n) by apply H1. apply M; auto. split; [apply D1; auto|apply D2; auto].
  Qed.

  (** ** The projection ghosts and their children *)
  Definition is_children (l : nat) (p : list Z) (ch : list Z) : Prop :=
    exists cs, Forall2 (fun c i => ca_get_index n ref (S l) c = Some i) cs ch /\ NoDup cs /\ forall c, In c cs <-> length c = S n /\ ancestor 1 c = p.
  Definition proj_entry (l : nat) (p : list Z) (e : Z * list Z) : Prop := ca_get_index n ref l p = Some (fst e) /\ is_children l p (snd e).

  Lemma rows_ok : exists rows, child_rows n = Some rows /\ (forall t, In t rows -> exists vs, t = 0 :: vs /\ length vs = n) /\
    forall p, length p = S n -> NoDup (child_list p rows) /\ forall c, In c (child_list p rows) <-> length c = S n /\ ancestor 1 c = p.
  Proof.
    pose proof (gm_dim _ _ _ _ _ GM) as Hn.
    clear GM NR. destruct n as [|[|[|?]]]; [| | |lia]; (eexists; split; [reflexivity|]; split; [intros t Ht; cbn [In] in Ht; repeat (destruct Ht as [<-|Ht]; [eexists; split; reflexivity|]); destruct Ht|]);
      [exact r0|exact r1|exact r2].
  Qed.

  Lemma Forall2_seq : forall (B : Type) (R : list Z -> B -> Prop) (g : nat -> B) i yz, (forall ii, (ii < interval_size i)%nat -> R (istart i + Z.of_nat ii :: yz) (g ii)) ->
    Forall2 R (map (fun x => x :: yz) (zrange (istart i) (iend i))) (map g (seq 0 (interval_size i))).
  Proof.
    intros B R g i yz H. unfold zrange, interval_size in *. rewrite map_map. set (k := Z.to_nat (iend i - istart i)) in *.
    assert (G : forall a m, (a + m <= k)%nat -> Forall2 R (map (fun x => istart i + Z.of_nat x :: yz) (seq a m)) (map g (seq a m))).
    { intros a m. revert a. induction m as [|m IH]; intros a Ha; cbn [seq map]; constructor; [apply H; lia|apply IH; lia]. }
    apply G. lia.
  Qed.
  Lemma Forall2_flat : forall (A B C : Type) (R : C -> B -> Prop) (f : A -> list C) (g : Z -> list B) xs ss, Forall2 (fun x s => Forall2 R (f x) (g s)) xs ss ->
    Forall2 R (flat_map f xs) (flat_map g ss).
  Proof. intros A B C R f g xs ss F. induction F; cbn [flat_map]; [constructor|]. apply Forall2_app_; auto. Qed.

  Lemma proj_interval_spec : forall l i yz, length yz = n -> istart i < iend i -> (forall x, in_i i x -> proj_ghost n cg cells l (x :: yz)) ->
    exists out, proj_interval n ref (mkMI l i yz) = Some out /\ Forall2 (proj_entry l) (map (fun x => x :: yz) (zrange (istart i) (iend i))) out.
  Proof.
    intros l i yz Ly Hi HP. destruct rows_ok as (rows & Er & R1 & R2). unfold proj_interval. cbn [mi_level mi_i mi_index]. unfold get_index_start. cbn [mi_level mi_i mi_index].
    assert (M0 : forall x, in_i i x -> ca_mem n ref l (x :: yz)) by (intros x Hx; apply (gm_ref _ _ _ _ _ GM), (HP x Hx)).
    destruct (numbered_index n ref l (istart i :: yz) NR) as (c0 & E0 & _); [apply M0; unfold in_i; lia|]. rewrite E0, Er.
    assert (MC : forall x c, in_i i x -> length c = S n -> ancestor 1 c = x :: yz -> ca_mem n ref (S l) c) by (intros x c Hx Lc Ec; apply (gm_children _ _ _ _ _ GM l (x :: yz)); auto).
    assert (CH : forall x t, In t rows -> in_i i x -> let c := child_row (x :: yz) t in ca_mem n ref (S l) c /\ ca_mem n ref (S l) (right_of c) /\ c = 2 * x :: child_row yz (tl t)).
    { intros x t Ht Hx c. assert (Lx : length (x :: yz) = S n) by (cbn; lia). destruct (R2 (x :: yz) Lx) as [_ I]. 
      assert (I1 : In c (child_list (x :: yz) rows)) by (apply in_flat_map; exists t; split; [auto|left; auto]).
      assert (I2 : In (right_of c) (child_list (x :: yz) rows)) by (apply in_flat_map; exists t; split; [auto|right; left; auto]).
      apply I in I1 as [L1 A1], I2 as [L2 A2]. split; [apply (MC x); auto|]. split; [apply (MC x); auto|]. destruct (R1 t Ht) as (vs & -> & Lv). unfold c, child_row. cbn [combine map tl]. f_equal. lia. }
    assert (ST : exists starts, all_opt (get_index_start_children n ref (mkMI l i yz)) rows = Some starts /\
      Forall2 (fun t s => In t rows /\ ca_get_index n ref (S l) (child_row (istart i :: yz) t) = Some s) rows starts).
    { apply all_opt_some. intros t Ht. unfold get_index_start_children. cbn [mi_level mi_i mi_index].
      destruct (CH (istart i) t Ht) as (C1 & _); [unfold in_i; lia|]. destruct (numbered_index n ref (S l) _ NR C1) as (s & Es & _). exists s. split; [exact Es|auto]. }
    destruct ST as (starts & -> & FS). eexists. split; [reflexivity|].
    apply Forall2_seq. intros ii Hii. unfold interval_size in Hii. assert (Hx : in_i i (istart i + Z.of_nat ii)) by (unfold in_i; lia). split; cbn [fst snd].
    - apply numbered_run; auto. intros y Hy. apply M0. unfold in_i. lia.
    - exists (child_list (istart i + Z.of_nat ii :: yz) rows). split; [|apply R2; cbn; lia].
      unfold child_list. apply Forall2_flat. clear Er R1 R2. revert FS. generalize starts. intros sts FS. induction FS as [|t s ts ss [Ht Es] FS IH]; constructor; [|exact IH].
      destruct (CH _ t Ht Hx) as (C1 & C2 & Ec). destruct (CH (istart i) t Ht) as (_ & _ & Ec0); [unfold in_i; lia|]. rewrite Ec0 in Es. set (zs := child_row yz (tl t)) in *.
      assert (RUN : ca_get_index n ref (S l) (2 * istart i + Z.of_nat (2 * ii) :: zs) = Some (s + Z.of_nat (2 * ii)) /\ ca_get_index n ref (S l) (2 * istart i + Z.of_nat (2 * ii + 1) :: zs) = Some (s + Z.of_nat (2 * ii + 1))).
      { assert (ALL : forall y, 2 * istart i <= y <= 2 * istart i + Z.of_nat (2 * ii + 1) -> ca_mem n ref (S l) (y :: zs)).
        { intros y Hy. assert (Hy2 : in_i i (y / 2)) by (unfold in_i; lia). destruct (CH (y / 2) t Ht Hy2) as (D1 & D2 & Ed). rewrite Ed in D1, D2. cbn [right_of] in D2.
          destruct (Z.eq_dec (y mod 2) 0) as [Hp|Hp]; [replace y with (2 * (y / 2)) by lia; exact D1|replace y with (2 * (y / 2) + 1) by lia; exact D2]. }
        split; apply numbered_run; auto; intros y Hy; apply ALL; lia. }
      destruct RUN as [RA RB]. rewrite Ec. cbn [right_of]. constructor; [|constructor; [|constructor]].
      + replace (2 * (istart i + Z.of_nat ii)) with (2 * istart i + Z.of_nat (2 * ii)) by lia. replace (s + 2 * Z.of_nat ii) with (s + Z.of_nat (2 * ii)) by lia. exact RA.
      + replace (2 * (istart i + Z.of_nat ii) + 1) with (2 * istart i + Z.of_nat (2 * ii + 1)) by lia. replace (s + 2 * Z.of_nat ii + 1) with (s + Z.of_nat (2 * ii + 1)) by lia. exact RB.
  Qed.

  (** ** The prediction ghosts *)
  Lemma cells_interval_spec : forall l i yz, length yz = n -> istart i < iend i -> (forall x, in_i i x -> ca_mem n ref l (x :: yz)) ->
    exists out, cells_interval n ref (mkMI l i yz) = Some out /\ Forall2 (cell_is n ref l) (map (fun x => x :: yz) (zrange (istart i) (iend i))) out.
  Proof.
    intros l i yz Ly Hi HP. unfold cells_interval, get_index_start. cbn [mi_level mi_i mi_index].
    destruct (numbered_index n ref l (istart i :: yz) NR) as (c0 & E0 & _); [apply HP; unfold in_i; lia|]. rewrite E0. eexists. split; [reflexivity|].
    apply Forall2_seq. intros ii Hii. unfold interval_size in Hii. split; [reflexivity|]. split; [reflexivity|]. cbn [sc_index]. apply numbered_run; auto. intros y Hy. apply HP. unfold in_i. lia.
  Qed.

  Definition ix (l : nat) (q : list Z) : Z := match ca_get_index n ref l q with Some i => i | None => 0 end.
  Definition pred_comb_ok (l : nat) (p : list Z) (lc : comb) : Prop :=
    (forall i q, In (i, q) lc -> exists z, length z = S n /\ (forall k, (k <= n)%nat -> Z.abs (nth k z 0 - nth k p 0 / 2) <= Z.of_nat order) /\ ca_get_index n ref (Nat.pred l) z = Some i) /\
    forall x, (comb_value x lc == interpolated order (fun z => x (ix (Nat.pred l) z)) p)%Q.

  Lemma near_shift : forall p cs, length cs = length p -> Forall (fun c => c <= 2 * order)%nat cs -> let z := shifted order (map (fun i => Z.shiftr i 1) p) cs in
    length z = length p /\ forall k, Z.abs (nth k z 0 - nth k p 0 / 2) <= Z.of_nat order.
  Proof.
    induction p as [|x p IH]; intros [|c cs] L F; try discriminate; cbn [shifted map combine] in *.
    - split; [reflexivity|]. intros [|k]; cbn; lia.
    - inversion F as [|? ? Hc Fc]; subst. injection L as L. destruct (IH cs L Fc) as [L' N']. split; [cbn [length]; f_equal; exact L'|].
      intros [|k]; cbn [nth]; [rewrite shiftr1; lia|apply N'].
  Qed.

  Lemma prediction_comb_spec : forall l p g, pred_ghost n cg cells l p -> cell_is n ref l p g -> exists lc, prediction_comb n order ref g = Some lc /\ pred_comb_ok l p lc.
  Proof.
    intros l p g PG (L1 & L2 & L3). unfold prediction_comb. pose proof (gm_dim _ _ _ _ _ GM) as Hn. pose proof (gm_order _ _ _ _ _ GM) as Ho.
    assert (Lp : length p = S n) by apply PG. destruct (Nat.ltb_spec 2 n); [lia|]. rewrite L1, L2. set (h := map (fun i => Z.shiftr i 1) p). set (m := Nat.pred l).
    assert (Lh : length h = S n) by (unfold h; rewrite map_length; auto).
    assert (IN : forall z, length z = S n -> (forall k, (k <= n)%nat -> Z.abs (nth k z 0 - nth k p 0 / 2) <= Z.of_nat order) -> ca_get_index n ref m z = Some (ix m z)).
    { intros z Lz Hz. destruct (numbered_index n ref m z NR) as (i & E & _); [apply (gm_parents _ _ _ _ _ GM l p z PG Lz Hz)|]. unfold ix. rewrite E. reflexivity. }
    assert (NH : forall k, (k <= n)%nat -> Z.abs (nth k h 0 - nth k p 0 / 2) <= Z.of_nat order).
    { intros k Hk. unfold h. rewrite (nth_indep _ 0 (Z.shiftr 0 1)) by (rewrite map_length; lia). rewrite (map_nth (fun i => Z.shiftr i 1)), shiftr1. lia. }
    rewrite (IN h Lh NH).
    assert (NS : forall cs q, In (cs, q) (interp_loop order p) -> length (shifted order h cs) = S n /\ forall k, (k <= n)%nat -> Z.abs (nth k (shifted order h cs) 0 - nth k p 0 / 2) <= Z.of_nat order).
    { intros cs q Hc. apply loop_In in Hc as [C1 C2]. destruct (near_shift p cs C1 (C2 Ho)) as [S1 S2]. split; [rewrite <- Lp; exact S1|intros k _; apply S2]. }
    set (fl := filter (fun '(cs, _) => negb (is_centre order cs)) (interp_loop order p)).
    destruct (all_opt_some _ _ (fun '(cs, q) => let* i := ca_get_index n ref m (shifted order h cs) in Some (i, q)) (fun (c : list nat * Q) e => e = (ix m (shifted order h (fst c)), snd c)) fl) as (rest & Er & FR).
    { intros [cs q] Hc. apply filter_In in Hc as [Hc _]. destruct (NS cs q Hc) as [S1 S2]. rewrite (IN _ S1 S2). eexists. split; reflexivity. }
    rewrite Er. eexists. split; [reflexivity|].
    assert (ER : rest = map (fun c => (ix m (shifted order h (fst c)), snd c)) fl).
    { clear -FR. induction FR as [|a b l0 l1 E F IH]; [reflexivity|]. cbn [map]. rewrite E, IH. reflexivity. }
    split.
    - intros i q [E|H1].
      + injection E as <- _. exists h. split; [auto|]. split; [exact NH|]. fold m. apply IN; auto.
      + rewrite ER in H1. apply in_map_iff in H1 as ([cs q'] & E & Hc). cbn [fst snd] in E. injection E as <- _. apply filter_In in Hc as [Hc _]. destruct (NS cs q' Hc) as [S1 S2].
        exists (shifted order h cs). split; [auto|]. split; [exact S2|]. apply IN; auto.
    - intros x. fold m. unfold comb_value. rewrite sum_cons, ER, sum_map. unfold fl. rewrite sum_filter.
      rewrite <- (loop_sum order p (fun z => x (ix m z))). fold h.
      pose proof (centre_sum order p (fun cs => x (ix m (shifted order h cs))) Ho) as C. cbv beta in C. replace (length p) with (length h) in C by (unfold h; apply map_length). rewrite shifted_centre in C.
      rewrite <- C, Qmult_1_l, <- sum_plus. apply sum_ext. intros [cs q] _. cbn [fst snd]. destruct (is_centre order cs); cbn [negb]; ring.
  Qed.

  (** ** All of them *)
  Lemma all_projection : exists ps, projection_ghosts n ref cg cells = Some ps /\ (forall e, In e ps -> exists l p, proj_ghost n cg cells l p /\ proj_entry l p e) /\
    forall l p, proj_ghost n cg cells l p -> exists e, In e ps /\ proj_entry l p e.
  Proof.
    assert (L : forall l, (min_level cells <= l < max_level cells)%nat -> exists o, over_set n (proj_set cg cells l) (proj_interval n ref) = Some o /\
      (forall e, In e o -> exists p, proj_ghost n cg cells l p /\ proj_entry l p e) /\ forall p, proj_ghost n cg cells l p -> exists e, In e o /\ proj_entry l p e).
    { intros l Hl. destruct (proj_calls l Hl) as (calls & E & V & M). unfold over_set. rewrite E. change (s_ref (proj_set cg cells l)) with l.
      destruct (concat_calls_spec _ (proj_entry l) (fun '(i, yz) => proj_interval n ref (mkMI l i yz)) calls) as (out & Eo & F).
      { intros i yz Hin. destruct (V i yz Hin) as [V1 V2]. apply proj_interval_spec; auto. intros x Hx. apply M. apply cells_of_calls_In. exists i. split; auto. }
      exists out. split; [exact Eo|]. split.
      - intros e He. destruct (Forall2_In_r _ _ _ _ _ _ F He) as (p & Hp & Re). exists p. split; [apply M; auto|auto].
      - intros p Hp. apply M in Hp. destruct (Forall2_In_l _ _ _ _ _ _ F Hp) as (e & He & Re). eauto. }
    destruct (each_level_some _ (fun level => over_set n (proj_set cg cells level) (proj_interval n ref)) (seq (min_level cells) (max_level cells - min_level cells))) as (ps & E & S0).
    { intros l Hl. apply in_seq in Hl. destruct (L l) as (o & Eo & _); [lia|eauto]. }
    exists ps. split; [exact E|]. split.
    - intros e He. apply S0 in He as (l & o & Hl & Eo & He). apply in_seq in Hl. destruct (L l) as (o' & Eo' & A & _); [lia|]. rewrite Eo in Eo'. injection Eo' as <-. destruct (A e He) as (p & P1 & P2). eauto.
    - intros l p Hp. assert (Hl : (min_level cells <= l < max_level cells)%nat).
      { destruct Hp as (_ & (q & Hq & _) & l' & p' & Hl' & Hp'). apply level_range in Hq. apply level_range in Hp'. lia. }
      destruct (L l Hl) as (o & Eo & _ & B). destruct (B p Hp) as (e & He & Re). exists e. split; [|exact Re]. apply S0. exists l, o. split; [apply in_seq; lia|auto].
  Qed.
  Lemma all_prediction : exists gs, prediction_ghosts n ref cg cells = Some gs /\ (forall e, In e gs -> exists l p, pred_ghost n cg cells l p /\ cell_is n ref l p e) /\
    forall l p, pred_ghost n cg cells l p -> exists e, In e gs /\ cell_is n ref l p e.
  Proof.
    assert (L : forall l, (min_level cells < l <= max_level cells)%nat -> exists o, over_set n (pred_set cg cells l) (cells_interval n ref) = Some o /\
      (forall e, In e o -> exists p, pred_ghost n cg cells l p /\ cell_is n ref l p e) /\ forall p, pred_ghost n cg cells l p -> exists e, In e o /\ cell_is n ref l p e).
    { intros l Hl. destruct (pred_calls l Hl) as (calls & E & V & M). unfold over_set. rewrite E. change (s_ref (pred_set cg cells l)) with l.
      destruct (concat_calls_spec _ (cell_is n ref l) (fun '(i, yz) => cells_interval n ref (mkMI l i yz)) calls) as (out & Eo & F).
      { intros i yz Hin. destruct (V i yz Hin) as [V1 V2]. apply cells_interval_spec; auto. intros x Hx. apply (gm_ref _ _ _ _ _ GM). apply M. apply cells_of_calls_In. exists i. split; auto. }
      exists out. split; [exact Eo|]. split.
      - intros e He. destruct (Forall2_In_r _ _ _ _ _ _ F He) as (p & Hp & Re). exists p. split; [apply M; auto|auto].
      - intros p Hp. apply M in Hp. destruct (Forall2_In_l _ _ _ _ _ _ F Hp) as (e & He & Re). eauto. }
    destruct (each_level_some _ (fun level => over_set n (pred_set cg cells level) (cells_interval n ref)) (seq (S (min_level cells)) (max_level cells - min_level cells))) as (ps & E & S0).
    { intros l Hl. apply in_seq in Hl. destruct (L l) as (o & Eo & _); [lia|eauto]. }
    exists ps. split; [exact E|]. split.
    - intros e He. apply S0 in He as (l & o & Hl & Eo & He). apply in_seq in Hl. destruct (L l) as (o' & Eo' & A & _); [lia|]. rewrite Eo in Eo'. injection Eo' as <-. destruct (A e He) as (p & P1 & P2). eauto.
    - intros l p Hp. assert (Hl : (min_level cells < l <= max_level cells)%nat).
      { destruct Hp as (_ & Hz & Hq & l' & p' & Hl' & Hp'). apply level_range in Hq. apply level_range in Hp'. lia. }
      destruct (L l Hl) as (o & Eo & _ & B). destruct (B p Hp) as (e & He & Re). exists e. split; [|exact Re]. apply S0. exists l, o. split; [apply in_seq; lia|auto].
  Qed.

  Definition child_weight : Q := (1 / inject_Z (2 ^ Z.of_nat (S n)))%Q.
  Definition entry_ok (l : nat) (p : list Z) (lc : comb) : Prop :=
    (proj_ghost n cg cells l p /\ exists ch, is_children l p ch /\ lc = map (fun c => (c, child_weight)) ch) \/ (pred_ghost n cg cells l p /\ pred_comb_ok l p lc).
  Definition any_ghost (l : nat) (p : list Z) : Prop := proj_ghost n cg cells l p \/ pred_ghost n cg cells l p.

  Lemma initial_spec : exists r, initial_recursion n order ref cg cells = Some r /\
    (forall k lc, rec_find k r = Some lc -> exists l p, ca_get_index n ref l p = Some k /\ entry_ok l p lc) /\
    (forall l p, any_ghost l p -> exists k, ca_get_index n ref l p = Some k /\ is_key r k).
  Proof.
    destruct all_projection as (ps & Ep & P1 & P2). destruct all_prediction as (gs & Eg & G1 & G2). unfold initial_recursion. rewrite Ep, Eg. fold child_weight.
    set (f := fun r '(g, children) => rec_insert g (map (fun c => (c, child_weight)) children) r).
    assert (A : forall ps r, rec_sorted r -> let r' := fold_left f ps r in rec_sorted r' /\
      (forall k lc, rec_find k r' = Some lc -> rec_find k r = Some lc \/ exists e, In e ps /\ fst e = k /\ lc = map (fun c => (c, child_weight)) (snd e)) /\
      (forall k, is_key r k -> is_key r' k) /\ forall e, In e ps -> is_key r' (fst e)).
    { clear. induction ps as [|[g ch] ps IH]; intros r Hr; cbn [fold_left].
      - split; [auto|]. split; [auto|]. split; [auto|]. intros ? [].
      - destruct (IH (f r (g, ch)) (insert_sorted _ _ _ Hr)) as (A & B & C & D). cbv zeta.
        assert (FI : forall k, rec_find k (f r (g, ch)) = match rec_find k r with Some x => Some x | None => if k =? g then Some (map (fun c => (c, child_weight)) ch) else None end) by (intros k; apply find_insert; auto).
        split; [exact A|]. split; [|split].
        + intros k lc Hk. destruct (B k lc Hk) as [E|(e & He & E1 & E2)]; [|right; exists e; auto with datatypes].
          rewrite FI in E. destruct (rec_find k r); [left; auto|]. destruct (Z.eqb_spec k g) as [->|]; [|discriminate]. injection E as <-. right. exists (g, ch). split; [left; auto|auto].
        + intros k Hk. apply C. unfold is_key in *. rewrite FI. destruct (rec_find k r); congruence.
        + intros e [<-|He]; [|auto]. apply C. unfold is_key. rewrite FI. cbn [fst]. rewrite Z.eqb_refl. destruct (rec_find g r); discriminate. }
    assert (S0 : rec_sorted []) by constructor. destruct (A ps [] S0) as (A1 & A2 & A3 & A4). set (r1 := fold_left f ps []) in *.
    assert (B : forall gs r, rec_sorted r -> (forall e, In e gs -> exists l p, pred_ghost n cg cells l p /\ cell_is n ref l p e) ->
      exists r', fold_opt (fun r g => let* c := prediction_comb n order ref g in Some (rec_insert (sc_index g) c r)) gs r = Some r' /\
      (forall k lc, rec_find k r' = Some lc -> rec_find k r = Some lc \/ exists l p, pred_ghost n cg cells l p /\ ca_get_index n ref l p = Some k /\ pred_comb_ok l p lc) /\
      (forall k, is_key r k -> is_key r' k) /\ forall e, In e gs -> is_key r' (sc_index e)).
    { clear -GM NR. induction gs as [|g gs IH]; intros r Hr HG; cbn [fold_opt].
      - exists r. split; [auto|]. split; [auto|]. split; [auto|]. intros ? [].
      - destruct (HG g (or_introl eq_refl)) as (l & p & PG & CI). destruct (prediction_comb_spec l p g PG CI) as (lc0 & -> & OK).
        destruct (IH (rec_insert (sc_index g) lc0 r) (insert_sorted _ _ _ Hr) (fun e He => HG e (or_intror He))) as (r' & -> & B & C & D). exists r'. split; [reflexivity|].
        assert (FI : forall k, rec_find k (rec_insert (sc_index g) lc0 r) = match rec_find k r with Some x => Some x | None => if k =? sc_index g then Some lc0 else None end) by (intros k; apply find_insert; auto).
        split; [|split].
        + intros k lc Hk. destruct (B k lc Hk) as [E|H]; [|right; exact H]. rewrite FI in E. destruct (rec_find k r); [left; auto|]. destruct (Z.eqb_spec k (sc_index g)) as [->|]; [|discriminate]. injection E as <-.
          right. exists l, p. split; [auto|]. split; [apply CI|auto].
        + intros k Hk. apply C. unfold is_key in *. rewrite FI. destruct (rec_find k r); congruence.
        + intros e [<-|He]; [|auto]. apply C. unfold is_key. rewrite FI, Z.eqb_refl. destruct (rec_find (sc_index g) r); discriminate. }
    destruct (B gs r1 A1 G1) as (r' & Er & B1 & B2 & B3). exists r'. split; [exact Er|]. split.
    - intros k lc Hk. destruct (B1 k lc Hk) as [E|(l & p & PG & Ei & OK)]; [|exists l, p; split; [auto|right; auto]].
      destruct (A2 k lc E) as [E'|(e & He & <- & ->)]; [discriminate|]. destruct (P1 e He) as (l & p & PG & Ei & Ch). exists l, p. split; [exact Ei|]. left. split; [exact PG|eauto].
    - intros l p [PG|PG].
      + destruct (P2 l p PG) as (e & He & Ei & _). exists (fst e). split; [exact Ei|]. apply B2. auto.
      + destruct (G2 l p PG) as (e & He & Ei). exists (sc_index e). split; [apply Ei|]. auto.
  Qed.

  (** ** No cycle *)
  Lemma leaf_not_proj : forall l p, ca_mem n cells l p -> ~ proj_ghost n cg cells l p.
  Proof. intros l p Hp (_ & (q & Hq & ->) & _). pose proof (gm_disjoint _ _ _ _ _ GM l (S l) (ancestor 1 q) q Hp Hq) as D. replace (S l - l)%nat with 1%nat in D by lia. specialize (D ltac:(lia) eq_refl). lia. Qed.
  Lemma leaf_not_pred : forall l p, ca_mem n cells l p -> ~ pred_ghost n cg cells l p.
  Proof. intros l p Hp (_ & H0 & Hq & _). pose proof (gm_disjoint _ _ _ _ _ GM (Nat.pred l) l (ancestor 1 p) p Hq Hp) as D. replace (l - Nat.pred l)%nat with 1%nat in D by lia. specialize (D ltac:(lia) eq_refl). lia. Qed.
  Lemma not_both : forall l p, proj_ghost n cg cells l p -> ~ pred_ghost n cg cells l p.
  Proof.
    intros l p (_ & (q & Hq & ->) & _) (_ & H0 & Hp & _). pose proof (gm_disjoint _ _ _ _ _ GM (Nat.pred l) (S l) _ q Hp Hq) as D. replace (S l - Nat.pred l)%nat with 2%nat in D by lia.
    enough (Nat.pred l = S l) by lia. apply D; [lia|]. unfold ancestor. rewrite map_map. apply map_ext. intros x. change (2 ^ Z.of_nat 2) with 4. change (2 ^ Z.of_nat 1) with 2. rewrite Z.div_div by lia. reflexivity.
  Qed.
  Lemma child_not_pred : forall l p c, proj_ghost n cg cells l p -> ancestor 1 c = p -> ~ pred_ghost n cg cells (S l) c.
  Proof.
    intros l p c (_ & (q & Hq & ->) & _) Ec (_ & _ & Hp & _). cbn [Nat.pred] in Hp. rewrite Ec in Hp. pose proof (gm_disjoint _ _ _ _ _ GM l (S l) _ q Hp Hq) as D. replace (S l - l)%nat with 1%nat in D by lia.
    specialize (D ltac:(lia) eq_refl). lia.
  Qed.

  Definition ghost_rank (l : nat) (p : list Z) (m : nat) : Prop := (proj_ghost n cg cells l p /\ m = (max_level cells - l)%nat) \/ (pred_ghost n cg cells l p /\ m = (max_level cells + l)%nat).
  Lemma choose_rank : forall (R : Z -> nat -> Prop) ks, (forall k, In k ks -> exists m, R k m) -> exists f : Z -> nat, forall k, In k ks -> R k (f k).
  Proof.
    intros R. induction ks as [|k ks IH]; intros H; [exists (fun _ => 0%nat); intros ? []|]. destruct (H k (or_introl eq_refl)) as (m & Hm). destruct IH as (f & Hf); [intros; apply H; right; auto|].
    exists (fun j => if Z.eq_dec j k then m else f j). intros j Hj. destruct (Z.eq_dec j k) as [->|D]; [auto|]. destruct Hj as [->|Hj]; [contradiction|auto].
  Qed.
  Lemma ghost_stored : forall l p, any_ghost l p -> ca_mem n ref l p.
  Proof. intros l p [[H _]|[H _]]; apply (gm_ref _ _ _ _ _ GM); auto. Qed.
  Lemma entry_ghost : forall l p lc, entry_ok l p lc -> any_ghost l p.
  Proof. intros l p lc [[H _]|[H _]]; [left|right]; auto. Qed.

  Lemma ranked : forall r, initial_recursion n order ref cg cells = Some r -> exists rank, (forall k, gap rank r k 1) /\ forall k, is_key r k -> (rank k <= 2 * max_level cells)%nat.
  Proof.
    intros r Er. destruct initial_spec as (r' & Er' & A & B). rewrite Er in Er'. injection Er' as <-.
    set (R := fun k m => exists l p, ca_get_index n ref l p = Some k /\ ghost_rank l p m).
    destruct (choose_rank R (map fst r)) as (rank & HR).
    { intros k Hk. apply rec_find_key in Hk. destruct (rec_find k r) as [lc|] eqn:E; [|contradiction]. destruct (A k lc E) as (l & p & Ei & [[PG _]|[PG _]]).
      - exists (max_level cells - l)%nat, l, p. split; [exact Ei|left; auto].
      - exists (max_level cells + l)%nat, l, p. split; [exact Ei|right; auto]. }
    assert (RK : forall l p k, any_ghost l p -> ca_get_index n ref l p = Some k -> is_key r k -> ghost_rank l p (rank k)).
    { intros l p k G Ei Hk. apply rec_find_key in Hk. destruct (HR k Hk) as (l' & p' & Ei' & GR). assert (G' : any_ghost l' p') by (destruct GR as [[H _]|[H _]]; [left|right]; auto).
      destruct (numbered_inj n ref l p l' p' k NR (ghost_stored _ _ G) (ghost_stored _ _ G') Ei Ei') as [-> ->]. exact GR. }
    exists rank. split.
    - intros k lc j q E Hj Hk. assert (KK : is_key r k) by (unfold is_key; congruence). destruct (A k lc E) as (l & p & Ei & OK). pose proof (RK l p k (entry_ghost _ _ _ OK) Ei KK) as RKk.
      pose proof Hk as Hk'. unfold is_key in Hk'. destruct (rec_find j r) as [lj|] eqn:Ej; [|contradiction]. destruct (A j lj Ej) as (lj' & pj & Eij & OKj). pose proof (RK lj' pj j (entry_ghost _ _ _ OKj) Eij Hk) as RKj.
      assert (Gj := ghost_stored _ _ (entry_ghost _ _ _ OKj)).
      destruct OK as [[PG (ch & (cs & F & ND & M) & ->)]|[PG [OK _]]].
      + apply in_map_iff in Hj as (c & Ec & Hc). injection Ec as -> _. destruct (Forall2_In_r _ _ _ _ _ _ F Hc) as (z & Hz & Ez). apply M in Hz as [Lz Az].
        assert (Sz : ca_mem n ref (S l) z) by (apply (gm_children _ _ _ _ _ GM l p); auto). destruct (numbered_inj n ref _ _ _ _ j NR Sz Gj Ez Eij) as [<- <-].
        destruct RKk as [[_ RKk]|[PG' _]]; [|exfalso; apply (not_both l p PG PG')].
        destruct RKj as [[PJ RKj]|[PJ _]]; [|exfalso; apply (child_not_pred l p z PG Az PJ)].
        assert (S l < max_level cells)%nat. { destruct PJ as (_ & (q' & Hq & _) & _). apply level_range in Hq. lia. } lia.
      + destruct (OK j q Hj) as (z & Lz & Nz & Ez). assert (Sz : ca_mem n ref (Nat.pred l) z) by (apply (gm_parents _ _ _ _ _ GM l p); auto). destruct (numbered_inj n ref _ _ _ _ j NR Sz Gj Ez Eij) as [<- <-].
        destruct RKk as [[PG' _]|[_ RKk]]; [exfalso; apply (not_both l p PG' PG)|]. assert (0 < l)%nat by apply PG. destruct RKj as [[PJ RKj]|[PJ RKj]]; lia.
    - intros k Hk. pose proof Hk as Hk'. apply rec_find_key in Hk'. destruct (HR k Hk') as (l & p & _ & [[_ ->]|[PG ->]]); [lia|]. destruct PG as (_ & _ & _ & l' & p' & Hl & Hp). apply level_range in Hp. lia.
  Qed.
End Sets.
