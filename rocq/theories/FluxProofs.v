(** Proofs about the explicit flux-based schemes. *)
From Coq Require Import QArith.
From Verif Require Import Base IntervalModel Spec LoiModel LcaModel LcaSpec LcaProofs LcaProofs3 RowsProofs CellArrayModel CellArrayProofs
  PropsLca PropsCellArray SubsetModel TreeProofs SubsetSpec SubsetProofs2 PropsSubset StencilModel NumberingProofs StencilProofs PropsStencil
  MeshModel MeshProofs PropsMesh AdaptModel AdaptProofs TagProofs PropsAdapt GradModel GradProofs PropsGrad NumProofs InterfaceModel InterfaceProofs
  PropsInterface GeomModel PropsNum PropsTransfer FluxModel BoundaryProofs PropsBoundary.
Open Scope Z_scope.

(** ** Sums *)
Definition sum_over {A : Type} (f : A -> Q) (xs : list A) : Q := qsum (map f xs).

Lemma sum_cons : forall (A : Type) (f : A -> Q) x xs, (sum_over f (x :: xs) == f x + sum_over f xs)%Q.
Proof. reflexivity. Qed.
Lemma sum_nil : forall (A : Type) (f : A -> Q), (sum_over f [] == 0)%Q.
Proof. reflexivity. Qed.
Lemma sum_app : forall (A : Type) (f : A -> Q) xs ys, (sum_over f (xs ++ ys) == sum_over f xs + sum_over f ys)%Q.
Proof. intros. unfold sum_over. rewrite map_app. apply qsum_app. Qed.
Lemma sum_perm : forall (A : Type) (f : A -> Q) xs ys, Permutation xs ys -> (sum_over f xs == sum_over f ys)%Q.
Proof. intros. apply qsum_perm. apply Permutation_map. auto. Qed.
Lemma sum_ext : forall (A : Type) (f g : A -> Q) xs, (forall x, In x xs -> (f x == g x)%Q) -> (sum_over f xs == sum_over g xs)%Q.
Proof.
  intros A f g xs. induction xs as [|x xs IH]; intros H; [reflexivity|]. rewrite !sum_cons, IH by (intros; apply H; right; auto).
  rewrite (H x) by (left; auto). reflexivity.
Qed.
Lemma sum_map : forall (A B : Type) (g : A -> B) (f : B -> Q) xs, sum_over f (map g xs) = sum_over (fun x => f (g x)) xs.
Proof. intros. unfold sum_over. rewrite map_map. reflexivity. Qed.
Lemma sum_plus : forall (A : Type) (f g : A -> Q) xs, (sum_over (fun x => f x + g x) xs == sum_over f xs + sum_over g xs)%Q.
Proof. intros A f g xs. induction xs as [|x xs IH]; [reflexivity|]. rewrite !sum_cons, IH. ring. Qed.
Lemma sum_scale : forall (A : Type) (c : Q) (f : A -> Q) xs, (sum_over (fun x => c * f x) xs == c * sum_over f xs)%Q.
Proof. intros A c f xs. induction xs as [|x xs IH]; [rewrite !sum_nil; ring|]. rewrite !sum_cons, IH. ring. Qed.
Lemma sum_zero : forall (A : Type) (f : A -> Q) xs, (forall x, In x xs -> (f x == 0)%Q) -> (sum_over f xs == 0)%Q.
Proof.
  intros A f xs. induction xs as [|x xs IH]; intros H; [reflexivity|]. rewrite sum_cons, IH by (intros; apply H; right; auto).
  rewrite (H x) by (left; auto). ring.
Qed.
Lemma sum_filter : forall (A : Type) (p : A -> bool) (f : A -> Q) xs, (sum_over f (filter p xs) == sum_over (fun x => if p x then f x else 0) xs)%Q.
Proof.
  intros A p f xs. induction xs as [|x xs IH]; [reflexivity|]. cbn [filter]. rewrite sum_cons, <- IH. destruct (p x); [rewrite sum_cons; reflexivity|ring].
Qed.
Lemma sum_prod : forall (A B : Type) (f : A * B -> Q) xs ys, (sum_over f (list_prod xs ys) == sum_over (fun x => sum_over (fun y => f (x, y)) ys) xs)%Q.
Proof.
  intros A B f xs ys. induction xs as [|x xs IH]; [reflexivity|]. cbn [list_prod]. rewrite sum_app, IH, sum_cons, sum_map. reflexivity.
Qed.
Lemma sum_swap : forall (A B : Type) (f : A -> B -> Q) xs ys,
  (sum_over (fun x => sum_over (fun y => f x y) ys) xs == sum_over (fun y => sum_over (fun x => f x y) xs) ys)%Q.
Proof.
  intros A B f xs ys. induction xs as [|x xs IH].
  - rewrite sum_nil. symmetry. apply sum_zero. intros y _. reflexivity.
  - rewrite sum_cons, IH. rewrite <- sum_plus. apply sum_ext. intros y _. rewrite sum_cons. reflexivity.
Qed.
(** Only one element contributes. *)
Lemma sum_pick : forall (A : Type) (eqb : A -> A -> bool) (f : A -> Q) xs x0, (forall a b, eqb a b = true <-> a = b) -> NoDup xs -> In x0 xs ->
  (sum_over (fun x => if eqb x x0 then f x else 0) xs == f x0)%Q.
Proof.
  intros A eqb f xs x0 He N. induction N as [|x xs Hx N IH]; intros H0; [destruct H0|]. rewrite sum_cons. destruct (eqb x x0) eqn:E.
  - apply He in E. subst. rewrite sum_zero; [ring|]. intros y Hy. destruct (eqb y x0) eqn:E; [|reflexivity]. apply He in E. subst. contradiction.
  - destruct H0 as [->|H0]; [|rewrite IH by auto; ring]. assert (eqb x0 x0 = true) by (apply He; auto). congruence.
Qed.

(** ** Outputs *)
Definition first_index (cs : list scell) (j : nat) : Z := match nth_error cs j with Some c => sc_index c | None => 0 end.
Definition hit (i j : Z) (v : Q) : Q := if i =? j then v else 0%Q.

Lemma add_interior_spec : forall evs out, (forall e, In e evs -> exists a b, fst e = [a; b]) -> exists out', add_interior evs out = Some out' /\
  forall i k, (out' i k == out i k + sum_over (fun e => hit i (first_index (fst e) 0) (fst (snd e) k) + hit i (first_index (fst e) 1) (snd (snd e) k)) evs)%Q.
Proof.
  induction evs as [|[cs [lv rv]] evs IH]; intros out H.
  - exists out. split; [reflexivity|]. intros i k. rewrite sum_nil. ring.
  - destruct (H (cs, (lv, rv)) (or_introl eq_refl)) as (a & b & E). cbn [fst] in E. subst cs. cbn [add_interior nth_error add_value].
    edestruct IH as (out' & E' & S'); [intros; apply H; right; auto|]. exists out'. split; [exact E'|]. intros i k. rewrite S', sum_cons. cbn [fst snd first_index nth_error].
    unfold hit. destruct (i =? sc_index a), (i =? sc_index b); ring.
Qed.
Lemma add_boundary_spec : forall evs out, (forall e, In e evs -> exists a, fst e = [a]) -> exists out', add_boundary evs out = Some out' /\
  forall i k, (out' i k == out i k + sum_over (fun e => hit i (first_index (fst e) 0) (snd e k)) evs)%Q.
Proof.
  induction evs as [|[cs v] evs IH]; intros out H.
  - exists out. split; [reflexivity|]. intros i k. rewrite sum_nil. ring.
  - destruct (H (cs, v) (or_introl eq_refl)) as (a & E). cbn [fst] in E. subst cs. cbn [add_boundary nth_error add_value].
    edestruct IH as (out' & E' & S'); [intros; apply H; right; auto|]. exists out'. split; [exact E'|]. intros i k. rewrite S', sum_cons. cbn [fst snd first_index nth_error].
    unfold hit. destruct (i =? sc_index a); ring.
Qed.

(** ** The interfaces visited by a scheme *)
Definition level_at (f : iface) (j : nat) : nat := match nth_error (fst f) j with Some c => sc_level c | None => 0 end.
Definition scheme_event (n : nat) (scaling : Q) (F : list scell -> value * value) (f : iface) : event :=
  interior_event n F (cell_length scaling (Nat.max (level_at f 0) (level_at f 1))) (cell_length scaling (level_at f 0)) (cell_length scaling (level_at f 1)) f.

Section Visited.
  Context (n d maxl : nat) (st comput : stencil) (ref cells : ca).
  Context (Hd : (d <= n)%nat) (HM : interface_mesh n d maxl st cells) (HR : stencil_room n d ref cells comput) (NR : numbered n ref).
  Context (HC : forall v, In v comput -> length v = S n) (HZ : In (repeat 0 (S n)) comput) (HDC : In (unit_mult n d 1) comput).
  Let dir := unit_mult n d 1.
  Let leaf := ca_mem n cells.
  Let SL l := same_level n ref cells l dir comput.
  Let JL l := level_jump n maxl ref cells l dir comput.
  Let OL l := level_jump_opposite n maxl ref cells l dir comput.

  Lemma no_leaf_empty : forall l, lca_is_empty (c_at cells l) = true -> forall p, ~ leaf l p.
  Proof.
    intros l E p [Hl Hp]. assert (lca_is_empty (c_at cells l) = false); [|congruence]. apply (nonempty_mem n); [apply (im_wf _ _ _ _ _ HM); auto|eauto].
  Qed.
  Lemma Forall2_nil : forall (A B : Type) (R : A -> B -> Prop) (o : list B) zs, Forall2 R zs o -> (forall z, ~ In z zs) -> o = [].
  Proof. intros A B R o zs F H. destruct F as [|x y zs o]; auto. exfalso. apply (H x). left; auto. Qed.

  Definition jump_events (scaling : Q) (F : list scell -> value * value) (l : nat) : list event :=
    map (interior_event n F (cell_length scaling (S l)) (cell_length scaling l) (cell_length scaling (S l))) (got (JL l)) ++
    map (interior_event n F (cell_length scaling (S l)) (cell_length scaling (S l)) (cell_length scaling l)) (got (OL l)).

  Lemma same_got : forall l, (l <= c_max cells)%nat -> SL l <> None /\ (lca_is_empty (c_at cells l) = true -> got (SL l) = []) /\
    forall scaling F, map (interior_event n F (cell_length scaling l) (cell_length scaling l) (cell_length scaling l)) (got (SL l)) = map (scheme_event n scaling F) (got (SL l)).
  Proof.
    intros l Hl. destruct (same_level_spec n d maxl st comput ref cells Hd HM HR NR HC HZ HDC l Hl) as (zs & out & E & N & M & C).
    unfold SL, dir. rewrite E. cbn [got]. split; [discriminate|]. split.
    - intros He. apply (Forall2_nil _ _ _ _ _ C). intros z Hz. apply M in Hz as [Hz _]. apply (no_leaf_empty l He z Hz).
    - intros scaling F. apply map_ext_in. intros f Hf. destruct (Forall2_In_r _ _ _ _ _ _ C Hf) as (z & Hz & (a & b & Ef & (A1 & _) & (B1 & _)) & _).
      unfold scheme_event, level_at. rewrite Ef. cbn [nth_error]. rewrite A1, B1, Nat.max_id. reflexivity.
  Qed.
  Lemma jump_got : forall l, JL l <> None /\ OL l <> None /\ ((forall p, ~ leaf l p) \/ (forall p, ~ leaf (S l) p) -> got (JL l) = [] /\ got (OL l) = []) /\
    forall scaling F, jump_events scaling F l = map (scheme_event n scaling F) (got (JL l) ++ got (OL l)).
  Proof.
    intros l. destruct (level_jump_spec n d maxl st comput ref cells Hd HM HR NR HC HZ HDC l) as (z1 & o1 & E1 & N1 & M1 & C1).
    destruct (opposite_spec n d maxl st comput ref cells Hd HM HR NR HC HZ HDC l) as (z2 & o2 & E2 & N2 & M2 & C2).
    unfold jump_events, JL, OL, dir. rewrite E1, E2. cbn [got]. split; [discriminate|]. split; [discriminate|]. split.
    - intros He. split; [apply (Forall2_nil _ _ _ _ _ C1)|apply (Forall2_nil _ _ _ _ _ C2)]; intros z Hz; [apply M1 in Hz as (_ & A & B)|apply M2 in Hz as (_ & A & B)];
        (destruct He as [He|He]; [apply (He _ A)|apply (He _ B)]).
    - intros scaling F. rewrite map_app. f_equal; apply map_ext_in; intros f Hf.
      + destruct (Forall2_In_r _ _ _ _ _ _ C1 Hf) as (z & Hz & (a & b & Ef & (A1 & _) & (B1 & _)) & _).
        unfold scheme_event, level_at. rewrite Ef. cbn [nth_error]. rewrite A1, B1. replace (Nat.max l (S l)) with (S l) by lia. reflexivity.
      + destruct (Forall2_In_r _ _ _ _ _ _ C2 Hf) as (z & Hz & (a & b & Ef & (A1 & _) & (B1 & _)) & _).
        unfold scheme_event, level_at. rewrite Ef. cbn [nth_error]. rewrite A1, B1. replace (Nat.max (S l) l) with (S l) by lia. reflexivity.
  Qed.

  Lemma scheme_interior_spec : forall scaling nf, nf_stencil nf = comput -> exists fs,
    scheme_interior n maxl scaling ref cells d nf = Some (map (scheme_event n scaling (flux_function nf)) fs) /\ NoDup (map sides fs) /\
    (forall l1 p1 l2 p2, In [(l1, p1); (l2, p2)] (map sides fs) <-> leaf l1 p1 /\ leaf l2 p2 /\ share_face n d l1 p1 l2 p2) /\
    forall f, In f fs -> call_ok n d ref comput f.
  Proof.
    intros scaling nf En. destruct (levels_spec cells) as (_ & S2 & _).
    set (ls := seq (min_level cells) (S (max_level cells) - min_level cells)). change (levels cells) with ls in S2.
    set (ls' := seq (min_level cells) (max_level cells - min_level cells)).
    set (fs := flat_map (fun l => got (SL l)) ls ++ flat_map (fun l => got (JL l) ++ got (OL l)) ls').
    exists fs. split.
    - unfold scheme_interior. rewrite En. fold dir. fold ls ls'.
      rewrite each_level_got.
      2:{ intros l Hl. fold (SL l). destruct (same_got l (S2 l Hl)) as (H & _). destruct (SL l); [discriminate|contradiction]. }
      rewrite each_level_got.
      2:{ intros l Hl. fold (JL l) (OL l). destruct (jump_got l) as (H1 & H2 & _). destruct (JL l); [|contradiction]. destruct (OL l); [discriminate|contradiction]. }
      f_equal. unfold fs. rewrite map_app. f_equal.
      + assert (G : forall xs, (forall l, In l xs -> (l <= c_max cells)%nat) -> flat_map (fun l => got (let* o := same_level n ref cells l dir comput in
          Some (map (interior_event n (flux_function nf) (cell_length scaling l) (cell_length scaling l) (cell_length scaling l)) o))) xs =
          map (scheme_event n scaling (flux_function nf)) (flat_map (fun l => got (SL l)) xs)).
        { induction xs as [|l xs IH]; intros H; auto. cbn [flat_map]. rewrite map_app, IH by (intros; apply H; right; auto). f_equal.
          destruct (same_got l) as (N & _ & E); [apply H; left; auto|]. rewrite <- E. fold (SL l). destruct (SL l); [reflexivity|contradiction]. }
        apply G. auto.
      + clearbody ls'. clear fs. induction ls' as [|l xs IH]; auto. cbn [flat_map]. rewrite map_app, IH. f_equal.
        destruct (jump_got l) as (N1 & N2 & _ & E). rewrite <- E. unfold jump_events. fold (JL l) (OL l). destruct (JL l); [|contradiction]. destruct (OL l); [reflexivity|contradiction].
    - destruct (interfaces_spec n d maxl st comput ref cells Hd HM HR NR HC HZ HDC) as (out & E & N & M & C).
      assert (P : Permutation fs out).
      { unfold for_each_interior_interface in E. rewrite over_levels_got in E.
        2:{ intros l Hl _. unfold interfaces_of_level. fold dir. fold (SL l) (JL l) (OL l). destruct (same_got l (S2 l Hl)) as (H & _). destruct (jump_got l) as (H1 & H2 & _).
            destruct (SL l); [|contradiction]. destruct (JL l); [|contradiction]. destruct (OL l); [discriminate|contradiction]. }
        injection E as <-. change (levels cells) with ls.
        assert (E1 : flat_map (fun l => if lca_is_empty (c_at cells l) then [] else got (interfaces_of_level n maxl ref cells (unit_mult n d 1) comput l)) ls =
          flat_map (fun l => got (SL l) ++ (got (JL l) ++ got (OL l))) ls).
        { assert (G : forall xs, (forall l, In l xs -> (l <= c_max cells)%nat) ->
            flat_map (fun l => if lca_is_empty (c_at cells l) then [] else got (interfaces_of_level n maxl ref cells (unit_mult n d 1) comput l)) xs =
            flat_map (fun l => got (SL l) ++ (got (JL l) ++ got (OL l))) xs); [|apply G; auto].
          induction xs as [|l xs IH]; intros H; auto. cbn [flat_map]. rewrite IH by (intros; apply H; right; auto). f_equal.
          destruct (same_got l) as (H0 & H0' & _); [apply H; left; auto|]. destruct (jump_got l) as (H1 & H2 & H3 & _).
          destruct (lca_is_empty (c_at cells l)) eqn:Em.
          - rewrite H0' by auto. destruct H3 as [-> ->]; auto. left. apply no_leaf_empty. auto.
          - unfold interfaces_of_level. fold dir. fold (SL l) (JL l) (OL l). destruct (SL l); [|contradiction]. destruct (JL l); [|contradiction]. destruct (OL l); [reflexivity|contradiction]. }
        rewrite E1. etransitivity; [|symmetry; apply flat_map_app2]. apply Permutation_app_head. apply Permutation_refl'.
        assert (G : forall g : nat -> list iface, g (max_level cells) = [] -> flat_map g ls' = flat_map g ls).
        { intros g Hg. unfold ls, ls'. destruct (Nat.le_gt_cases (min_level cells) (max_level cells)) as [Hle|Hgt].
          - replace (S (max_level cells) - min_level cells)%nat with (S (max_level cells - min_level cells)) by lia.
            rewrite seq_S, flat_map_app. replace (min_level cells + (max_level cells - min_level cells))%nat with (max_level cells) by lia. cbn [flat_map].
            rewrite Hg, !app_nil_r. reflexivity.
          - replace (S (max_level cells) - min_level cells)%nat with 0%nat by lia. replace (max_level cells - min_level cells)%nat with 0%nat by lia. reflexivity. }
        apply (G (fun l => got (JL l) ++ got (OL l))).
        destruct (jump_got (max_level cells)) as (_ & _ & H3 & _). destruct H3 as [-> ->]; [|reflexivity].
        right. intros p Hp. apply leaf_in_levels in Hp as [Hp _]; [|apply (im_wf _ _ _ _ _ HM)]. unfold levels in Hp. apply in_seq in Hp. lia. }
      split; [eapply Permutation_NoDup; [apply Permutation_map; symmetry; exact P|exact N]|]. split.
      + intros l1 p1 l2 p2. unfold leaf. rewrite <- M. split; apply Permutation_in; apply Permutation_map; [exact P|symmetry; exact P].
      + intros f Hf. apply C. eapply Permutation_in; eauto.
  Qed.
End Visited.

(** The boundary faces. *)
Definition scheme_bevent (n : nat) (scaling : Q) (side : value * value -> value) (F : list scell -> value * value) (f : iface) : list scell * value :=
  boundary_event n side F (cell_length scaling (level_at f 0)) f.

Definition faces_ok (n : nat) (domain : lca) (ref cells : ca) (comput : stencil) (s shift : list Z) (o : list iface) : Prop :=
  NoDup (map sides o) /\
  (forall x, In x (map sides o) <-> exists l p, x = [(l, p)] /\ ca_mem n cells l p /\ outside n domain l (vadd n p s)) /\
  forall f, In f o -> bcall_ok n ref comput shift f.

Lemma scheme_boundary_spec : forall n d domain ref cells scaling nf, (d <= n)%nat -> boundary_mesh n d domain ref cells (nf_stencil nf) -> numbered n ref ->
  (forall v, In v (nf_stencil nf) -> length v = S n) -> In (repeat 0 (S n)) (nf_stencil nf) -> In (unit_mult n d 1) (nf_stencil nf) ->
  exists evs o1 o2, scheme_boundary n scaling ref cells domain d nf = Some evs /\
    Permutation evs (map (scheme_bevent n scaling fst (flux_function nf)) o1 ++ map (scheme_bevent n scaling snd (flux_function nf)) o2) /\
    faces_ok n domain ref cells (nf_stencil nf) (unit_mult n d 1) (repeat 0 (S n)) o1 /\
    faces_ok n domain ref cells (nf_stencil nf) (unit_mult n d (-1)) (unit_mult n d (-1)) o2.
Proof.
  intros n d domain ref cells scaling nf Hd HB NR HC HZ HDC. pose proof HB as [W LV _ _ _ _ _ _]. unfold scheme_boundary.
  pose proof (direction_got n d domain ref cells _ Hd HB NR HC HZ HDC) as DG.
  pose proof (opposite_got n d domain ref cells _ Hd HB NR HC HDC) as OG.
  rewrite neg_unit_mult in OG. change (- (1)) with (-1) in OG.
  set (comput := nf_stencil nf) in *. set (F := flux_function nf).
  set (A := fun l => boundary_direction n ref cells domain l (unit_mult n d 1) comput) in *.
  set (B := fun l => boundary_opposite n ref cells domain l (unit_mult n d 1) comput) in *.
  rewrite over_levels_got.
  2:{ intros l Hl He. destruct (DG l (level_leaf n cells l W LV Hl He)) as [D1 _]. destruct (OG l (level_leaf n cells l W LV Hl He)) as [O1 _]. fold (A l) (B l).
      destruct (A l) eqn:E1; [|contradiction D1; exact E1]. destruct (B l) eqn:E2; [discriminate|contradiction O1; exact E2]. }
  eexists. exists (flat_map (fun l => if lca_is_empty (c_at cells l) then [] else got (A l)) (levels cells)).
  exists (flat_map (fun l => if lca_is_empty (c_at cells l) then [] else got (B l)) (levels cells)). split; [reflexivity|]. split; [|split].
  - assert (G : forall ls, (forall l, In l ls -> In l (levels cells)) ->
      flat_map (fun l => if lca_is_empty (c_at cells l) then [] else got (let* a := boundary_direction n ref cells domain l (unit_mult n d 1) comput in
        let* b := boundary_opposite n ref cells domain l (unit_mult n d 1) comput in
        Some (map (boundary_event n fst F (cell_length scaling l)) a ++ map (boundary_event n snd F (cell_length scaling l)) b))) ls =
      flat_map (fun l => map (scheme_bevent n scaling fst F) (if lca_is_empty (c_at cells l) then [] else got (A l)) ++
                         map (scheme_bevent n scaling snd F) (if lca_is_empty (c_at cells l) then [] else got (B l))) ls).
    { induction ls as [|l ls IH]; intros H; auto. cbn [flat_map]. rewrite IH by (intros; apply H; right; auto). f_equal.
      destruct (lca_is_empty (c_at cells l)) eqn:He; [reflexivity|].
      destruct (DG l (level_leaf n cells l W LV (H l (or_introl eq_refl)) He)) as [D1 (_ & D2 & D3)].
      destruct (OG l (level_leaf n cells l W LV (H l (or_introl eq_refl)) He)) as [O1 (_ & O2 & O3)]. fold (A l) (B l).
      change (boundary_direction n ref cells domain l (unit_mult n d 1) comput) with (A l) in D1, D2, D3.
      change (boundary_opposite n ref cells domain l (unit_mult n d 1) comput) with (B l) in O1, O2, O3.
      destruct (A l) as [a|]; [|contradiction D1; auto]. destruct (B l) as [b|]; [|contradiction O1; auto]. cbn [got] in *.
      f_equal; apply map_ext_in; intros f Hf; unfold scheme_bevent; f_equal.
      - assert (Hs : In (sides f) (map sides a)) by (apply in_map; auto). apply D2 in Hs as (p & Hs & _). unfold sides, level_at in *.
        destruct (fst f) as [|e [|? ?]]; try discriminate Hs. cbn [map nth_error] in *. injection Hs as -> _. reflexivity.
      - assert (Hs : In (sides f) (map sides b)) by (apply in_map; auto). apply O2 in Hs as (p & Hs & _). unfold sides, level_at in *.
        destruct (fst f) as [|e [|? ?]]; try discriminate Hs. cbn [map nth_error] in *. injection Hs as -> _. reflexivity. }
    rewrite G by auto. etransitivity; [apply flat_map_app2|].
    assert (M : forall (X Y : Type) (f : X -> Y) (g : nat -> list X) ls, flat_map (fun l => map f (g l)) ls = map f (flat_map g ls)).
    { intros X Y f g ls. induction ls as [|l ls IH]; auto. cbn [flat_map]. rewrite map_app, IH. reflexivity. }
    rewrite !M. reflexivity.
  - apply faces_all; auto. intros l Hl. apply DG; auto.
  - apply faces_all; auto. intros l Hl. apply OG; auto.
Qed.
