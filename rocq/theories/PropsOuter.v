(** Property C57: the boundary conditions fill the outer ghosts of a multiresolution mesh,
    as update_ghost_mr needs it. *)
From Coq Require Import QArith.
From Verif Require Import Base IntervalModel Spec LoiModel LcaModel LcaSpec LcaProofs RowsProofs CellArrayModel CellArrayProofs PropsLca PropsCellArray
  SubsetModel TreeProofs SubsetSpec SubsetProofs2 PropsSubset StencilModel StencilProofs PropsStencil MeshModel MeshProofs PropsMesh NumModel NumProofs PropsNum
  AdaptModel AdaptProofs TagProofs TransferProofs PropsAdapt PropsTransfer MrModel MrProofs PropsMr GhostModel GhostProofs PropsGhost BcProofs PropsGrad.
Open Scope Z_scope.

(** ** Hypotheses *)

(** A boundary condition of order 1: a stencil of two cells, the outer one getting a value
    that depends on the one inside and on the value of the condition. *)
Definition order_one (b : bc) : Prop :=
  two_cells b /\ forall dx v x x', (x == x')%Q -> (ghost_value b dx v x == ghost_value b dx v x')%Q.

(** Its region, in each Cartesian direction: cells of the domain whose neighbour is not in it. *)
Definition on_boundary (n maxl : nat) (lo hi : list Z) (b : bc) : Prop :=
  forall dir a, In (dir, a) (bc_region b) -> is_cartesian dir = true ->
    length dir = S n /\ wf n a /\ a_level a = maxl /\ forall z, lca_mem n a z -> inside n lo hi maxl z /\ ~ inside n lo hi maxl (add_vec z dir).

(** Together they cover the boundary. *)
Definition covering (n maxl : nat) (lo hi : list Z) (bs : list bc) : Prop :=
  forall dir z, length dir = S n -> is_cartesian dir = true -> inside n lo hi maxl z -> ~ inside n lo hi maxl (add_vec z dir) ->
    exists b a, In b bs /\ In (dir, a) (bc_region b) /\ lca_mem n a z.

(** The configuration: ghosts and prediction of width 1, domain of level [maxl]. *)
Definition outer_input (n m minl maxl : nat) (cells : ca) (lo hi : list Z) (domain : lca) (bs : list bc) : Prop :=
  ghost_input n m minl maxl 1 1 cells lo hi /\ (maxl < 30)%nat /\ is_box n maxl lo hi domain /\
  (forall b, In b bs -> order_one b /\ on_boundary n maxl lo hi b).

Lemma dirichlet_order_one : forall region value, order_one (mkBc 2 region value (dirichlet 1)).
Proof.
  intros region value. split; [split; [reflexivity|intros; reflexivity]|]. intros dx v x x' E. unfold ghost_value, dirichlet. cbn [bc_apply nth]. rewrite E. reflexivity.
Qed.
Lemma neumann_order_one : forall region value, order_one (mkBc 2 region value neumann).
Proof.
  intros region value. split; [split; [reflexivity|intros; reflexivity]|]. intros dx v x x' E. unfold ghost_value, neumann. cbn [bc_apply nth]. rewrite E. reflexivity.
Qed.

(** ** On the Cartesian directions *)
Lemma axis_crossing : forall n lo hi l dir p, length dir = S n -> is_cartesian dir = true ->
  (crossing n lo hi l dir p <-> inside n lo hi l p /\ ~ inside n lo hi l (add_vec p dir)).
Proof.
  intros n lo hi l dir p Ld EC. destruct (cartesian_axis n dir Ld EC) as (d & Hd & A & Z0). split.
  - intros [Hp Ho]. split; auto. intros [_ X]. specialize (X d Hd). rewrite nth_add_vec in X by (rewrite (proj1 Hp); auto). apply (Ho d Hd); auto. lia.
  - intros [Hp Ho]. split; auto. intros k Hk Hne X. assert (k = d) as -> by (destruct (Nat.eq_dec k d); auto; exfalso; apply Hne; auto).
    apply Ho. assert (Lp : length p = S n) by apply Hp. split; [rewrite add_vec_length; lia|]. intros j Hj. rewrite nth_add_vec by lia.
    destruct (Nat.eq_dec j d) as [->|Hj']; auto. rewrite Z0, Z.add_0_r by auto. apply Hp. auto.
Qed.

Section Outer.
  Variables (n m minl maxl : nat) (cells : ca) (lo hi : list Z) (domain : lca) (bs : list bc) (r : mr_mesh).
  Hypothesis HI : outer_input n m minl maxl cells lo hi domain bs.
  Hypothesis HR : update_sub_mesh n m minl maxl 1 1 cells = Some r.

  Lemma oi_gi : ghost_input n m minl maxl 1 1 cells lo hi.
  Proof. exact (proj1 HI). Qed.
  Lemma oi_inside : forall l q, ca_mem n cells l q -> inside n lo hi l q.
  Proof. exact (proj1 (proj2 (proj1 (proj2 (proj2 oi_gi))))). Qed.

  (** A cell reached across the boundary has its neighbours towards the box. *)
  Lemma inward_wanted : forall l p dir t, length dir = S n -> length t = S n -> (forall k, (k <= n)%nat -> -1 <= nth k dir 0 <= 1) ->
    crossing n lo hi l dir p -> (forall k, (k <= n)%nat -> nth k t 0 = 0 \/ nth k t 0 = nth k dir 0) ->
    wanted n minl 1 1 cells l (add_vec p dir) -> wanted n minl 1 1 cells l (add_vec p t).
  Proof.
    intros l p dir t Ld Lt Hd [[Lp Hp] Ho] Ht HW.
    assert (La : length (add_vec p t) = S n) by (rewrite add_vec_length; lia).
    assert (K : forall k y, (k <= n)%nat -> nth k lo 0 * 2 ^ Z.of_nat l - 1 <= y <= nth k hi 0 * 2 ^ Z.of_nat l -> Z.abs (nth k (add_vec p dir) 0 - y) <= 1 ->
      Z.abs (nth k (add_vec p t) 0 - y) <= 1).
    { intros k y Hk. rewrite !nth_add_vec by lia. specialize (Hd k Hk). specialize (Hp k Hk). specialize (Ho k Hk). specialize (Ht k Hk).
      set (a := nth k lo 0 * 2 ^ Z.of_nat l) in *. set (b := nth k hi 0 * 2 ^ Z.of_nat l) in *. clearbody a b. lia. }
    remember (add_vec p dir) as q eqn:Eq. destruct HW as [l q (Lq & z & Hz & N)|l q h Lq (Lh & z & Hz & N) HN N'|l q z Lq Hz N|l q Lq HW HF].
    - apply wanted_margin. split; auto. exists z. split; auto. intros k Hk. apply K; auto. apply oi_inside in Hz as [_ Hz]. specialize (Hz k Hk). lia.
    - apply (wanted_parent _ _ _ _ _ l _ h); auto; [split; eauto|]. intros k Hk. apply K; auto. rewrite nth_ancestor. change (2 ^ Z.of_nat 1) with 2.
      apply oi_inside in Hz as [_ Hz]. specialize (Hz k Hk). specialize (N k Hk). rewrite Nat2Z.inj_succ, Z.pow_succ_r in Hz by lia.
      set (P := 2 ^ Z.of_nat l) in *. clearbody P.
      replace (nth k lo 0 * (2 * P)) with (2 * (nth k lo 0 * P)) in Hz by ring. replace (nth k hi 0 * (2 * P)) with (2 * (nth k hi 0 * P)) in Hz by ring.
      set (a := nth k lo 0 * P) in *. set (b := nth k hi 0 * P) in *. clearbody a b. lia.
    - apply (wanted_grand _ _ _ _ _ l _ z); auto. intros k Hk. apply K; auto. apply oi_inside in Hz. replace (S (S l)) with (l + 2)%nat in Hz by lia.
      apply inside_ancestor in Hz as [_ [_ Hz]]. specialize (Hz k Hk). lia.
    - assert (Hq : inside n lo hi (S l) q).
      { destruct HF as (_ & l' & z & Hl' & Hz & E). apply oi_inside in Hz. replace (S l) with (l + 1)%nat by lia. apply inside_ancestor. split; auto. rewrite E.
        replace l' with (l + (l' - l))%nat in Hz at 1 by lia. apply inside_ancestor in Hz. apply Hz. }
      replace (add_vec p t) with q; [apply wanted_child; auto|]. subst q. apply (list_ext n); auto. intros k Hk. rewrite !nth_add_vec by lia. f_equal.
      destruct Hq as [_ Hq]. specialize (Hq k Hk). rewrite nth_add_vec in Hq by lia. destruct (Ht k Hk) as [E|E]; [|congruence].
      rewrite E. destruct (Z.eq_dec (nth k dir 0) 0); auto. exfalso. apply (Ho k Hk); auto.
  Qed.

  Notation allr := (all_wanted n m minl maxl 1 1 cells lo hi r oi_gi HR).
  Notation atl := (at_level n m minl maxl 1 1 cells lo hi r oi_gi HR).

  Lemma m_max : (maxl <= m)%nat.
  Proof. exact (gi_max _ _ _ _ _ _ _ _ _ oi_gi). Qed.

  Lemma bound_hi : forall k, (k <= n)%nat -> 2 * (Z.max 0 (nth k hi 0) * 2 ^ Z.of_nat maxl + 8) < 2 ^ 31 - 1.
  Proof. destruct oi_gi as (_ & _ & _ & _ & _ & _ & _ & _ & H). intros k Hk. specialize (H k Hk). lia. Qed.

  Lemma lvl_cells : forall l, (l <= maxl)%nat -> wf n (c_at cells l) /\ a_level (c_at cells l) = l.
  Proof.
    intros l Hl. pose proof m_max. pose proof (gi_in _ _ _ _ _ _ _ _ _ oi_gi) as Hin. split; [apply (in_wf _ _ _ _ _ _ _ Hin); rewrite (in_max _ _ _ _ _ _ _ Hin); lia|].
    destruct Hin as (_ & _ & _ & H4 & _). apply H4. lia.
  Qed.
  Lemma lvl_ref : forall l, (l <= maxl)%nat -> wf n (c_at (r_all r) l) /\ a_level (c_at (r_all r) l) = l.
  Proof.
    intros l Hl. pose proof m_max. destruct (proj1 (contents n m minl maxl 1 1 cells lo hi r oi_gi HR) (r_all r) (or_intror eq_refl)) as (W & M & L).
    split; [apply W; lia|apply L; lia].
  Qed.
  Lemma lvl_bound : forall l q k, (l <= maxl)%nat -> lca_mem n (c_at (r_all r) l) q -> (k <= n)%nat -> nth k q 0 + 4 < 2 ^ 31 - 1.
  Proof.
    intros l q k Hl Hq Hk. pose proof m_max. assert (Hq' : ca_mem n (r_all r) l q) by (apply atl; auto; lia).
    pose proof (all_bound n m minl maxl 1 1 cells lo hi r oi_gi HR l q k Hq' Hk). lia.
  Qed.
  Lemma lvl_leaf : forall l p, (l <= maxl)%nat -> lca_mem n (c_at cells l) p -> inside n lo hi l p /\
    forall q, length q = S n -> near n 1 q p -> lca_mem n (c_at (r_all r) l) q.
  Proof.
    intros l p Hl Hp. pose proof m_max. assert (Hp' : ca_mem n cells l p) by (apply atl; auto; lia). split; [apply oi_inside; auto|].
    intros q Lq N. apply atl; auto; [lia|]. apply allr. apply wanted_margin. split; eauto.
  Qed.
  Lemma lvl_inward : forall l p dir t, (l <= maxl)%nat -> length dir = S n -> length t = S n -> (forall k, (k <= n)%nat -> -1 <= nth k dir 0 <= 1) ->
    crossing n lo hi l dir p -> (forall k, (k <= n)%nat -> nth k t 0 = 0 \/ nth k t 0 = nth k dir 0) ->
    lca_mem n (c_at (r_all r) l) (add_vec p dir) -> lca_mem n (c_at (r_all r) l) (add_vec p t).
  Proof.
    intros l p dir t Hl Ld Lt Hd Hc Ht H. pose proof m_max. apply atl; auto; [lia|]. apply allr. apply (inward_wanted l p dir t); auto. apply allr. apply atl; auto. lia.
  Qed.

  Lemma entries_ok : forall e, In e (entries bs) -> entry_ok n maxl lo hi e.
  Proof.
    intros [b [dir a]] He. unfold entries in He. apply in_flat_map in He as (b' & Hb & He). apply in_map_iff in He as ([dir' a'] & E & He).
    apply pair_equal_spec in E as [-> E]. apply pair_equal_spec in E as [-> ->]. destruct HI as (_ & _ & _ & HB). destruct (HB b Hb) as [[H2 _] HO].
    split; auto. cbn [fst snd]. intros EC. destruct (HO dir a He EC) as (Ld & W & L & H). split; auto. split; auto. split; auto.
    intros z Hz. apply axis_crossing; auto.
  Qed.
  Lemma entry_In : forall b dir a, In b bs -> In (dir, a) (bc_region b) -> In (b, (dir, a)) (entries bs).
  Proof. intros b dir a H1 H2. unfold entries. apply in_flat_map. exists b. split; auto. apply in_map. auto. Qed.

  (** *** What the conditions do on one level *)
  Lemma outer_spec : forall dx l v, (l <= maxl)%nat ->
    exists v', update_bc n cells (r_all r) domain minl maxl 1 1 dx bs l v = Some v' /\
      (forall k, k <> l -> v' k = v k) /\
      (forall q, inside n lo hi l q \/ ~ ca_mem n (r_all r) l q -> value_at (v' l) q = value_at (v l) q) /\
      ((n <= 1)%nat ->
        (forall dir p, good_dir n dir -> handled n (match bs with [] => false | _ => true end) dir -> crossing n lo hi l dir p ->
           ca_mem n (r_all r) l (add_vec p dir) -> value_at (v' l) (add_vec p dir) = value_at (v l) p) /\
        (forall pre b dir a post p, entries bs = pre ++ (b, (dir, a)) :: post -> hit n l (r_all r) (b, (dir, a)) p ->
           (forall b' a', In (b', (dir, a')) post -> ~ hit n l (r_all r) (b', (dir, a')) p) ->
           value_at (v' l) (add_vec p dir) = ghost_value b (dx l) (bc_value b l dir p) (value_at (v l) p)) /\
        (forall e p, In e (entries bs) -> hit n l (r_all r) e p \/ ~ hit n l (r_all r) e p)).
  Proof.
    intros dx l v Hl. destruct HI as (HG & Hm & HB & HBs). pose proof m_max.
    destruct (update_bc_spec n l maxl lo hi cells (r_all r) domain) with (minl := minl) (dx := dx) (bs := bs) (v := v) as (v' & E & A & B & D); auto.
    - apply HG.
    - apply bound_hi.
    - apply lvl_cells. auto.
    - apply lvl_ref. auto.
    - intros q k Hq Hk. apply (lvl_bound l q k); auto.
    - intros p Hp. apply lvl_leaf; auto.
    - intros p dir t. apply lvl_inward; auto.
    - intros X. destruct HG as (_ & Hne & _). congruence.
    - intros b Hb. apply (HBs b Hb).
    - apply entries_ok.
    - exists v'. split; auto. split; auto. split.
      + intros q Hq. apply B; auto. destruct Hq as [Hq|Hq]; auto. right. intros X. apply Hq. apply atl; auto. lia.
      + intros Hn1. destruct (D Hn1) as (D1 & D2 & D3). split; auto. intros dir p Hg Hh Hc Hr. apply D1; auto. apply atl in Hr; auto. lia.
  Qed.

  (** A cell of the boundary, on level [l], has a cell of the domain on the boundary in it. *)
  Lemma extreme : forall l dir c, (l <= maxl)%nat -> length dir = S n -> is_cartesian dir = true -> crossing n lo hi l dir c ->
    exists z, length z = S n /\ ancestor (maxl - l) z = c /\ inside n lo hi maxl z /\ ~ inside n lo hi maxl (add_vec z dir).
  Proof.
    intros l dir c Hl Ld EC Hc. pose proof Hc as [[Lc Hi] Ho]. set (A := 2 ^ Z.of_nat (maxl - l)). assert (PA : 0 < A) by (apply Z.pow_pos_nonneg; lia).
    exists (map (fun k => nth k c 0 * A + (if nth k dir 0 =? 1 then A - 1 else 0)) (seq 0 (S n))).
    set (z := map _ _). assert (Lz : length z = S n) by (unfold z; rewrite map_length, seq_length; auto).
    assert (Nz : forall k, (k <= n)%nat -> nth k z 0 = nth k c 0 * A + (if nth k dir 0 =? 1 then A - 1 else 0)).
    { intros k Hk. unfold z. apply (nth_map_seq (S n) (fun k => nth k c 0 * A + (if nth k dir 0 =? 1 then A - 1 else 0))). lia. }
    split; auto. assert (Az : ancestor (maxl - l) z = c).
    { apply (list_ext n); auto; [rewrite ancestor_length; auto|]. intros k Hk. rewrite nth_ancestor, Nz by auto. fold A. rewrite Z.div_add_l by lia.
      destruct (nth k dir 0 =? 1); rewrite Z.div_small by lia; lia. }
    split; auto. apply axis_crossing; auto.
    assert (P : 2 ^ Z.of_nat maxl = A * 2 ^ Z.of_nat l) by (unfold A; rewrite <- Z.pow_add_r by lia; f_equal; lia).
    split.
    - replace maxl with (l + (maxl - l))%nat by lia. apply inside_ancestor. split; auto. rewrite Az. apply Hc.
    - intros k Hk Hne X. rewrite Nz in X by auto. rewrite P in X. specialize (Hi k Hk). specialize (Ho k Hk Hne).
      pose proof (cartesian_range n dir Ld EC k) as Hd. set (a := nth k lo 0) in *. set (b := nth k hi 0) in *. set (B := 2 ^ Z.of_nat l) in *.
      replace (a * (A * B)) with (a * B * A) in X by ring. replace (b * (A * B)) with (b * B * A) in X by ring.
      set (a1 := a * B) in *. set (b1 := b * B) in *. clearbody a1 b1 A. clear - X Hi Ho Hd PA Hne.
      destruct (Z.eqb_spec (nth k dir 0) 1) as [E|E]; [rewrite E in *; nia|]. assert (E1 : nth k dir 0 = -1) by lia. rewrite E1 in *. nia.
  Qed.
End Outer.

(** ** The hypotheses of C55 hold *)

(** In dimensions 1 to 3: no error, and only stored cells outside the box change. *)
Theorem C57_only_outside : forall n m minl maxl cells lo hi domain bs r dx, outer_input n m minl maxl cells lo hi domain bs ->
  update_sub_mesh n m minl maxl 1 1 cells = Some r ->
  only_outside n maxl (r_all r) lo hi (update_bc n cells (r_all r) domain minl maxl 1 1 dx bs).
Proof.
  intros n m minl maxl cells lo hi domain bs r dx HI HR l u Hl.
  destruct (outer_spec n m minl maxl cells lo hi domain bs r HI HR dx l u Hl) as (v & E & A & B & _). exists v. split; auto. split; auto.
  intros x y H. apply (B (x :: y)). auto.
Qed.

(** The closest cell of the box. *)
Definition closest (n : nat) (lo hi : list Z) (l : nat) (q : list Z) : list Z :=
  map (fun k => Z.max (nth k lo 0 * 2 ^ Z.of_nat l) (Z.min (nth k hi 0 * 2 ^ Z.of_nat l - 1) (nth k q 0))) (seq 0 (S n)).
Definition outward (n : nat) (lo hi : list Z) (l : nat) (q : list Z) : list Z :=
  map (fun k => nth k q 0 - nth k (closest n lo hi l q) 0) (seq 0 (S n)).

Lemma closest_spec : forall n lo hi l p q, length q = S n -> inside n lo hi l p -> near n 1 q p ->
  let c := closest n lo hi l q in let dir := outward n lo hi l q in
  good_dir n dir /\ crossing n lo hi l dir c /\ near n 1 c p /\ add_vec c dir = q /\ (~ inside n lo hi l q -> exists k, (k <= n)%nat /\ nth k dir 0 <> 0).
Proof.
  intros n lo hi l p q Lq [Lp Hp] N c dir.
  assert (Nc : forall k, (k <= n)%nat -> nth k c 0 = Z.max (nth k lo 0 * 2 ^ Z.of_nat l) (Z.min (nth k hi 0 * 2 ^ Z.of_nat l - 1) (nth k q 0))).
  { intros k Hk. apply (nth_map_seq (S n) (fun k => Z.max (nth k lo 0 * 2 ^ Z.of_nat l) (Z.min (nth k hi 0 * 2 ^ Z.of_nat l - 1) (nth k q 0)))). lia. }
  assert (Nd : forall k, (k <= n)%nat -> nth k dir 0 = nth k q 0 - nth k c 0).
  { intros k Hk. apply (nth_map_seq (S n) (fun k => nth k q 0 - nth k c 0)). lia. }
  assert (Lc : length c = S n) by (unfold c, closest; rewrite map_length, seq_length; auto).
  assert (Ld : length dir = S n) by (unfold dir, outward; rewrite map_length, seq_length; auto).
  assert (Ic : inside n lo hi l c) by (split; auto; intros k Hk; rewrite Nc by auto; specialize (Hp k Hk); lia).
  split; [split; auto; intros k Hk; rewrite Nd, Nc by auto; specialize (Hp k Hk); specialize (N k Hk); lia|].
  split; [split; auto; intros k Hk; rewrite Nd, Nc by auto; specialize (Hp k Hk); lia|].
  split; [intros k Hk; rewrite Nc by auto; specialize (Hp k Hk); specialize (N k Hk); lia|].
  assert (E : add_vec c dir = q) by (apply (list_ext n); auto; [rewrite add_vec_length; lia|]; intros k Hk; rewrite nth_add_vec, Nd by lia; lia).
  split; auto. intros Ho. apply (zero_dir n dir Ld). destruct (forallb (Z.eqb 0) dir) eqn:EZ; auto. exfalso. apply Ho. rewrite <- E.
  replace (add_vec c dir) with c; auto. apply (list_ext n); auto; [rewrite add_vec_length; lia|]. intros k Hk. rewrite nth_add_vec by lia.
  assert (Hkd : (k < length dir)%nat) by (rewrite Ld; lia). rewrite forallb_forall in EZ. specialize (EZ (nth k dir 0) (nth_In _ _ Hkd)). apply Z.eqb_eq in EZ. rewrite <- EZ. symmetry. apply Z.add_0_r.
Qed.

Lemma last_split : forall (A : Type) (P : A -> Prop) (es : list A), (forall e, In e es -> P e \/ ~ P e) -> (exists e, In e es /\ P e) ->
  exists pre e post, es = pre ++ e :: post /\ P e /\ forall e', In e' post -> ~ P e'.
Proof.
  intros A P es. induction es as [|a es IH]; intros HD (e & He & HP); [destruct He|].
  assert (X : (exists e, In e es /\ P e) \/ ~ exists e, In e es /\ P e).
  { clear - HD. induction es as [|b es IH]; [right; intros (e & [] & _)|]. destruct (HD b ltac:(right; left; auto)) as [Hb|Hb].
    - left. exists b. split; [left|]; auto.
    - destruct IH as [(e & H1 & H2)|H]; [intros e [->|He]; apply HD; [left|right; right]; auto|left; exists e; split; [right|]; auto|].
      right. intros (e & [<-|He] & HP); auto. apply H. eauto. }
  destruct X as [X|X].
  - destruct IH as (pre & e' & post & E & H1 & H2); auto; [intros e' He'; apply HD; right; auto|]. exists (a :: pre), e', post. rewrite E. auto.
  - destruct He as [<-|He]; [|exfalso; eauto]. exists [], a, es. split; auto. split; auto. intros e' He' HP'. apply X. eauto.
Qed.

(** In dimensions 1 and 2, with conditions on the whole boundary or none at all: the ghosts
    around the stored cells are functions of the values inside. *)
Theorem C57_fills : forall n m minl maxl cells lo hi domain bs r dx, outer_input n m minl maxl cells lo hi domain bs -> (n <= 1)%nat ->
  bs = [] \/ covering n maxl lo hi bs ->
  update_sub_mesh n m minl maxl 1 1 cells = Some r ->
  fills n 1 (r_all r) lo hi (update_bc n cells (r_all r) domain minl maxl 1 1 dx bs).
Proof.
  intros n m minl maxl cells lo hi domain bs r dx HI Hn1 HC HR l u u' v v' E E' HU p Hp Hpi Hbox x y Ly Ny.
  pose proof HI as (HG & _). pose proof (all_levels n m minl maxl 1 1 cells lo hi r HG HR l p Hp) as Hlv.
  assert (Hl : (l <= maxl)%nat).
  { apply (all_wanted n m minl maxl 1 1 cells lo hi r HG HR) in Hp. apply (wanted_levels n m minl maxl 1 1 cells lo hi HG) in Hp. lia. }
  destruct (outer_spec n m minl maxl cells lo hi domain bs r HI HR dx l u Hl) as (v1 & E1 & _ & B & D). rewrite E in E1. injection E1 as <-.
  destruct (outer_spec n m minl maxl cells lo hi domain bs r HI HR dx l u' Hl) as (v1 & E1 & _ & B' & D'). rewrite E' in E1. injection E1 as <-.
  destruct (D Hn1) as (D1 & D2 & D3). destruct (D' Hn1) as (D1' & D2' & _). set (q := x :: y) in *.
  change (value_at (v l) q == value_at (v' l) q)%Q. assert (Lq : length q = S n) by (cbn; lia). assert (Rq : ca_mem n (r_all r) l q) by (apply Hbox; auto).
  destruct (insideb n lo hi l q) eqn:EI.
  - apply insideb_iff in EI. rewrite B, B' by auto. apply HU; auto.
  - assert (Hout : ~ inside n lo hi l q) by (intros X; apply insideb_iff in X; congruence). clear EI.
    destruct (closest_spec n lo hi l p q Lq Hpi Ny) as (Hg & Hc & Nc & Eq & Hnz). specialize (Hnz Hout).
    set (c := closest n lo hi l q) in *. set (dir := outward n lo hi l q) in *. rewrite <- Eq.
    assert (Lc : length c = S n) by apply Hc. assert (Hci : inside n lo hi l c) by apply Hc.
    assert (Rc : ca_mem n (r_all r) l c) by (apply Hbox; auto).
    assert (Uc : (value_at (u l) c == value_at (u' l) c)%Q) by (destruct c as [|cx cy]; [discriminate|]; apply HU; auto).
    assert (Rq' : ca_mem n (r_all r) l (add_vec c dir)) by (rewrite Eq; auto).
    destruct (Bool.bool_dec (is_cartesian dir) true) as [EC|EC].
    + destruct HC as [->|HC].
      { assert (Hh : handled n false dir) by (split; auto; discriminate). rewrite (D1 dir c Hg Hh Hc Rq'), (D1' dir c Hg Hh Hc Rq'). auto. }
      destruct Hg as [Ld Hd]. destruct (extreme n maxl lo hi l dir c Hl Ld EC Hc) as (z & Lz & Az & Iz & Oz). destruct (HC dir z Ld EC Iz Oz) as (b & a & Hb & Ha & Hz).
      destruct HI as (_ & _ & _ & HB). assert (La : a_level a = maxl) by (apply (proj2 (HB b Hb) dir a Ha EC)).
      assert (Hhit : hit n l (r_all r) (b, (dir, a)) c).
      { split; auto. split; auto. split; [|rewrite Eq; apply Rq]. apply denotes_mesh_coarse; [lia|auto|]. exists z. rewrite La. auto. }
      destruct (last_split _ (fun e => hit n l (r_all r) e c /\ fst (snd e) = dir) (entries bs)) as (pre & [b1 [dir1 a1]] & post & EQ & [H1 H2] & H3).
      { intros e He. destruct (D3 e c He) as [X|X]; [|tauto]. destruct (list_eq_dec Z.eq_dec (fst (snd e)) dir); tauto. }
      { exists (b, (dir, a)). split; [apply entry_In; auto|auto]. }
      cbn [fst snd] in H2. subst dir1.
      assert (H4 : forall b' a', In (b', (dir, a')) post -> ~ hit n l (r_all r) (b', (dir, a')) c) by (intros b' a' Hin X; apply (H3 _ Hin); auto).
      rewrite (D2 pre b1 dir a1 post c EQ H1 H4), (D2' pre b1 dir a1 post c EQ H1 H4).
      assert (Hb1 : In b1 bs).
      { assert (X : In (b1, (dir, a1)) (entries bs)) by (rewrite EQ; apply in_or_app; right; left; auto).
        unfold entries in X. apply in_flat_map in X as (b2 & X1 & X2). apply in_map_iff in X2 as (e & X2 & _). apply pair_equal_spec in X2 as [<- _]. auto. }
      apply (proj2 (proj1 (HB b1 Hb1))). auto.
    + apply not_true_is_false in EC. assert (Hh : handled n (match bs with [] => false | _ => true end) dir) by (split; auto).
      rewrite (D1 dir c Hg Hh Hc Rq'), (D1' dir c Hg Hh Hc Rq'). auto.
Qed.

(** ** The values after update_ghost_mr *)

(** The values of the outer ghosts around the box, in dimensions 1 and 2. The cell [p] of
    the box and its neighbour [add_vec p dir] outside: across a corner, and without boundary
    condition, the neighbour has the value of the cell; across a face it has the value given
    by the last condition whose region contains (a finer part of) the cell. *)
Theorem C57_update : forall n m minl maxl cells lo hi domain bs r sub dx, outer_input n m minl maxl cells lo hi domain bs -> (n <= 1)%nat ->
  update_sub_mesh n m minl maxl 1 1 cells = Some r -> construct_subdomain n maxl cells = Some sub ->
  forall u, exists v, update_ghost_mr n 1 (update_bc n cells (r_all r) domain minl maxl 1 1 dx bs) cells r sub u = Some v /\
    (forall l x y, ca_mem n cells l (x :: y) -> v l x y = u l x y) /\
    (forall l dir p, good_dir n dir -> (exists k, (k <= n)%nat /\ nth k dir 0 <> 0) -> is_cartesian dir = false \/ bs = [] ->
       crossing n lo hi l dir p -> ca_mem n (r_all r) l (add_vec p dir) -> value_at (v l) (add_vec p dir) = value_at (v l) p) /\
    (forall pre b dir a post l p, entries bs = pre ++ (b, (dir, a)) :: post -> hit n l (r_all r) (b, (dir, a)) p ->
       (forall b' a', In (b', (dir, a')) post -> ~ hit n l (r_all r) (b', (dir, a')) p) -> ca_mem n (r_all r) l (add_vec p dir) ->
       value_at (v l) (add_vec p dir) = ghost_value b (dx l) (bc_value b l dir p) (value_at (v l) p)).
Proof.
  intros n m minl maxl cells lo hi domain bs r sub dx HI Hn1 HR HD u. pose proof HI as (HG & _).
  destruct (C55_update n m minl maxl 1 1 cells lo hi r sub _ HG HR HD (C57_only_outside n m minl maxl cells lo hi domain bs r dx HI HR) u) as (v & E & A & _ & _ & _ & F).
  exists v. split; auto. split; auto.
  assert (G : forall l q, ca_mem n (r_all r) l q -> (l <= maxl)%nat /\ exists before after,
    update_bc n cells (r_all r) domain minl maxl 1 1 dx bs l before = Some after /\ after l = v l /\
    forall p, inside n lo hi l p -> value_at (before l) p = value_at (v l) p).
  { intros l q Hq. split.
    - apply (all_wanted n m minl maxl 1 1 cells lo hi r HG HR) in Hq. apply (wanted_levels n m minl maxl 1 1 cells lo hi HG) in Hq. lia.
    - destruct (F l (all_levels n m minl maxl 1 1 cells lo hi r HG HR l q Hq)) as (before & after & E1 & E2 & E3). exists before, after. split; auto. split; auto.
      intros p Hp. assert (Lp := proj1 Hp). destruct p as [|x y]; [discriminate|]. apply E3. auto. }
  split.
  - intros l dir p Hg Hnz Hh Hc Hq. destruct (G l _ Hq) as (Hl & before & after & E1 & E2 & E3).
    destruct (outer_spec n m minl maxl cells lo hi domain bs r HI HR dx l before Hl) as (v1 & E4 & _ & B & D). rewrite E1 in E4. injection E4 as <-.
    destruct (D Hn1) as (D1 & _). rewrite <- (E3 p) by apply Hc. rewrite <- E2. apply D1; auto. split; auto. intros X. destruct Hh as [Hh|Hh]; auto. subst bs. discriminate.
  - intros pre b dir a post l p EQ Hh Hlast Hq. destruct (G l _ Hq) as (Hl & before & after & E1 & E2 & E3).
    destruct (outer_spec n m minl maxl cells lo hi domain bs r HI HR dx l before Hl) as (v1 & E4 & _ & B & D). rewrite E1 in E4. injection E4 as <-.
    destruct (D Hn1) as (_ & D2 & _). rewrite <- (E3 p); [rewrite <- E2; apply (D2 pre b dir a post p EQ Hh Hlast)|].
    assert (He : In (b, (dir, a)) (entries bs)) by (rewrite EQ; apply in_or_app; right; left; auto).
    pose proof (entries_ok n m minl maxl cells lo hi domain bs HI _ He) as [_ HO]. cbn [fst snd] in HO. destruct Hh as (EC & Lp & Hd & _).
    destruct (HO EC) as (Ld & W & La & HO'). rewrite denotes_mesh_coarse in Hd by (auto; lia). destruct Hd as (z & Hz & Az).
    apply HO' in Hz as [Hz _]. rewrite La in Az. rewrite Az. replace maxl with (l + (maxl - l))%nat in Hz at 1 by lia. apply inside_ancestor in Hz. apply Hz.
Qed.

(** With conditions on the whole boundary or none at all: all the stored values at a
    distance at most 1 of the box are functions of the values of the leaves. *)
Theorem C57_determined : forall n m minl maxl cells lo hi domain bs r sub dx, outer_input n m minl maxl cells lo hi domain bs -> (n <= 1)%nat ->
  bs = [] \/ covering n maxl lo hi bs ->
  update_sub_mesh n m minl maxl 1 1 cells = Some r -> construct_subdomain n maxl cells = Some sub ->
  let update := update_ghost_mr n 1 (update_bc n cells (r_all r) domain minl maxl 1 1 dx bs) cells r sub in
  forall u u' v v', update u = Some v -> update u' = Some v' -> (forall l x y, ca_mem n cells l (x :: y) -> (u l x y == u' l x y)%Q) ->
  forall l p q, (minl - 1 <= l)%nat -> inside n lo hi l p -> near n 1 q p -> ca_mem n (r_all r) l q ->
    (value_at (v l) q == value_at (v' l) q)%Q.
Proof.
  intros n m minl maxl cells lo hi domain bs r sub dx HI Hn1 HC HR HD update u u' v v' E E' HU l p q Hl Hp Hq Rq. pose proof HI as (HG & _).
  pose proof (C57_only_outside n m minl maxl cells lo hi domain bs r dx HI HR) as HO.
  pose proof (C57_fills n m minl maxl cells lo hi domain bs r dx HI Hn1 HC HR) as HF.
  destruct (C55_determined n m minl maxl 1 1 cells lo hi r sub _ HG HR HD HO HF u u' v v' E E' HU l Hl) as [IN _].
  assert (IN' : forall q, ca_mem n (r_all r) l q -> inside n lo hi l q -> (value_at (v l) q == value_at (v' l) q)%Q).
  { intros q0 H1 H2. assert (L := proj1 H2). destruct q0 as [|x y]; [discriminate|]. apply IN; auto. }
  destruct (insideb n lo hi l q) eqn:EI; [apply insideb_iff in EI; auto|].
  assert (Hout : ~ inside n lo hi l q) by (intros X; apply insideb_iff in X; congruence). clear EI.
  assert (Lq : length q = S n) by apply Rq.
  destruct (closest_spec n lo hi l p q Lq Hp Hq) as (Hg & Hc & Nc & Eq & Hnz). specialize (Hnz Hout).
  set (c := closest n lo hi l q) in *. set (dir := outward n lo hi l q) in *.
  assert (Hlm : (l <= maxl)%nat).
  { apply (all_wanted n m minl maxl 1 1 cells lo hi r HG HR) in Rq. apply (wanted_levels n m minl maxl 1 1 cells lo hi HG) in Rq. lia. }
  assert (Rc : ca_mem n (r_all r) l c).
  { apply (all_wanted n m minl maxl 1 1 cells lo hi r HG HR). apply (all_wanted n m minl maxl 1 1 cells lo hi r HG HR) in Rq. rewrite <- Eq in Rq.
    rewrite <- (add_vec_zero n c) by apply Hc. destruct Hg as [Ld Hd]. apply (inward_wanted n m minl maxl cells lo hi domain bs HI l c dir (repeat 0 (S n))); auto.
    - apply repeat_length.
    - intros k Hk. left. apply nth_repeat. }
  pose proof (IN' c Rc (proj1 Hc)) as Vc. rewrite <- Eq in Rq |- *.
  destruct (C57_update n m minl maxl cells lo hi domain bs r sub dx HI Hn1 HR HD u) as (v1 & E1 & _ & D1 & D2). fold update in E1. rewrite E in E1. injection E1 as <-.
  destruct (C57_update n m minl maxl cells lo hi domain bs r sub dx HI Hn1 HR HD u') as (v1 & E1 & _ & D1' & D2'). fold update in E1. rewrite E' in E1. injection E1 as <-.
  destruct (Bool.bool_dec (is_cartesian dir) true) as [EC|EC]; [|apply not_true_is_false in EC; rewrite D1, D1' by auto; auto].
  destruct HC as [HC|HC]; [rewrite D1, D1' by auto; auto|].
  destruct Hg as [Ld Hd]. destruct (extreme n maxl lo hi l dir c Hlm Ld EC Hc) as (z & Lz & Az & Iz & Oz). destruct (HC dir z Ld EC Iz Oz) as (b & a & Hb & Ha & Hz).
  destruct (outer_spec n m minl maxl cells lo hi domain bs r HI HR dx l u Hlm) as (v1 & _ & _ & _ & D). destruct (D Hn1) as (_ & _ & D3). clear D v1.
  destruct HI as (_ & _ & _ & HB). assert (La : a_level a = maxl) by (apply (proj2 (HB b Hb) dir a Ha EC)).
  assert (Lc : length c = S n) by apply Hc.
  assert (Hhit : hit n l (r_all r) (b, (dir, a)) c).
  { split; auto. split; auto. split; [|apply Rq]. apply denotes_mesh_coarse; [lia|auto|]. exists z. rewrite La. auto. }
  destruct (last_split _ (fun e => hit n l (r_all r) e c /\ fst (snd e) = dir) (entries bs)) as (pre & [b1 [dir1 a1]] & post & EQ & [H1 H2] & H3).
  { intros e He. destruct (D3 e c He) as [X|X]; [|tauto]. destruct (list_eq_dec Z.eq_dec (fst (snd e)) dir); tauto. }
  { exists (b, (dir, a)). split; [apply entry_In; auto|auto]. }
  cbn [fst snd] in H2. subst dir1.
  assert (H4 : forall b' a', In (b', (dir, a')) post -> ~ hit n l (r_all r) (b', (dir, a')) c) by (intros b' a' Hin X; apply (H3 _ Hin); auto).
  rewrite (D2 pre b1 dir a1 post l c EQ H1 H4 Rq), (D2' pre b1 dir a1 post l c EQ H1 H4 Rq).
  assert (Hb1 : In b1 bs).
  { assert (X : In (b1, (dir, a1)) (entries bs)) by (rewrite EQ; apply in_or_app; right; left; auto).
    unfold entries in X. apply in_flat_map in X as (b2 & X1 & X2). apply in_map_iff in X2 as (e & X2 & _). apply pair_equal_spec in X2 as [<- _]. auto. }
  apply (proj2 (proj1 (HB b1 Hb1))). auto.
Qed.

(** ** A condition on the whole boundary *)

(** The region of a condition set without region (Everywhere): each direction once, and in
    it the cells of the domain next to the boundary. *)
Theorem C57_everywhere : forall n maxl lo hi domain, (n <= 2)%nat -> is_box n maxl lo hi domain -> (maxl < 30)%nat ->
  (forall k, (k <= n)%nat -> 2 * (Z.max 0 (nth k hi 0) * 2 ^ Z.of_nat maxl + 8) < 2 ^ 31 - 1) ->
  exists region, everywhere n domain = Some region /\ NoDup (map fst region) /\
    (forall dir, In dir (map fst region) <-> good_dir n dir /\ exists k, (k <= n)%nat /\ nth k dir 0 <> 0) /\
    forall dir a, In (dir, a) region -> wf n a /\ a_level a = maxl /\
      forall z, lca_mem n a z <-> crossing n lo hi maxl dir z /\ (is_cartesian dir = true \/ forall k, (k <= n)%nat -> nth k dir 0 <> 0).
Proof.
  intros n maxl lo hi domain Hn HB Hm Hh.
  assert (G : forall dirs, (forall dir, In dir dirs -> good_dir n dir) -> exists region, everywhere_from n domain dirs = Some region /\
    map fst region = filter (fun dir => negb (forallb (Z.eqb 0) dir)) dirs /\
    forall dir a, In (dir, a) region -> wf n a /\ a_level a = maxl /\
      forall z, lca_mem n a z <-> crossing n lo hi maxl dir z /\ (is_cartesian dir = true \/ forall k, (k <= n)%nat -> nth k dir 0 <> 0)).
  { induction dirs as [|dir dirs IH]; intros HG; [exists []; split; auto; split; auto; intros ? ? []|].
    destruct IH as (region & E & F & H); [intros d Hd; apply HG; right; auto|]. cbn [everywhere_from filter]. rewrite E.
    destruct (forallb (Z.eqb 0) dir) eqn:EZ; cbn [negb]; [exists region; auto|].
    destruct (HG dir (or_introl eq_refl)) as [Ld Hd]. apply (zero_dir n dir Ld) in EZ.
    set (t := boundary_set n domain 1 dir). assert (Et : t = boundary_set n domain (2 ^ Z.of_nat (maxl - maxl)) dir) by (rewrite Nat.sub_diag; auto).
    pose proof (boundary_leaves n maxl lo hi domain maxl dir HB (le_n _) Hm Ld Hd Hh) as BL. rewrite <- Et in BL.
    assert (CL : common_level t = maxl).
    { unfold common_level. pose proof (tlevel_in (tmap (fun lf => node_level (l_node lf)) t)) as X. apply tin_map in X as (lf & Hlf & ->).
      destruct (BL lf Hlf) as [_ Y]. unfold t, boundary_set in Hlf. rewrite <- Y.
      destruct (is_cartesian dir); [|destruct n as [|[|[|n']]]]; cbn [tin ain] in Hlf; repeat (destruct Hlf as [Hlf|Hlf]); subst lf; reflexivity. }
    destruct (C22_array_of_subset n (common_level t) t) as (a & Ea & Wa & La & Ma).
    { intros lf Hlf. assert (Ef : finest t = maxl).
      { unfold finest. pose proof (tlevel_in (tmap (fun lf => a_level (node_mesh (l_node lf))) t)) as X. apply tin_map in X as (lf' & Hlf' & ->). apply BL. auto. }
      rewrite CL, Ef, Nat.min_id. apply BL. auto. }
    rewrite Ea. exists ((dir, a) :: region). split; auto. split; [cbn [map fst]; rewrite F; auto|].
    intros dir' a' [X|X]; [|apply H; auto]. injection X as <- <-. split; auto. split; [congruence|].
    intros z. rewrite Ma, CL, Et. split.
    - intros [Lz X]. apply (boundary_mem n maxl lo hi) in X; auto. apply (not_axis_dim n dir); auto.
    - intros X. assert (Lz : length z = S n) by apply X. split; auto. apply (boundary_mem n maxl lo hi); auto. apply (not_axis_dim n dir); auto. }
  destruct (G (nested_loop (S n) (-1) 2)) as (region & E & F & H); [intros dir; apply all_dirs|].
  exists region. split; auto. split; [|split; auto].
  - rewrite F. apply NoDup_filter. rewrite <- (C30_loop_of_subsets (S n) (-1) 2 (repeat 0 (S n))) by apply repeat_length.
    apply C30_nested_loop; [lia|apply repeat_length].
  - intros dir. rewrite F, filter_In, all_dirs, negb_true_iff. split; intros [A B]; split; auto; apply (zero_dir n dir); auto; apply A.
Qed.

(** A condition of order 1 on this region meets the hypotheses. *)
Lemma everywhere_conditions : forall n maxl lo hi domain region value apply_, (n <= 2)%nat -> is_box n maxl lo hi domain -> (maxl < 30)%nat ->
  (forall k, (k <= n)%nat -> 2 * (Z.max 0 (nth k hi 0) * 2 ^ Z.of_nat maxl + 8) < 2 ^ 31 - 1) -> everywhere n domain = Some region ->
  on_boundary n maxl lo hi (mkBc 2 region value apply_) /\ covering n maxl lo hi [mkBc 2 region value apply_] /\
  (forall dir, length dir = S n -> is_cartesian dir = true -> exists pre a post, region = pre ++ (dir, a) :: post /\ ~ In dir (map fst post)).
Proof.
  intros n maxl lo hi domain region value apply_ Hn HB Hm Hh ER. destruct (C57_everywhere n maxl lo hi domain Hn HB Hm Hh) as (region' & E & ND & HI & HM).
  rewrite ER in E. injection E as <-. split; [|split].
  - intros dir a Hin EC. cbn [bc_region] in Hin. destruct (HM dir a Hin) as (W & L & M).
    assert (Ld : length dir = S n) by (apply HI; apply (in_map fst _ _ Hin)). split; auto. split; auto. split; auto.
    intros z Hz. apply M in Hz as [Hz _]. apply axis_crossing; auto.
  - intros dir z Ld EC Iz Oz. assert (Hd : In dir (map fst region)).
    { apply HI. split; [split; auto; intros k _; apply (cartesian_range n); auto|]. destruct (cartesian_axis n dir Ld EC) as (d & Hd & A & _). exists d. split; auto. lia. }
    apply in_map_iff in Hd as ([dir' a] & E & Hin). cbn [fst] in E. subst dir'. exists (mkBc 2 region value apply_), a. split; [left; auto|]. split; auto.
    apply (HM dir a Hin). split; auto. apply axis_crossing; auto.
  - intros dir Ld EC. assert (Hd : In dir (map fst region)).
    { apply HI. split; [split; auto; intros k _; apply (cartesian_range n); auto|]. destruct (cartesian_axis n dir Ld EC) as (d & Hd & A & _). exists d. split; auto. lia. }
    apply in_map_iff in Hd as ([dir' a] & E & Hin). cbn [fst] in E. subst dir'. apply in_split in Hin as (pre & post & ->). exists pre, a, post. split; auto.
    rewrite map_app in ND. cbn [map fst] in ND. apply NoDup_remove_2 in ND. intros X. apply ND. apply in_or_app. auto.
Qed.

(** The conditions hold on the faces of the boundary, whatever the levels of the leaves, in
    dimensions 1 and 2, and the ghosts of the corners copy the corners:
    - Dirichlet of order 1: the value on the face is the mean of the two cells;
    - Neumann of order 1: the derivative is their difference over the length of a cell. *)
Theorem C57_conditions : forall n m minl maxl cells lo hi domain region value apply_ r sub dx,
  ghost_input n m minl maxl 1 1 cells lo hi -> (maxl < 30)%nat -> is_box n maxl lo hi domain -> (n <= 1)%nat ->
  everywhere n domain = Some region -> (apply_ = dirichlet 1 \/ apply_ = neumann) ->
  update_sub_mesh n m minl maxl 1 1 cells = Some r -> construct_subdomain n maxl cells = Some sub ->
  let b := mkBc 2 region value apply_ in
  forall u, exists v, update_ghost_mr n 1 (update_bc n cells (r_all r) domain minl maxl 1 1 dx [b]) cells r sub u = Some v /\
    (forall l x y, ca_mem n cells l (x :: y) -> v l x y = u l x y) /\
    forall l dir p, good_dir n dir -> crossing n lo hi l dir p -> ca_mem n (r_all r) l (add_vec p dir) ->
      let inner := value_at (v l) p in let outer := value_at (v l) (add_vec p dir) in
      (is_cartesian dir = true -> apply_ = dirichlet 1 -> (inner + outer == 2 * value l dir p)%Q) /\
      (is_cartesian dir = true -> apply_ = neumann -> (outer - inner == dx l * value l dir p)%Q) /\
      (is_cartesian dir = false -> outer = inner).
Proof.
  intros n m minl maxl cells lo hi domain region value apply_ r sub dx HG Hm HB Hn1 ER HA HR HD b u.
  assert (Hh : forall k, (k <= n)%nat -> 2 * (Z.max 0 (nth k hi 0) * 2 ^ Z.of_nat maxl + 8) < 2 ^ 31 - 1).
  { destruct HG as (_ & _ & _ & _ & _ & _ & _ & _ & H). intros k Hk. specialize (H k Hk). lia. }
  destruct (everywhere_conditions n maxl lo hi domain region value apply_ ltac:(lia) HB Hm Hh ER) as (HO & HC & HL). fold b in HO, HC.
  assert (HI : outer_input n m minl maxl cells lo hi domain [b]).
  { split; auto. split; auto. split; auto. intros b' [<-|[]]. split; auto. destruct HA as [->| ->]; [apply dirichlet_order_one|apply neumann_order_one]. }
  destruct (C57_update n m minl maxl cells lo hi domain [b] r sub dx HI Hn1 HR HD u) as (v & E & A & D1 & D2). exists v. split; auto. split; auto.
  intros l dir p Hg Hc Hq inner outer.
  assert (F : is_cartesian dir = true -> outer = ghost_value b (dx l) (value l dir p) inner).
  { intros EC. destruct (HL dir (proj1 Hg) EC) as (pre & a & post & -> & Hpost).
    assert (Hl : (l <= maxl)%nat).
    { apply (all_wanted n m minl maxl 1 1 cells lo hi r HG HR) in Hq. apply (wanted_levels n m minl maxl 1 1 cells lo hi HG) in Hq. lia. }
    destruct (extreme n maxl lo hi l dir p Hl (proj1 Hg) EC Hc) as (z & Lz & Az & Iz & Oz).
    assert (Lp : length p = S n) by apply Hc. assert (Hin : In (dir, a) (bc_region b)) by (cbn; apply in_or_app; right; left; auto).
    destruct (HO dir a Hin EC) as (_ & _ & La & _).
    apply (D2 (map (pair b) pre) b dir a (map (pair b) post)); auto.
    - cbn [entries flat_map bc_region b]. rewrite app_nil_r. apply map_app.
    - split; auto. split; auto. split; [|apply Hq]. apply denotes_mesh_coarse; [lia|auto|]. exists z. rewrite La. split; auto.
      destruct (HC dir z (proj1 Hg) EC Iz Oz) as (b' & a' & [<-|[]] & Ha' & Hz). cbn [bc_region b] in Ha'. replace a with a'; auto.
      destruct (C57_everywhere n maxl lo hi domain ltac:(lia) HB Hm Hh) as (region' & E' & ND & _). rewrite ER in E'. injection E' as <-.
      rewrite map_app in ND. cbn [map fst] in ND. apply NoDup_remove_2 in ND. apply in_app_or in Ha' as [X|[X|X]]; [|congruence|].
      + exfalso. apply ND. apply in_or_app. left. apply (in_map fst _ _ X).
      + exfalso. apply ND. apply in_or_app. right. apply (in_map fst _ _ X).
    - intros b' a' X _. apply in_map_iff in X as ([d2 a2] & X & Hin2). injection X as _ -> ->. apply Hpost. apply (in_map fst _ _ Hin2). }
  split; [|split].
  - intros EC ->. rewrite (F EC). unfold ghost_value, b, dirichlet. cbn [bc_apply nth]. ring.
  - intros EC ->. rewrite (F EC). unfold ghost_value, b, neumann. cbn [bc_apply nth]. ring.
  - intros EC. destruct (forallb (Z.eqb 0) dir) eqn:EZ.
    + unfold outer, inner. f_equal. apply (list_ext n); [rewrite add_vec_length; [apply Hc|]|apply Hc|].
      * rewrite (proj1 (proj1 Hc)). symmetry. apply Hg.
      * intros k Hk. rewrite nth_add_vec by (rewrite (proj1 (proj1 Hc)); rewrite (proj1 Hg); auto).
        assert (Hkd : (k < length dir)%nat) by (rewrite (proj1 Hg); lia). rewrite forallb_forall in EZ. specialize (EZ (nth k dir 0) (nth_In _ _ Hkd)). apply Z.eqb_eq in EZ. lia.
    + apply (D1 l dir p); auto. apply (zero_dir n dir (proj1 Hg)). auto.
Qed.

(** ** Checks of the hypotheses on concrete meshes *)
Lemma ghost_check : forall n m minl maxl w s c cs lo hi, ca_wf n c -> c_max c = m -> ca_for_each_cell n c = Some cs ->
  forallb (fun l => Nat.eqb (a_level (c_at c l)) l) (seq 0 (S m)) = true ->
  tilesb n maxl lo hi (leaf_cells cs) = true -> graded_boxb n (leaf_cells cs) = true ->
  forallb (fun '(l, _) => Nat.leb minl l) (leaf_cells cs) = true -> (length (leaf_cells cs) <> 0)%nat ->
  length lo = S n -> length hi = S n -> (minl < maxl <= m)%nat ->
  1 <= w -> Z.of_nat s <= 1 + w / 2 \/ Z.of_nat s + (w + 1) / 2 <= 3 -> (n <= 2)%nat ->
  (forall k, (k <= n)%nat -> 2 * (Z.max 0 (nth k hi 0) * 2 ^ Z.of_nat maxl + w + Z.of_nat s + 8) < 2 ^ 31 - 1) ->
  ghost_input n m minl maxl w s c lo hi.
Proof.
  intros n m minl maxl w s c cs lo hi W HM E HL HT HGr Hmin Hne L1 L2 Hlv Hw Hs Hn Hb.
  destruct (tiles_check n c cs maxl lo hi W E L1 L2 HT) as [T TL].
  destruct (ca_for_each_cell_spec n c W) as (cs' & E' & [_ EN] & _). rewrite E in E'. injection E' as <-.
  split; [|split; [lia|split; [auto|split; [eapply graded_box_check; eauto|split; [auto|split; [auto|split; [auto|split; [|auto]]]]]]]].
  - split; [exact W|]. split; [exact HM|]. split; [lia|]. split.
    { intros l Hl. rewrite forallb_forall in HL. apply Nat.eqb_eq. apply HL. apply in_seq. lia. }
    split; [lia|]. split; [lia|]. split.
    { intros l q Hq. split; [|apply (TL l q Hq)]. apply EN in Hq. rewrite forallb_forall in Hmin. apply Nat.leb_le. apply (Hmin (l, q) Hq). }
    intros l q k Hq Hk. pose proof (TL l q Hq) as Hl. pose proof (proj1 (proj2 T) l q Hq) as [_ Hi]. specialize (Hi k Hk). specialize (Hb k Hk).
    assert (P : 2 ^ Z.of_nat l <= 2 ^ Z.of_nat maxl) by (apply Z.pow_le_mono_r; lia). assert (P0 : 0 < 2 ^ Z.of_nat l) by (apply Z.pow_pos_nonneg; lia).
    assert (nth k hi 0 * 2 ^ Z.of_nat l <= Z.max 0 (nth k hi 0) * 2 ^ Z.of_nat maxl) by nia. lia.
  - destruct (leaf_cells cs) as [|[l q] t] eqn:EL; [exfalso; apply Hne; auto|]. exists l, q. apply EN. left. auto.
Qed.

(** The domain made by the constructor of level_cell_array.hpp from a box (C14). *)
Definition box_domain (n maxl : nat) (lo hi : list Z) : lca := lca_of_box n maxl (map (Z.mul (2 ^ Z.of_nat maxl)) lo) (map (Z.mul (2 ^ Z.of_nat maxl)) hi).
Lemma box_domain_ok : forall n maxl lo hi, length lo = S n -> length hi = S n -> (forall k, (k <= n)%nat -> nth k lo 0 < nth k hi 0) ->
  is_box n maxl lo hi (box_domain n maxl lo hi).
Proof.
  intros n maxl lo hi L1 L2 H. set (P := 2 ^ Z.of_nat maxl). assert (HP : 0 < P) by (apply Z.pow_pos_nonneg; lia).
  assert (N : forall k v, nth k (map (Z.mul P) v) 0 = P * nth k v 0).
  { intros k v. rewrite <- (map_nth (Z.mul P)). f_equal. ring. }
  destruct (C14_box_array n maxl (map (Z.mul P) lo) (map (Z.mul P) hi)) as (A & B & C & _).
  { intros k Hk. rewrite !N. specialize (H k Hk). nia. }
  split; [exact B|]. split; [exact A|]. intros z. unfold box_domain. fold P. rewrite C. unfold inside. fold P. split; intros [L X]; split; auto; intros k Hk; specialize (X k Hk);
    rewrite ?N in *; lia.
Qed.

(** ** Example: the mesh of C55 *)
Example C57_example : exists region, everywhere 1 (box_domain 1 3 [0; 0] [1; 1]) = Some region /\
  outer_input 1 4 1 3 exMesh [0; 0] [1; 1] (box_domain 1 3 [0; 0] [1; 1]) [exBc region] /\ covering 1 3 [0; 0] [1; 1] [exBc region] /\
  length region = 8%nat.
Proof.
  assert (HB : is_box 1 3 [0; 0] [1; 1] (box_domain 1 3 [0; 0] [1; 1])).
  { apply box_domain_ok; auto. intros [|[|k]] Hk; [reflexivity|reflexivity|lia]. }
  assert (Hh : forall k, (k <= 1)%nat -> 2 * (Z.max 0 (nth k [1; 1] 0) * 2 ^ Z.of_nat 3 + 8) < 2 ^ 31 - 1) by (intros [|[|k]] Hk; [reflexivity|reflexivity|lia]).
  assert (HL : option_map (@length _) (everywhere 1 (box_domain 1 3 [0; 0] [1; 1])) = Some 8%nat) by (vm_compute; reflexivity).
  destruct (C57_everywhere 1 3 [0; 0] [1; 1] (box_domain 1 3 [0; 0] [1; 1])) as (region & E & _ & _ & _); auto; try lia.
  exists region. split; auto.
  destruct (everywhere_conditions 1 3 [0; 0] [1; 1] (box_domain 1 3 [0; 0] [1; 1]) region (fun _ _ _ => 5%Q) (dirichlet 1)) as (HO & HC & _); auto; try lia.
  split; [|split; auto].
  - split; [exact exMesh_ghosts|]. split; [lia|]. split; [exact HB|]. intros b [<-|[]]. split; [apply dirichlet_order_one|exact HO].
  - rewrite E in HL. injection HL as HL. exact HL.
Qed.

(** ** What it does not do *)

(** In dimension 3 the ghosts along the edges of the box are not filled: the set of a
    direction with one zero component removes the whole domain (translated by zero), and the
    directions along the diagonals reach cells across an edge (C46). Here the cells of level
    1 except one, whose 8 children are leaves: two fields with the same leaves get different
    values in a predicted ghost inside the box. *)
Definition cubeTree (l : nat) : list lcl_call :=
  match l with
  | 1%nat => [AddI [0; 0] (mk 0 2); AddI [1; 0] (mk 0 2); AddI [0; 1] (mk 0 2); AddI [1; 1] (mk 0 1)]
  | 2%nat => [AddI [2; 2] (mk 2 4); AddI [3; 2] (mk 2 4); AddI [2; 3] (mk 2 4); AddI [3; 3] (mk 2 4)]
  | _ => []
  end.
Definition cubeMesh : ca := client_ca 2 3 cubeTree true.
Lemma cubeMesh_wf : ca_wf 2 cubeMesh.
Proof.
  assert (G : good_hist 2 3 cubeTree).
  { intros l Hl. split; [|apply adds_filled]; destruct l as [|[|[|l]]]; repeat constructor; simpl; lia. }
  destruct (ca_update_index_spec 2 (client_ca 2 3 cubeTree false) (raw_wf _ _ _ G)) as (cs & _ & W & _). exact W.
Qed.
Lemma cubeMesh_input : ghost_input 2 3 1 2 1 1 cubeMesh [0; 0; 0] [1; 1; 1].
Proof.
  eapply ghost_check; [exact cubeMesh_wf|reflexivity|vm_compute; reflexivity|vm_compute; reflexivity|vm_compute; reflexivity|vm_compute; reflexivity|vm_compute; reflexivity| |..].
  - vm_compute. discriminate.
  - reflexivity.
  - reflexivity.
  - lia.
  - lia.
  - left. vm_compute. discriminate.
  - lia.
  - intros [|[|[|k]]] Hk; [reflexivity..|lia].
Qed.

Definition cubeDomain : lca := box_domain 2 2 [0; 0; 0] [1; 1; 1].
Definition update_with (n m minl maxl : nat) (cells : ca) (domain : lca) (u : lfield) : option (mr_mesh * lfield) :=
  let* r := update_sub_mesh n m minl maxl 1 1 cells in
  let* sub := construct_subdomain n maxl cells in
  let* region := everywhere n domain in
  let* v := update_ghost_mr n 1 (update_bc n cells (r_all r) domain minl maxl 1 1 (fun _ => 1%Q) [exBc region]) cells r sub u in
  Some (r, v).
(** 1 in the leaves, [q] elsewhere. *)
Definition cubeStart (q : Q) : lfield := fun l x y => if stored 2 cubeMesh l (x :: y) then 1%Q else q.
Definition cubeShow (q : Q) (ps : list (nat * list Z)) : option (list (bool * Q)) :=
  option_map (fun rv => map (fun '(l, p) => (stored 2 (r_all (fst rv)) l p, Qred (value_at (snd rv l) p))) ps) (update_with 2 3 1 2 cubeMesh cubeDomain (cubeStart q)).

Theorem C57_edges_refuted :
  ghost_input 2 3 1 2 1 1 cubeMesh [0; 0; 0] [1; 1; 1] /\ is_box 2 2 [0; 0; 0] [1; 1; 1] cubeDomain /\
  inside 2 [0; 0; 0] [1; 1; 1] 2 [1; 2; 3] /\
  cubeShow 0 [(2%nat, [1; 2; 3]); (1%nat, [0; 2; 2])] = Some [(true, -119 # 512); (true, 0)]%Q /\
  cubeShow 100 [(2%nat, [1; 2; 3]); (1%nat, [0; 2; 2])] = Some [(true, 1381 # 512); (true, 100)]%Q.
Proof.
  split; [exact cubeMesh_input|]. split; [apply box_domain_ok; auto; intros [|[|[|k]]] Hk; [reflexivity..|lia]|].
  split; [apply insideb_iff; reflexivity|]. split; vm_compute; reflexivity.
Qed.

(** The static assertion of the conditions (bc.hpp L52) asks for ghost_width >= size / 2,
    where ghost_width is the largest of max_stencil_width and prediction_order
    (mr/mesh.hpp L50), but the leaves have max_stencil_width ghosts around them. With a
    prediction of order 2 and max_stencil_width = 1, the condition of Dirichlet of order 2
    (4 cells) is accepted and accesses values outside the storage. *)
Definition lineMesh : ca := client_ca 0 4 (fun l => if Nat.eqb l 3 then [AddI [] (mk 0 8)] else []) true.
Definition lineAccess (width order size dorder : nat) : option bool :=
  option_map (fun r => match everywhere 0 (c_at lineMesh 3) with
                       | Some region => match update_bc 0 lineMesh (r_all r) (c_at lineMesh 3) 1 3 width order (fun _ => 1%Q)
                                                [mkBc size region (fun _ _ _ => 5%Q) (dirichlet dorder)] 3 (fun _ _ _ => 0%Q) with Some _ => true | None => false end
                       | None => false end)
    (update_sub_mesh 0 4 1 3 (Z.of_nat width) (Z.of_nat order) lineMesh).
Theorem C57_assertion_refuted :
  let width := 1%nat in let order := 2%nat in let size := 4%nat in
  (Nat.max width order >= Nat.div size 2)%nat /\ lineAccess width order size 2 = Some false /\
  lineAccess width order 2 1 = Some true /\ lineAccess 2 1 4 2 = Some true.
Proof. vm_compute. repeat split. lia. Qed.

Print Assumptions C57_only_outside.
Print Assumptions C57_fills.
Print Assumptions C57_update.
Print Assumptions C57_determined.
Print Assumptions C57_everywhere.
Print Assumptions C57_conditions.
Print Assumptions C57_edges_refuted.
Print Assumptions C57_assertion_refuted.
