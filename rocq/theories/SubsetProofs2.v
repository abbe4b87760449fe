(** From the evaluation to the denotation of an expression. *)
From Verif Require Import Base IntervalModel Spec LoiModel LoiProofs IntervalProofs LcaModel LcaSpec GridProofs InitProofs SearchProofs IterProofs LcaProofs LcaProofs2 CellArrayModel CellArrayProofs RowsProofs SubsetModel TreeProofs ScanProofs LeafProofs LeafProofs2 SubsetProofs SubsetSpec.
Open Scope Z_scope.

(** ** Levels *)

Lemma zrange_cons : forall a b, a < b -> zrange a b = a :: zrange (a + 1) b.
Proof.
  intros a b H. unfold zrange. replace (Z.to_nat (b - a)) with (S (Z.to_nat (b - (a + 1)))) by lia. simpl.
  f_equal; [lia|]. rewrite <- seq_shift, map_map. apply map_ext. intros; lia.
Qed.

Lemma rel_meets : forall (w lv : nat) q x,
  rel (Z.of_nat w - Z.of_nat lv) q x <->
  x * 2 ^ Z.of_nat lv < (q + 1) * 2 ^ Z.of_nat w /\ q * 2 ^ Z.of_nat w < (x + 1) * 2 ^ Z.of_nat lv.
Proof.
  intros w lv q x. unfold rel. pose proof (pow2_pos (Z.of_nat w) ltac:(lia)) as Hw.
  pose proof (pow2_pos (Z.of_nat lv) ltac:(lia)) as Hl.
  destruct (Z.leb_spec 0 (Z.of_nat w - Z.of_nat lv)) as [H|H].
  - set (s := Z.of_nat w - Z.of_nat lv) in *. assert (E : 2 ^ Z.of_nat w = 2 ^ Z.of_nat lv * 2 ^ s).
    { rewrite <- Z.pow_add_r by lia. f_equal. lia. }
    rewrite E. rewrite Z.shiftr_div_pow2 by lia. pose proof (pow2_pos s H) as Hs.
    set (P := 2 ^ s) in *. set (L := 2 ^ Z.of_nat lv) in *. clearbody P L. clear E.
    pose proof (Z.div_mod x P ltac:(lia)). pose proof (Z.mod_pos_bound x P Hs).
    split.
    + intros <-. split; nia.
    + intros [K1 K2]. assert (x < (q + 1) * P) by nia. assert (q * P < x + 1) by nia.
      symmetry. apply Z.div_unique with (r := x - q * P); nia.
  - set (s := - (Z.of_nat w - Z.of_nat lv)) in *. assert (E : 2 ^ Z.of_nat lv = 2 ^ Z.of_nat w * 2 ^ s).
    { rewrite <- Z.pow_add_r by lia. f_equal. lia. }
    rewrite E. rewrite Z.shiftr_div_pow2 by lia. pose proof (pow2_pos s ltac:(lia)) as Hs.
    set (P := 2 ^ s) in *. set (W := 2 ^ Z.of_nat w) in *. clearbody P W. clear E.
    pose proof (Z.div_mod q P ltac:(lia)). pose proof (Z.mod_pos_bound q P Hs).
    split.
    + intros <-. split; nia.
    + intros [K1 K2]. assert (q < (x + 1) * P) by nia. assert (x * P < q + 1) by nia.
      symmetry. apply Z.div_unique with (r := q - x * P); nia.
Qed.

Lemma rel_compose : forall (ref cm lv : nat) q x, (lv <= cm)%nat -> (cm <= ref)%nat ->
  (rel (Z.of_nat cm - Z.of_nat lv) q (Z.shiftr x (Z.of_nat (ref - cm))) <-> rel (Z.of_nat ref - Z.of_nat lv) q x).
Proof.
  intros ref cm lv q x H1 H2. unfold rel.
  destruct (Z.leb_spec 0 (Z.of_nat cm - Z.of_nat lv)); [|lia]. destruct (Z.leb_spec 0 (Z.of_nat ref - Z.of_nat lv)); [|lia].
  rewrite Z.shiftr_shiftr by lia. replace (Z.of_nat (ref - cm) + (Z.of_nat cm - Z.of_nat lv)) with (Z.of_nat ref - Z.of_nat lv) by lia.
  tauto.
Qed.

(** ** Lists of coordinates *)

Lemma nth_vadd : forall n q v k, (k <= n)%nat -> nth k (vadd n q v) 0 = nth k q 0 + nth k v 0.
Proof.
  intros n q v k Hk. unfold vadd.
  rewrite nth_indep with (d' := (fun k => nth k q 0 + nth k v 0) 0%nat) by (rewrite map_length, seq_length; lia).
  rewrite (map_nth (fun k => nth k q 0 + nth k v 0)), seq_nth by lia. auto.
Qed.
Lemma vadd_length : forall n q v, length (vadd n q v) = S n.
Proof. intros. unfold vadd. rewrite map_length, seq_length. auto. Qed.

Lemma list_of : forall n (f : nat -> Z), exists l, length l = S n /\ forall k, (k <= n)%nat -> nth k l 0 = f k.
Proof.
  intros n f. exists (map f (seq 0 (S n))). split; [rewrite map_length, seq_length; auto|].
  intros k Hk. rewrite nth_indep with (d' := f 0%nat) by (rewrite map_length, seq_length; lia).
  rewrite (map_nth f), seq_nth by lia. auto.
Qed.

(** ** What a leaf denotes *)

Lemma lmr_spec : forall n a t s d r p, (d <= n)%nat ->
  (lmr n a t s d r p <-> exists q, length q = S n /\ mem_row n a d r q /\ forall k, (k <= d)%nat -> rel s (nth k q 0 + nth k t 0) (nth k p 0)).
Proof.
  intros n a t s. induction d as [|m IH]; intros r p Hd.
  - cbn [lmr mem_row]. split.
    + intros (i & Hi & y & Hy & Hrel & _). destruct (list_of n (fun _ => y)) as (q & Hq & Hn).
      exists q. spl; auto.
      * exists i. rewrite Hn by lia. auto.
      * intros k Hk. replace k with 0%nat by lia. rewrite Hn by lia. auto.
    + intros (q & Hq & (i & Hi & Hx & _) & Hk). exists i. split; auto. exists (nth 0 q 0). spl; auto.
  - cbn [lmr mem_row]. split.
    + intros (i & Hi & y & Hy & Hrel & Hm). apply IH in Hm as (q & Hq & Hm & Hk); [|lia].
      destruct (list_of n (fun k => if Nat.eqb k (S m) then y else nth k q 0)) as (q' & Hq' & Hn).
      exists q'. spl; auto.
      * exists i. rewrite Hn by lia. rewrite Nat.eqb_refl. spl; auto.
        apply mem_row_coords with (p := q); auto. intros e He. rewrite Hn by lia.
        destruct (Nat.eqb_spec e (S m)); auto. lia.
      * intros k Hk'. rewrite Hn by lia. destruct (Nat.eqb_spec k (S m)); [subst k; auto|apply Hk; lia].
    + intros (q & Hq & (i & Hi & Hx & Hm) & Hk). exists i. split; auto. exists (nth (S m) q 0). spl; auto.
      apply IH; [lia|]. exists q. spl; auto.
Qed.

Lemma simple_base : forall nd, simple nd -> base_node nd (node_mesh nd) (node_vect nd).
Proof. intros [a|v [a|v' nd|? ? nd]|? ? nd] H; simpl in *; try tauto; unfold base_node; auto. Qed.

Lemma simple_level : forall nd, simple nd -> node_level nd = a_level (node_mesh nd).
Proof. intros [a|v [a|v' nd|? ? nd]|? ? nd] H; simpl in *; try tauto; auto. Qed.

Lemma LInv_any : forall n a t s d snt snt' R P lf, LInv n a t s d snt R P P false lf -> LInv n a t s d snt' R P P false lf.
Proof. intros n a t s d snt snt' R P lf (H1 & H2 & H3 & H4). unfold LInv. spl; auto. rewrite H3. destruct P; auto. Qed.

(** ** The refinement of emit *)

Lemma lex_app : forall a b x y, length a = length b ->
  (lex_lt (a ++ [x]) (b ++ [y]) <-> x < y \/ (x = y /\ lex_lt a b)).
Proof.
  induction a as [|i a IH]; intros [|j b] x y HL; simpl in *; try discriminate.
  - split; [intros [[]|[_ H]]; auto|]. intros [H|[_ []]]. auto.
  - rewrite IH by lia. split.
    + intros [[H|[-> H]]|[H1 H2]]; auto. apply app_inj_tail in H1 as [-> ->]. auto.
    + intros [H|[-> [H|[-> H]]]]; auto.
Qed.

Lemma nested_loop_length : forall k a b l, In l (nested_loop k a b) -> length l = k.
Proof.
  induction k as [|k IH]; intros a b l; simpl.
  - intros [<-|[]]; auto.
  - intros H. apply in_flat_map in H as (i & _ & H). apply in_map_iff in H as (l' & <- & H). apply IH in H.
    rewrite app_length. simpl. lia.
Qed.

Lemma nested_loop_In : forall k a b l, In l (nested_loop k a b) <-> length l = k /\ Forall (fun x => a <= x < b) l.
Proof.
  induction k as [|k IH]; intros a b l; simpl.
  - split; [intros [<-|[]]; auto|]. intros [H _]. destruct l; auto. discriminate.
  - rewrite in_flat_map. split.
    + intros (i & Hi & H). apply zrange_In in Hi. apply in_map_iff in H as (l' & <- & H). apply IH in H as [H1 H2].
      rewrite app_length, Forall_app. simpl. split; [lia|]. split; auto.
    + intros [H1 H2]. destruct (exists_last (l := l)) as (l' & x & ->); [intros ->; discriminate|].
      rewrite app_length in H1. simpl in H1. apply Forall_app in H2 as [H2 H3]. inv H3.
      exists x. split; [apply zrange_In; auto|]. apply in_map_iff. exists l'. split; auto. apply IH. split; auto. lia.
Qed.

Lemma nested_loop_sorted : forall k a b, StronglySorted lex_lt (nested_loop k a b).
Proof.
  induction k as [|k IH]; intros a b; simpl; [repeat constructor|].
  apply sorted_flat_map.
  - intros i _. apply StronglySorted_map. eapply StronglySorted_impl; [|apply IH].
    intros x y Hx Hy H. apply lex_app; auto. apply nested_loop_length in Hx, Hy. congruence.
  - intros j j' i i' Hj Hi Hi' x y Hx Hy. apply in_map_iff in Hx as (l & <- & Hx). apply in_map_iff in Hy as (l' & <- & Hy).
    apply lex_app; [apply nested_loop_length in Hx, Hy; congruence|]. left.
    apply (sorted_nth _ _ _ (zrange_sorted a b) j j' i i'); auto.
Qed.

Lemma add_yz_spec : forall sh, 0 <= sh -> forall yz y, length y = length yz ->
  ((exists st, In st (nested_loop (length yz) 0 (Z.shiftl 1 sh)) /\ y = add_yz (map (fun c => Z.shiftl c sh) yz) st) <->
   map (fun c => Z.shiftr c sh) y = yz).
Proof.
  intros sh Hsh yz y HL. pose proof (pow2_pos sh Hsh) as Hp.
  assert (S1 : Z.shiftl 1 sh = 2 ^ sh) by (rewrite Z.shiftl_mul_pow2 by lia; lia). rewrite S1.
  split.
  - intros (st & Hst & ->). apply nested_loop_In in Hst as [Hl Hf]. clear HL. revert st Hl Hf.
    induction yz as [|c yz IH]; intros [|x st] Hl Hf; simpl in *; try discriminate; auto.
    inv Hf. f_equal; [|apply IH; auto].
    rewrite Z.shiftr_div_pow2, Z.shiftl_mul_pow2 by lia. symmetry. apply Z.div_unique with (r := x); lia.
  - intros H. exists (map (fun c => c mod 2 ^ sh) y). split.
    + apply nested_loop_In. rewrite map_length. split; auto. apply Forall_map. rewrite Forall_forall. intros x _.
      apply Z.mod_pos_bound. lia.
    + subst yz. clear HL. induction y as [|x y IH]; simpl; auto. unfold add_yz in *. simpl. f_equal; auto.
      rewrite Z.shiftr_div_pow2, Z.shiftl_mul_pow2 by lia. pose proof (Z.div_mod x (2 ^ sh) ltac:(lia)). lia.
Qed.

Lemma add_yz_inj : forall yz st st', length st = length yz -> length st' = length yz -> add_yz yz st = add_yz yz st' -> st = st'.
Proof.
  induction yz as [|c yz IH]; intros [|x st] [|x' st'] H1 H2 H; simpl in *; try discriminate; auto.
  injection H as H3 H4. f_equal; [lia|apply IH; auto].
Qed.

Lemma cells_flat : forall A (g : A -> list call) l, cells_of_calls (flat_map g l) = flat_map (fun c => cells_of_calls (g c)) l.
Proof. intros. induction l; simpl; auto. rewrite cells_app, IHl. auto. Qed.

Lemma NoDup_neq : forall A (l : list A), StronglySorted (fun x y => x <> y) l -> NoDup l.
Proof.
  induction l as [|x l IH]; intros H; [constructor|]. apply StronglySorted_inv in H as [H1 H2]. constructor; auto.
  intros Hx. rewrite Forall_forall in H2. apply (H2 x); auto.
Qed.
Lemma neq_NoDup : forall A (l : list A), NoDup l -> StronglySorted (fun x y => x <> y) l.
Proof.
  induction l as [|x l IH]; intros H; [constructor|]. inv H. constructor; auto.
  apply Forall_forall. intros y Hy ->. auto.
Qed.

Lemma lex_neq : forall l, StronglySorted lex_lt l -> StronglySorted (fun x y => x <> y) l.
Proof. intros l H. eapply StronglySorted_impl; [|exact H]. intros x y _ _ K ->. eapply lex_lt_irrefl; eauto. Qed.

Definition coarse (sh : Z) (p : list Z) : list Z := map (fun c => Z.shiftr c sh) p.

Lemma nth_coarse : forall sh p k, nth k (coarse sh p) 0 = Z.shiftr (nth k p 0) sh.
Proof. intros. unfold coarse. rewrite <- (Z.shiftr_0_l sh) at 1. apply (map_nth (fun c => Z.shiftr c sh)). Qed.

Lemma emit_mem : forall n ref cm i yz p, length yz = n -> (cm < ref)%nat -> length p = S n ->
  (In p (cells_of_calls (emit n ref cm i yz)) <-> In (coarse (Z.of_nat (ref - cm)) p) (cells_of_calls [(i, yz)])).
Proof.
  intros n ref cm i yz p Hy Hlt Hp. unfold emit. destruct (Nat.leb_spec ref cm); [lia|].
  destruct p as [|x y]; [discriminate|]. simpl in Hp. unfold coarse. cbn [map]. rewrite !cells_of_calls_In.
  set (sh := Z.of_nat (ref - cm)). assert (Hsh : 0 <= sh) by lia.
  pose proof (add_yz_spec sh Hsh yz y ltac:(lia)) as HY. rewrite Hy in HY. split.
  - intros (j & Hj & Hx). apply in_map_iff in Hj as (st & E & Hst). injection E as <- <-.
    exists i. split; [|apply ishl_spec in Hx; auto; rewrite Z.shiftr_div_pow2 by lia; auto].
    left. f_equal. symmetry. apply HY. eauto.
  - intros (j & [E|[]] & Hx). injection E as <- E. symmetry in E. apply HY in E as (st & Hst & ->).
    exists (ishl i sh). split; [apply in_map_iff; eauto|]. apply ishl_spec; auto. rewrite <- Z.shiftr_div_pow2 by lia. auto.
Qed.

Lemma emit_NoDup : forall n ref cm i yz, length yz = n -> NoDup (cells_of_calls (emit n ref cm i yz)).
Proof.
  intros n ref cm i yz Hy. unfold emit. destruct (Nat.leb ref cm).
  - simpl. rewrite app_nil_r. apply NoDup_neq. apply StronglySorted_map. eapply StronglySorted_impl; [|apply zrange_sorted].
    intros x y _ _ H E. injection E as E. lia.
  - set (sh := Z.of_nat (ref - cm)). unfold cells_of_calls. rewrite flat_map_concat_map, map_map, <- flat_map_concat_map.
    apply NoDup_neq. apply sorted_flat_map.
    + intros st _. apply StronglySorted_map. eapply StronglySorted_impl; [|apply zrange_sorted].
      intros x y _ _ H E. injection E as E. lia.
    + intros j k st st' Hjk Hj Hk x y Hx Hy'. apply in_map_iff in Hx as (x0 & <- & _). apply in_map_iff in Hy' as (y0 & <- & _).
      intros E. injection E as _ E.
      pose proof (sorted_nth _ _ _ (nested_loop_sorted n 0 (Z.shiftl 1 sh)) j k st st' Hjk Hj Hk) as L.
      apply nth_error_In in Hj, Hk. apply nested_loop_length in Hj, Hk.
      apply add_yz_inj in E; [|rewrite map_length; congruence|rewrite map_length; congruence]. subst st'. eapply lex_lt_irrefl; eauto.
Qed.

Lemma emit_good : forall n ref cm i yz c, length yz = n -> istart i < iend i -> In c (emit n ref cm i yz) ->
  length (snd c) = n /\ istart (fst c) < iend (fst c).
Proof.
  intros n ref cm i yz c Hy Hi. unfold emit. destruct (Nat.leb_spec ref cm).
  - intros [<-|[]]. auto.
  - intros Hc. apply in_map_iff in Hc as (st & <- & Hst). simpl. apply nested_loop_length in Hst. split.
    + unfold add_yz. rewrite map_length, combine_length, map_length. lia.
    + rewrite !Z.shiftl_mul_pow2 by lia. pose proof (pow2_pos (Z.of_nat (ref - cm)) ltac:(lia)). nia.
Qed.

Lemma cells_len : forall calls p, In p (cells_of_calls calls) -> exists c, In c calls /\ length p = S (length (snd c)).
Proof.
  intros calls p H. unfold cells_of_calls in H. apply in_flat_map in H as ([i yz] & H1 & H2).
  apply in_map_iff in H2 as (x & <- & _). exists (i, yz). auto.
Qed.

(** All the calls, refined or not. *)
Lemma emits_spec : forall n ref cm raw, Forall (good n n []) raw -> StronglySorted call_lt raw ->
  let calls := flat_map (emit1 n ref cm) raw in
  NoDup (cells_of_calls calls) /\ (forall c, In c calls -> length (snd c) = n /\ istart (fst c) < iend (fst c)) /\
  ((ref <= cm)%nat -> calls = raw) /\
  (forall p, length p = S n -> (cm < ref)%nat ->
    (In p (cells_of_calls calls) <-> In (coarse (Z.of_nat (ref - cm)) p) (cells_of_calls raw))).
Proof.
  intros n ref cm raw G S calls. rewrite Forall_forall in G.
  assert (HC : (ref <= cm)%nat -> calls = raw).
  { intros H. unfold calls. clear S. assert (E : forall c, emit1 n ref cm c = [c]).
    { intros [i yz]. unfold emit1, emit. apply Nat.leb_le in H. simpl. rewrite H. auto. }
    clear G. subst calls. induction raw as [|c raw IH]; simpl; auto. rewrite E, IH. auto. }
  assert (HM : forall p, length p = Datatypes.S n -> (cm < ref)%nat ->
    (In p (cells_of_calls calls) <-> In (coarse (Z.of_nat (ref - cm)) p) (cells_of_calls raw))).
  { intros p Hp Hlt. unfold calls. rewrite cells_flat, in_flat_map.
    unfold cells_of_calls at 2. rewrite in_flat_map. split.
    - intros ([i yz] & H1 & H2). exists (i, yz). split; auto. unfold emit1 in H2. simpl in H2.
      destruct (G _ H1) as (_ & HL & _). apply emit_mem in H2; auto. simpl in H2. rewrite app_nil_r in H2. exact H2.
    - intros ([i yz] & H1 & H2). exists (i, yz). split; auto. unfold emit1. simpl.
      destruct (G _ H1) as (_ & HL & _). apply emit_mem; auto. simpl. rewrite app_nil_r. exact H2. }
  spl; auto.
  - destruct (Nat.le_gt_cases ref cm) as [H|H].
    + rewrite HC by auto. apply NoDup_neq, lex_neq, cells_sorted; auto.
    + unfold calls. rewrite cells_flat. apply NoDup_neq. apply sorted_flat_map.
      * intros [i yz] Hin. apply neq_NoDup. apply emit_NoDup. apply (G _ Hin).
      * intros j k [i yz] [i' yz'] Hjk Hj Hk x y Hx Hy ->. pose proof (sorted_nth _ _ _ S j k _ _ Hjk Hj Hk) as L.
        apply nth_error_In in Hj, Hk. destruct (G _ Hj) as (_ & HL & _). destruct (G _ Hk) as (_ & HL' & _).
        simpl in HL, HL'. unfold emit1 in Hx, Hy. simpl in Hx, Hy.
        assert (Hlen : length y = Datatypes.S n).
        { apply cells_len in Hx as (c & Hc & ->). f_equal. destruct (G _ Hj) as ((HV & _) & _). simpl in HV.
          apply (emit_good n ref cm i yz c HL HV Hc). }
        apply emit_mem in Hx; auto. apply emit_mem in Hy; auto.
        destruct (coarse (Z.of_nat (ref - cm)) y) as [|a b] eqn:E; [destruct y; discriminate|].
        apply cells_of_calls_In in Hx as (i1 & [E1|[]] & Hx). apply cells_of_calls_In in Hy as (i2 & [E2|[]] & Hy).
        injection E1 as <- <-. injection E2 as <- ->. destruct L as [L|[_ L]]; simpl in L.
        -- eapply lex_lt_irrefl; eauto.
        -- unfold in_i in *. lia.
  - intros c Hc. unfold calls in Hc. apply in_flat_map in Hc as ([i yz] & H1 & H2). destruct (G _ H1) as ((HV & _) & HL & _).
    eapply emit_good; eauto.
Qed.

(** Sorted calls are determined by their cells. *)
Lemma calls_unique : forall raw raw', StronglySorted call_lt raw -> StronglySorted call_lt raw' ->
  (forall c, In c raw -> istart (fst c) < iend (fst c) /\ fst c = mk (istart (fst c)) (iend (fst c))) ->
  (forall c, In c raw' -> istart (fst c) < iend (fst c) /\ fst c = mk (istart (fst c)) (iend (fst c))) ->
  (forall p, In p (cells_of_calls raw) <-> In p (cells_of_calls raw')) -> raw = raw'.
Proof.
  induction raw as [|[i yz] raw IH]; intros [|[i' yz'] raw'] S S' G G' E; auto.
  - exfalso. destruct (G' _ (or_introl eq_refl)) as [H _]. simpl in H.
    apply (proj2 (E (istart i' :: yz'))). apply cells_of_calls_In. exists i'. split; [left; auto|]. unfold in_i. lia.
  - exfalso. destruct (G _ (or_introl eq_refl)) as [H _]. simpl in H.
    apply (proj1 (E (istart i :: yz))). apply cells_of_calls_In. exists i. split; [left; auto|]. unfold in_i. lia.
  - pose proof (cells_sorted _ S) as C. pose proof (cells_sorted _ S') as C'.
    assert (EQ : cells_of_calls ((i, yz) :: raw) = cells_of_calls ((i', yz') :: raw')).
    { apply (sorted_ext _ lex_lt); auto; [apply lex_lt_irrefl|intros x y z; apply lex_lt_trans]. }
    destruct (G _ (or_introl eq_refl)) as [V M]. destruct (G' _ (or_introl eq_refl)) as [V' M']. simpl in V, M, V', M'.
    assert (FST : istart i = istart i' /\ yz = yz').
    { unfold cells_of_calls in EQ. simpl in EQ. rewrite (zrange_cons (istart i)) in EQ by auto.
      rewrite (zrange_cons (istart i')) in EQ by auto. simpl in EQ. injection EQ as E1 E2 _. auto. }
    destruct FST as [E1 <-]. apply StronglySorted_inv in S as [S F]. apply StronglySorted_inv in S' as [S' F'].
    rewrite Forall_forall in F, F'.
    assert (ONLY : forall r j x, (forall c, In c r -> call_lt (j, yz) c) -> In (x :: yz) (cells_of_calls r) -> iend j < x).
    { intros r j x Hf Hin. apply cells_of_calls_In in Hin as (k & Hk & Hx). apply Hf in Hk as [L|[_ L]]; simpl in L.
      - exfalso. eapply lex_lt_irrefl; eauto.
      - unfold in_i in Hx. lia. }
    assert (E2 : iend i = iend i').
    { destruct (Z.lt_trichotomy (iend i) (iend i')) as [L|[L|L]]; auto; exfalso.
      - assert (Hin : In (iend i :: yz) (cells_of_calls ((i, yz) :: raw))).
        { rewrite EQ. apply cells_of_calls_In. exists i'. split; [left; auto|]. unfold in_i. lia. }
        apply cells_of_calls_In in Hin as (k & [Ek|Hk] & Hx).
        + injection Ek as <-. unfold in_i in Hx. lia.
        + enough (iend i < iend i) by lia. apply (ONLY raw i); auto. apply cells_of_calls_In. eauto.
      - assert (Hin : In (iend i' :: yz) (cells_of_calls ((i', yz) :: raw'))).
        { rewrite <- EQ. apply cells_of_calls_In. exists i. split; [left; auto|]. unfold in_i. lia. }
        apply cells_of_calls_In in Hin as (k & [Ek|Hk] & Hx).
        + injection Ek as <-. unfold in_i in Hx. lia.
        + enough (iend i' < iend i') by lia. apply (ONLY raw' i'); auto. apply cells_of_calls_In. eauto. }
    assert (i = i') by congruence. subst i'. f_equal. apply IH; auto.
    + intros c Hc. apply G. right; auto.
    + intros c Hc. apply G'. right; auto.
    + change (cells_of_calls ((i, yz) :: raw)) with (map (fun x => x :: yz) (zrange (istart i) (iend i)) ++ cells_of_calls raw) in EQ.
      change (cells_of_calls ((i, yz) :: raw')) with (map (fun x => x :: yz) (zrange (istart i) (iend i)) ++ cells_of_calls raw') in EQ.
      apply app_inv_head in EQ. rewrite EQ. tauto.
Qed.

(** ** Running an operator *)

Definition shift_of (w : nat) (nd : node) : Z := Z.of_nat w - Z.of_nat (node_level nd).

(** A tree as [subset_init] or a previous run leaves it. *)
Definition ready (n ref : nat) (t : tree leaf) : Prop :=
  operands_ok n ref t /\ forall lf, tin lf t -> l_shift lf = shift_of (Nat.min ref (finest t)) (l_node lf).

Definition same_leaf (lf lf' : leaf) : Prop := l_node lf' = l_node lf /\ l_shift lf' = l_shift lf.

Lemma common_finest : forall n ref t, operands_ok n ref t -> common_level t = finest t.
Proof.
  intros n ref t H. unfold common_level, finest. f_equal. apply tmap_ext. intros lf Hlf. apply simple_level. apply (H lf Hlf).
Qed.

Lemma init_ready : forall n ref t, operands_ok n ref t -> ready n ref (s_tree (subset_init ref t)).
Proof.
  intros n ref t H. unfold subset_init, ready, operands_ok. simpl.
  assert (F : finest (tmap (leaf_set_shift ref (common_level t)) t) = finest t).
  { unfold finest. f_equal. rewrite tmap_tmap. auto. }
  rewrite F. split.
  - intros lf Hlf. apply tin_map in Hlf as (lf0 & Hlf & ->). apply (H lf0 Hlf).
  - intros lf Hlf. apply tin_map in Hlf as (lf0 & Hlf & ->). simpl. unfold shift_of.
    rewrite (common_finest n ref t H). lia.
Qed.

Lemma same_ready : forall n ref t t', trel same_leaf t t' -> ready n ref t -> ready n ref t' /\ finest t' = finest t.
Proof.
  intros n ref t t' HS [H1 H2].
  assert (F : finest t' = finest t).
  { unfold finest. f_equal. symmetry. apply tmap_trel. eapply trel_impl; [|exact HS]. intros lf lf' [-> _]. auto. }
  unfold ready, operands_ok in *. rewrite F. spl; auto.
  - intros lf' Hlf. destruct (trel_tin_r _ _ _ _ _ lf' HS Hlf) as (lf & Hl & -> & _). auto.
  - intros lf' Hlf. destruct (trel_tin_r _ _ _ _ _ lf' HS Hlf) as (lf & Hl & -> & ->). auto.
Qed.

Definition sem_at (n w : nat) (t : tree leaf) (p : list Z) : Prop :=
  tsem (tmap (fun lf => exists q, lca_mem n (node_mesh (l_node lf)) q /\
     forall k, (k <= n)%nat -> rel (shift_of w (l_node lf)) (nth k q 0 + nth k (node_vect (l_node lf)) 0) (nth k p 0)) t).

Lemma run_raw : forall n ref t, ready n ref t ->
  exists t' raw, subset_run n (mkSub t ref) = Some (mkSub t' ref, flat_map (emit1 n ref (finest t)) raw) /\
    trel same_leaf t t' /\ StronglySorted call_lt raw /\ Forall (good n n []) raw /\
    forall p, length p = S n -> (In p (cells_of_calls raw) <-> sem_at n (Nat.min ref (finest t)) t p).
Proof.
  intros n ref t [HO HS]. set (w := Nat.min ref (finest t)) in *.
  assert (RS : exists t1, tmapM (leaf_reset n) t = Some t1 /\
    trel (fun lf' lf => exists RP, (LI n n lf' (LD (node_mesh (l_node lf)) (node_vect (l_node lf)) (l_shift lf) (fst RP) (snd RP)) /\
       (fst RP = [] /\ lca_no_cells n (node_mesh (l_node lf)) \/ fst RP = [0%nat] /\ wf_full n (node_mesh (l_node lf)))) /\ keep (S n) lf lf') t1 t).
  { apply (trel_mapM _ _ _ (fun lf lf' => lf = lf' /\ tin lf t)); [|apply trel_refl; auto].
    intros lf lf0 [<- Hlf]. destruct (HO lf Hlf) as (Hsim & Hwf & Hr). fold w in Hr.
    destruct (LInv_reset n (node_mesh (l_node lf)) (node_vect (l_node lf)) (l_shift lf) lf 0 (simple_base _ Hsim) eq_refl Hwf)
      as (lf' & R & P & E & HI & HR & HK).
    exists lf'. split; auto. exists (R, P). spl; auto. unfold LI. simpl. split.
    - intros snt. eapply LInv_any; eauto.
    - intros k Hk i Hi. unfold tcells in Hi. apply in_map_iff in Hi as (j & <- & Hj). simpl.
      destruct Hwf as [[Hn _]|W]; [rewrite Hn in Hj by lia; destruct Hj|].
      assert (Hjv : istart j < iend j) by (eapply (wf_valid true n (node_mesh (l_node lf)) k); eauto).
      apply In_nth_error in Hj as (o & Ho).
      destruct (interval_inhabited n _ W k o j (iend j - 1) Hk Ho) as (q & Hq & Hqk); [unfold in_i; lia|].
      specialize (Hr q k Hq Hk). rewrite nth_vadd, Hqk in Hr by auto.
      rewrite (HS lf Hlf). unfold shift_of. rewrite (simple_level _ Hsim). fold w.
      replace (iend j + nth k (node_vect (l_node lf)) 0 + 1) with (iend j - 1 + nth k (node_vect (l_node lf)) 0 + 2) by lia.
      unfold INT_MAX. change (2 ^ 31 - 1) with 2147483647 in Hr. exact Hr. }
  destruct RS as (t1 & E1 & HT1). apply trel_ex in HT1 as (v & HT1 & Hv).
  set (u := tmap (fun z => LD (node_mesh (l_node (fst z))) (node_vect (l_node (fst z))) (l_shift (fst z)) (fst (snd z)) (snd (snd z))) v).
  assert (HT : trel (LI n n) t1 u).
  { unfold u. apply trel_map_r. eapply trel_impl; [|exact HT1]. intros lf z [[H _] _]. exact H. }
  assert (Hcm : finest t = common u).
  { unfold finest, common, u. f_equal. rewrite <- Hv, !tmap_tmap. auto. }
  destruct (apply_spec n ref n [] t1 u (finest t) (Nat.le_refl n) ltac:(simpl; lia) HT Hcm) as (t' & raw & E & K & S & G & C).
  exists t', raw. unfold subset_run. simpl s_tree. simpl s_ref. rewrite E1, E. spl; auto.
  - assert (K1 : trel (keep (Datatypes.S n)) t t1).
    { rewrite <- Hv. apply trel_map_l. apply trel_sym. eapply trel_impl; [|exact HT1]. intros lf z [_ H]. exact H. }
    eapply trel_impl; [|apply (trel_keep_trans _ _ _ _ K1 K)]. intros lf lf' (H1 & H2 & _). split; auto.
  - intros p Hp. rewrite C by (auto; apply skipn_all2; lia). unfold sem_at. apply tsem_iff.
    rewrite <- Hv. unfold u. rewrite !tmap_tmap. apply trel_map_l, trel_map_r. apply trel_refl. intros z Hz.
    destruct (trel_tin_r _ _ _ _ _ z HT1 Hz) as (lf' & _ & [_ HR] & _).
    assert (Hlf : tin (fst z) t) by (rewrite <- Hv; apply tin_map; eauto).
    rewrite <- (HS _ Hlf). destruct z as [lf [R P]]. simpl in *. unfold lm. simpl. split.
    + intros (r & Hr & Hm). destruct HR as [[-> _]|[-> W]]; [destruct Hr|]. destruct Hr as [<-|[]].
      apply lmr_spec in Hm as (q & Hq & Hm & Hk); auto. exists q. split; auto. split; auto.
    + intros (q & [Hq Hm] & Hk). destruct HR as [[-> Hn]|[-> W]].
      * exfalso. apply (no_cells_mem n _ q Hn). split; auto.
      * exists 0%nat. split; [left; auto|]. apply lmr_spec; auto. exists q. auto.
Qed.

(** ** The denotation *)

Lemma sem_denotes : forall n ref t p, operands_ok n ref t -> length p = S n ->
  (if Nat.leb ref (finest t) then sem_at n ref t p else sem_at n (finest t) t (coarse (Z.of_nat (ref - finest t)) p)) <->
  expr_mem n ref t p.
Proof.
  intros n ref t p HO Hp. unfold expr_mem.
  destruct (Nat.leb_spec ref (finest t)) as [Hle|Hlt]; unfold sem_at; apply tsem_iff; apply trel_map_l, trel_map_r;
    apply trel_refl; intros lf Hlf; destruct (HO lf Hlf) as (Hsim & _ & _); unfold denotes, shift_of; rewrite (simple_level _ Hsim).
  - split; intros (q & Hq & Hk); exists q; split; auto; intros k Hkn; specialize (Hk k Hkn); rewrite nth_vadd in * by auto;
      apply rel_meets; auto.
  - assert (Hll : (a_level (node_mesh (l_node lf)) <= finest t)%nat).
    { unfold finest. apply tlevel_le. apply tin_map. eauto. }
    split; intros (q & Hq & Hk); exists q; split; auto; intros k Hkn; specialize (Hk k Hkn).
    + rewrite nth_vadd by auto. apply rel_meets. apply rel_compose with (cm := finest t); auto; [lia|].
      rewrite nth_coarse in Hk. exact Hk.
    + rewrite nth_vadd in Hk by auto. apply rel_meets in Hk. apply rel_compose with (cm := finest t) in Hk; auto; [|lia].
      rewrite nth_coarse. exact Hk.
Qed.

Lemma run_ready : forall n ref t, ready n ref t ->
  exists t' calls, subset_run n (mkSub t ref) = Some (mkSub t' ref, calls) /\ trel same_leaf t t' /\
    (forall c, In c calls -> length (snd c) = n /\ istart (fst c) < iend (fst c)) /\
    NoDup (cells_of_calls calls) /\
    ((ref <= finest t)%nat -> StronglySorted call_lt calls) /\
    forall p, length p = S n -> (In p (cells_of_calls calls) <-> expr_mem n ref t p).
Proof.
  intros n ref t HR. destruct (run_raw n ref t HR) as (t' & raw & E & K & S & G & C). destruct HR as [HO _].
  destruct (emits_spec n ref (finest t) raw G S) as (N & V & EQ & M). cbv zeta in *.
  exists t', (flat_map (emit1 n ref (finest t)) raw). spl; auto.
  - intros Hle. rewrite EQ; auto.
  - intros p Hp. rewrite <- (sem_denotes n ref t p HO Hp). destruct (Nat.leb_spec ref (finest t)) as [Hle|Hlt].
    + rewrite EQ, C, Nat.min_l by auto. tauto.
    + rewrite M, C by (auto; unfold coarse; rewrite map_length; auto). rewrite Nat.min_r by lia. tauto.
Qed.

(** Same leaves, same calls, whatever the cursors. *)
Lemma run_same : forall n ref t1 t2 s1 s2 c1 c2, ready n ref t1 -> trel same_leaf t1 t2 ->
  subset_run n (mkSub t1 ref) = Some (s1, c1) -> subset_run n (mkSub t2 ref) = Some (s2, c2) -> c1 = c2.
Proof.
  intros n ref t1 t2 s1 s2 c1 c2 HR HS E1 E2. destruct (same_ready n ref t1 t2 HS HR) as [HR2 HF].
  destruct (run_raw n ref t1 HR) as (t1' & raw1 & F1 & _ & S1 & G1 & C1).
  destruct (run_raw n ref t2 HR2) as (t2' & raw2 & F2 & _ & S2 & G2 & C2).
  rewrite F1 in E1. injection E1 as _ <-. rewrite F2 in E2. injection E2 as _ <-. rewrite HF. f_equal.
  rewrite Forall_forall in G1, G2. apply calls_unique; auto.
  - intros c Hc. apply (G1 c Hc).
  - intros c Hc. apply (G2 c Hc).
  - assert (LEN : forall p raw, (forall c, In c raw -> good n n [] c) -> In p (cells_of_calls raw) -> length p = S n).
    { intros p raw G Hin. apply cells_len in Hin as (c & Hc & ->). f_equal. apply (G c Hc). }
    assert (SEM : forall p, sem_at n (Nat.min ref (finest t1)) t1 p <-> sem_at n (Nat.min ref (finest t2)) t2 p).
    { intros p. rewrite HF. unfold sem_at. apply tsem_iff. apply trel_map_l, trel_map_r. eapply trel_impl; [|exact HS].
      intros lf lf' [-> _]. tauto. }
    intros p. split; intros Hin.
    + assert (Hp : length p = S n) by (eapply LEN; [|exact Hin]; auto). apply C2; auto. apply SEM. apply C1; auto.
    + assert (Hp : length p = S n) by (eapply LEN; [|exact Hin]; auto). apply C1; auto. apply SEM. apply C2; auto.
Qed.
