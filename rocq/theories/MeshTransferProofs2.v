(** The transfer of a field between two meshes: all the levels. *)
From Coq Require Import QArith Qfield Permutation.
From Verif Require Import Base IntervalModel Spec LoiModel LcaModel LcaSpec LcaProofs CellArrayModel CellArrayProofs SubsetModel StencilModel MeshProofs AdaptModel AdaptProofs
  NumModel NumProofs TransferProofs MrModel MrProofs GhostModel GhostProofs NumSpec PolyProofs PropsNum FluxProofs TagProofs PropsAdapt PropsGrad PropsMr
  ReconModel ReconProofs ReconProofs2 PropsRecon ReconProofs3 PropsRecon2 MeshTransferModel MeshTransferProofs.
Open Scope Z_scope.

(** Two meshes of the same box. *)
Definition transfer_input (n m order : nat) (w s : Z) (mins maxs : nat) (cs : ca) (w' s' : Z) (mind maxd : nat) (cd : ca) (lo hi : list Z) : Prop :=
  mr_input n m mins maxs w s cs /\ mr_input n m mind maxd w' s' cd /\ tiles n cs lo hi /\ tiles n cd lo hi /\ (order <= 5)%nat /\ 2 * Z.of_nat order <= w /\
  ((maxs - mind) * S n < 31)%nat /\ (maxd - mins < 31)%nat /\
  (forall k, (k <= n)%nat -> (Z.max 0 (nth k hi 0) + 1) * 2 ^ Z.of_nat (Nat.max maxs maxd) + 1 < 2 ^ 31 - 1).

Lemma inside_fits : forall n m minl maxl w s cells lo hi l K W, mr_input n m minl maxl w s cells -> tiles n cells lo hi -> (l <= m)%nat -> (W <= K)%nat ->
  (forall k, (k <= n)%nat -> (Z.max 0 (nth k hi 0) + 1) * 2 ^ Z.of_nat K + 1 < 2 ^ 31 - 1) -> fits n W (c_at cells l).
Proof.
  intros n m minl maxl w s cells lo hi l K W HI HT Hl HW HK q k Hq Hk. pose proof HI as (_ & Em & _ & HL & _ & _ & _ & HS). rewrite HL by auto.
  assert (Hm : ca_mem n cells l q) by (split; [lia|auto]). destruct HT as (_ & Hin & _). pose proof (proj2 (Hin l q Hm) k Hk) as [_ B]. specialize (HK k Hk).
  destruct (Nat.le_gt_cases W l) as [Hle|Hgt].
  - replace (Z.max 0 (Z.of_nat W - Z.of_nat l)) with 0 by lia. pose proof (HS l q k Hm Hk). pose proof (in_w n m minl maxl w s cells HI). pose proof (in_s n m minl maxl w s cells HI). lia.
  - replace (Z.max 0 (Z.of_nat W - Z.of_nat l)) with (Z.of_nat (W - l)) by lia.
    assert (E1 : 2 ^ Z.of_nat W = 2 ^ Z.of_nat l * 2 ^ Z.of_nat (W - l)) by (rewrite <- Z.pow_add_r by lia; f_equal; lia).
    assert (P1 : 0 < 2 ^ Z.of_nat l) by (apply Z.pow_pos_nonneg; lia). assert (P2 : 0 < 2 ^ Z.of_nat (W - l)) by (apply Z.pow_pos_nonneg; lia).
    assert (P3 : 2 ^ Z.of_nat W <= 2 ^ Z.of_nat K) by (apply Z.pow_le_mono_r; lia).
    set (A := 2 ^ Z.of_nat l) in *. set (B2 := 2 ^ Z.of_nat (W - l)) in *. set (C := 2 ^ Z.of_nat W) in *. set (D := 2 ^ Z.of_nat K) in *. set (x := nth k q 0) in *. set (h := nth k hi 0) in *.
    assert (F1 : (x + 2) * B2 <= (h * A + 1) * B2) by (apply Z.mul_le_mono_nonneg_r; lia).
    assert (F2 : (h * A + 1) * B2 <= (Z.max 0 h + 1) * C).
    { rewrite E1. replace ((h * A + 1) * B2) with (h * (A * B2) + B2) by ring. replace ((Z.max 0 h + 1) * (A * B2)) with (Z.max 0 h * (A * B2) + A * B2) by ring.
      assert (h * (A * B2) <= Z.max 0 h * (A * B2)) by (apply Z.mul_le_mono_nonneg_r; nia). nia. }
    assert (F3 : (Z.max 0 h + 1) * C <= (Z.max 0 h + 1) * D) by (apply Z.mul_le_mono_nonneg_l; lia). lia.
Qed.

Lemma leaf_below : forall n m minl maxl w s cells l, mr_input n m minl maxl w s cells -> (l <= m)%nat -> below_max n (c_at cells l).
Proof.
  intros n m minl maxl w s cells l HI Hl q k Hq Hk. pose proof HI as (_ & Em & _ & _ & Hw & Hs & _ & HS).
  assert (Hm : ca_mem n cells l q) by (split; [lia|auto]). pose proof (HS l q k Hm Hk). lia.
Qed.

Lemma leaf_stored : forall n m minl maxl w s cells r l p, mr_input n m minl maxl w s cells -> update_sub_mesh n m minl maxl w s cells = Some r -> margin n w cells l p -> stored n (r_all r) l p = true.
Proof.
  intros n m minl maxl w s cells r l p HI HR Mg. destruct (C54_contents n m minl maxl w s cells HI) as (r' & ER & HC & _ & M1 & M2). rewrite HR in ER. injection ER as <-.
  destruct (HC (r_all r)) as (WA & _ & _); [auto|].
  assert (Ma : ca_mem n (r_all r) l p) by (destruct (Nat.eq_dec maxl minl) as [Eq|Ne]; [apply M2; auto|apply M1; auto; apply wanted_margin; auto]).
  destruct Ma as [X Y]. apply stored_mem; auto. apply Mg.
Qed.

Section Transfer.
  Variables (n m order : nat) (w s : Z) (mins maxs : nat) (cs : ca) (w' s' : Z) (mind maxd : nat) (cd : ca) (lo hi : list Z) (rs rd : mr_mesh).
  Hypothesis HI : transfer_input n m order w s mins maxs cs w' s' mind maxd cd lo hi.
  Hypothesis HRs : update_sub_mesh n m mins maxs w s cs = Some rs.
  Hypothesis HRd : update_sub_mesh n m mind maxd w' s' cd = Some rd.
  Variable u : nat -> cfield.
  Notation S := (ca_mem n cs).
  Notation D := (ca_mem n cd).

  Lemma src_in : mr_input n m mins maxs w s cs. Proof. apply HI. Qed.
  Lemma dst_in : mr_input n m mind maxd w' s' cd. Proof. apply HI. Qed.
  Lemma src_tiles : tiles n cs lo hi. Proof. apply HI. Qed.
  Lemma dst_tiles : tiles n cd lo hi. Proof. apply HI. Qed.
  Lemma src_range : forall l p, S l p -> (mins <= l <= maxs)%nat. Proof. apply (in_range n m mins maxs w s cs src_in). Qed.
  Lemma dst_range : forall l p, D l p -> (mind <= l <= maxd)%nat. Proof. apply (in_range n m mind maxd w' s' cd dst_in). Qed.
  Lemma src_len : forall l p, S l p -> length p = Datatypes.S n. Proof. intros l p H. apply src_tiles in H. apply H. Qed.
  Lemma dst_len : forall l p, D l p -> length p = Datatypes.S n. Proof. intros l p H. apply dst_tiles in H. apply H. Qed.
  Lemma src_top : (maxs <= m)%nat. Proof. apply (in_top n m mins maxs w s cs src_in). Qed.
  Lemma dst_top : (maxd <= m)%nat. Proof. apply (in_top n m mind maxd w' s' cd dst_in). Qed.

  Lemma src_stored : forall l p k, S l p -> length k = Datatypes.S n -> (forall j, (j <= n)%nat -> Z.abs (nth j k 0) <= 2 * Z.of_nat order) -> stored n (r_all rs) l (add_vec p k) = true.
  Proof.
    intros l p k Hp Hk Hn. destruct HI as (_ & _ & _ & _ & _ & Hw & _). destruct (add_vec_near n p k w (src_len l p Hp) Hk) as [L1 N1]; [intros j Hj; specialize (Hn j Hj); lia|].
    apply (leaf_stored n m mins maxs w s cs rs l _ src_in HRs). split; eauto.
  Qed.
  Lemma src_self : forall l p, S l p -> stored n (r_all rs) l p = true.
  Proof.
    intros l p Hp. apply (leaf_stored n m mins maxs w s cs rs l _ src_in HRs). split; [apply (src_len l p Hp)|]. exists p. split; auto. intros k Hk. rewrite Z.sub_diag.
    apply (in_w n m mins maxs w s cs src_in).
  Qed.
  Lemma dst_self : forall l p, D l p -> stored n (r_all rd) l p = true.
  Proof.
    intros l p Hp. apply (leaf_stored n m mind maxd w' s' cd rd l _ dst_in HRd). split; [apply (dst_len l p Hp)|]. exists p. split; auto. intros k Hk. rewrite Z.sub_diag.
    apply (in_w n m mind maxd w' s' cd dst_in).
  Qed.
  Lemma src_unique : forall l l' p, S l p -> forall q, S l' q -> (l <= l')%nat -> ancestor (l' - l) q = p -> l = l'.
  Proof. intros l l' p Hp q Hq Hl E. apply (proj1 src_tiles l l' p q Hp Hq Hl E). Qed.
  Lemma level_s : forall l, (l <= m)%nat -> a_level (c_at cs l) = l. Proof. apply (in_level n m mins maxs w s cs src_in). Qed.
  Lemma level_d : forall l, (l <= m)%nat -> a_level (c_at cd l) = l. Proof. apply (in_level n m mind maxd w' s' cd dst_in). Qed.
  Lemma wf_s : forall l, (l <= m)%nat -> wf n (c_at cs l). Proof. intros l Hl. apply (in_wf n m mins maxs w s cs src_in). rewrite (in_max n m mins maxs w s cs src_in). auto. Qed.
  Lemma wf_d : forall l, (l <= m)%nat -> wf n (c_at cd l). Proof. intros l Hl. apply (in_wf n m mind maxd w' s' cd dst_in). rewrite (in_max n m mind maxd w' s' cd dst_in). auto. Qed.
  Lemma mem_s : forall l p, (l <= m)%nat -> (S l p <-> lca_mem n (c_at cs l) p). Proof. intros l p Hl. unfold ca_mem. rewrite (in_max n m mins maxs w s cs src_in). tauto. Qed.
  Lemma mem_d : forall l p, (l <= m)%nat -> (D l p <-> lca_mem n (c_at cd l) p). Proof. intros l p Hl. unfold ca_mem. rewrite (in_max n m mind maxd w' s' cd dst_in). tauto. Qed.
  Lemma bound : forall k, (k <= n)%nat -> (Z.max 0 (nth k hi 0) + 1) * 2 ^ Z.of_nat (Nat.max maxs maxd) + 1 < 2 ^ 31 - 1. Proof. apply HI. Qed.

  Section Level.
    Variable l : nat.
    Hypothesis Hl : (mind <= l <= maxd)%nat.

    Lemma same_set : exists calls, subset_calls n (inter (c_at cd l) (c_at cs l)) = Some calls /\ (forall i yz, In (i, yz) calls -> istep i = 1) /\
      forall p, In p (cells_of_calls calls) <-> D l p /\ S l p.
    Proof.
      pose proof dst_top. assert (Lm : (l <= m)%nat) by lia.
      assert (X : inter (c_at cd l) (c_at cs l) = on (inter (c_at cd l) (c_at cs l)) l).
      { unfold inter. rewrite on_make_op. unfold make_op. f_equal. unfold common_level. cbn. rewrite level_d, level_s by auto. lia. }
      rewrite X. destruct (inter_spec n (c_at cd l) (c_at cs l) l) as (calls & E & V & _ & _ & C); auto using wf_s, wf_d.
      - rewrite level_d, level_s, Nat.max_id, Nat.min_id by auto. rewrite <- (level_d l Lm) at 1. apply below_fits. apply (leaf_below n m mind maxd w' s' cd l dst_in Lm).
      - rewrite level_d, level_s, Nat.max_id, Nat.min_id by auto. rewrite <- (level_s l Lm) at 1. apply below_fits. apply (leaf_below n m mins maxs w s cs l src_in Lm).
      - exists calls. split; auto. split; [intros i yz Hc; apply V in Hc; tauto|]. intros p. rewrite C, mem_d, mem_s by auto. split.
        + intros (Hp & Ha & Hb). rewrite same_denotes in Ha, Hb by auto using level_s, level_d. auto.
        + intros [Ha Hb]. assert (Hp : length p = Datatypes.S n) by (apply (dst_len l p); apply mem_d; auto). rewrite !same_denotes by auto using level_s, level_d. auto.
    Qed.

    Lemma proj_set : forall ls, (l < ls <= maxs)%nat -> exists calls, subset_calls n (on (inter (c_at cd l) (c_at cs ls)) ls) = Some calls /\
      (forall i yz, In (i, yz) calls -> istart i < iend i /\ istep i = 1) /\ NoDup (cells_of_calls calls) /\
      forall q, In q (cells_of_calls calls) <-> S ls q /\ D l (ancestor (ls - l) q).
    Proof.
      intros ls Hs. pose proof dst_top. pose proof src_top. assert (Lm : (l <= m)%nat) by lia. assert (Lsm : (ls <= m)%nat) by lia.
      destruct (inter_spec n (c_at cd l) (c_at cs ls) ls) as (calls & E & V & ND & _ & M); auto using wf_s, wf_d.
      - rewrite level_d, level_s by auto. apply (inside_fits n m mind maxd w' s' cd lo hi l (Nat.max maxs maxd)); auto using dst_in, dst_tiles, bound. lia.
      - rewrite level_d, level_s by auto. apply (inside_fits n m mins maxs w s cs lo hi ls (Nat.max maxs maxd)); auto using src_in, src_tiles, bound. lia.
      - exists calls. split; auto. split; [intros i yz Hc; apply V in Hc; tauto|]. split; auto. intros q. rewrite M, mem_s, mem_d by auto. split.
        + intros (Lq & Hd & Hc). split; [apply (same_denotes n (c_at cs ls) ls q); auto using level_s|].
          rewrite denotes_mesh_fine in Hd by (rewrite ?level_d by auto; auto; lia). rewrite level_d in Hd by auto. auto.
        + intros (Hs1 & Hd1). assert (Lq : length q = Datatypes.S n) by (apply (src_len ls q); apply mem_s; auto). split; auto. split; [|apply same_denotes; auto using level_s].
          rewrite denotes_mesh_fine by (rewrite ?level_d by auto; auto; lia). rewrite level_d by auto. auto.
    Qed.

    Lemma pred_set : forall ls, (mins <= ls < l)%nat -> exists calls, subset_calls n (on (inter (c_at cd l) (c_at cs ls)) l) = Some calls /\
      (forall i yz, In (i, yz) calls -> length yz = n /\ istep i = 1) /\
      forall p, In p (cells_of_calls calls) <-> D l p /\ S ls (ancestor (l - ls) p).
    Proof.
      intros ls Hs. pose proof dst_top. pose proof src_top. assert (Lm : (l <= m)%nat) by lia. assert (Lsm : (ls <= m)%nat) by lia.
      destruct (inter_spec n (c_at cd l) (c_at cs ls) l) as (calls & E & V & _ & _ & M); auto using wf_s, wf_d.
      - rewrite level_d, level_s by auto. apply (inside_fits n m mind maxd w' s' cd lo hi l (Nat.max maxs maxd)); auto using dst_in, dst_tiles, bound. lia.
      - rewrite level_d, level_s by auto. apply (inside_fits n m mins maxs w s cs lo hi ls (Nat.max maxs maxd)); auto using src_in, src_tiles, bound. lia.
      - exists calls. split; auto. split; [intros i yz Hc; apply V in Hc; tauto|]. intros p. rewrite M, mem_s, mem_d by auto. split.
        + intros (Lp & Hd & Hc). split; [apply (same_denotes n (c_at cd l) l p); auto using level_d|].
          rewrite denotes_mesh_fine in Hc by (rewrite ?level_s by auto; auto; lia). rewrite level_s in Hc by auto. auto.
        + intros (Hd1 & Hs1). assert (Lp : length p = Datatypes.S n) by (apply (dst_len l p); apply mem_d; auto). split; auto. split; [apply same_denotes; auto using level_d|].
          rewrite denotes_mesh_fine by (rewrite ?level_s by auto; auto; lia). rewrite level_s by auto. auto.
    Qed.

    (** The finer leaves of the source in a leaf [c] of the destination, on some levels. *)
    Definition enumerates (lss : list nat) (c : list Z) (qs : list (nat * list Z)) : Prop :=
      NoDup qs /\ forall ls q, In (ls, q) qs <-> In ls lss /\ S ls q /\ ancestor (ls - l) q = c /\ D l c.
    Definition part (lq : nat * list Z) : Q := let '(ls, q) := lq in (u ls q / inject_Z (2 ^ Z.of_nat ((ls - l) * Datatypes.S n)))%Q.

    Lemma proj_levels : forall lss d, NoDup lss -> (forall ls, In ls lss -> (l < ls <= maxs)%nat) ->
      exists d', fold_opt (fun d level_src => let* calls := subset_calls n (on (inter (c_at cd l) (c_at cs level_src)) level_src) in
          fold_opt (proj_op n (r_all rs) (r_all rd) l level_src (u level_src)) calls d) lss d = Some d' /\
        forall c, exists qs, enumerates lss c qs /\ (d' c == d c + sum_over part qs)%Q.
    Proof.
      induction lss as [|ls lss IH]; intros d Hn Hs; cbn [fold_opt].
      - exists d. split; auto. intros c. exists []. split; [split; [constructor|intros ls q; split; [intros []|intros [[] _]]]|]. rewrite sum_nil. ring.
      - apply NoDup_cons_iff in Hn as [Hn Hn']. assert (Hls : (l < ls <= maxs)%nat) by (apply Hs; left; auto). destruct (proj_set ls Hls) as (calls & E & V & ND & M). rewrite E.
        destruct (proj_calls n (r_all rs) (r_all rd) l ls (u ls) calls d V) as (d1 & E1 & P1).
        { destruct HI as (_ & _ & _ & _ & _ & _ & Hb & _). assert ((ls - l) * Datatypes.S n <= (maxs - mind) * Datatypes.S n)%nat by (apply Nat.mul_le_mono_r; lia). lia. }
        { intros q Hq. apply M in Hq as [Hq1 Hq2]. split; [apply src_self; auto|apply dst_self; auto]. }
        rewrite E1. destruct (IH d1 Hn') as (d2 & E2 & P2); [intros; apply Hs; right; auto|]. exists d2. split; auto. intros c. destruct (P2 c) as (qs & [N2 M2] & Q2).
        exists (map (pair ls) (filter (fun q => zlist_eqb (ancestor (ls - l) q) c) (cells_of_calls calls)) ++ qs). split; [split|].
        + apply NoDup_app2; auto.
          * apply FinFun.Injective_map_NoDup; [intros x y Exy; congruence|]. apply NoDup_filter. auto.
          * intros [ls' q] H1 H2. apply in_map_iff in H1 as (q' & Eq & _). injection Eq as <- _. apply M2 in H2 as [H2 _]. auto.
        + intros ls' q. rewrite in_app_iff, M2, in_map_iff. split.
          * intros [(q' & Eq & Hf)|(H1 & H2)]; [|split; [right; auto|auto]]. injection Eq as <- <-. apply filter_In in Hf as [Hc Hz]. apply M in Hc as [Hc1 Hc2]. apply zlist_eqb_eq in Hz.
            split; [left; auto|]. rewrite <- Hz. auto.
          * intros ([<-|H1] & H2 & H3 & H4); [|right; auto]. left. exists q. split; auto. apply filter_In. split; [apply M; rewrite H3; auto|apply zlist_eqb_eq; auto].
        + rewrite Q2, P1, sum_app, sum_map. unfold share, part. ring.
    Qed.

    Lemma pred_levels : forall lss d values, NoDup lss -> (forall ls, In ls lss -> (mins <= ls < l)%nat) -> good values ->
      exists d' values', fold_opt (fun st level_src => let* calls := subset_calls n (on (inter (c_at cd l) (c_at cs level_src)) l) in
          fold_opt (pred_op n order (r_all rs) (r_all rd) l level_src (u level_src)) calls st) lss (d, values) = Some (d', values') /\ good values' /\
        forall c, (forall ls, In ls lss -> D l c -> S ls (ancestor (l - ls) c) -> (d' c == iterated order (l - ls) (u ls) c)%Q) /\
          ((forall ls, In ls lss -> D l c -> S ls (ancestor (l - ls) c) -> False) -> d' c = d c).
    Proof.
      induction lss as [|ls lss IH]; intros d values Hn Hs G; cbn [fold_opt].
      - exists d, values. split; auto. split; auto. intros c. split; auto. intros ls [].
      - apply NoDup_cons_iff in Hn as [Hn Hn']. assert (Hls : (mins <= ls < l)%nat) by (apply Hs; left; auto). destruct (pred_set ls Hls) as (calls & E & V & M). rewrite E.
        destruct (pred_calls n order (r_all rs) (r_all rd) (proj1 (proj2 (proj2 (proj2 (proj2 HI))))) l ls (u ls) calls d values V) as (d1 & v1 & E1 & G1 & P1); auto.
        { destruct HI as (_ & _ & _ & _ & _ & _ & _ & Hb & _). lia. }
        { intros p Hp. apply M in Hp as [Hp1 Hp2]. split; [apply dst_self; auto|]. intros k Hk Hnk. apply src_stored; auto. }
        rewrite E1. destruct (IH d1 v1 Hn') as (d2 & v2 & E2 & G2 & P2); auto; [intros; apply Hs; right; auto|]. exists d2, v2. split; auto. split; auto. intros c.
        destruct (P1 c) as [A1 B1]. destruct (P2 c) as [A2 B2]. rewrite M in A1, B1.
        assert (Dec : (D l c /\ S ls (ancestor (l - ls) c)) \/ ~ (D l c /\ S ls (ancestor (l - ls) c))).
        { rewrite <- M. destruct (in_dec (list_eq_dec Z.eq_dec) c (cells_of_calls calls)); auto. }
        destruct Dec as [[Hd Hs1]|Hout].
        + assert (N2 : forall ls', In ls' lss -> D l c -> S ls' (ancestor (l - ls') c) -> False).
          { intros ls' Hin _ Hs2. assert (Hls' : (mins <= ls' < l)%nat) by (apply Hs; right; auto). assert (ls = ls'); [|subst; auto].
            destruct (Nat.le_ge_cases ls ls') as [Hle|Hle]; [apply (src_unique _ _ _ Hs1 _ Hs2 Hle)|symmetry; apply (src_unique _ _ _ Hs2 _ Hs1 Hle)]; rewrite ancestor_add; f_equal; lia. }
          split; [|intros H; exfalso; apply (H ls); auto; left; auto]. intros ls' [<-|Hin] _ Hs2; [rewrite (B2 N2); auto|exfalso; apply (N2 ls'); auto].
        + split.
          * intros ls' [<-|Hin] Hd Hs2; [exfalso; auto|apply A2; auto].
          * intros H. rewrite B2, B1; auto. intros ls' Hin. apply H. right. auto.
    Qed.

    Lemma level_spec : forall values, good values ->
      exists d values', transfer_level n order mins maxs cs (r_all rs) cd (r_all rd) u values l = Some (d, values') /\ good values' /\
        forall c, (~ D l c -> (d c == 0)%Q) /\ (D l c ->
          (S l c -> (d c == u l c)%Q) /\
          (forall ls, (ls < l)%nat -> S ls (ancestor (l - ls) c) -> (d c == iterated order (l - ls) (u ls) c)%Q) /\
          (split_at n cs l c -> forall qs, NoDup qs -> (forall ls q, In (ls, q) qs <-> (l < ls)%nat /\ S ls q /\ ancestor (ls - l) q = c) -> (d c == sum_over part qs)%Q)).
    Proof.
      intros values G. unfold transfer_level. destruct same_set as (same & E0 & V0 & M0). rewrite E0.
      destruct (same_calls n (r_all rs) (r_all rd) l (u l) same (fun _ => 0%Q) V0) as (d0 & F0 & P0); [intros p Hp; apply M0 in Hp as [H1 H2]; split; [apply src_self|apply dst_self]; auto|].
      rewrite F0. destruct (proj_levels (seq (Datatypes.S l) (maxs - l)) d0) as (d1 & F1 & P1); [apply seq_NoDup|intros ls Hin; apply in_seq in Hin; lia|]. rewrite F1.
      destruct (pred_levels (seq mins (l - mins)) d1 values) as (d2 & v2 & F2 & G2 & P2); auto; [apply seq_NoDup|intros ls Hin; apply in_seq in Hin; lia|]. rewrite F2.
      exists d2, v2. split; auto. split; auto. intros c. destruct (P0 c) as [A0 B0]. rewrite M0 in A0, B0. destruct (P1 c) as (qs & [NQ MQ] & S1). destruct (P2 c) as [A2 B2]. split; [|intros Hd; split; [|split]].
      - intros Hd. rewrite B2 by (intros; contradiction). rewrite S1, B0 by tauto. destruct qs as [|[ls q] qs]; [rewrite sum_nil; ring|]. destruct (MQ ls q) as [X _]. exfalso. apply Hd. apply X. left. auto.
      - intros Hs. rewrite B2; [|intros ls Hin _ Hs2; apply in_seq in Hin; assert (ls = l) by (apply (src_unique _ _ _ Hs2 _ Hs); [lia|auto]); lia].
        rewrite S1, (A0 (conj Hd Hs)). destruct qs as [|[ls q] qs]; [rewrite sum_nil; ring|]. destruct (MQ ls q) as [X _]. destruct (X (or_introl eq_refl)) as (Y1 & Y2 & Y3 & _). apply in_seq in Y1.
        assert (l = ls) by (apply (src_unique _ _ _ Hs _ Y2); [lia|auto]). lia.
      - intros ls Hlt Hs. apply A2; auto. pose proof (src_range _ _ Hs). apply in_seq. lia.
      - intros (l' & q' & Hl' & Hq' & Ec) qs' NQ' MQ'.
        assert (NA : forall ls, (ls <= l)%nat -> S ls (ancestor (l - ls) c) -> False).
        { intros ls Hle Hs. assert (ls = l'); [|lia]. apply (src_unique _ _ _ Hs _ Hq'); [lia|]. rewrite Ec, ancestor_add. f_equal. lia. }
        rewrite B2 by (intros ls Hin _ Hs; apply in_seq in Hin; apply (NA ls); auto; lia). rewrite S1, B0.
        2: { intros [_ Hs]. apply (NA l); auto. rewrite Nat.sub_diag, ancestor_0. auto. }
        rewrite (sum_perm _ part qs qs'); [ring|]. apply NoDup_Permutation; auto. intros [ls q]. rewrite MQ, MQ', in_seq. split; [intros (X1 & X2 & X3 & _); split; [lia|auto]|].
        intros (X1 & X2 & X3). pose proof (src_range _ _ X2). split; [lia|auto].
    Qed.
  End Level.

  Lemma transfer_levels : forall ls v values, NoDup ls -> (forall l, In l ls -> (mind <= l <= maxd)%nat) -> good values ->
    exists v' values', fold_opt (fun '(v, values) level_dst =>
        let* (d, values) := transfer_level n order mins maxs cs (r_all rs) cd (r_all rd) u values level_dst in
        Some ((fun l => if Nat.eqb l level_dst then d else v l), values)) ls (v, values) = Some (v', values') /\ good values' /\
      (forall l, ~ In l ls -> v' l = v l) /\
      forall l, In l ls -> forall c, (~ D l c -> (v' l c == 0)%Q) /\ (D l c ->
          (S l c -> (v' l c == u l c)%Q) /\
          (forall ls, (ls < l)%nat -> S ls (ancestor (l - ls) c) -> (v' l c == iterated order (l - ls) (u ls) c)%Q) /\
          (split_at n cs l c -> forall qs, NoDup qs -> (forall ls q, In (ls, q) qs <-> (l < ls)%nat /\ S ls q /\ ancestor (ls - l) q = c) -> (v' l c == sum_over (part l) qs)%Q)).
  Proof.
    induction ls as [|l ls IH]; intros v values Hn Hs G; cbn [fold_opt].
    - exists v, values. split; auto. split; auto. split; auto. intros l [].
    - apply NoDup_cons_iff in Hn as [Hn Hn']. destruct (level_spec l (Hs l (or_introl eq_refl)) values G) as (d & v1 & E & G1 & P). rewrite E.
      destruct (IH (fun l0 => if Nat.eqb l0 l then d else v l0) v1 Hn') as (v2 & v3 & E2 & G2 & P2 & P3); auto; [intros; apply Hs; right; auto|].
      exists v2, v3. split; auto. split; auto. split.
      + intros l0 H0. rewrite P2 by (intros H; apply H0; right; auto). destruct (Nat.eqb_spec l0 l) as [->|Ne]; auto. exfalso. apply H0. left. auto.
      + intros l0 [<-|H0]; auto. assert (Ev : v2 l = d) by (rewrite P2 by auto; rewrite Nat.eqb_refl; auto). rewrite Ev. exact P.
  Qed.
End Transfer.
