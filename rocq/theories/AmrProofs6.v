(** The tags and the sub-meshes of two AMR meshes with the same leaves. *)
From Coq Require Import QArith.
From Verif Require Import Base IntervalModel Spec IntervalProofs LoiModel LcaModel LcaSpec InitProofs LcaProofs LcaProofs2 RowsProofs CellArrayModel CellArrayProofs PropsLca PropsCellArray
  SubsetModel TreeProofs SubsetSpec SubsetProofs2 PropsSubset StencilModel NumberingProofs StencilProofs PropsStencil MeshModel MeshProofs PropsMesh
  NumModel NumProofs NumSpec PropsNum AdaptModel AdaptProofs TagProofs PropsAdapt TransferProofs PropsTransfer MrModel MrProofs PropsMr
  GhostModel GhostProofs PropsGhost BcProofs HartenModel HartenProofs HartenProofs2 LoopProofs DetermProofs AmrModel AmrProofs AmrProofs2 AmrProofs3 AmrLoopModel AmrProofs5 PropsAmr.
Open Scope Z_scope.

(** ** The closures *)
Lemma up_same : forall n stencil c c' t l q, same_leaves n c c' -> AmrProofs2.to_refine n stencil c t l q -> AmrProofs2.to_refine n stencil c' t l q.
Proof.
  intros n stencil c c' t l q E H. induction H as [l q H|l q f s Hq Hf Hs A _ IH]; [apply refine_given; auto|].
  apply (refine_pulled _ _ _ _ l q f s); auto; apply E; auto.
Qed.
Lemma keep_same : forall n gw stencil c c' reference t l q, same_leaves n c c' -> to_keep n gw stencil c reference t l q -> to_keep n gw stencil c' reference t l q.
Proof.
  intros n gw stencil c c' reference t l q E H. induction H as [l q H|l f Hf Hr|l q p Hp Hu N|l q f d Hf Ef Ld Ed _ IH|l q f s Hq Hf Hs A _ IH].
  - apply keep_given; auto.
  - apply keep_parent; auto. apply E; auto.
  - apply (keep_near _ _ _ _ _ _ l q p); auto; [apply E; auto|]. apply (up_same n stencil c); auto.
  - apply (keep_sibling _ _ _ _ _ _ l q f d); auto. apply E; auto.
  - apply (keep_pulled _ _ _ _ _ _ l q f s); auto; apply E; auto.
Qed.
Lemma down_same : forall n minl gw stencil c c' reference t l q, same_leaves n c c' -> to_coarsen n minl gw stencil c reference t l q -> to_coarsen n minl gw stencil c' reference t l q.
Proof.
  intros n minl gw stencil c c' reference t l q E (H1 & H2 & H3 & H4 & H5). split; auto. split; [apply E; auto|]. split; auto.
  split; [intros Y; apply H4; apply (up_same n stencil c'); auto using same_leaves_sym|intros Y; apply H5; apply (keep_same n gw stencil c'); auto using same_leaves_sym].
Qed.
Lemma amr_input_same : forall n m minl maxl gw stencil c c' reference lo hi, amr_input n m minl maxl gw stencil c reference lo hi ->
  ca_wf n c' -> c_max c' = m -> (forall l, (l <= m)%nat -> a_level (c_at c' l) = l) -> same_leaves n c c' -> amr_input n m minl maxl gw stencil c' reference lo hi.
Proof.
  intros n m minl maxl gw stencil c c' reference lo hi HI W M L E. destruct HI as [A1 A2 [A3 A3'] A4 A5 A6 A7 A8 A9 A10 A11 A12]. constructor; auto.
  - intros l Hl. split; [apply W; lia|auto].
  - intros l q Hq. apply (A6 l q), E, Hq.
  - apply (tiles_same n c); auto.
  - intros l l' p q s Hp Hq. apply A8; apply E; auto.
  - intros l q p Hq. apply A11. apply E. auto.
Qed.

(** ** The tags outside the leaves do not matter *)
Section Outside.
  Variables (n m minl maxl : nat) (gw : Z) (stencil : list (list Z)) (cells reference : ca) (lo hi : list Z) (t1 t2 : tfield).
  Hypothesis HI : amr_input n m minl maxl gw stencil cells reference lo hi.
  Hypothesis HT : forall l q, ca_mem n cells l q -> tg t1 l q = tg t2 l q.
  Lemma up_leaves : forall l q, AmrProofs2.to_refine n stencil cells t1 l q -> ca_mem n cells l q -> AmrProofs2.to_refine n stencil cells t2 l q.
  Proof using HT.
    intros l q H. induction H as [l q H|l q f s Hq Hf Hs A _ IH]; intros Hl; [apply refine_given; rewrite <- HT; auto|]. apply (refine_pulled _ _ _ _ l q f s); auto.
  Qed.
  Lemma keep_leaves : forall l q, to_keep n gw stencil cells reference t1 l q -> ca_mem n cells l q -> to_keep n gw stencil cells reference t2 l q.
  Proof using HT HI.
    intros l q H. induction H as [l q H|l f Hf Hr|l q p Hp Hu N|l q f d Hf Ef Ld Ed _ IH|l q f s Hq Hf Hs A _ IH]; intros Hl.
    - apply keep_given. rewrite <- HT; auto.
    - apply keep_parent; auto.
    - apply (keep_near _ _ _ _ _ _ l q p); auto. apply up_leaves; auto.
    - destruct (closures_dec n m minl maxl gw stencil cells reference lo hi t2 HI (S l) q ltac:(apply Hl)) as [_ [Y|Y]]; auto.
      apply (keep_sibling _ _ _ _ _ _ l q f d); auto. apply IH. apply (group_leaves n m minl maxl gw stencil cells reference lo hi t2 HI l q d); auto.
    - apply (keep_pulled _ _ _ _ _ _ l q f s); auto.
  Qed.
End Outside.

(** ** The sub-meshes *)
Lemma to_project_same : forall n w c c' l p, same_leaves n c c' -> to_project n w c l p -> to_project n w c' l p.
Proof.
  intros n w c c' l p E H. induction H as [l p Lp HM HS NL|l p Lp _ IH NL].
  - apply project_margin; auto; [apply (margin_same n w c); auto|apply (split_same n c); auto|intros Y; apply NL, E; auto].
  - apply project_child; auto. intros Y. apply NL, E; auto.
Qed.
Lemma to_predict_same : forall n w c c' lo hi l p, same_leaves n c c' -> to_predict n w c lo hi l p -> to_predict n w c' lo hi l p.
Proof.
  intros n w c c' lo hi l p E (H1 & H2 & H3 & H4 & l' & q & H5 & H6). split; [apply (margin_same n w c); auto|]. split; [intros Y; apply H2; apply (split_same n c'); auto using same_leaves_sym|].
  split; [intros Y; apply H3, E; auto|]. split; auto. exists l', q. split; auto. apply E; auto.
Qed.
Lemma amr_ghost_same : forall n w s c c' lo hi l p, same_leaves n c c' -> amr_ghost n w s c lo hi l p -> amr_ghost n w s c' lo hi l p.
Proof.
  intros n w s c c' lo hi l p E [H|(Lp & h & H & N)]; [left; apply (margin_same n w c); auto|]. right. split; auto. exists h. split; auto. apply (to_predict_same n w c); auto.
Qed.

Section Contents.
  Variables (n m minl maxl : nat) (w : Z) (s d : nat) (domain : lca) (c c' : ca) (lo hi : list Z) (r r' : amr_mesh).
  Hypothesis HI : amr_sub_input n m minl maxl w (Z.of_nat s) d domain c lo hi.
  Hypothesis HI' : amr_sub_input n m minl maxl w (Z.of_nat s) d domain c' lo hi.
  Hypothesis HR : amr_sub_mesh n m minl maxl w (Z.of_nat s) domain c = Some r.
  Hypothesis HR' : amr_sub_mesh n m minl maxl w (Z.of_nat s) domain c' = Some r'.
  Hypothesis SL : same_leaves n c c'.

  Lemma amr_all_same : same_leaves n (a_all r) (a_all r').
  Proof.
    intros l p. rewrite (proj2 (proj2 (proj2 (proj2 (lo_contents n m minl maxl w s d domain c lo hi r HI HR) l p)))), (proj2 (proj2 (proj2 (proj2 (lo_contents n m minl maxl w s d domain c' lo hi r' HI' HR') l p)))).
    split; (intros [H|H]; [left; eapply amr_ghost_same; [|exact H]|right; eapply to_project_same; [|exact H]]; auto using same_leaves_sym).
  Qed.
  Lemma amr_reference_same : forall l p, ca_mem n (a_all r) l p -> ca_get_index n (ca_update_index (a_all r)) l p = ca_get_index n (ca_update_index (a_all r')) l p.
  Proof.
    destruct (proj1 (lo_contents n m minl maxl w s d domain c lo hi r HI HR) (a_all r)) as (WA & _); auto.
    destruct (proj1 (lo_contents n m minl maxl w s d domain c' lo hi r' HI' HR') (a_all r')) as (WA' & _); auto.
    destruct (ca_update_index_spec n _ WA) as (cs & [S1 M1] & _ & _ & G & _). destruct (ca_update_index_spec n _ WA') as (cs' & [S2 M2] & _ & _ & G' & _).
    assert (cs' = cs). { apply (ca_enumeration_unique n (a_all r')); split; auto. intros l p. rewrite M1. apply amr_all_same. } subst cs'.
    intros l p Hp. apply M1 in Hp. apply In_nth_error in Hp as (j & Hj). rewrite (G _ _ _ Hj), (G' _ _ _ Hj). auto.
  Qed.
  Lemma amr_same_mesh : forall e e', steps_one c -> steps_one c' ->
    renumber_sub_mesh n (ca_update_index (a_all r)) c = Some e -> amr_numbered n m c r e (ca_update_index (a_all r)) ->
    renumber_sub_mesh n (ca_update_index (a_all r')) c' = Some e' -> amr_numbered n m c' r' e' (ca_update_index (a_all r')) ->
    same_mesh n minl maxl e e' = true.
  Proof.
    intros e e' S1 S1' E N E' N'. pose proof (si_in _ _ _ _ _ _ _ _ _ _ _ HI) as (W & Mc & Hm & _). pose proof (si_in _ _ _ _ _ _ _ _ _ _ _ HI') as (W' & _).
    apply (renumber_steps _ _ _ _ W S1) in E. apply (renumber_steps _ _ _ _ W' S1') in E'.
    destruct N as (Wd & Md & Ld & Sd & _ & RA & IX & _). destruct N' as (Wd' & Md' & Ld' & Sd' & _ & RA' & IX' & _).
    unfold same_mesh. apply forallb_forall. intros l Hl. apply in_seq in Hl.
    assert (Lm : (l <= m)%nat) by lia.
    assert (MM : forall p, ca_mem n e l p <-> ca_mem n e' l p). { intros p. rewrite <- (Sd l p), <- (Sd' l p). apply SL. }
    apply numbered_eqb; auto.
    - apply Wd; lia.
    - apply Wd'; lia.
    - rewrite Ld, Ld'; auto.
    - intros p. specialize (MM p). unfold ca_mem in MM. rewrite Md, Md' in MM. tauto.
    - intros p Hp. assert (Hc : ca_mem n c l p). { apply Sd. split; [lia|auto]. } assert (Hc' : ca_mem n c' l p) by (apply SL; auto).
      destruct (IX l p Hc) as [I1 I2]. destruct (IX' l p Hc') as [I1' I2']. unfold ca_get_index in I2, I2'.
      rewrite I2, I2'. apply amr_reference_same. apply RA; auto.
  Qed.
End Contents.
