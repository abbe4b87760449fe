(** Common imports and small general lemmas (no samurai content). *)
From Coq Require Export ZArith List Lia Bool Arith Sorted Permutation.
From Coq Require Export ZifyBool ZifyNat.
Export ListNotations.

Ltac inv H := inversion H; subst; clear H.

(** [destruct] the first boolean comparison found in the goal. *)
Ltac caseb :=
  match goal with
  | |- context [Z.ltb ?a ?b] => destruct (Z.ltb_spec a b)
  | |- context [Z.leb ?a ?b] => destruct (Z.leb_spec a b)
  | |- context [Z.eqb ?a ?b] => destruct (Z.eqb_spec a b)
  | |- context [Nat.ltb ?a ?b] => destruct (Nat.ltb_spec a b)
  | |- context [Nat.leb ?a ?b] => destruct (Nat.leb_spec a b)
  | |- context [Nat.eqb ?a ?b] => destruct (Nat.eqb_spec a b)
  end.

Ltac casebh H :=
  match type of H with
  | context [Z.ltb ?a ?b] => destruct (Z.ltb_spec a b)
  | context [Z.leb ?a ?b] => destruct (Z.leb_spec a b)
  | context [Z.eqb ?a ?b] => destruct (Z.eqb_spec a b)
  | context [Nat.ltb ?a ?b] => destruct (Nat.ltb_spec a b)
  | context [Nat.leb ?a ?b] => destruct (Nat.leb_spec a b)
  | context [Nat.eqb ?a ?b] => destruct (Nat.eqb_spec a b)
  end.

Section ListLemmas.
  Context {A B : Type}.

  Lemma nth_error_app_mid : forall (l1 l2 : list A) x,
    nth_error (l1 ++ x :: l2) (length l1) = Some x.
  Proof.
    intros. rewrite nth_error_app2 by lia. rewrite Nat.sub_diag. reflexivity.
  Qed.

  Lemma StronglySorted_app : forall (R : A -> A -> Prop) l1 l2,
    StronglySorted R l1 -> StronglySorted R l2 ->
    (forall a b, In a l1 -> In b l2 -> R a b) ->
    StronglySorted R (l1 ++ l2).
  Proof.
    induction l1 as [|a l1 IH]; intros l2 H1 H2 H; simpl; auto.
    inv H1. constructor.
    - apply IH; auto. intros; apply H; simpl; auto.
    - apply Forall_app; split; auto.
      apply Forall_forall. intros; apply H; simpl; auto.
  Qed.

  Lemma StronglySorted_app_inv : forall (R : A -> A -> Prop) l1 l2,
    StronglySorted R (l1 ++ l2) ->
    StronglySorted R l1 /\ StronglySorted R l2 /\
    (forall a b, In a l1 -> In b l2 -> R a b).
  Proof.
    induction l1 as [|a l1 IH]; intros l2 H; simpl in *.
    - split; [constructor|]. split; auto. intros a b [].
    - inv H. apply IH in H2 as (P & Q & R').
      apply Forall_app in H3 as [F1 F2]. split; [constructor; auto|]. split; auto.
      intros x b [->|Hx] Hb.
      + eapply Forall_forall in F2; eauto.
      + auto.
  Qed.

  Lemma StronglySorted_map : forall (R : B -> B -> Prop) (f : A -> B) l,
    StronglySorted (fun a b => R (f a) (f b)) l -> StronglySorted R (map f l).
  Proof.
    induction l; intros H; simpl; constructor; inv H; auto.
    apply Forall_map. auto.
  Qed.

  Lemma StronglySorted_impl : forall (R S : A -> A -> Prop) l,
    (forall a b, In a l -> In b l -> R a b -> S a b) ->
    StronglySorted R l -> StronglySorted S l.
  Proof.
    induction l; intros H Hs; constructor; inv Hs.
    - apply IHl; auto. intros; apply H; simpl; auto.
    - rewrite Forall_forall in *. intros; apply H; simpl; auto.
  Qed.

  Lemma firstn_skipn_nth_error : forall (l : list A) n x,
    nth_error l n = Some x -> l = firstn n l ++ x :: skipn (S n) l.
  Proof.
    induction l; destruct n; intros; simpl in *; try discriminate.
    - inv H; reflexivity.
    - f_equal. apply IHl; auto.
  Qed.

  Lemma nth_error_skipn : forall (l : list A) n k,
    nth_error (skipn n l) k = nth_error l (n + k).
  Proof.
    induction l; destruct n; intros; simpl; auto.
    - destruct k; reflexivity.
  Qed.

  Lemma nth_error_firstn : forall (l : list A) n k,
    k < n -> nth_error (firstn n l) k = nth_error l k.
  Proof.
    induction l; destruct n; intros k Hk; simpl; auto.
    - lia.
    - destruct k; simpl; auto. apply IHl; lia.
  Qed.
End ListLemmas.

(** Split syntactic conjunctions only. *)
Ltac spl := repeat match goal with |- _ /\ _ => split end.
