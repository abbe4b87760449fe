(** Expression trees: semantics of the set algebra and general lemmas. *)
From Verif Require Import Base IntervalModel SubsetModel.

Scheme tree_mut := Induction for tree Sort Prop
with args_mut := Induction for args Sort Prop.
Combined Scheme tree_args_ind from tree_mut, args_mut.

(** The sub-set of a universe denoted by a tree whose leaves are sets (at a given
    point): intersection, union, and difference of the first with all others. *)
Fixpoint tsem (t : tree Prop) : Prop :=
  match t with
  | Lf P => P
  | Nd Intersect es => aall es
  | Nd Union es => aany es
  | Nd Difference es => match es with One e => tsem e | More e es => tsem e /\ ~ aany es end
  end
with aall (es : args Prop) : Prop :=
  match es with One e => tsem e | More e es => tsem e /\ aall es end
with aany (es : args Prop) : Prop :=
  match es with One e => tsem e | More e es => tsem e \/ aany es end.

(** Trees of the same shape with related leaves. *)
Fixpoint trel {A B} (P : A -> B -> Prop) (t : tree A) (u : tree B) : Prop :=
  match t, u with
  | Lf x, Lf y => P x y
  | Nd f es, Nd g es' => f = g /\ arel P es es'
  | _, _ => False
  end
with arel {A B} (P : A -> B -> Prop) (es : args A) (es' : args B) : Prop :=
  match es, es' with
  | One e, One e' => trel P e e'
  | More e es, More e' es' => trel P e e' /\ arel P es es'
  | _, _ => False
  end.

Fixpoint tin {A} (x : A) (t : tree A) : Prop :=
  match t with Lf y => x = y | Nd _ es => ain x es end
with ain {A} (x : A) (es : args A) : Prop :=
  match es with One e => tin x e | More e es => tin x e \/ ain x es end.

Ltac trees := apply tree_args_ind; simpl.

Lemma trel_mapM_ : forall A B C (P : A -> B -> Prop) (Q : C -> B -> Prop) (g : A -> option C),
  (forall x y, P x y -> exists x', g x = Some x' /\ Q x' y) ->
  (forall t u, trel P t u -> exists t', tmapM g t = Some t' /\ trel Q t' u) /\
  (forall t u, arel P t u -> exists t', amapM g t = Some t' /\ arel Q t' u).
Proof.
  intros A B C P Q g H. trees.
  - intros x [y|f es] Hu; simpl in *; [|tauto]. destruct (H _ _ Hu) as (x' & -> & Hq). exists (Lf x'). auto.
  - intros f es IH [y|g' es'] Hu; simpl in *; [tauto|]. destruct Hu as [-> Hu].
    destruct (IH _ Hu) as (t' & -> & Hq). exists (Nd g' t'). simpl. auto.
  - intros e IH [e'|e' es'] Hu; simpl in *; [|tauto]. destruct (IH _ Hu) as (t' & -> & Hq). exists (One t'). auto.
  - intros e IH es IHs [e'|e' es'] Hu; simpl in *; [tauto|]. destruct Hu as [H1 H2].
    destruct (IH _ H1) as (t' & -> & Hq). destruct (IHs _ H2) as (s' & -> & Hq').
    exists (More t' s'). simpl. auto.
Qed.
Lemma trel_mapM : forall A B C (P : A -> B -> Prop) (Q : C -> B -> Prop) (g : A -> option C),
  (forall x y, P x y -> exists x', g x = Some x' /\ Q x' y) ->
  forall t u, trel P t u -> exists t', tmapM g t = Some t' /\ trel Q t' u.
Proof. intros. eapply trel_mapM_; eauto. Qed.

Lemma trel_impl_ : forall A B (P Q : A -> B -> Prop), 
  (forall (t : tree A) u, (forall x y, tin x t -> P x y -> Q x y) -> trel P t u -> trel Q t u) /\
  (forall (t : args A) u, (forall x y, ain x t -> P x y -> Q x y) -> arel P t u -> arel Q t u).
Proof.
  intros A B P Q. trees.
  - intros x [y|f es] H Hu; simpl in *; auto.
  - intros f es IH [y|g es'] H Hu; simpl in *; auto. destruct Hu; split; auto.
  - intros e IH [e'|e' es'] H Hu; simpl in *; auto.
  - intros e IH es IHs [e'|e' es'] H Hu; simpl in *; auto. destruct Hu; split; auto.
Qed.
Lemma trel_impl : forall A B (P Q : A -> B -> Prop) (t : tree A) u, 
  (forall x y, P x y -> Q x y) -> trel P t u -> trel Q t u.
Proof. intros A B P Q t u H. apply (proj1 (trel_impl_ A B P Q)). auto. Qed.

Lemma trel_map_l_ : forall A A' B (P : A' -> B -> Prop) (g : A -> A'),
  (forall t u, trel P (tmap g t) u <-> trel (fun x y => P (g x) y) t u) /\
  (forall t u, arel P (amap g t) u <-> arel (fun x y => P (g x) y) t u).
Proof.
  intros. trees.
  - intros x [y|f es]; simpl; tauto.
  - intros f es IH [y|g' es']; simpl; [tauto|]. rewrite IH. tauto.
  - intros e IH [e'|e' es']; simpl; [|tauto]. apply IH.
  - intros e IH es IHs [e'|e' es']; simpl; [tauto|]. rewrite IH, IHs. tauto.
Qed.
Lemma trel_map_l : forall A A' B (P : A' -> B -> Prop) (g : A -> A') t u,
  trel P (tmap g t) u <-> trel (fun x y => P (g x) y) t u.
Proof. intros. apply trel_map_l_. Qed.

Lemma trel_map_r_ : forall A B B' (P : A -> B' -> Prop) (g : B -> B'),
  (forall (t : tree A) u, trel P t (tmap g u) <-> trel (fun x y => P x (g y)) t u) /\
  (forall (t : args A) u, arel P t (amap g u) <-> arel (fun x y => P x (g y)) t u).
Proof.
  intros. trees.
  - intros x [y|f es]; simpl; tauto.
  - intros f es IH [y|g' es']; simpl; [tauto|]. rewrite IH. tauto.
  - intros e IH [e'|e' es']; simpl; [|tauto]. apply IH.
  - intros e IH es IHs [e'|e' es']; simpl; [tauto|]. rewrite IH, IHs. tauto.
Qed.
Lemma trel_map_r : forall A B B' (P : A -> B' -> Prop) (g : B -> B') t u,
  trel P t (tmap g u) <-> trel (fun x y => P x (g y)) t u.
Proof. intros. apply trel_map_r_. Qed.

Lemma trel_sym_ : forall A B (P : A -> B -> Prop),
  (forall t u, trel P t u -> trel (fun y x => P x y) u t) /\
  (forall t u, arel P t u -> arel (fun y x => P x y) u t).
Proof.
  intros. trees.
  - intros x [y|f es]; simpl; auto.
  - intros f es IH [y|g' es']; simpl; [tauto|]. intros [-> H]; auto.
  - intros e IH [e'|e' es']; simpl; auto.
  - intros e IH es IHs [e'|e' es']; simpl; auto. intros [? ?]; auto.
Qed.
Lemma trel_sym : forall A B (P : A -> B -> Prop) t u, trel P t u -> trel (fun y x => P x y) u t.
Proof. intros. apply trel_sym_. auto. Qed.

Lemma trel_refl_ : forall A (P : A -> A -> Prop),
  (forall t, (forall x, tin x t -> P x x) -> trel P t t) /\
  (forall t, (forall x, ain x t -> P x x) -> arel P t t).
Proof. intros. trees; intros; auto. Qed.
Lemma trel_refl : forall A (P : A -> A -> Prop) t, (forall x, tin x t -> P x x) -> trel P t t.
Proof. intros. apply trel_refl_. auto. Qed.

Lemma trel_trans_ : forall A B C (P : A -> B -> Prop) (Q : B -> C -> Prop),
  (forall t u v, trel P t u -> trel Q u v -> trel (fun x z => exists y, P x y /\ Q y z) t v) /\
  (forall t u v, arel P t u -> arel Q u v -> arel (fun x z => exists y, P x y /\ Q y z) t v).
Proof.
  intros. trees.
  - intros x [y|f es] [z|f' es']; simpl; try tauto. eauto.
  - intros f es IH [y|g es'] [z|g' es'']; simpl; try tauto. intros [-> H] [-> H']. split; eauto.
  - intros e IH [e'|e' es'] [e''|e'' es'']; simpl; try tauto. eauto.
  - intros e IH es IHs [e'|e' es'] [e''|e'' es'']; simpl; try tauto. intros [? ?] [? ?]. split; eauto.
Qed.
Lemma trel_trans : forall A B C (P : A -> B -> Prop) (Q : B -> C -> Prop) t u v,
  trel P t u -> trel Q u v -> trel (fun x z => exists y, P x y /\ Q y z) t v.
Proof. intros. eapply trel_trans_; eauto. Qed.

Lemma trel_and_ : forall A B (P Q : A -> B -> Prop),
  (forall t u, trel P t u -> trel Q t u -> trel (fun x y => P x y /\ Q x y) t u) /\
  (forall t u, arel P t u -> arel Q t u -> arel (fun x y => P x y /\ Q x y) t u).
Proof.
  intros. trees.
  - intros x [y|f es]; simpl; auto.
  - intros f es IH [y|g' es']; simpl; [tauto|]. intros [-> H] [_ H']; auto.
  - intros e IH [e'|e' es']; simpl; auto.
  - intros e IH es IHs [e'|e' es']; simpl; auto. intros [? ?] [? ?]; auto.
Qed.
Lemma trel_and : forall A B (P Q : A -> B -> Prop) t u,
  trel P t u -> trel Q t u -> trel (fun x y => P x y /\ Q x y) t u.
Proof. intros. apply trel_and_; auto. Qed.

(** Skolemisation: a third tree of witnesses. *)
Lemma trel_ex_ : forall A B C (P : A -> B -> C -> Prop),
  (forall t u, trel (fun x y => exists z, P x y z) t u ->
     exists v, trel (fun x y => P x (fst y) (snd y)) t v /\ tmap fst v = u) /\
  (forall t u, arel (fun x y => exists z, P x y z) t u ->
     exists v, arel (fun x y => P x (fst y) (snd y)) t v /\ amap fst v = u).
Proof.
  intros. trees.
  - intros x [y|f es]; simpl; [|tauto]. intros [z H]. exists (Lf (y, z)). auto.
  - intros f es IH [y|g es']; simpl; [tauto|]. intros [-> H]. destruct (IH _ H) as (v & H1 & <-).
    exists (Nd g v). simpl. auto.
  - intros e IH [e'|e' es']; simpl; [|tauto]. intros H. destruct (IH _ H) as (v & H1 & <-). exists (One v). auto.
  - intros e IH es IHs [e'|e' es']; simpl; [tauto|]. intros [H H'].
    destruct (IH _ H) as (v & H1 & <-). destruct (IHs _ H') as (v' & H1' & <-). exists (More v v'). simpl. auto.
Qed.
Lemma trel_ex : forall A B C (P : A -> B -> C -> Prop) t u, trel (fun x y => exists z, P x y z) t u ->
     exists v, trel (fun x y => P x (fst y) (snd y)) t v /\ tmap fst v = u.
Proof. intros. apply trel_ex_; auto. Qed.

Lemma trel_tin_ : forall A B (P : A -> B -> Prop),
  (forall t u x, trel P t u -> tin x t -> exists y, tin y u /\ P x y) /\
  (forall t u x, arel P t u -> ain x t -> exists y, ain y u /\ P x y).
Proof.
  intros. trees.
  - intros x [y|f es] z; simpl; [|tauto]. intros H ->. eauto.
  - intros f es IH [y|g es'] x; simpl; [tauto|]. intros [-> H] Hx. eauto.
  - intros e IH [e'|e' es'] x; simpl; [|tauto]. eauto.
  - intros e IH es IHs [e'|e' es'] x; simpl; [tauto|]. intros [H H'] [Hx|Hx].
    + destruct (IH _ _ H Hx) as (y & ? & ?). eauto.
    + destruct (IHs _ _ H' Hx) as (y & ? & ?). eauto.
Qed.
Lemma trel_tin : forall A B (P : A -> B -> Prop) t u x, trel P t u -> tin x t -> exists y, tin y u /\ P x y.
Proof. intros. eapply trel_tin_; eauto. Qed.

Lemma tin_map_ : forall A B (g : A -> B), 
  (forall t y, tin y (tmap g t) <-> exists x, tin x t /\ y = g x) /\
  (forall t y, ain y (amap g t) <-> exists x, ain x t /\ y = g x).
Proof.
  intros. trees.
  - intros x y. split; [intros ->; eauto|intros (? & -> & ->); auto].
  - intros f es IH y. apply IH.
  - intros e IH y. apply IH.
  - intros e IH es IHs y. rewrite IH, IHs. split.
    + intros [(x & ? & ?)|(x & ? & ?)]; eauto.
    + intros (x & [?|?] & ?); eauto.
Qed.
Lemma tin_map : forall A B (g : A -> B) t y, tin y (tmap g t) <-> exists x, tin x t /\ y = g x.
Proof. intros. apply tin_map_. Qed.

Lemma trel_eq_ : forall A, (forall t u : tree A, trel eq t u -> t = u) /\ (forall t u : args A, arel eq t u -> t = u).
Proof.
  intros. trees.
  - intros x [y|f es]; simpl; [|tauto]. congruence.
  - intros f es IH [y|g es']; simpl; [tauto|]. intros [-> H]. f_equal; auto.
  - intros e IH [e'|e' es']; simpl; [|tauto]. intros; f_equal; auto.
  - intros e IH es IHs [e'|e' es']; simpl; [tauto|]. intros [? ?]; f_equal; auto.
Qed.
Lemma trel_eq : forall A (t u : tree A), trel eq t u -> t = u.
Proof. intros. apply trel_eq_; auto. Qed.

Lemma tmap_tmap_ : forall A B C (f : A -> B) (g : B -> C),
  (forall t, tmap g (tmap f t) = tmap (fun x => g (f x)) t) /\
  (forall t, amap g (amap f t) = amap (fun x => g (f x)) t).
Proof. intros. trees; intros; f_equal; auto. Qed.
Lemma tmap_tmap : forall A B C (f : A -> B) (g : B -> C) t, tmap g (tmap f t) = tmap (fun x => g (f x)) t.
Proof. intros. apply tmap_tmap_. Qed.

Lemma tmap_ext_ : forall A B (f g : A -> B),
  (forall t, (forall x, tin x t -> f x = g x) -> tmap f t = tmap g t) /\
  (forall t, (forall x, ain x t -> f x = g x) -> amap f t = amap g t).
Proof. intros. trees; intros; f_equal; auto. Qed.
Lemma tmap_ext : forall A B (f g : A -> B) t, (forall x, tin x t -> f x = g x) -> tmap f t = tmap g t.
Proof. intros. apply tmap_ext_. auto. Qed.

Lemma tmap_trel : forall A B C (f : A -> C) (g : B -> C) t u,
  trel (fun x y => f x = g y) t u -> tmap f t = tmap g u.
Proof. intros. apply trel_eq. apply trel_map_l, trel_map_r. auto. Qed.

Lemma tmapM_map_ : forall A B C (f : A -> B) (g : B -> option C),
  (forall t, tmapM g (tmap f t) = tmapM (fun x => g (f x)) t) /\
  (forall t, amapM g (amap f t) = amapM (fun x => g (f x)) t).
Proof.
  intros. trees; auto.
  - intros f0 es ->. auto.
  - intros e ->. auto.
  - intros e -> es ->. auto.
Qed.
Lemma tmapM_map : forall A B C (f : A -> B) (g : B -> option C) t, tmapM g (tmap f t) = tmapM (fun x => g (f x)) t.
Proof. intros. apply tmapM_map_. Qed.

Lemma tree_inh_ : forall A, (forall t : tree A, exists x, tin x t) /\ (forall t : args A, exists x, ain x t).
Proof. intros. trees; eauto. intros e (x & ?) es _. eauto. Qed.
Lemma tree_inh : forall A (t : tree A), exists x, tin x t.
Proof. intros. apply tree_inh_. Qed.

(** ** Minimum, maximum, sum *)
Open Scope Z_scope.

Lemma tmin_spec_ : 
  (forall t, tin (tmin t) t /\ forall v, tin v t -> tmin t <= v) /\
  (forall t, ain (amin t) t /\ forall v, ain v t -> amin t <= v).
Proof.
  trees; auto.
  - intros v. split; auto. intros w ->. lia.
  - intros e [H1 H2] es [H3 H4]. split.
    + destruct (Z.min_spec (tmin e) (amin es)) as [[_ ->]|[_ ->]]; auto.
    + intros v [H|H]; [apply H2 in H|apply H4 in H]; lia.
Qed.
Lemma tmin_in : forall t, tin (tmin t) t.
Proof. intros. apply tmin_spec_. Qed.
Lemma tmin_le : forall t v, tin v t -> tmin t <= v.
Proof. intros. apply tmin_spec_. auto. Qed.

Lemma tmax_spec_ : 
  (forall t, tin (tmax t) t /\ forall v, tin v t -> v <= tmax t) /\
  (forall t, ain (amax t) t /\ forall v, ain v t -> v <= amax t).
Proof.
  trees; auto.
  - intros v. split; auto. intros w ->. lia.
  - intros e [H1 H2] es [H3 H4]. split.
    + destruct (Z.max_spec (tmax e) (amax es)) as [[_ ->]|[_ ->]]; auto.
    + intros v [H|H]; [apply H2 in H|apply H4 in H]; lia.
Qed.
Lemma tmax_in : forall t, tin (tmax t) t.
Proof. intros. apply tmax_spec_. Qed.
Lemma tmax_le : forall t v, tin v t -> v <= tmax t.
Proof. intros. apply tmax_spec_. auto. Qed.

Lemma tlevel_spec_ : 
  (forall t, tin (tlevel t) t /\ forall v, tin v t -> (v <= tlevel t)%nat) /\
  (forall t, ain (alevel t) t /\ forall v, ain v t -> (v <= alevel t)%nat).
Proof.
  trees; auto.
  - intros v. split; auto. intros w ->. lia.
  - intros e [H1 H2] es [H3 H4]. split.
    + destruct (Nat.max_spec (tlevel e) (alevel es)) as [[_ ->]|[_ ->]]; auto.
    + intros v [H|H]; [apply H2 in H|apply H4 in H]; lia.
Qed.
Lemma tlevel_in : forall t, tin (tlevel t) t.
Proof. intros. apply tlevel_spec_. Qed.
Lemma tlevel_le : forall t v, tin v t -> (v <= tlevel t)%nat.
Proof. intros. apply tlevel_spec_. auto. Qed.

Lemma tsum_le_ : forall A (f g : A -> nat),
  (forall t, (forall x, tin x t -> f x <= g x)%nat ->
     (tsum (tmap f t) <= tsum (tmap g t))%nat /\ 
     ((exists x, tin x t /\ (f x < g x)%nat) -> (tsum (tmap f t) < tsum (tmap g t))%nat)) /\
  (forall t, (forall x, ain x t -> f x <= g x)%nat ->
     (asum (amap f t) <= asum (amap g t))%nat /\ 
     ((exists x, ain x t /\ (f x < g x)%nat) -> (asum (amap f t) < asum (amap g t))%nat)).
Proof.
  intros A f g. trees; auto.
  - intros x H. split; auto. intros (y & -> & ?). auto.
  - intros e IH es IHs H. destruct IH as [H1 H2]; auto. destruct IHs as [H3 H4]; auto. split; [lia|].
    intros (x & [Hx|Hx] & Hl).
    + assert (tsum (tmap f e) < tsum (tmap g e))%nat by eauto. lia.
    + assert (asum (amap f es) < asum (amap g es))%nat by eauto. lia.
Qed.
Lemma tsum_le : forall A (f g : A -> nat) t, (forall x, tin x t -> f x <= g x)%nat -> 
  (tsum (tmap f t) <= tsum (tmap g t))%nat.
Proof. intros. apply tsum_le_. auto. Qed.
Lemma tsum_lt : forall A (f g : A -> nat) t, (forall x, tin x t -> f x <= g x)%nat -> 
  (exists x, tin x t /\ (f x < g x)%nat) -> (tsum (tmap f t) < tsum (tmap g t))%nat.
Proof. intros. apply tsum_le_; auto. Qed.

(** ** Functors *)

Lemma and_all_spec : forall bs, and_all bs = true <-> Forall (fun b => b = true) bs.
Proof.
  induction bs as [|a [|b bs] IH].
  - simpl. split; auto.
  - simpl. split; [auto|intros H; inv H; auto].
  - change (and_all (a :: b :: bs)) with (a && and_all (b :: bs)). rewrite andb_true_iff, IH. split.
    + intros [? ?]; auto.
    + intros H; inv H; auto.
Qed.
Lemma or_all_spec : forall bs, or_all bs = true <-> Exists (fun b => b = true) bs.
Proof.
  induction bs as [|a [|b bs] IH].
  - simpl. split; [discriminate|]. intros H; inv H.
  - simpl. split; [auto|intros H; inv H; auto]. inv H1.
  - change (or_all (a :: b :: bs)) with (a || or_all (b :: bs)). rewrite orb_true_iff, IH. split.
    + intros [?|?]; auto.
    + intros H; inv H; auto.
Qed.
Lemma not_all_spec : forall bs, not_all bs = true <-> ~ Exists (fun b => b = true) bs.
Proof.
  induction bs as [|a [|b bs] IH].
  - simpl. split; auto. intros _ H; inv H.
  - simpl. rewrite negb_true_iff. split; [intros -> H; inv H; [discriminate|inv H1]|].
    intros H. destruct a; auto. exfalso. auto.
  - change (not_all (a :: b :: bs)) with (negb a && not_all (b :: bs)). rewrite andb_true_iff, IH, negb_true_iff. split.
    + intros [-> H1] H; inv H; [discriminate|auto].
    + intros H. split; [|intros K; auto]. destruct a; auto. exfalso. auto.
Qed.

Lemma teval0_ :
  (forall t u, trel (fun b (Q : Prop) => b = true <-> Q) t u -> (teval 0 t = true <-> tsem u)) /\
  (forall t u, arel (fun b (Q : Prop) => b = true <-> Q) t u ->
     (Forall (fun b => b = true) (aeval 0 t) <-> aall u) /\
     (Exists (fun b => b = true) (aeval 0 t) <-> aany u) /\
     (fn_eval Difference 0 (aeval 0 t) = true <-> match u with One e => tsem e | More e es => tsem e /\ ~ aany es end)).
Proof.
  trees.
  - intros b [Q|f es]; simpl; [|tauto]. auto.
  - intros f es IH [Q|g es']; simpl; [tauto|]. intros [-> H]. destruct (IH _ H) as (H1 & H2 & H3).
    destruct g; simpl in *.
    + rewrite and_all_spec. auto.
    + rewrite or_all_spec. auto.
    + destruct (aeval 0 es); auto.
  - intros e IH [e'|e' es']; simpl; [|tauto]. intros H. apply IH in H. spl.
    + rewrite <- H. split; [intros K; inv K; auto|auto].
    + rewrite <- H. split; [intros K; inv K; auto|auto]. inv H1.
    + rewrite andb_true_r. auto.
  - intros e IH es IHs [e'|e' es']; simpl; [tauto|]. intros [H H'].
    apply IH in H. destruct (IHs _ H') as (H1 & H2 & _). spl.
    + rewrite <- H, <- H1. split; [intros K; inv K; auto|intros []; auto].
    + rewrite <- H, <- H2. split; [intros K; inv K; auto|intros []; auto].
    + rewrite andb_true_iff, not_all_spec, H, H2. tauto.
Qed.
Lemma teval0 : forall t u, trel (fun b (Q : Prop) => b = true <-> Q) t u -> (teval 0 t = true <-> tsem u).
Proof. apply teval0_. Qed.

Lemma teval_mono_ : forall d,
  (forall t u, trel (fun b b' => b = true -> b' = true) t u -> teval 0 t = true -> teval (S d) u = true) /\
  (forall t u, arel (fun b b' => b = true -> b' = true) t u ->
     Forall2 (fun b b' => b = true -> b' = true) (aeval 0 t) (aeval (S d) u)).
Proof.
  intros d. trees.
  - intros b [b'|f es]; simpl; tauto.
  - intros f es IH [b'|g es']; simpl; [tauto|]. intros [-> H] E. apply IH in H.
    clear IH. revert H E. generalize (aeval 0 es) (aeval (S d) es'). intros bs bs' H E.
    destruct g; simpl in *.
    + rewrite and_all_spec in *. induction H as [|b b' l l' Hb Hl IHl]; [auto|]. inv E. constructor; auto.
    + rewrite or_all_spec in *. induction H as [|b b' l l' Hb Hl IHl]; [auto|].
      inv E; [apply Exists_cons_hd|apply Exists_cons_tl]; auto.
    + destruct H as [|b b' l l' Hb Hl]; [discriminate|]. apply andb_true_iff in E as [E _]. rewrite Hb; auto.
  - intros e IH [e'|e' es']; simpl; [|tauto]. auto.
  - intros e IH es IHs [e'|e' es']; simpl; [tauto|]. intros [? ?]; auto.
Qed.
Lemma teval_mono : forall d t u, trel (fun b b' => b = true -> b' = true) t u ->
  teval 0 t = true -> teval (S d) u = true.
Proof. intros. eapply teval_mono_; eauto. Qed.

Lemma teval_false_ : forall d,
  (forall t, (forall b, tin b t -> b = false) -> teval d t = false) /\
  (forall t, (forall b, ain b t -> b = false) -> Forall (fun b => b = false) (aeval d t) /\ aeval d t <> []).
Proof.
  intros d. trees; auto.
  - intros f es IH H. destruct (IH H) as [Hf Hn].
    clear IH H. revert Hf Hn. generalize (aeval d es). intros bs Hf Hn.
    assert (E : or_all bs = false).
    { destruct (or_all bs) eqn:E; auto. apply or_all_spec in E. exfalso.
      clear Hn. induction E; inv Hf; try congruence; auto. }
    destruct f; simpl; auto.
    + destruct (and_all bs) eqn:E'; auto. apply and_all_spec in E'.
      destruct Hf; [tauto|inv E'; congruence].
    + destruct Hf as [|b l Hb Hf]; [tauto|]. subst b. destruct l; simpl in *; destruct (Nat.ltb 0 d); auto.
  - intros e IH H. split; [auto|discriminate].
  - intros e IH es IHs H. split; [|discriminate]. constructor; auto. apply IHs. auto.
Qed.
Lemma teval_false : forall d t, (forall b, tin b t -> b = false) -> teval d t = false.
Proof. intros. apply teval_false_. auto. Qed.

Lemma tempty_sem_ :
  (forall t u, trel (fun b (Q : Prop) => b = true -> ~ Q) t u -> tempty t = true -> ~ tsem u) /\
  (forall t u, arel (fun b (Q : Prop) => b = true -> ~ Q) t u ->
    (Exists (fun b => b = true) (aempty t) -> ~ aall u) /\
    (Forall (fun b => b = true) (aempty t) -> ~ aany u) /\
    (fn_is_empty Difference (aempty t) = true -> match u with One e => ~ tsem e | More e es => ~ tsem e end)).
Proof.
  trees.
  - intros b [Q|f es]; simpl; auto.
  - intros f es IH [Q|g es']; simpl; [tauto|]. intros [-> H] E. destruct (IH _ H) as (H1 & H2 & H3).
    destruct g; simpl in *.
    + rewrite or_all_spec in E. auto.
    + rewrite and_all_spec in E. auto.
    + specialize (H3 E). destruct es'; tauto.
  - intros e IH [e'|e' es']; simpl; [|tauto]. intros H. spl; auto.
    + intros K; inv K; [eauto|]. inv H1.
    + intros K; inv K; eauto.
  - intros e IH es IHs [e'|e' es']; simpl; [tauto|]. intros [H H'].
    destruct (IHs _ H') as (H1 & H2 & _). spl.
    + intros K [? ?]; inv K; [eapply IH; eauto|tauto].
    + intros K [?|?]; inv K; [eapply IH; eauto|tauto].
    + eauto.
Qed.
Lemma tempty_sem : forall t u, trel (fun b (Q : Prop) => b = true -> ~ Q) t u -> tempty t = true -> ~ tsem u.
Proof. apply tempty_sem_. Qed.

Lemma tsem_iff_ :
  (forall t u, trel iff t u -> (tsem t <-> tsem u)) /\
  (forall t u, arel iff t u -> (aall t <-> aall u) /\ (aany t <-> aany u) /\ (tsem (Nd Difference t) <-> tsem (Nd Difference u))).
Proof.
  trees.
  - intros P [Q|f es]; simpl; tauto.
  - intros f es IH [Q|g es']; simpl; [tauto|]. intros [-> H]. destruct (IH _ H) as (H1 & H2 & H3). destruct g; auto.
  - intros e IH [e'|e' es']; simpl; [|tauto]. intros H. apply IH in H. tauto.
  - intros e IH es IHs [e'|e' es']; simpl; [tauto|]. intros [H H']. apply IH in H. apply IHs in H'. tauto.
Qed.
Lemma tsem_iff : forall t u, trel iff t u -> (tsem t <-> tsem u).
Proof. apply tsem_iff_. Qed.
