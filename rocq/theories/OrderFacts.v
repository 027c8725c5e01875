(** Comparison functions: lexicographic comparison, insertion sort. *)

From Coq Require Import ZArith List Lia Bool Permutation Sorted.
From Verif Require Import Py.
Import ListNotations.
Open Scope Z_scope.

(** [c] decides a total order compatible with equality. *)
Record cmp_ok {A} (c : A -> A -> comparison) : Prop := {
  cmp_eq : forall a b, c a b = Eq <-> a = b;
  cmp_opp : forall a b, c b a = CompOpp (c a b);
  cmp_trans : forall a b d, c a b = Lt -> c b d = Lt -> c a d = Lt
}.

Lemma cmp_refl {A} (c : A -> A -> comparison) : cmp_ok c -> forall a, c a a = Eq.
Proof. intros H a. apply (cmp_eq c H); reflexivity. Qed.

Lemma zcompare_ok : cmp_ok Z.compare.
Proof.
  constructor.
  - intros. apply Z.compare_eq_iff.
  - intros. rewrite Z.compare_antisym. reflexivity.
  - intros a b d. rewrite !Z.compare_lt_iff. lia.
Qed.

Lemma lcmp_ok {A} (c : A -> A -> comparison) : cmp_ok c -> cmp_ok (lcmp c).
Proof.
  intros H. constructor.
  - induction a as [|x a IH]; destruct b as [|y b]; simpl; try (split; congruence).
    destruct (c x y) eqn:E.
    + apply (cmp_eq c H) in E; subst y. rewrite IH. split; congruence.
    + split; [congruence|]. intros E'. inversion E'; subst.
      rewrite (cmp_refl c H) in E. congruence.
    + split; [congruence|]. intros E'. inversion E'; subst.
      rewrite (cmp_refl c H) in E. congruence.
  - induction a as [|x a IH]; destruct b as [|y b]; simpl; auto.
    rewrite (cmp_opp c H x y). destruct (c x y); simpl; auto.
  - induction a as [|x a IH]; destruct b as [|y b]; destruct d as [|z d]; simpl; try congruence.
    destruct (c x y) eqn:E1; destruct (c y z) eqn:E2; try congruence.
    + apply (cmp_eq c H) in E1; subst y. rewrite E2. apply IH.
    + apply (cmp_eq c H) in E1; subst y. rewrite E2. auto.
    + apply (cmp_eq c H) in E2; subst z. rewrite E1. auto.
    + rewrite (cmp_trans c H _ _ _ E1 E2). auto.
Qed.

Lemma cmp_map_ok {A B} (f : A -> B) (c : B -> B -> comparison) :
  cmp_ok c -> (forall a b, f a = f b -> a = b) -> cmp_ok (fun a b => c (f a) (f b)).
Proof.
  intros H inj. constructor.
  - intros. rewrite (cmp_eq c H). split; [apply inj | congruence].
  - intros. apply (cmp_opp c H).
  - intros a b d. apply (cmp_trans c H).
Qed.

Definition cle {A} (c : A -> A -> comparison) (a b : A) : Prop := c a b <> Gt.

Lemma cle_trans {A} (c : A -> A -> comparison) :
  cmp_ok c -> forall a b d, cle c a b -> cle c b d -> cle c a d.
Proof.
  intros H a b d. unfold cle. intros H1 H2.
  destruct (c a b) eqn:E1; try congruence.
  - apply (cmp_eq c H) in E1; subst. auto.
  - destruct (c b d) eqn:E2; try congruence.
    + apply (cmp_eq c H) in E2; subst. congruence.
    + rewrite (cmp_trans c H _ _ _ E1 E2). congruence.
Qed.

Lemma cle_antisym {A} (c : A -> A -> comparison) :
  cmp_ok c -> forall a b, cle c a b -> cle c b a -> a = b.
Proof.
  intros H a b. unfold cle. rewrite (cmp_opp c H a b).
  destruct (c a b) eqn:E; simpl; try congruence. intros. apply (cmp_eq c H); auto.
Qed.

Lemma ins_perm {A} (c : A -> A -> comparison) x l : Permutation (ins c x l) (x :: l).
Proof.
  induction l as [|y t IH]; simpl; auto.
  destruct (c x y); auto.
  apply perm_trans with (y :: x :: t); [constructor; auto | constructor].
Qed.

Lemma isort_perm {A} (c : A -> A -> comparison) l : Permutation (isort c l) l.
Proof.
  induction l as [|x t IH]; simpl; auto.
  apply perm_trans with (x :: isort c t); [apply ins_perm | constructor; auto].
Qed.

Lemma ins_sorted {A} (c : A -> A -> comparison) :
  cmp_ok c -> forall x l, StronglySorted (cle c) l -> StronglySorted (cle c) (ins c x l).
Proof.
  intros H x l. induction l as [|y t IH]; simpl; intros HS.
  - repeat constructor.
  - inversion HS; subst. destruct (c x y) eqn:E.
    + constructor; auto. constructor; [unfold cle; congruence|].
      apply (cmp_eq c H) in E; subst. auto.
    + constructor; auto. constructor; [unfold cle; congruence|].
      eapply Forall_impl; [|eassumption]. intros z Hz.
      eapply (cle_trans c H); [|eassumption]. unfold cle; congruence.
    + constructor; auto.
      rewrite Forall_forall in *. intros z Hz.
      apply (Permutation_in _ (ins_perm c x t)) in Hz. destruct Hz as [<-|Hz]; auto.
      unfold cle. rewrite (cmp_opp c H x y), E. simpl; congruence.
Qed.

Lemma isort_sorted {A} (c : A -> A -> comparison) :
  cmp_ok c -> forall l, StronglySorted (cle c) (isort c l).
Proof.
  intros H l. induction l; simpl; [constructor | apply ins_sorted; auto].
Qed.

Lemma sorted_unique {A} (c : A -> A -> comparison) :
  cmp_ok c -> forall l l', StronglySorted (cle c) l -> StronglySorted (cle c) l' ->
  Permutation l l' -> l = l'.
Proof.
  intros H l. induction l as [|x t IH]; intros l' HS HS' HP.
  - apply Permutation_nil in HP. auto.
  - destruct l' as [|y t'].
    { symmetry in HP. apply Permutation_nil in HP. congruence. }
    inversion HS; inversion HS'; subst.
    rewrite Forall_forall in *.
    assert (x = y).
    { assert (Hx : In x (y :: t')) by (eapply Permutation_in; [eassumption | simpl; auto]).
      assert (Hy : In y (x :: t)).
      { eapply Permutation_in; [apply Permutation_sym; eassumption | simpl; auto]. }
      destruct Hx as [->|Hx]; auto. destruct Hy as [->|Hy]; auto.
      apply (cle_antisym c H); auto. }
    subst y. f_equal. apply IH; auto. eapply Permutation_cons_inv; eauto.
Qed.

Lemma isort_unique {A} (c : A -> A -> comparison) :
  cmp_ok c -> forall l l', isort c l = isort c l' <-> Permutation l l'.
Proof.
  intros H l l'. split.
  - intros E. apply perm_trans with (isort c l); [apply Permutation_sym, isort_perm|].
    rewrite E. apply isort_perm.
  - intros HP. apply (sorted_unique c H); try apply isort_sorted; auto.
    eapply perm_trans; [apply isort_perm|]. eapply perm_trans; [eassumption|].
    apply Permutation_sym, isort_perm.
Qed.

Lemma isort_id {A} (c : A -> A -> comparison) :
  cmp_ok c -> forall l, StronglySorted (cle c) l -> isort c l = l.
Proof.
  intros H l HS. apply (sorted_unique c H); auto using isort_sorted, isort_perm.
Qed.

Lemma zl_cmp_ok : cmp_ok zl_cmp.
Proof. apply lcmp_ok, zcompare_ok. Qed.

Lemma zlist_eqb_eq a b : zlist_eqb a b = true <-> a = b.
Proof.
  revert b. induction a as [|x a IH]; destruct b as [|y b]; simpl; try (split; congruence).
  rewrite andb_true_iff, Z.eqb_eq, IH. split; [intros []; congruence | intros E; inversion E; auto].
Qed.

Lemma zlist_eqb_neq a b : zlist_eqb a b = false <-> a <> b.
Proof.
  rewrite <- not_true_iff_false, zlist_eqb_eq. tauto.
Qed.

Lemma existsb_zlist x l : existsb (zlist_eqb x) l = true <-> In x l.
Proof.
  rewrite existsb_exists. split.
  - intros (y & Hy & E). apply zlist_eqb_eq in E. subst; auto.
  - intros Hx. exists x. split; auto. apply zlist_eqb_eq; auto.
Qed.

Lemma dedup_in x l seen : In x (dedup l seen) <-> In x l /\ ~ In x seen.
Proof.
  revert seen. induction l as [|y t IH]; intros seen; simpl; [tauto|].
  destruct (existsb (zlist_eqb y) seen) eqn:E.
  - apply existsb_zlist in E. rewrite IH. split; [tauto|].
    intros [[->|H] H']; [contradiction | auto].
  - assert (~ In y seen).
    { intros Hy. apply existsb_zlist in Hy. congruence. }
    simpl. rewrite IH. simpl. split.
    + intros [->|[H1 H2]]; auto.
    + intros [[->|H1] H2]; auto.
      destruct (list_eq_dec Z.eq_dec y x); auto.
      right. split; auto. intros [?|?]; auto.
Qed.

Lemma dedup_nodup l seen : NoDup (dedup l seen).
Proof.
  revert seen. induction l as [|y t IH]; intros seen; simpl; [constructor|].
  destruct (existsb (zlist_eqb y) seen); auto.
  constructor; auto. rewrite dedup_in. simpl. tauto.
Qed.

Lemma zmem_in v l : zmem v l = true <-> In v l.
Proof.
  unfold zmem. rewrite existsb_exists. split.
  - intros (y & Hy & E). apply Z.eqb_eq in E. subst; auto.
  - intros Hx. exists v. split; auto. apply Z.eqb_refl.
Qed.

Lemma zmem_notin v l : zmem v l = false <-> ~ In v l.
Proof. rewrite <- not_true_iff_false, zmem_in. tauto. Qed.
