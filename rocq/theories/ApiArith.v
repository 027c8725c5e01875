(** Operators on classes, linear combinations and expressions. *)

From Coq Require Import ZArith List Lia Bool QArith Qcanon.
From Verif Require Import Py ModelPoly ModelExpr ModelArith PolyFacts ExprFacts Spec SpecMisc SpecArith.
Import ListNotations.
Open Scope Z_scope.

Lemma sym_ok s e : sym s = Ok e -> e = TSym (VS s) /\ schur_nonneg s = true.
Proof. unfold sym. destruct (schur_nonneg s); intros H; inversion H; auto. Qed.
Lemma sym_nonneg s : schur_nonneg s = true -> sym s = Ok (TSym (VS s)).
Proof. unfold sym. intros ->. auto. Qed.

Lemma padd_comm_e a b : peq (padd a b) (padd b a).
Proof. intros m. rewrite !coef_padd. ring. Qed.
Lemma expand_add a b : peq (expand (t_add a b)) (padd (expand a) (expand b)).
Proof.
  intros m. cbn [t_add expand map psum fold_right]. rewrite !coef_padd. unfold pzero. cbn. ring.
Qed.
Lemma expand_mul a b : peq (expand (t_mul a b)) (pmul (expand a) (expand b)).
Proof.
  cbn [t_mul expand map pprod fold_right]. rewrite (pmul_comm (expand b) pone), pmul_1_l. reflexivity.
Qed.
Lemma expand_sub a b : peq (expand (t_sub a b)) (psub (expand a) (expand b)).
Proof.
  assert (E : peq (expand (t_sub a b)) (padd (expand a) (padd (pscale (- (1))%Qc (expand b)) pzero))).
  { cbn [t_sub expand map psum pprod fold_right]. rewrite (pmul_comm (expand b) pone), pmul_1_l, <- pscale_pmul. reflexivity. }
  rewrite E. intros m. rewrite !coef_padd, coef_psub, coef_pscale. unfold pzero. cbn. ring.
Qed.

Lemma t_pow_number a n : t_pow a (number n) = Ok (TPow a n).
Proof.
  unfold t_pow, number. destruct n as [|n].
  - reflexivity.
  - assert (E : this (Q2Qc (inject_Z (Z.of_nat (S n)))) = inject_Z (Z.of_nat (S n))).
    { apply Qred_identity. change (Z.gcd (Z.of_nat (S n)) 1 = 1). apply Z.gcd_1_r. }
    rewrite E. cbn [inject_Z Qnum Qden]. replace (0 <=? Z.of_nat (S n)) with true by (symmetry; apply Z.leb_le; lia).
    cbn [Z.eqb Pos.eqb andb]. rewrite Nat2Z.id. reflexivity.
Qed.

Ltac crush :=
  repeat match goal with
  | H : Ok _ = Ok _ |- _ => inversion H; subst; clear H
  | H : Err _ = Ok _ |- _ => discriminate H
  | H : bind ?x _ = Ok _ |- _ => destruct x eqn:?; cbn [bind] in H
  | H : (if ?b then _ else _) = Ok _ |- _ => destruct b eqn:?
  | H : sym _ = Ok _ |- _ => apply sym_ok in H; destruct H as [-> ?]
  end.

Theorem c55_plus tr a b r : binary tr Plus a b = Ok r -> peq (meaning r) (padd (meaning a) (meaning b)).
Proof.
  destruct a as [e|s|e], b as [e'|s'|e'];
    cbn [binary left_method right_method lc_add lc_sub lc_mul schur_add schur_mul]; unfold lc, ex; intros H; crush;
    cbn [meaning]; rewrite ?expand_add; cbn [expand]; try reflexivity; apply padd_comm_e.
Qed.
Theorem c55_times tr a b r : binary tr Times a b = Ok r -> peq (meaning r) (pmul (meaning a) (meaning b)).
Proof.
  destruct a as [e|s|e], b as [e'|s'|e'];
    cbn [binary left_method right_method lc_add lc_sub lc_mul schur_add schur_mul]; unfold lc, ex; intros H; crush;
    cbn [meaning]; rewrite ?expand_mul; cbn [expand]; try reflexivity; apply pmul_comm.
Qed.
Theorem c55_minus tr a b r : binary tr Minus a b = Ok r -> peq (meaning r) (psub (meaning a) (meaning b)).
Proof.
  destruct a as [e|s|e], b as [e'|s'|e'];
    cbn [binary left_method right_method lc_add lc_sub lc_rsub lc_mul schur_add schur_mul]; unfold lc, ex; intros H; crush;
    cbn [meaning]; rewrite ?expand_sub; cbn [expand]; reflexivity.
Qed.
Theorem c55_power tr a b n r : is_number n b -> binary tr Power a b = Ok r ->
  peq (meaning r) (ppow (meaning a) n).
Proof.
  intros [-> | ->]; destruct a as [e|s|e];
    cbn [binary left_method right_method lc_pow schur_pow]; rewrite ?t_pow_number; unfold lc, ex; intros H; crush;
    rewrite ?t_pow_number in *; cbn [bind] in *; crush;
    cbn [meaning expand]; reflexivity.
Qed.

Ltac yes := split; [intros _|intros _; eexists; reflexivity].
Ltac no := split; [intros [r Hr]; discriminate Hr|intros HH; exfalso].
Theorem c55_plus_returns tr a b : proper a -> proper b ->
  ((exists r, binary tr Plus a b = Ok r) <->
   ~ (is_lc a /\ is_class b) /\ (is_class a -> forall e, b = OLc e -> tr e = true)).
Proof.
  intros Pa Pb. unfold is_lc, is_class.
  destruct a as [e|s|e], b as [e'|s'|e'];
    cbn [binary left_method right_method lc_add lc_sub lc_mul schur_add schur_mul]; unfold lc, ex;
    rewrite ?(sym_nonneg _ (Pa _ eq_refl)), ?(sym_nonneg _ (Pb _ eq_refl)); cbn [bind].
  - yes. split; [intros [_ [x Hx]]; discriminate|intros [x Hx]; discriminate].
  - no. apply (proj1 HH). eauto.
  - yes. split; [intros [_ [x Hx]]; discriminate|intros [x Hx]; discriminate].
  - split.
    + intros [r Hr]. destruct (tr e') eqn:T; [|discriminate]. split; [intros [[x Hx] _]; discriminate|].
      intros _ e0 E. inversion E; subst; auto.
    + intros [_ HH]. rewrite (HH (ex_intro _ s eq_refl) e' eq_refl). cbn. eauto.
  - yes. split; [intros [[x Hx] _]; discriminate|intros _ x Hx; discriminate].
  - yes. split; [intros [[x Hx] _]; discriminate|intros _ x Hx; discriminate].
  - yes. split; [intros [[x Hx] _]; discriminate|intros [x Hx]; discriminate].
  - yes. split; [intros [[x Hx] _]; discriminate|intros [x Hx]; discriminate].
  - yes. split; [intros [[x Hx] _]; discriminate|intros [x Hx]; discriminate].
Qed.
Theorem c55_times_returns tr a b : proper a -> proper b ->
  ((exists r, binary tr Times a b = Ok r) <->
   ~ (is_lc a /\ is_class b) /\ (is_class a -> forall e, b = OLc e -> tr e = true)).
Proof.
  intros Pa Pb. unfold is_lc, is_class.
  destruct a as [e|s|e], b as [e'|s'|e'];
    cbn [binary left_method right_method lc_add lc_sub lc_mul schur_add schur_mul]; unfold lc, ex;
    rewrite ?(sym_nonneg _ (Pa _ eq_refl)), ?(sym_nonneg _ (Pb _ eq_refl)); cbn [bind].
  - yes. split; [intros [_ [x Hx]]; discriminate|intros [x Hx]; discriminate].
  - no. apply (proj1 HH). eauto.
  - yes. split; [intros [_ [x Hx]]; discriminate|intros [x Hx]; discriminate].
  - split.
    + intros [r Hr]. destruct (tr e') eqn:T; [|discriminate]. split; [intros [[x Hx] _]; discriminate|].
      intros _ e0 E. inversion E; subst; auto.
    + intros [_ HH]. rewrite (HH (ex_intro _ s eq_refl) e' eq_refl). cbn. eauto.
  - yes. split; [intros [[x Hx] _]; discriminate|intros _ x Hx; discriminate].
  - yes. split; [intros [[x Hx] _]; discriminate|intros _ x Hx; discriminate].
  - yes. split; [intros [[x Hx] _]; discriminate|intros [x Hx]; discriminate].
  - yes. split; [intros [[x Hx] _]; discriminate|intros [x Hx]; discriminate].
  - yes. split; [intros [[x Hx] _]; discriminate|intros [x Hx]; discriminate].
Qed.
Theorem c55_minus_returns tr a b :
  (exists r, binary tr Minus a b = Ok r) <-> ~ is_class a /\ ~ is_class b.
Proof.
  unfold is_class.
  destruct a as [e|s|e], b as [e'|s'|e'];
    cbn [binary left_method right_method lc_sub lc_rsub]; unfold lc, ex;
    (yes; split; intros [x Hx]; discriminate) || (no; destruct HH as [H1 H2]; (apply H1; eauto; fail) || (apply H2; eauto)).
Qed.
Theorem c55_power_returns tr a b n : proper a -> is_number n b ->
  ((exists r, binary tr Power a b = Ok r) <->
   ~ (is_expr a /\ is_lc b) /\ (is_class a -> forall e, b = OLc e -> tr e = true)).
Proof.
  intros Pa Hn. unfold is_lc, is_class, is_expr.
  destruct a as [e|s|e]; destruct Hn as [-> | ->];
    cbn [binary left_method right_method lc_pow schur_pow]; unfold lc, ex;
    rewrite ?(sym_nonneg _ (Pa _ eq_refl)); cbn [bind]; rewrite ?t_pow_number; cbn [bind].
  - yes. split; [intros [[x Hx] _]; discriminate|intros [x Hx]; discriminate].
  - yes. split; [intros [[x Hx] _]; discriminate|intros [x Hx]; discriminate].
  - yes. split; [intros [[x Hx] _]; discriminate|intros _ x Hx; discriminate].
  - split.
    + intros [r Hr]. destruct (tr (number n)) eqn:T; [|discriminate]. split; [intros [[x Hx] _]; discriminate|].
      intros _ e0 E. inversion E; subst; auto.
    + intros [_ HH]. rewrite (HH (ex_intro _ s eq_refl) _ eq_refl). cbn. eauto.
  - yes. split; [intros [_ [x Hx]]; discriminate|intros [x Hx]; discriminate].
  - no. apply (proj1 HH). eauto.
Qed.

Lemma lc_iff a : is_lc a <-> match a with OLc _ => True | _ => False end.
Proof. unfold is_lc. destruct a; split; intros H; try (destruct H; discriminate); try tauto; eauto. Qed.
Lemma class_iff a : is_class a <-> match a with OSchur _ => True | _ => False end.
Proof. unfold is_class. destruct a; split; intros H; try (destruct H; discriminate); try tauto; eauto. Qed.
Theorem c55_kind tr o a b r : binary tr o a b = Ok r ->
  (is_lc r <-> ~ is_class a /\ ~ is_class b /\
     match o with
     | Plus | Times => is_lc a \/ is_lc b
     | Minus => is_lc a /\ is_lc b
     | Power => is_lc a
     end).
Proof.
  destruct o; rewrite !lc_iff, !class_iff;
  destruct a as [e|s|e], b as [e'|s'|e'];
    cbn [binary left_method right_method lc_add lc_sub lc_rsub lc_mul lc_pow schur_add schur_mul schur_pow]; unfold lc, ex; intros H; crush;
    tauto.
Qed.
Theorem c55_result_class tr o a b r : binary tr o a b = Ok r -> ~ is_class r.
Proof.
  rewrite class_iff.
  destruct o, a as [e|s|e], b as [e'|s'|e'];
    cbn [binary left_method right_method lc_add lc_sub lc_rsub lc_mul lc_pow schur_add schur_mul schur_pow]; unfold lc, ex; intros H; crush;
    tauto.
Qed.
