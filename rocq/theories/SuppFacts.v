(** Polynomials whose monomials satisfy a predicate; integral polynomials. *)

From Coq Require Import ZArith List Lia Bool Permutation Sorted QArith Qcanon Setoid Morphisms Ring.
From Verif Require Import Py OrderFacts ModelPart ModelQcalc ModelPoly PolyFacts.
Import ListNotations.
Open Scope Z_scope.

(** Every monomial with a nonzero coefficient satisfies [R]. *)
Definition supp (R : mono -> Prop) (p : poly) : Prop := forall m, coef p m <> 0%Qc -> R m.
Definition rawsupp (R : mono -> Prop) (p : poly) : Prop := forall m c, In (m, c) p -> R m.
Definition minv (R : mono -> Prop) : Prop := forall a b, Permutation a b -> R a -> R b.

Lemma supp_peq R p r : peq p r -> supp R p -> supp R r.
Proof. intros H Hp m Hm. apply Hp. rewrite H. auto. Qed.

Lemma supp_impl (R R' : mono -> Prop) p : (forall m, R m -> R' m) -> supp R p -> supp R' p.
Proof. intros H Hp m Hm. auto. Qed.

Lemma supp_rawnorm R p : supp R p -> rawsupp R (pnorm p).
Proof.
  intros H m c Hin. apply H. rewrite <- coef_pnorm, (nf_coef_in _ m c (pnorm_nf p) Hin).
  destruct (pnorm_nf p) as [_ HF]. rewrite Forall_forall in HF. apply (HF _ Hin).
Qed.

Lemma rawsupp_supp R p : minv R -> rawsupp R p -> supp R p.
Proof.
  intros HR H m Hm. induction p as [|[a c] t IH]; simpl in Hm.
  - congruence.
  - destruct (mono_eqb a m) eqn:E.
    + apply mono_eqb_perm in E. apply (HR _ _ E). apply (H a c). simpl; auto.
    + apply IH; auto. intros a' c' Hin. apply (H a' c'). simpl; auto.
Qed.

Lemma supp_norm_iff R p : minv R -> (supp R p <-> rawsupp R (pnorm p)).
Proof.
  intros HR. split; [apply supp_rawnorm|]. intros H.
  apply (supp_peq R (pnorm p)); [apply pnorm_peq|]. apply rawsupp_supp; auto.
Qed.

Lemma rawsupp_app R p r : rawsupp R p -> rawsupp R r -> rawsupp R (p ++ r).
Proof. intros H1 H2 m c Hin. apply in_app_or in Hin. destruct Hin; eauto. Qed.

Lemma supp_zero R : supp R pzero.
Proof. intros m H. simpl in H. congruence. Qed.

Lemma supp_padd R p r : supp R p -> supp R r -> supp R (padd p r).
Proof.
  intros H1 H2 m Hm. rewrite coef_padd in Hm.
  destruct (Qc_eq_dec (coef p m) 0) as [E|E]; [|apply H1; auto].
  apply H2. intros E'. apply Hm. rewrite E, E'. reflexivity.
Qed.

Lemma supp_pscale R c p : supp R p -> supp R (pscale c p).
Proof.
  intros H m Hm. apply H. intros E. apply Hm. rewrite coef_pscale, E. ring.
Qed.

Lemma supp_psub R p r : supp R p -> supp R r -> supp R (psub p r).
Proof. intros. unfold psub. apply supp_padd; auto. apply supp_pscale; auto. Qed.

Lemma rawsupp_rmul (R1 R2 R3 : mono -> Prop) p r :
  (forall a b, R1 a -> R2 b -> R3 (a ++ b)) ->
  rawsupp R1 p -> rawsupp R2 r -> rawsupp R3 (rmul p r).
Proof.
  intros H H1 H2 m c Hin. unfold rmul in Hin. apply in_flat_map in Hin.
  destruct Hin as ([a ca] & Ha & Hin). simpl in Hin. unfold tmul in Hin.
  apply in_map_iff in Hin. destruct Hin as ([b cb] & E & Hb). inversion E; subst.
  simpl. apply H; eauto.
Qed.

Lemma pmul_rmul_norm p r : peq (pmul p r) (rmul (pnorm p) (pnorm r)).
Proof.
  rewrite <- (pnorm_peq p) at 1. rewrite <- (pnorm_peq r) at 1.
  unfold pmul. apply pnorm_peq.
Qed.

Lemma supp_pmul (R1 R2 R3 : mono -> Prop) p r : minv R3 ->
  (forall a b, R1 a -> R2 b -> R3 (a ++ b)) ->
  supp R1 p -> supp R2 r -> supp R3 (pmul p r).
Proof.
  intros HR H H1 H2. eapply supp_peq; [symmetry; apply pmul_rmul_norm|].
  apply rawsupp_supp; auto.
  eapply rawsupp_rmul; eauto using supp_rawnorm.
Qed.

Lemma supp_pmono R m : minv R -> R m -> supp R (pmono m).
Proof.
  intros HR H. apply rawsupp_supp; auto. intros a c [E|[]]. inversion E; subst; auto.
Qed.

Lemma supp_pvar R v : minv R -> R [v] -> supp R (pvar v).
Proof. exact (supp_pmono R [v]). Qed.

Lemma supp_psubst (R R' : mono -> Prop) s p : minv R' ->
  (forall m, R m -> supp R' (msubst s m)) -> supp R p -> supp R' (psubst s p).
Proof.
  intros HR H Hp. apply (supp_peq R' (psubst s (pnorm p))).
  { rewrite pnorm_peq. reflexivity. }
  apply supp_rawnorm in Hp. revert Hp. generalize (pnorm p). clear p.
  intros p. induction p as [|[m c] t IH]; intros Hp; simpl; [apply supp_zero|].
  apply supp_padd.
  - apply supp_pscale. apply H. apply (Hp m c). simpl; auto.
  - apply IH. intros a d Hin. apply (Hp a d). simpl; auto.
Qed.

(** Induction over the terms of a polynomial *)
Lemma supp_ind (R : mono -> Prop) (K : poly -> Prop) :
  (forall p r, peq p r -> K p -> K r) ->
  K pzero ->
  (forall m c p, R m -> K p -> K (padd (pscale c (pmono m)) p)) ->
  forall p, supp R p -> K p.
Proof.
  intros H1 H2 H3 p Hp. apply (H1 (pnorm p)); [apply pnorm_peq|].
  apply supp_rawnorm in Hp. revert Hp. generalize (pnorm p). clear p.
  intros p. induction p as [|[m c] t IH]; intros Hp; auto.
  apply (H1 (padd (pscale c (pmono m)) t)); [symmetry; apply poly_cons|].
  apply H3.
  - apply (Hp m c). simpl; auto.
  - apply IH. intros a d Hin. apply (Hp a d). simpl; auto.
Qed.

(** *** Integral coefficients *)

Definition isint (c : Qc) : Prop := exists z : Z, c = Q2Qc (inject_Z z).

Lemma isint_z z : isint (Q2Qc (inject_Z z)).
Proof. exists z; auto. Qed.

Lemma q2qc_eq a b : (a == b)%Q -> Q2Qc a = Q2Qc b.
Proof. intros H. apply Qc_is_canon. cbn [this Q2Qc]. rewrite !Qred_correct. auto. Qed.

Lemma isint_0 : isint 0%Qc.
Proof. exists 0. reflexivity. Qed.
Lemma isint_1 : isint 1%Qc.
Proof. exists 1. reflexivity. Qed.

Lemma isint_add a b : isint a -> isint b -> isint (a + b)%Qc.
Proof.
  intros [x ->] [y ->]. exists (x + y). unfold Qcplus. apply q2qc_eq.
  cbn [this Q2Qc]. rewrite !Qred_correct. rewrite inject_Z_plus. reflexivity.
Qed.
Lemma isint_mul a b : isint a -> isint b -> isint (a * b)%Qc.
Proof.
  intros [x ->] [y ->]. exists (x * y). unfold Qcmult. apply q2qc_eq.
  cbn [this Q2Qc]. rewrite !Qred_correct. rewrite inject_Z_mult. reflexivity.
Qed.
Lemma isint_opp a : isint a -> isint (- a)%Qc.
Proof.
  intros [x ->]. exists (- x). unfold Qcopp. apply q2qc_eq.
  cbn [this Q2Qc]. rewrite !Qred_correct. rewrite inject_Z_opp. reflexivity.
Qed.

Definition intp (p : poly) : Prop := forall m, isint (coef p m).
Definition rawint (p : poly) : Prop := forall m c, In (m, c) p -> isint c.

Lemma intp_peq p r : peq p r -> intp p -> intp r.
Proof. intros H Hp m. rewrite <- H. apply Hp. Qed.

Lemma intp_rawnorm p : intp p -> rawint (pnorm p).
Proof.
  intros H m c Hin. rewrite <- (nf_coef_in _ m c (pnorm_nf p) Hin), coef_pnorm. apply H.
Qed.

Lemma rawint_phi f p : rawint p -> (forall m c, In (m, c) p -> isint (f m)) -> isint (phi f p).
Proof.
  induction p as [|[m c] t IH]; simpl; intros H Hf; [apply isint_0|].
  apply isint_add; [apply isint_mul|].
  - apply (H m c); simpl; auto.
  - apply (Hf m c); auto.
  - apply IH; [intros a d Hin; apply (H a d); simpl; auto | intros a d Hin; apply (Hf a d); auto].
Qed.

Lemma isint_bq b : isint (bq b).
Proof. destruct b; [apply isint_1 | apply isint_0]. Qed.

Lemma rawint_intp p : rawint p -> intp p.
Proof. intros H m. rewrite coef_phi. apply rawint_phi; auto. intros; apply isint_bq. Qed.

Lemma intp_zero : intp pzero.
Proof. intros m. apply isint_0. Qed.
Lemma intp_padd p r : intp p -> intp r -> intp (padd p r).
Proof. intros H1 H2 m. rewrite coef_padd. apply isint_add; auto. Qed.
Lemma intp_pscale c p : isint c -> intp p -> intp (pscale c p).
Proof. intros H1 H2 m. rewrite coef_pscale. apply isint_mul; auto. Qed.
Lemma intp_psub p r : intp p -> intp r -> intp (psub p r).
Proof.
  intros H1 H2. unfold psub. apply intp_padd; auto. apply intp_pscale; auto.
  apply isint_opp, isint_1.
Qed.
Lemma intp_pmul p r : intp p -> intp r -> intp (pmul p r).
Proof.
  intros H1 H2. apply (intp_peq (pmul (pnorm p) (pnorm r))).
  { rewrite !pnorm_peq. reflexivity. }
  intros m. rewrite coef_pmul. apply rawint_phi; [apply intp_rawnorm; auto|].
  intros a c _. apply rawint_phi; [apply intp_rawnorm; auto|].
  intros. apply isint_bq.
Qed.
Lemma intp_pmono m : intp (pmono m).
Proof. apply rawint_intp. intros a c [E|[]]. inversion E; subst. apply isint_1. Qed.
Lemma intp_pvar v : intp (pvar v).
Proof. apply (intp_pmono [v]). Qed.
Lemma intp_pone : intp pone.
Proof. apply (intp_pmono []). Qed.

Lemma intp_msubst s m : (forall v, In v m -> intp (s v)) -> intp (msubst s m).
Proof.
  induction m as [|v m IH]; simpl; intros H; [apply intp_pone|].
  apply intp_pmul; auto.
Qed.

Lemma intp_psubst (R : mono -> Prop) s p :
  supp R p -> intp p -> (forall m v, R m -> In v m -> intp (s v)) -> intp (psubst s p).
Proof.
  intros HR Hp Hs. apply (intp_peq (psubst s (pnorm p))).
  { rewrite pnorm_peq. reflexivity. }
  apply supp_rawnorm in HR. apply intp_rawnorm in Hp. revert HR Hp.
  generalize (pnorm p). clear p. intros p.
  induction p as [|[m c] t IH]; intros HR Hp; simpl; [apply intp_zero|].
  apply intp_padd.
  - apply intp_pscale; [apply (Hp m c); simpl; auto|].
    apply intp_msubst. intros v Hv. eapply Hs; eauto. apply (HR m c). simpl; auto.
  - apply IH; intros a d Hin; [apply (HR a d) | apply (Hp a d)]; simpl; auto.
Qed.
