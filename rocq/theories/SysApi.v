(** The conclusions of Sys.v and Sys2.v in the vocabulary of Spec.v: what the
    product of the library computes, for any commuting family of Pieri
    operators. *)

From Coq Require Import ZArith List Lia Bool Permutation QArith Qcanon Setoid Morphisms.
From Verif Require Import Py OrderFacts ModelPart ModelQcalc ModelPoly ModelStr ModelGr Spec
  PolyFacts SuppFacts OpTheory Sys Sys2.
Import ListNotations.
Open Scope Z_scope.

Section Api.
Context {t : gtype} {pi : Z -> list Z -> res poly} {V : list Z -> Prop} {I : Z -> Prop}
  {k : Z} {mu : list Z -> nat} {fuel : nat}.
Hypothesis H : pieri_sys t pi V I k mu fuel.

Notation MM := (M t pi k fuel).
Notation pr := (prod t pi k fuel).

Lemma api_prod a b : poly_in V a -> lin_comb V b ->
  exists r, pr a b = Ok r /\ peq r (MM a b) /\ lin_comb V r.
Proof.
  intros Ha Hb. apply poly_in_iff in Ha. apply lin_comb_iff in Hb.
  destruct (sys_prod H a b Ha Hb) as (r & E & Er). exists r. split; auto. split; auto.
  apply lin_comb_iff. eapply supp_peq; [symmetry; exact Er|]. apply (sys_lin H); auto.
Qed.

Lemma lin_comb_poly_in p : lin_comb V p -> poly_in V p.
Proof. intros Hp. apply poly_in_iff, sys_lq_vp, lin_comb_iff; auto. Qed.

Lemma lin_comb_pS l : V l -> lin_comb V (pS l).
Proof. intros Hl. apply lin_comb_iff, sys_lq_pS; auto. Qed.

Lemma lin_comb_padd a b : lin_comb V a -> lin_comb V b -> lin_comb V (padd a b).
Proof. rewrite !lin_comb_iff. apply supp_padd. Qed.
Lemma lin_comb_pscale c a : lin_comb V a -> lin_comb V (pscale c a).
Proof. rewrite !lin_comb_iff. apply supp_pscale. Qed.
Lemma lin_comb_q a : lin_comb V a -> lin_comb V (pmul (pvar VQ) a).
Proof.
  rewrite !lin_comb_iff. intros. change (pvar VQ) with (pmono [VQ]).
  apply (lin_qmul V (eq VQ)); auto.
Qed.

Ltac pp a b r E U L := destruct (api_prod a b) as (r & E & U & L); auto using lin_comb_poly_in.
Ltac toq := repeat match goal with X : lin_comb V _ |- _ => apply lin_comb_iff in X
  | X : poly_in V _ |- _ => apply poly_in_iff in X end.

Lemma api_comm a b : lin_comb V a -> lin_comb V b ->
  exists r r', pr a b = Ok r /\ pr b a = Ok r' /\ peq r r'.
Proof.
  intros Ha Hb. pp a b r E U L. pp b a r' E' P' L'.
  exists r, r'. split; auto. split; auto. toq. rewrite U, P'. apply (sys_comm H); auto.
Qed.

Lemma api_assoc a b c : lin_comb V a -> lin_comb V b -> lin_comb V c ->
  exists ab bc r r', pr a b = Ok ab /\ pr ab c = Ok r /\ pr b c = Ok bc /\ pr a bc = Ok r' /\ peq r r'.
Proof.
  intros Ha Hb Hc. pp a b ab E U L. pp ab c r E1 P1 L1. pp b c bc E2 P2 L2. pp a bc r' E3 P3 L3.
  exists ab, bc, r, r'. repeat split; auto. rewrite P1, P3, U, P2. toq. apply (sys_assoc H); auto.
Qed.

Lemma api_unit a : lin_comb V a ->
  exists r r', pr (pS []) a = Ok r /\ pr a (pS []) = Ok r' /\ peq r a /\ peq r' a.
Proof.
  intros Ha. assert (H1 : lin_comb V (pS [])) by (apply lin_comb_pS; apply (ps_nil _ _ _ _ _ _ _ H)).
  pp (pS []) a r E U L. pp a (pS []) r' E' P' L'. exists r, r'. toq.
  split; auto. split; auto. split; [rewrite U; apply (sys_unit H)|rewrite P'; apply (sys_one H)]; auto.
Qed.

Lemma api_add_l a b c : lin_comb V a -> lin_comb V b -> lin_comb V c ->
  exists r x y, pr (padd a b) c = Ok r /\ pr a c = Ok x /\ pr b c = Ok y /\ peq r (padd x y).
Proof.
  intros Ha Hb Hc. assert (Hab := lin_comb_padd a b Ha Hb).
  pp (padd a b) c r E U L. pp a c x E1 P1 L1. pp b c y E2 P2 L2.
  exists r, x, y. repeat split; auto. rewrite U, P1, P2. toq. apply (sys_add_l H); auto using (@sys_lq_vp V).
Qed.
Lemma api_add_r a b c : lin_comb V a -> lin_comb V b -> lin_comb V c ->
  exists r x y, pr a (padd b c) = Ok r /\ pr a b = Ok x /\ pr a c = Ok y /\ peq r (padd x y).
Proof.
  intros Ha Hb Hc. assert (Hab := lin_comb_padd b c Hb Hc).
  pp a (padd b c) r E U L. pp a b x E1 P1 L1. pp a c y E2 P2 L2.
  exists r, x, y. repeat split; auto. rewrite U, P1, P2. apply sys_add_r.
Qed.

(** the scalar [c] and the variable [q] come out of both arguments *)
Lemma api_scale a b c : lin_comb V a -> lin_comb V b ->
  exists r x y, pr a b = Ok r /\ pr (pscale c a) b = Ok x /\ pr a (pscale c b) = Ok y /\
    peq x (pscale c r) /\ peq y (pscale c r).
Proof.
  intros Ha Hb. assert (Hca := lin_comb_pscale c a Ha). assert (Hcb := lin_comb_pscale c b Hb).
  pp a b r E U L. pp (pscale c a) b x E1 P1 L1. pp a (pscale c b) y E2 P2 L2.
  exists r, x, y. repeat split; auto.
  - rewrite P1, U. toq. apply (sys_scale_l H); auto using (@sys_lq_vp V).
  - rewrite P2, U. apply sys_scale_r.
Qed.
Lemma api_q a b : lin_comb V a -> lin_comb V b ->
  exists r x y, pr a b = Ok r /\ pr (pmul (pvar VQ) a) b = Ok x /\ pr a (pmul (pvar VQ) b) = Ok y /\
    peq x (pmul (pvar VQ) r) /\ peq y (pmul (pvar VQ) r).
Proof.
  intros Ha Hb. assert (Hca := lin_comb_q a Ha). assert (Hcb := lin_comb_q b Hb).
  pp a b r E U L. pp (pmul (pvar VQ) a) b x E1 P1 L1. pp a (pmul (pvar VQ) b) y E2 P2 L2.
  exists r, x, y. repeat split; auto.
  - rewrite P1, U. toq. apply (sys_q_l H [VQ]); auto.
  - rewrite P2, U. toq. apply (sys_q_r H [VQ]); auto.
Qed.

Lemma poly_in_pmul a b : poly_in V a -> poly_in V b -> poly_in V (pmul a b).
Proof.
  rewrite !poly_in_iff. intros Ha Hb. eapply (supp_pmul (polym V) (polym V)); eauto.
  - apply polym_inv.
  - intros x y Hx Hy. apply Forall_app; auto.
Qed.

(** converting to linear combinations is a ring homomorphism *)
Lemma api_toS_mul a b : poly_in V a -> poly_in V b ->
  exists x y r s, pr a (pS []) = Ok x /\ pr b (pS []) = Ok y /\
    pr (pmul a b) (pS []) = Ok r /\ pr x y = Ok s /\ peq r s /\ lin_comb V r.
Proof.
  intros Ha Hb. assert (H1 : lin_comb V (pS [])) by (apply lin_comb_pS; apply (ps_nil _ _ _ _ _ _ _ H)).
  assert (Hab := poly_in_pmul a b Ha Hb).
  pp a (pS []) x E U L. pp b (pS []) y E1 P1 L1. pp (pmul a b) (pS []) r E2 P2 L2. pp x y s E3 P3 L3.
  exists x, y, r, s. repeat split; auto. rewrite P2, P3, U, P1. toq.
  rewrite (sys_pmul H), (sys_toS H); auto; [reflexivity|]. apply (sys_lin H); auto.
Qed.
Lemma api_toS_add a b : poly_in V a -> poly_in V b ->
  exists x y r, pr a (pS []) = Ok x /\ pr b (pS []) = Ok y /\
    pr (padd a b) (pS []) = Ok r /\ peq r (padd x y).
Proof.
  intros Ha Hb. assert (H1 : lin_comb V (pS [])) by (apply lin_comb_pS; apply (ps_nil _ _ _ _ _ _ _ H)).
  assert (Hab : poly_in V (padd a b)) by (apply poly_in_iff, supp_padd; apply poly_in_iff; auto).
  pp a (pS []) x E U L. pp b (pS []) y E1 P1 L1. pp (padd a b) (pS []) r E2 P2 L2.
  exists x, y, r. repeat split; auto. rewrite P2, U, P1. toq. apply (sys_add_l H); auto.
Qed.
Lemma api_toS_lin a : lin_comb V a -> exists r, pr a (pS []) = Ok r /\ peq r a.
Proof. intros Ha. destruct (api_unit a Ha) as (r & r' & E & E' & U & P'). exists r'. auto. Qed.

End Api.
