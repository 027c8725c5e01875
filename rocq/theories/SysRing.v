(** The laws of SpecRing.v for any commuting family of Pieri operators. *)

From Coq Require Import ZArith List Lia Bool Permutation QArith Qcanon Setoid Morphisms.
From Verif Require Import Py OrderFacts ModelPart ModelQcalc ModelPoly ModelStr ModelGr Spec SpecRing
  PolyFacts SuppFacts OpTheory Enum PyFacts Sys Sys2 SysApi FactsA ApiA.
Import ListNotations.
Open Scope Z_scope.

Section Api.
Context {t : gtype} {pi : Z -> list Z -> res poly} {V : list Z -> Prop} {I : Z -> Prop}
  {k : Z} {mu : list Z -> nat} {fuel : nat}.
Hypothesis H : pieri_sys t pi V I k mu fuel.
Notation pr := (prod t pi k fuel).
Notation lq := (supp (linm V (eq VQ))).

Lemma sys_laws : product_laws V pr.
Proof.
  split.
  - intros a b Ha Hb. destruct (api_prod H a b (lin_comb_poly_in _ Ha) Hb) as (r & E & _ & L). eauto.
  - apply (api_comm H).
  - apply (api_assoc H).
  - apply (api_unit H).
  - apply (api_add_l H).
  - intros a b s Ha Hb. destruct (api_scale H a b s Ha Hb) as (r & x & y & E1 & E2 & _ & E4 & _). eauto.
  - intros a b Ha Hb. destruct (api_q H a b Ha Hb) as (r & x & y & E1 & E2 & _ & E4 & _). eauto.
Qed.
Lemma sys_conv : conversion_laws V pr (fun a => pr a (pS [])).
Proof. split; [apply (api_toS_lin H)|apply (api_toS_add H)|apply (api_toS_mul H)]. Qed.

Lemma sys_giambelli (X : list Z -> Prop) : (forall i, I i -> X (num2spec i)) ->
  giambelli_laws V X (apply_lc (on_part (giambelli_rec_inner fuel pi k))) (act_with t pi).
Proof.
  intros HX lam Hl. destruct (sys_giam H lam Hl) as (E & E1 & E2 & E3).
  destruct (on_class (giambelli_rec_inner fuel pi k) lam E E1) as (e & Ee & Pe).
  assert (Hs : spoly I (eq VQ) e) by (eapply supp_peq; [symmetry; exact Pe | exact E2]).
  assert (Ha : exists r, act_with t pi e (pS []) = Ok r /\ peq r (OpN t pi e (pS []))).
  { pose proof (sys_lq_one H). destruct H. eapply (act_with_ok t pi V I (eq VQ) eqVQ_isqv eq_refl); first [eassumption | intros; apply eqVQ_only; assumption]. }
  destruct Ha as (r & Er & Pr). exists e, r. split; [exact Ee|]. split.
  - apply poly_in_iff. eapply supp_impl; [|exact Hs]. intros mo. apply Forall_impl.
    intros v [->|(i & Hi & ->)]; auto. right. exists (num2spec i). split; auto.
  - split; auto. rewrite Pr, Pe. auto.
Qed.

Lemma sys_pi_lc i p : I i -> lq p ->
  exists r, apply_lc (on_part (pi i)) p = Ok r /\ peq r (ext pi i p).
Proof.
  intros Hi Hp. apply apply_lc_ok. intros a c v Hin Hv.
  apply supp_rawnorm in Hp. destruct (Hp a c Hin) as (x & qm & Hx & HP & HQ).
  apply (Permutation_in _ HP) in Hv. destruct Hv as [<-|Hv].
  - exists (P pi i x). split; [apply (ps_ok _ _ _ _ _ _ _ H); auto|]. reflexivity.
  - rewrite Forall_forall in HQ. rewrite <- (HQ v Hv). exists (pvar VQ). split; reflexivity.
Qed.
Lemma sys_pi_comm : operators_commute V I (fun i => apply_lc (on_part (pi i))).
Proof.
  intros i j p Hi Hj Hp. apply lin_comb_iff in Hp.
  assert (HL : forall i p, I i -> lq p -> lq (ext pi i p)).
  { intros i' p' Hi' Hp'. eapply (ext_lin pi V I (eq VQ) eqVQ_isqv); eauto.
    intros. apply (ps_lin _ _ _ _ _ _ _ H); auto. }
  destruct (sys_pi_lc i p Hi Hp) as (x & X1 & X2).
  assert (Lx : lq x) by (eapply supp_peq; [symmetry; exact X2|]; auto).
  destruct (sys_pi_lc j x Hj Lx) as (y & Y1 & Y2).
  destruct (sys_pi_lc j p Hj Hp) as (x' & X1' & X2').
  assert (Lx' : lq x') by (eapply supp_peq; [symmetry; exact X2'|]; auto).
  destruct (sys_pi_lc i x' Hi Lx') as (y' & Y1' & Y2').
  exists x, y, x', y'. split; [exact X1|]. split; [exact Y1|]. split; [exact X1'|]. split; [exact Y1'|].
  rewrite Y2, Y2', X2, X2'.
  eapply (ext_comm pi V I (eq VQ) eqVQ_isqv); eauto.
  intros. apply (ps_comm _ _ _ _ _ _ _ H); auto.
Qed.
(** multiplication by a special class *)
Lemma sys_special i l c : I i -> V l -> peq (pS l) (P pi i []) -> lin_comb V c ->
  exists r r', pr (pS l) c = Ok r /\ apply_lc (on_part (pi i)) c = Ok r' /\ peq r r'.
Proof.
  intros Hi Hl E Hc. destruct (api_prod H (pS l) c) as (r & Er & Pr & _); auto using lin_comb_poly_in, lin_comb_pS.
  apply lin_comb_iff in Hc. destruct (sys_pi_lc i c Hi Hc) as (r' & E' & Pr'). exists r, r'. split; auto. split; auto.
  rewrite Pr, Pr'. apply (sys_pieri H); auto.
Qed.
(** degrees *)
Lemma sys_homog (deg : list Z -> Z) dq lam nu :
  deg [] = 0 -> (forall l p l0, V l -> gsel k l = Ok (p, l0) -> deg l = deg l0 + Z.abs p) ->
  (forall i l, I i -> V l -> intp (P pi i l)) ->
  (forall i l, I i -> V l -> supp (fun m => exists e x, Permutation m (qS e x) /\ deg x + Z.of_nat e * dq = deg l + Z.abs i) (P pi i l)) ->
  V lam -> V nu -> exists r, pr (pS lam) (pS nu) = Ok r /\
    (forall m, coef r m <> 0%Qc -> exists d x, Permutation m (qS d x) /\ deg x + Z.of_nat d * dq = deg lam + deg nu) /\ integral r.
Proof.
  intros H1 H2 H3 H4 Hl Hn. destruct (api_prod H (pS lam) (pS nu)) as (r & E & Pr & _); auto using lin_comb_poly_in, lin_comb_pS.
  destruct (sys_hom H deg dq H1 H2 H3 H4 (pS nu) (deg nu)) with (l := lam) as [A B]; auto.
  - apply supp_pvar; [apply hom_inv|]. exists O, nu. split; [apply Permutation_refl|]. split; auto. lia.
  - apply intp_pvar.
  - exists r. split; auto. split.
    + intros mo Hmo. rewrite (Pr mo) in Hmo. destruct (A mo Hmo) as (e & x & Hp & _ & Hd). exists e, x. split; auto.
    + intros mo. rewrite (Pr mo). apply B.
Qed.
End Api.

Section Q0.
Context {t : gtype} {pi1 pi2 : Z -> list Z -> res poly} {V : list Z -> Prop} {I : Z -> Prop}
  {k : Z} {mu : list Z -> nat} {fuel : nat}.
Hypothesis H1 : pieri_sys t pi1 V I k mu fuel.
Hypothesis H2 : pieri_sys t pi2 V I k mu fuel.
Hypothesis HP : forall i l, I i -> V l -> peq (psubst z0 (P pi1 i l)) (P pi2 i l).
Lemma sys_q0_mult a b : lin_comb0 V a -> lin_comb0 V b ->
  exists x r, prod t pi1 k fuel a b = Ok x /\ prod t pi2 k fuel a b = Ok r /\ same_q_free_part x r.
Proof.
  intros Ha Hb. assert (La := lin_comb0_lin _ _ Ha). assert (Lb := lin_comb0_lin _ _ Hb).
  assert (F : forall a, lin_comb0 V a -> peq (psubst z0 a) a).
  { clear. intros a Ha. apply z0_free. intros mo Hc Hin. destruct (Ha mo Hc) as (x & _ & ->). destruct Hin as [E|[]]. discriminate. }
  destruct (api_prod H1 a b) as (x & E1 & P1 & _); auto using lin_comb_poly_in.
  destruct (api_prod H2 a b) as (r & E2 & P2 & _); auto using lin_comb_poly_in.
  exists x, r. split; auto. split; auto. intros m Hm. rewrite <- (coef_z0 x m Hm).
  assert (E : peq (psubst z0 x) r); [|apply E].
  rewrite P1, P2. apply lin_comb_iff in La. apply lin_comb_iff in Lb. rewrite (sys_q0 H1 H2 HP a b La Lb).
  apply M_peq; auto.
Qed.
Lemma sys_q0_toS a : poly_in V a -> (forall mo, In VQ mo -> coef a mo = 0%Qc) ->
  exists x r, prod t pi1 k fuel a (pS []) = Ok x /\ prod t pi2 k fuel a (pS []) = Ok r /\ same_q_free_part x r.
Proof.
  intros Ha Hq. assert (Fa := q_free_z0 a Hq). assert (Hn : lin_comb V (pS [])) by (apply lin_comb_pS; apply (ps_nil _ _ _ _ _ _ _ H1)).
  destruct (api_prod H1 a (pS [])) as (x & E1 & P1 & _); auto.
  destruct (api_prod H2 a (pS [])) as (r & E2 & P2 & _); auto.
  exists x, r. split; auto. split; auto. intros m Hm. rewrite <- (coef_z0 x m Hm).
  assert (E : peq (psubst z0 x) r); [|apply E].
  rewrite P1, P2. apply lin_comb_iff in Hn. apply poly_in_iff in Ha. rewrite (sys_q0_poly H1 H2 HP a (pS []) Ha Hn).
  apply M_peq; auto. rewrite (psubst_pvar z0 (vS []) : peq (psubst z0 (pS [])) (pS [])). reflexivity.
Qed.
End Q0.
