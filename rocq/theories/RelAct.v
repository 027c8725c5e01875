(** Two actions compared term by term: the lemmas behind C84 in PropsWeight.v. *)

From Coq Require Import ZArith List Lia Bool Permutation QArith Qcanon Setoid Morphisms.
From Verif Require Import Py OrderFacts ModelPart ModelQcalc ModelPoly ModelStr ModelGr Spec SpecRing SpecPieri SpecAct SpecWeight
  PolyFacts SuppFacts OpTheory Sys RingData WtFacts PosFacts.
Import ListNotations.
Open Scope Z_scope.

Definition cm (X : list Z -> Prop) (m : mono) : Prop := Forall (fun v => exists x, X x /\ v = vS x) m.
Lemma cm_in X m : cm X m -> poly_in X (pmono m).
Proof. intros H. apply poly_in_mono. eapply Forall_impl; [|exact H]. intros v Hv. right. exact Hv. Qed.

(** from monomials to polynomials *)
Section Sum.
Variables (X : list Z -> Prop) (L1 L2 : poly -> Prop) (act1 act2 : poly -> poly -> res poly) (R : poly -> poly -> Prop) (C : Qc -> Prop) (K : mono -> Prop) (c1 c2 : poly).
Hypothesis HA1 : action_laws (poly_in X) L1 act1.
Hypothesis HA2 : action_laws (poly_in X) L2 act2.
Hypothesis R_peq : forall a a' b b', peq a a' -> peq b b' -> R a b -> R a' b'.
Hypothesis R_zero : R pzero pzero.
Hypothesis R_add : forall a a' b b', R a b -> R a' b' -> R (padd a a') (padd b b').
Hypothesis R_scale : forall c a b, C c -> R a b -> R (pscale c a) (pscale c b).
Hypothesis H1 : L1 c1.
Hypothesis H2 : L2 c2.
Hypothesis HM : forall m, cm X m -> K m -> exists r1 r2, act1 (pmono m) c1 = Ok r1 /\ act2 (pmono m) c2 = Ok r2 /\ L1 r1 /\ L2 r2 /\ R r1 r2.
Theorem rel_sum e : supp (fun m => cm X m /\ K m) e -> (forall m, coef e m <> 0%Qc -> C (coef e m)) ->
  exists r1 r2, act1 e c1 = Ok r1 /\ act2 e c2 = Ok r2 /\ L1 r1 /\ L2 r2 /\ R r1 r2.
Proof.
  intros He HC.
  assert (Z0 : poly_in X pzero) by (intros m H; simpl in H; congruence).
  assert (Z1 : forall L act, action_laws (poly_in X) L act -> forall c, L c -> exists r, act pzero c = Ok r /\ L r /\ peq pzero r).
  { intros L act HA c Hc. destruct (al_closed _ _ _ HA pzero c Z0 Hc) as (r & Er & Lr). exists r. split; auto. split; auto.
    destruct (al_scalar _ _ _ HA 0%Qc pone c) as (u & w & Eu & Ew & Pu); auto; [apply (cm_in X []); constructor|].
    destruct (al_equal _ _ _ HA pzero (pscale 0%Qc pone) c c Z0 Hc) as (a & b & Ea & Eb & Pab); [|reflexivity|].
    { intros m. rewrite coef_pscale. simpl. ring. }
    rewrite Er in Ea. rewrite Eu in Eb. inversion Ea; inversion Eb; subst. rewrite Pab, Pu. intros m. rewrite coef_pscale. simpl. ring. }
  assert (G : forall l, rawsupp (fun m => cm X m /\ K m) l -> (forall m c, In (m, c) l -> C c) ->
    poly_in X l /\ exists r1 r2, act1 l c1 = Ok r1 /\ act2 l c2 = Ok r2 /\ L1 r1 /\ L2 r2 /\ R r1 r2).
  { induction l as [|[m k] t IH]; intros Hs Hp.
    - split; auto. destruct (Z1 _ _ HA1 c1 H1) as (r1 & E1 & M1 & P1). destruct (Z1 _ _ HA2 c2 H2) as (r2 & E2 & M2 & P2).
      exists r1, r2. split; auto. split; auto. split; auto. split; auto. eapply R_peq; [exact P1|exact P2|]. apply R_zero.
    - destruct IH as (Ht & r1 & r2 & E1 & E2 & M1 & M2 & HR'); [intros a b Hab; apply (Hs a b); right; auto|intros a b Hab; apply (Hp a b); right; auto|].
      destruct (Hs m k ltac:(left; auto)) as [Hm Hd]. destruct (HM m Hm Hd) as (x1 & x2 & F1 & F2 & N1 & N2 & HRx).
      assert (Hpm := cm_in X m Hm).
      assert (EE : peq (padd (pscale k (pmono m)) t) ((m, k) :: t)).
      { intros m'. rewrite coef_padd, coef_pscale. unfold pmono. cbn [coef]. destruct (mono_eqb m m'); ring. }
      assert (Hu : poly_in X (pscale k (pmono m))). { intros m' Hm'. rewrite coef_pscale in Hm'. apply Hpm. intros E. apply Hm'. rewrite E. ring. }
      assert (HE : poly_in X (padd (pscale k (pmono m)) t)) by (apply supp_padd; auto).
      assert (HE' : poly_in X ((m, k) :: t)) by (eapply poly_in_peq; eauto).
      split; auto.
      assert (Gs : forall L act, action_laws (poly_in X) L act -> forall c x r, L c -> act (pmono m) c = Ok x -> act t c = Ok r ->
        exists w, act ((m, k) :: t) c = Ok w /\ L w /\ peq (padd (pscale k x) r) w).
      { intros L act HA c x r Hc Ex Er. destruct (al_scalar _ _ _ HA k (pmono m) c Hpm Hc) as (u & x' & Eu & Ex' & Pu). rewrite Ex in Ex'. inversion Ex'; subst x'.
        destruct (al_sum _ _ _ HA _ _ c Hu Ht Hc) as (s & a & b & Es & Ea & Eb & Ps). rewrite Eu in Ea. rewrite Er in Eb. inversion Ea; inversion Eb; subst a b.
        destruct (al_equal _ _ _ HA _ _ c c HE Hc EE ltac:(reflexivity)) as (y & y' & Ey & Ey' & Pyy). rewrite Es in Ey. inversion Ey; subst y.
        destruct (al_closed _ _ _ HA _ c HE' Hc) as (w & Ew & Lw). rewrite Ey' in Ew. inversion Ew; subst w.
        exists y'. split; auto. split; auto. rewrite <- Pyy, Ps, Pu. reflexivity. }
      destruct (Gs _ _ HA1 c1 x1 r1 H1 F1 E1) as (w1 & A1 & B1 & D1). destruct (Gs _ _ HA2 c2 x2 r2 H2 F2 E2) as (w2 & A2 & B2 & D2).
      exists w1, w2. split; auto. split; auto. split; auto. split; auto. eapply R_peq; [exact D1|exact D2|]. apply R_add; auto. apply R_scale; auto. apply (Hp m k); left; auto. }
  assert (HN : peq (pnorm e) e) by apply pnorm_peq.
  destruct (G (pnorm e)) as (HE & r1 & r2 & E1 & E2 & M1 & M2 & HR').
  { apply supp_rawnorm; exact He. }
  { intros m c Hin. pose proof (nf_coef_in _ m c (pnorm_nf e) Hin) as E. destruct (pnorm_nf e) as [_ HF]. rewrite Forall_forall in HF.
    rewrite coef_pnorm in E. rewrite <- E. apply HC. rewrite E. apply (HF _ Hin). }
  assert (He' : poly_in X e) by (eapply poly_in_peq; eauto).
  assert (Ge : forall L act, action_laws (poly_in X) L act -> forall c r, L c -> act (pnorm e) c = Ok r -> exists w, act e c = Ok w /\ L w /\ peq r w).
  { intros L act HA c r Hc Er. destruct (al_equal _ _ _ HA _ _ c c HE Hc HN ltac:(reflexivity)) as (y & y' & Ey & Ey' & Py). rewrite Er in Ey. inversion Ey; subst y.
    destruct (al_closed _ _ _ HA e c He' Hc) as (w & Ew & Lw). rewrite Ey' in Ew. inversion Ew; subst w. exists y'. auto. }
  destruct (Ge _ _ HA1 c1 r1 H1 E1) as (w1 & A1 & B1 & D1). destruct (Ge _ _ HA2 c2 r2 H2 E2) as (w2 & A2 & B2 & D2).
  exists w1, w2. split; auto. split; auto. split; auto. split; auto. eapply R_peq; eauto.
Qed.
End Sum.

Section Rel.
Variables (X : list Z -> Prop) (I : Z -> Prop) (L1 L2 : poly -> Prop) (act1 act2 : poly -> poly -> res poly) (pi1 pi2 : Z -> poly -> res poly).
Variables (deg : list Z -> Z) (R : Z -> poly -> poly -> Prop) (C : Qc -> Prop).
Fixpoint mdeg (m : mono) : Z := match m with [] => 0 | v :: t => (match v with VS (SP l) => deg l | _ => 0 end) + mdeg t end.
Hypothesis HX : forall x, X x -> exists i, I i /\ x = special_class i.
Hypothesis HA1 : action_laws (poly_in X) L1 act1.
Hypothesis HA2 : action_laws (poly_in X) L2 act2.
Hypothesis HS1 : special_acts I L1 act1 pi1.
Hypothesis HS2 : special_acts I L2 act2 pi2.
Hypothesis R_peq : forall d a a' b b', peq a a' -> peq b b' -> R d a b -> R d a' b'.
Hypothesis R_zero : forall d, R d pzero pzero.
Hypothesis R_add : forall d a a' b b', R d a b -> R d a' b' -> R d (padd a a') (padd b b').
Hypothesis R_scale : forall d c a b, C c -> R d a b -> R d (pscale c a) (pscale c b).
Hypothesis R_pi : forall d i a b x y, I i -> L1 a -> L2 b -> R d a b -> pi1 i a = Ok x -> pi2 i b = Ok y -> R (deg (special_class i) + d) x y.

Notation cm := (cm X).
Notation cm_in := (cm_in X).
Lemma rel_mono d m c1 c2 : cm m -> L1 c1 -> L2 c2 -> R d c1 c2 ->
  exists r1 r2, act1 (pmono m) c1 = Ok r1 /\ act2 (pmono m) c2 = Ok r2 /\ L1 r1 /\ L2 r2 /\ R (mdeg m + d) r1 r2.
Proof.
  intros Hm H1 H2 HR. induction m as [|v t IH].
  - destruct (al_one _ _ _ HA1 c1 H1) as (r1 & E1 & P1). destruct (al_one _ _ _ HA2 c2 H2) as (r2 & E2 & P2).
    destruct (al_closed _ _ _ HA1 pone c1 (cm_in [] Hm) H1) as (r1' & E1' & M1). destruct (al_closed _ _ _ HA2 pone c2 (cm_in [] Hm) H2) as (r2' & E2' & M2).
    rewrite E1 in E1'. rewrite E2 in E2'. inversion E1'; inversion E2'; subst r1' r2'. exists r1, r2. split; auto. split; auto. split; auto. split; auto.
    eapply R_peq; [symmetry; exact P1|symmetry; exact P2|]. exact HR.
  - inversion Hm as [|? ? Hv HT]; subst. destruct Hv as (x & Hx & ->). destruct (IH HT) as (y1 & y2 & E1 & E2 & M1 & M2 & HR').
    destruct (HX x Hx) as (i & Hi & Ei).
    assert (Em : peq (pmul (pvar (vS x)) (pmono t)) (pmono (vS x :: t))) by (change (vS x :: t) with ([vS x] ++ t); rewrite pmono_app; reflexivity).
    assert (Ev : poly_in X (pvar (vS x))) by (apply (cm_in [vS x]); constructor; [eauto|constructor]).
    assert (G : forall L act pi, action_laws (poly_in X) L act -> special_acts I L act pi -> forall c y, L c -> act (pmono t) c = Ok y -> L y ->
      exists w z, act (pmono (vS x :: t)) c = Ok w /\ L w /\ pi i y = Ok z /\ peq z w).
    { intros L act pi HA HS c y Hc Ey Hy. destruct (al_product _ _ _ HA (pvar (vS x)) (pmono t) c Ev (cm_in t HT) Hc) as (r & y' & z & Er & Ey' & Ez & Pr).
      rewrite Ey in Ey'. inversion Ey'; subst y'. destruct (HS i y Hi Hy) as (w & w' & Ew & Ew' & Pw). rewrite <- Ei in Ew. change (pS x) with (pvar (vS x)) in Ew.
      rewrite Ez in Ew. inversion Ew; subst w.
      destruct (al_equal _ _ _ HA (pmul (pvar (vS x)) (pmono t)) (pmono (vS x :: t)) c c) as (u & u' & Eu & Eu' & Pu); auto; [|reflexivity|].
      { eapply poly_in_peq; [symmetry; exact Em|]. apply cm_in. exact Hm. }
      destruct (al_closed _ _ _ HA (pmono (vS x :: t)) c (cm_in _ Hm) Hc) as (w & Ew2 & Lw). rewrite Eu' in Ew2. inversion Ew2; subst w.
      rewrite Er in Eu. inversion Eu; subst u. exists u', w'. split; auto. split; auto. split; auto. rewrite <- Pu, Pr, Pw. reflexivity. }
    destruct (G _ _ _ HA1 HS1 c1 y1 H1 E1 M1) as (w1 & z1 & A1 & B1 & D1 & F1). destruct (G _ _ _ HA2 HS2 c2 y2 H2 E2 M2) as (w2 & z2 & A2 & B2 & D2 & F2).
    exists w1, w2. split; auto. split; auto. split; auto. split; auto. eapply R_peq; [exact F1|exact F2|]. cbn [mdeg vS]. rewrite Ei, <- Z.add_assoc. apply (R_pi _ i y1 y2); auto.
Qed.

Theorem rel_act d d1 e c1 c2 : supp (fun m => cm m /\ mdeg m = d1) e -> (forall m, coef e m <> 0%Qc -> C (coef e m)) -> L1 c1 -> L2 c2 -> R d c1 c2 ->
  exists r1 r2, act1 e c1 = Ok r1 /\ act2 e c2 = Ok r2 /\ L1 r1 /\ L2 r2 /\ R (d1 + d) r1 r2.
Proof.
  intros He HC H1 H2 HR. apply (rel_sum X L1 L2 act1 act2 (R (d1 + d)) C (fun m => mdeg m = d1) c1 c2); auto.
  - intros a a' b b'. apply R_peq.
  - intros m Hm <-. apply rel_mono; auto.
Qed.
End Rel.
