(** The lemmas behind C85 in PropsPair.v: duality with two quantum parameters. *)

From Coq Require Import ZArith List Lia Bool Permutation QArith Qcanon Setoid Morphisms.
From Verif Require Import Py OrderFacts PyFacts ModelPart ModelQcalc ModelPoly ModelStr ModelGr Spec SpecRing SpecPieri SpecAct SpecPos SpecWeight SpecPair
  IndexC IndexB IndexD DualFacts PolyFacts SuppFacts OpTheory PartFacts WSum Sys Sys2 SysApi RingA FactsA ApiA ApiGr GrInv ApiIndex RingData ApiRing RingD ApiRingD
  RingC  RingC DualWord DualWordD ExprFacts TwoComm TwoRing ActLaws ApiAct PosFacts ApiPos ApiDual RelAct ApiWeight TwoDual TwoPair.
Import ListNotations.
Open Scope Z_scope.

Section Two.
Variables (m N : Z) (g : gr).
Hypothesis Hg : OrthogonalGrassmannian m N = Ok g.
Hypothesis HN : Z.even N = true.
Hypothesis H16 : N <= 16.
Hypothesis Hm : 1 <= m.
Hypothesis Hk : m = N / 2 - 1.
Notation V := (class_OG m N).
Notation I := (index_even m N).
Notation X := (special_even m N).
Notation L := (supp (linm V isqv)).
Notation qpi := (qpieri_fun g).
Notation du := (dualD 1 m).
Notation pt := (point_class g).

Lemma w_V l : V l -> V (du l).
Proof. destruct (two_inv m N g Hg HN H16 Hm Hk) as (_ & Hn & -> & _). apply du_V; auto. Qed.
Lemma w_du l : V l -> du (du l) = l.
Proof. destruct (two_inv m N g Hg HN H16 Hm Hk) as (_ & Hn & -> & _). apply du_du; auto. Qed.
Lemma w_lin i l : I i -> V l -> L (P qpi i l).
Proof. destruct (two_inv m N g Hg HN H16 Hm Hk) as (-> & Hn & -> & HI). intros Hi Hl. apply HI in Hi. apply (T_lin m Hn); auto. Qed.
Lemma w_ok i l : I i -> V l -> qpi i l = Ok (P qpi i l).
Proof. destruct (two_inv m N g Hg HN H16 Hm Hk) as (-> & Hn & -> & HI). intros Hi Hl. apply HI in Hi. apply (T_ok m Hn); auto. Qed.
Lemma w_adj i x y qs : I i -> V x -> V y -> Forall isqv qs -> coef (P qpi i x) (vS (du y) :: qs) = coef (P qpi i y) (vS (du x) :: qs).
Proof. destruct (two_inv m N g Hg HN H16 Hm Hk) as (-> & Hn & -> & HI). intros Hi. apply HI in Hi. apply adj_D1; auto. Qed.
Lemma w_pi i p x : I i -> L p -> qpieri g i p = Ok x -> peq x (ext qpi i p) /\ L x.
Proof.
  intros Hi Hp Ex. destruct (apply_pi qpi _ _ isqv isqv_id w_ok i p Hi Hp) as (r & Er & Pr).
  assert (x = r) as -> by (unfold qpieri in Ex; congruence). split; auto.
  eapply supp_peq; [symmetry; exact Pr|]. apply (ext_lin qpi _ I isqv isqv_id w_lin); auto.
Qed.
Lemma w_nil : V [].
Proof. destruct (two_inv m N g Hg HN H16 Hm Hk) as (_ & Hn & -> & _). apply (T_nil m Hn). Qed.
Lemma w_class l : V l -> L (pS l).
Proof. intros Hl mo Hmo. apply coef_pvar_neq0 in Hmo. subst mo. exists l, []. split; auto. Qed.

Notation B := (B du).
Lemma w_mono mo : cm X mo -> forall p r, L p -> L r ->
  exists a b, qact g (pmono mo) p = Ok a /\ qact g (pmono mo) r = Ok b /\ L a /\ L b /\ peq (B a r) (B p b).
Proof.
  destruct (two_acts m N g Hg HN H16 Hm Hk) as (A & S & _). intros Hmo.
  assert (CL : forall e p, poly_in X e -> L p -> exists r, qact g e p = Ok r /\ L r).
  { intros e p He Hp. apply lin_comb_qs_iff in Hp. destruct (al_closed _ _ _ A e p He Hp) as (r & Er & Lr). exists r. split; auto. apply lin_comb_qs_iff; auto. }
  induction mo as [|v t IH]; intros p r Hp Hr.
  - pose proof (proj2 (lin_comb_qs_iff _ _) Hp) as Hp'. pose proof (proj2 (lin_comb_qs_iff _ _) Hr) as Hr'.
    destruct (al_one _ _ _ A p Hp') as (a & Ea & Pa). destruct (al_one _ _ _ A r Hr') as (b & Eb & Pb).
    destruct (CL pone p (cm_in X [] Hmo) Hp) as (a' & Ea' & La). destruct (CL pone r (cm_in X [] Hmo) Hr) as (b' & Eb' & Lb).
    rewrite Ea in Ea'. rewrite Eb in Eb'. inversion Ea'; inversion Eb'; subst a' b'. exists a, b. split; auto. split; auto. split; auto. split; auto.
    apply (B_peq V du); auto. symmetry; auto.
  - pose proof (Forall_inv Hmo) as Hv. pose proof (Forall_inv_tail Hmo : cm X t) as HT. cbv beta in Hv. destruct Hv as (x & Hx & ->). destruct (even_special m N x Hx) as (i & Hi & Ei).
    assert (Ev : poly_in X (pvar (vS x))) by (apply (cm_in X [vS x]); constructor; [eauto|constructor]). pose proof (cm_in X t HT) as Et. pose proof (cm_in X _ Hmo) as Em.
    assert (E1 : peq (pmul (pvar (vS x)) (pmono t)) (pmono (vS x :: t))) by (change (vS x :: t) with ([vS x] ++ t); rewrite pmono_app; reflexivity).
    assert (E2 : peq (pmul (pmono t) (pvar (vS x))) (pmono (vS x :: t))) by (rewrite pmul_comm; exact E1).
    destruct (CL _ p Em Hp) as (a & Ea & La). destruct (CL _ r Em Hr) as (b & Eb & Lb). exists a, b. split; auto. split; auto. split; auto. split; auto.
    destruct (CL _ p Et Hp) as (u & Eu & Lu). destruct (CL _ r Ev Hr) as (w & Ew & Lw).
    pose proof (proj2 (lin_comb_qs_iff _ _) Hp) as Hp'. pose proof (proj2 (lin_comb_qs_iff _ _) Hr) as Hr'.
    assert (SP : forall c, L c -> exists z, qact g (pvar (vS x)) c = Ok z /\ peq z (ext qpi i c) /\ L (ext qpi i c)).
    { intros c Hc. destruct (S i c Hi (proj2 (lin_comb_qs_iff _ _) Hc)) as (z & z' & Ez & Ez' & Pz). rewrite <- Ei in Ez. destruct (w_pi i c z' Hi Hc Ez') as [Q LQ].
      exists z. split; auto. split; [rewrite Pz; exact Q|]. eapply supp_peq; [exact Q|exact LQ]. }
    assert (Pa : peq a (ext qpi i u)).
    { destruct (al_product _ _ _ A _ _ p Ev Et Hp') as (c & u' & z & Ec & Eu' & Ez & Pc). rewrite Eu in Eu'. inversion Eu'; subst u'.
      destruct (SP u Lu) as (z' & Ez' & Pz & _). rewrite Ez in Ez'. inversion Ez'; subst z'.
      destruct (al_equal _ _ _ A (pmul (pvar (vS x)) (pmono t)) (pmono (vS x :: t)) p p) as (f & f' & Ef & Ef' & Pf); auto; [eapply poly_in_peq; [symmetry; exact E1|exact Em]|reflexivity|].
      rewrite Ec in Ef. rewrite Ea in Ef'. inversion Ef; inversion Ef'; subst f f'. rewrite <- Pf, Pc, Pz. reflexivity. }
    destruct (SP r Hr) as (w' & Ew' & Pw & _). rewrite Ew in Ew'. inversion Ew'; subst w'.
    destruct (CL _ w Et Lw) as (h & Eh & Lh).
    assert (Pb : peq b h).
    { destruct (al_product _ _ _ A _ _ r Et Ev Hr') as (c & w' & z & Ec & Ew2 & Ez & Pc). rewrite Ew in Ew2. inversion Ew2; subst w'. rewrite Eh in Ez. inversion Ez; subst z.
      destruct (al_equal _ _ _ A (pmul (pmono t) (pvar (vS x))) (pmono (vS x :: t)) r r) as (f & f' & Ef & Ef' & Pf); auto; [eapply poly_in_peq; [symmetry; exact E2|exact Em]|reflexivity|].
      rewrite Ec in Ef. rewrite Eb in Ef'. inversion Ef; inversion Ef'; subst f f'. rewrite <- Pf, Pc. reflexivity. }
    destruct (IH HT p w Hp Lw) as (u' & h' & Eu' & Eh' & _ & _ & HB). rewrite Eu in Eu'. rewrite Eh in Eh'. inversion Eu'; inversion Eh'; subst u' h'.
    transitivity (B (ext qpi i u) r); [apply (B_peq V du); auto; reflexivity|].
    rewrite (ext_sa V I qpi du w_du w_lin w_adj i u r Hi Lu Hr).
    transitivity (B u w); [apply (B_peq V du); auto; [reflexivity|symmetry; auto]|].
    rewrite HB. apply (B_peq V du); auto; [reflexivity|symmetry; auto].
Qed.

Lemma w_mult lam p q : V lam -> L p -> L q -> exists r s, qmult g (pS lam) p = Ok r /\ qmult g (pS lam) q = Ok s /\ L r /\ L s /\ peq (B r q) (B p s).
Proof.
  intros Hl Lx Ly. assert (La : lin_comb0 V (pS lam)) by (intros mo Hmo; apply coef_pvar_neq0 in Hmo; eauto).
  destruct (giam_comb m N g Hg HN Hm Hk (pS lam) La) as (e & _ & Ee & He). destruct (two_acts m N g Hg HN H16 Hm Hk) as (A & _).
  assert (A' : action_laws (poly_in X) L (qact g)) by (eapply action_laws_ext; [| |exact A]; [reflexivity|intros; symmetry; apply lin_comb_qs_iff]).
  destruct (rel_sum X L L (qact g) (qact g) (fun a b => L a /\ L b /\ peq (B a q) (B p b)) (fun _ => True) (fun _ => True) p q A' A')
    with (e := e) as (r & s & Er & Es & Lr & Ls & _ & _ & HR); auto.
  - intros a a' b b' Pa Pb (L1 & L2 & R). split; [eapply supp_peq; eauto|]. split; [eapply supp_peq; eauto|].
    rewrite <- (B_peq V du a a' q q L1 Pa ltac:(reflexivity)), R. apply (B_peq V du); auto. reflexivity.
  - split; [apply supp_zero|]. split; [apply supp_zero|]. rewrite (B_sym V du w_du p pzero); auto; [reflexivity|apply supp_zero].
  - intros a a' b b' (L1 & L2 & R) (L1' & L2' & R'). split; [apply supp_padd; auto|]. split; [apply supp_padd; auto|].
    rewrite (B_add V du p), <- R, <- R' by auto. unfold TwoPair.B. rewrite psubst_padd. reflexivity.
  - intros c a b _ (L1 & L2 & R). split; [apply supp_pscale; auto|]. split; [apply supp_pscale; auto|].
    assert (Q : peq (pscale c b) (pscale c (pmul (pmono []) b))) by (change (pmono []) with pone; rewrite pmul_1_l; reflexivity).
    rewrite (B_peq V du p p _ _ Lx ltac:(reflexivity) Q), (B_mul V du p), <- R by auto. unfold TwoPair.B. rewrite psubst_pscale. change (pmono []) with pone. rewrite pmul_1_l. reflexivity.
  - intros mo Hmo _. destruct (w_mono mo Hmo p q Lx Ly) as (a & b & Ea & Eb & L1 & L2 & R). exists a, b. auto 10.
  - eapply supp_impl; [|exact He]. auto.
  - exists r, s. unfold qmult. rewrite Ee. auto 10.
Qed.
Lemma w_coef a b qs x y : L a -> L b -> peq (cpoly a x) (cpoly b y) -> Forall isqv qs -> coef a (vS x :: qs) = coef b (vS y :: qs).
Proof.
  intros La Lb E HQ. specialize (E qs). rewrite !(coef_cpoly V) in E by auto.
  replace (forallb _ qs) with true in E; auto. symmetry. apply forallb_forall. intros v Hv. rewrite Forall_forall in HQ. specialize (HQ v Hv). destruct v; simpl in *; try contradiction; reflexivity.
Qed.
Theorem w_sym lam x y : V lam -> V x -> V y -> exists r s, qmult g (pS lam) (pS x) = Ok r /\ qmult g (pS lam) (pS y) = Ok s /\ L r /\ L s /\
  forall qs, Forall isqv qs -> coef r (vS (du y) :: qs) = coef s (vS (du x) :: qs).
Proof.
  intros Hl Hx Hy. assert (Lx := w_class x Hx). assert (Ly := w_class y Hy). destruct (w_mult lam (pS x) (pS y) Hl Lx Ly) as (r & s & Er & Es & Lr & Ls & HR).
  exists r, s. split; auto. split; auto. split; auto. split; auto. intros qs HQ. apply w_coef; auto.
  rewrite <- (B_class V du w_du r y), <- (B_class V du w_du s x) by auto. rewrite HR. apply (B_sym V du w_du); auto.
Qed.

(** dualize and the point class *)
Lemma w_dual l : V l -> exists d, dualize g (pS l) = Ok d /\ peq d (pS (du l)).
Proof.
  destruct (two_inv m N g Hg HN H16 Hm Hk) as (-> & Hn & -> & _). intros Hl. unfold gD. rewrite <- VD in Hl.
  destruct (g_dual_class (mkGr TD 1 m) (typed_in 1 (m + 1 - 1) (m + 1)) (isotropic_set_OG (m + 1 - 1) (2 * m + 2))
      (idxD m 1 (m + 1 - 1)) (prtD m 1 (m + 1 - 1)) (rdD m)) with (l := l) as (r & Er & Pr & _); auto.
  - intros. apply OD1; auto; lia.
  - intros. apply OD2; auto; lia.
  - intros. eapply OD5; eauto.
  - intros. eapply OD6; eauto.
  - intros. apply (OD7 m 1 (m + 1 - 1)); auto; lia.
  - exists r. auto.
Qed.
Lemma w_pt : du [] = pt.
Proof. destruct (two_inv m N g Hg HN H16 Hm Hk) as (-> & Hn & _). unfold dualD. rewrite (OD_point m 1 (m + 1 - 1)) by lia. reflexivity. Qed.

Theorem w_duality : duality_law12 V (qmult g) (dualize g) pt.
Proof.
  intros lam mu Hl Hmu. destruct (w_dual lam Hl) as (d & Ed & Pd). destruct (w_sym lam mu [] Hl Hmu w_nil) as (r & s & Er & Es & Lr & Ls & HE).
  exists d, r. split; auto. split; auto. rewrite w_pt in HE.
  pose proof (pp_unit_right _ _ _ _ (c77 m N g Hg HN H16 Hm Hk) (pS lam) s (proj2 (lin_comb_qs_iff _ _) (w_class lam Hl)) Es) as Ps.
  assert (HE' : forall qs, Forall isqv qs -> coef r (vS pt :: qs) = coef (pS lam) (vS (du mu) :: qs)) by (intros qs HQ; rewrite HE, (Ps _); auto).
  split; [|split].
  - intros Q. rewrite Pd in Q. apply pS_inj in Q. subst mu. rewrite (HE' [] ltac:(constructor)), w_du by auto. unfold pS, pvar. cbn [coef]. rewrite (proj2 (mono_eqb_perm _ _) (Permutation_refl _)). ring.
  - intros Q. rewrite (HE' [] ltac:(constructor)). destruct (Qc_eq_dec (coef (pS lam) [vS (du mu)]) 0%Qc) as [E|E]; auto. exfalso. apply Q. apply coef_pvar_neq0 in E. inversion E. subst lam.
    rewrite Pd, w_du by auto. reflexivity.
  - intros d1 d2 Hd. unfold q12S. rewrite HE' by apply q12_isqv. destruct (Qc_eq_dec (coef (pS lam) (vS (du mu) :: repeat VQ1 d1 ++ repeat VQ2 d2)) 0%Qc) as [E|E]; auto. exfalso.
    apply coef_pvar_neq0 in E. apply (f_equal (@length var)) in E. cbn [length] in E. rewrite app_length, !repeat_length in E. lia.
Qed.
Theorem w_symmetric : symmetric_constants12 V (qmult g) (dualize g).
Proof.
  intros lam mu nu Hl Hmu Hnu. destruct (w_dual mu Hmu) as (dm & Em & Pm). destruct (w_dual nu Hnu) as (dn & En & Pn).
  destruct (w_sym lam mu (du nu) Hl Hmu (w_V nu Hnu)) as (r & s & Er & Es & _ & _ & HE). exists (du mu), (du nu), dm, dn, r, s.
  repeat (split; [first [assumption | apply w_V; assumption]|]). intros d1 d2. unfold q12S. rewrite <- HE, w_du by (auto; apply q12_isqv). reflexivity.
Qed.

(** ** products are never zero *)
Lemma w_point lam c : V lam -> L c -> exists r, qmult g (pS lam) c = Ok r /\ L r /\ forall qs, Forall isqv qs -> coef r (vS pt :: qs) = coef c (vS (du lam) :: qs).
Proof.
  intros Hl Hc. destruct (w_mult lam c (pS []) Hl Hc (w_class [] w_nil)) as (r & s & Er & Es & Lr & Ls & HR). exists r. split; auto. split; auto. intros qs HQ. apply w_coef; auto.
  pose proof (pp_unit_right _ _ _ _ (c77 m N g Hg HN H16 Hm Hk) (pS lam) s (proj2 (lin_comb_qs_iff _ _) (w_class lam Hl)) Es) as Ps.
  rewrite <- w_pt, <- (B_class V du w_du r []), HR by (auto; apply w_nil). rewrite (B_peq V du c c s (pS lam) Hc ltac:(reflexivity) Ps). apply (B_class V du w_du); auto.
Qed.
Lemma coef_shift a p mo : coef (pmul (pmono a) p) (a ++ mo) = coef p mo.
Proof.
  induction p as [|[u c] t IH]; [assert (E : peq (pmul (pmono a) []) pzero) by (rewrite pmul_comm; reflexivity); rewrite (E _); reflexivity|].
  assert (E : peq (pmul (pmono a) ((u, c) :: t)) (padd (pscale c (pmono (a ++ u))) (pmul (pmono a) t))) by (rewrite poly_cons, pmono_app, !pscale_pmul; ring).
  rewrite (E _), coef_padd, coef_pscale, IH, (poly_cons u c t mo), coef_padd, coef_pscale. f_equal. f_equal. unfold pmono. cbn [coef].
  replace (mono_eqb (a ++ u) (a ++ mo)) with (mono_eqb u mo); [reflexivity|]. apply eq_true_iff_eq. rewrite !mono_eqb_perm. split; [apply Permutation_app_head|apply Permutation_app_inv_l].
Qed.
Lemma pos_sum_neq p r mo : positive_coefs p -> positive_coefs r -> coef p mo <> 0%Qc -> coef (padd p r) mo <> 0%Qc.
Proof.
  intros Hp Hr Hne. rewrite coef_padd. destruct (Qc_eq_dec (coef r mo) 0%Qc) as [E|E]; [rewrite E, Qcplus_0_r; auto|].
  destruct (pi_add _ _ (Hp mo Hne) (Hr mo E)) as (z & Hz & Ez). rewrite Ez. intros E0. apply (f_equal (fun c => Qnum (this c))) in E0. revert E0.
  unfold Q2Qc. cbn [this]. change (Qred (inject_Z z)) with (Qred (z # 1)). unfold Qred. pose proof (Z.ggcd_correct_divisors z 1) as D. pose proof (Z.ggcd_gcd z 1) as G.
  destruct (Z.ggcd z 1) as (h & (s & t)). cbn in *. rewrite Z.gcd_1_r in G. lia.
Qed.
Lemma w_Ppos i l : V l -> positive_coefs (P qpi i l).
Proof. intros Hl. destruct (qu_P m N g Hg HN H16 Hm Hk i l Hl) as (r & c & _ & Pr & _ & _ & Hp & _). eapply pos_peq; eauto. Qed.
Lemma w_Pint i c : I i -> L c -> positive_coefs c -> positive_coefs (ext qpi i c).
Proof.
  intros Hi Hc Hp. destruct (apply_pi qpi _ _ isqv isqv_id w_ok i c Hi Hc) as (r & Er & Pr). eapply pos_peq; [exact Pr|].
  eapply (pi_pos V I L qpi); eauto.
  - intros p Lp mo Hmo. apply (proj2 (lin_comb_qs_iff V p) Lp mo Hmo).
  - intros j l Hj Hl. destruct (qu_P m N g Hg HN H16 Hm Hk j l Hl) as (x & _ & Ex & _ & _ & _ & Hx & _). exists x. auto.
Qed.
Lemma w_step i c y z qs qs' : I i -> L c -> V y -> positive_coefs c -> Forall isqv qs -> coef c (vS y :: qs) <> 0%Qc -> coef (P qpi i y) (vS z :: qs') <> 0%Qc ->
  coef (ext qpi i c) (vS z :: qs' ++ qs) <> 0%Qc.
Proof.
  intros Hi Hc Hy Hp HQ H1 H2. set (k := coef c (vS y :: qs)) in *. set (c' := psub c (pscale k (pmono (vS y :: qs)))).
  assert (Ec : peq c (padd (pscale k (pmono (vS y :: qs))) c')) by (unfold c'; ring).
  assert (Hc' : forall mo, coef c' mo <> 0%Qc -> coef c' mo = coef c mo /\ coef c mo <> 0%Qc).
  { intros mo. unfold c'. rewrite coef_psub, coef_pscale. unfold pmono. cbn [coef]. destruct (mono_eqb (vS y :: qs) mo) eqn:E.
    - apply mono_eqb_perm in E. rewrite <- (coef_perm c _ _ E). fold k. intros Hne. exfalso. apply Hne. ring.
    - intros Hne. assert (Q : (coef c mo - k * 0 = coef c mo)%Qc) by ring. rewrite Q in *. auto. }
  assert (Lc' : L c') by (intros mo Hmo; apply Hc; apply Hc'; auto).
  assert (Pc' : positive_coefs c') by (intros mo Hmo; destruct (Hc' mo Hmo) as [E1 E2]; rewrite E1; auto).
  assert (Ee : peq (ext qpi i c) (padd (pscale k (pmul (pmono qs) (P qpi i y))) (ext qpi i c'))).
  { unfold ext at 1. rewrite Ec, psubst_padd, psubst_pscale. fold (ext qpi i c'). apply padd_proper; [|reflexivity]. apply pscale_proper.
    assert (Em : peq (pmono (vS y :: qs)) (pmul (pmono qs) (pS y))) by (rewrite pmul_comm; change (vS y :: qs) with ([vS y] ++ qs); rewrite pmono_app; reflexivity).
    rewrite Em, psubst_pmul. change (pS y) with (pvar (vS y)). rewrite psubst_pvar. apply pmul_proper; [|reflexivity].
    apply (psubst_qs (sigma qpi i)); auto. intros v Hv. destruct v; simpl in Hv; try contradiction; reflexivity. }
  rewrite (Ee _). apply pos_sum_neq.
  - apply pos_pscale; [apply Hp; auto|]. apply pos_pmul; [apply pos_pmono|apply w_Ppos; auto].
  - apply w_Pint; auto.
  - rewrite coef_pscale. intros E0. apply Qcmult_integral in E0. destruct E0 as [E0|E0]; [apply H1; exact E0|].
    rewrite (coef_perm _ (vS z :: qs' ++ qs) (qs ++ vS z :: qs')) in E0; [rewrite coef_shift in E0; apply H2; exact E0|].
    rewrite <- Permutation_middle. constructor. apply Permutation_app_comm.
Qed.

Notation ch := (chain12 (qpieri g) I).
Lemma w_op i l : I i -> V l -> exists r, qpieri g i (pS l) = Ok r /\ peq r (P qpi i l).
Proof. intros Hi Hl. destruct (qu_P m N g Hg HN H16 Hm Hk i l Hl) as (r & _ & E & Pr & _). eauto. Qed.
Lemma ch_one i x y : I i -> V x -> occurs12 (P qpi i x) y -> ch x y.
Proof. intros Hi Hx (d1 & d2 & H). destruct (w_op i x Hi Hx) as (r & E & Pr). eapply chain12_step; [apply chain12_refl|exact Hi|exact E|]. exists d1, d2. rewrite (Pr _). exact H. Qed.
Lemma ch_trans x y z : ch x y -> ch y z -> ch x z.
Proof. intros H1 H2. induction H2; auto. eapply chain12_step; eauto. Qed.
Lemma occ_V i x y : I i -> V x -> occurs12 (P qpi i x) y -> V y.
Proof.
  intros Hi Hx (d1 & d2 & H). destruct (w_lin i x Hi Hx _ H) as (z & qs & Hz & HP & HQ). assert (Hin : In (vS y) (vS z :: qs)) by (eapply Permutation_in; [exact HP|left; reflexivity]).
  destruct Hin as [E|Hin]; [inversion E; subst; auto|]. rewrite Forall_forall in HQ. destruct (HQ _ Hin).
Qed.
Lemma ch_V x y : V x -> ch x y -> V y.
Proof.
  intros Hx H. induction H as [|y z i r _ IH Hi E Hz]; auto. destruct (w_op i y Hi IH) as (r' & E' & Pr). rewrite E in E'. inversion E'; subst r'. apply (occ_V i y z Hi IH).
  destruct Hz as (d1 & d2 & Hz). exists d1, d2. rewrite <- (Pr _). exact Hz.
Qed.
Lemma ch_dual x y : V x -> ch x y -> ch (du y) (du x).
Proof.
  intros Hx H. induction H as [|y z i r H IH Hi E Hz]; [apply chain12_refl|]. assert (Hy := ch_V x y Hx H).
  destruct (w_op i y Hi Hy) as (r' & E' & Pr). rewrite E in E'. inversion E'; subst r'. destruct Hz as (d1 & d2 & Hz). rewrite (Pr _) in Hz.
  assert (Vz : V z) by (apply (occ_V i y z Hi Hy); exists d1, d2; auto). eapply ch_trans; [|exact IH].
  apply (ch_one i); auto; [apply w_V; auto|]. exists d1, d2. unfold q12S in *. rewrite w_adj, w_du; auto; [apply w_V; auto|apply q12_isqv].
Qed.
Lemma ch_nil l : V l -> ch [] l.
Proof.
  destruct (two_inv m N g Hg HN H16 Hm Hk) as (Eg & Hn & EV & HI).
  assert (G : forall s l, (muM (m + 1) l <= s)%nat -> V l -> ch [] l).
  { induction s as [|s IH]; intros x Hs Hx; (destruct (list_eq_dec Z.eq_dec x []) as [->|Hne]; [apply chain12_refl|]);
      pose proof Hx as Hx'; rewrite EV in Hx'; destruct (T_rec m Hn x Hx' Hne) as (p & l0 & _ & Hp & [Hl0 Hlt] & HS); [lia|].
    rewrite <- EV in Hl0. apply HI in Hp. eapply ch_trans; [apply (IH l0); [lia|auto]|]. apply (ch_one p); auto. exists O, O. change (q12S 0 0 x) with [vS x]. intros E0.
    assert (Hne' : coef (psub (P qpi p l0) (pS x)) [vS x] <> 0%Qc).
    { rewrite coef_psub, E0. unfold pS, pvar. cbn [coef]. rewrite (proj2 (mono_eqb_perm _ _) (Permutation_refl _)). intros E1. apply (f_equal (fun c => Qnum (this c))) in E1. vm_compute in E1. discriminate. }
    rewrite Eg in Hne'. destruct (HS _ Hne') as (z & qs & [Hz Hzl] & HP & HQ). assert (Hin : In (vS z) [vS x]) by (eapply Permutation_in; [symmetry; exact HP|left; reflexivity]).
    destruct Hin as [E|[]]. inversion E. subst z. lia. }
  intros Hl. apply (G (muM (m + 1) l)); auto.
Qed.
End Two.
