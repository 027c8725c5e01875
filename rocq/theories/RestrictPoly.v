(** Putting the classes that do not fit to 0 is a homomorphism: products with polynomials in the classes. *)

From Coq Require Import ZArith List Lia Bool Permutation QArith Qcanon Setoid Morphisms.
From Verif Require Import Py OrderFacts PyFacts ModelPart ModelQcalc ModelPoly ModelStr ModelGr Spec
  PolyFacts SuppFacts ExprFacts OpTheory WSum Sys Sys2 DetFacts GiamDet PresIdeal2 DualSys Restrict.
Import ListNotations.
Open Scope Z_scope.

Section R.
Context {tb ts : gtype} {pib pis : Z -> list Z -> res poly} {Vb Vs : list Z -> Prop} {Ib Is : Z -> Prop}
  {kb ks : Z} {mub mus : list Z -> nat} {fb fs : nat}.
Hypothesis SB : pieri_sys tb pib Vb Ib kb mub fb.
Hypothesis SS : pieri_sys ts pis Vs Is ks mus fs.
Variable fits : list Z -> bool.
Notation lqs := (supp (linm Vs (eq VQ))).
Notation lqb := (supp (linm Vb (eq VQ))).
Notation Mb := (M tb pib kb fb).
Notation Ms := (M ts pis ks fs).
Notation rho := (psubst (dv (rD fits))).
Hypothesis Hfit : forall l, Vb l -> fits l = true -> Vs l.
Hypothesis Hmain : forall l b, Vb l -> lqb b -> peq (rho (Mb (pS l) b)) (Ms (rD fits l) (rho b)).

Lemma vp_rho a : supp (polym Vb) a -> supp (polym Vs) (rho a).
Proof.
  apply supp_psubst; [apply polym_inv|]. induction 1 as [|v m Hv _ IH]; [apply supp_pone; [apply polym_inv|constructor]|].
  change (msubst (dv (rD fits)) (v :: m)) with (pmul (dv (rD fits) v) (msubst (dv (rD fits)) m)). eapply (supp_pmul (polym Vs) (polym Vs)); [apply polym_inv| | |exact IH].
  - intros x y Hx Hy. apply Forall_app. split; auto.
  - destruct Hv as [->|(l & Hl & ->)]; [apply supp_pvar; [apply polym_inv|]; constructor; auto|]. change (dv (rD fits) (vS l)) with (rD fits l). unfold rD. destruct (fits l) eqn:E; [|apply supp_zero].
    apply supp_pvar; [apply polym_inv|]. constructor; eauto.
Qed.
Lemma q_l {t pi V I k mu f} (H : pieri_sys t pi V I k mu f) b : supp (linm V (eq VQ)) b -> peq (M t pi k f (pmono [VQ]) b) (pmul (pmono [VQ]) b).
Proof.
  intros Hb. assert (Hv : supp (polym V) (pmono [VQ])) by (apply supp_pmono; [apply polym_inv|]; constructor; auto).
  transitivity (M t pi k f (pmono [VQ]) (M t pi k f (pS []) b)); [apply M_peq; [reflexivity|symmetry; apply (sys_unit H); auto]|].
  rewrite <- (sys_pmul H) by auto using (@sys_lq_vp V), (sys_lq_one H). rewrite (sys_q_l H [VQ] (pS []) b) by auto using (sys_lq_one H). rewrite (sys_unit H b Hb). reflexivity.
Qed.
Lemma r_poly a b : supp (polym Vb) a -> lqb b -> peq (rho (Mb a b)) (Ms (rho a) (rho b)).
Proof.
  intros Ha. revert b. pose proof (lqs_rho fits Hfit) as LR.
  assert (Hmono : forall m, polym Vb m -> forall b, lqb b -> peq (rho (Mb (pmono m) b)) (Ms (rho (pmono m)) (rho b))).
  { induction 1 as [|v m Hv Hm IH]; intros b Hb.
    - assert (E1 : peq (Mb (pmono []) b) b) by (unfold M; rewrite psubst_pmono; simpl msubst; destruct SB; eapply (OpN_pone tb pib Vb Ib (eq VQ) eqVQ_isqv); eassumption).
      assert (E2 : peq (Ms (rho (pmono [])) (rho b)) (rho b)).
      { unfold M. rewrite !psubst_pmono. simpl msubst. rewrite psubst_pone. pose proof (LR b Hb). destruct SS. eapply (OpN_pone ts pis Vs Is (eq VQ) eqVQ_isqv); eassumption. }
      rewrite (psubst_proper _ _ _ E1), E2. reflexivity.
    - assert (Hvm : supp (polym Vb) (pmono m)) by (apply supp_pmono; auto; apply polym_inv). assert (Hvv : supp (polym Vb) (pmono [v])) by (apply supp_pmono; [apply polym_inv|]; constructor; auto).
      assert (E : peq (pmono (v :: m)) (pmul (pmono [v]) (pmono m))) by apply (pmono_app [v] m).
      assert (Hl : lqb (Mb (pmono m) b)) by (apply (sys_lin SB); auto).
      transitivity (rho (Mb (pmono [v]) (Mb (pmono m) b))); [apply psubst_proper; rewrite E; apply (sys_pmul SB); auto|].
      transitivity (Ms (rho (pmono [v])) (Ms (rho (pmono m)) (rho b))); [|symmetry; etransitivity; [apply M_peq; [rewrite (psubst_proper _ _ _ E), psubst_pmul; reflexivity|reflexivity]|]; apply (sys_pmul SS); auto using vp_rho].
      transitivity (Ms (rho (pmono [v])) (rho (Mb (pmono m) b))); [|apply M_peq; [reflexivity|apply IH; auto]].
      destruct Hv as [->|(l & Hl' & ->)].
      + transitivity (rho (pmul (pmono [VQ]) (Mb (pmono m) b))); [apply psubst_proper, (q_l SB); auto|]. rewrite psubst_pmul.
        assert (Ez : peq (rho (pmono [VQ])) (pmono [VQ])) by (change (pmono [VQ]) with (pvar VQ); rewrite psubst_pvar; reflexivity).
        rewrite Ez. symmetry. apply (q_l SS). apply LR; auto.
      + transitivity (Ms (rD fits l) (rho (Mb (pmono m) b))); [apply (Hmain l); auto|]. apply M_peq; [|reflexivity]. symmetry. apply rho_S. }
  revert a Ha. enough (G : forall a, supp (polym Vb) a -> supp (polym Vb) a /\ forall b, lqb b -> peq (rho (Mb a b)) (Ms (rho a) (rho b))) by (intros a Ha; apply G; auto).
  apply (supp_ind (polym Vb)).
  - intros p r E (Hp & Hk). split; [eapply supp_peq; eauto|]. intros b Hb. transitivity (rho (Mb p b)); [apply psubst_proper, M_peq; [symmetry; exact E|reflexivity]|]. rewrite (Hk b Hb). apply M_peq; [apply psubst_proper; exact E|reflexivity].
  - split; [apply supp_zero|]. intros b Hb. rewrite (psubst_proper _ _ _ (sys_zero_l (V := Vb) b Hb)). change (rho pzero) with pzero. rewrite (sys_zero_l (V := Vs) (rho b) (LR b Hb)). reflexivity.
  - intros m c p Hm (Hp & IH). assert (Hvm : supp (polym Vb) (pmono m)) by (apply supp_pmono; auto; apply polym_inv).
    split; [apply supp_padd; auto; apply supp_pscale; auto|]. intros b Hb.
    transitivity (rho (padd (pscale c (Mb (pmono m) b)) (Mb p b))); [apply psubst_proper; rewrite (sys_add_l SB), (sys_scale_l SB); auto using supp_pscale; reflexivity|].
    transitivity (Ms (padd (pscale c (rho (pmono m))) (rho p)) (rho b)); [|apply M_peq; [rewrite psubst_padd, psubst_pscale; reflexivity|reflexivity]].
    rewrite (sys_add_l SS), (sys_scale_l SS); auto using supp_pscale, vp_rho. rewrite psubst_padd, psubst_pscale, (Hmono m Hm b Hb), (IH b Hb). reflexivity.
Qed.
End R.

(** restricting twice *)
Lemma rho_rho f1 f2 p : (forall l, f1 l = true -> f2 l = true) -> peq (psubst (dv (rD f1)) (psubst (dv (rD f2)) p)) (psubst (dv (rD f1)) p).
Proof.
  intros H. rewrite psubst_comp. apply psubst_ext. intros m c v _ _. destruct v as [[l|u w]| | |]; try (cbn [dv]; rewrite psubst_pvar; reflexivity); [|reflexivity].
  change (dv (rD f2) (VS (SP l))) with (rD f2 l). change (dv (rD f1) (VS (SP l))) with (rD f1 l). unfold rD at 2. destruct (f2 l) eqn:E; [unfold pS; rewrite psubst_pvar; reflexivity|].
  unfold rD. destruct (f1 l) eqn:E1; [rewrite (H l E1) in E; discriminate|reflexivity].
Qed.
