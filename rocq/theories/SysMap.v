(** Homomorphisms: a map of classes that turns the Pieri operators of one ring into
    multiplications of another respects all products. *)

From Coq Require Import ZArith List Lia Bool Permutation QArith Qcanon Setoid Morphisms.
From Verif Require Import Py OrderFacts PyFacts ModelPart ModelQcalc ModelPoly ModelStr ModelGr Spec
  PolyFacts SuppFacts OpTheory Sys Sys2.
Import ListNotations.
Open Scope Z_scope.

(** the map on polynomials; [q] is fixed *)
Definition gmap (F : list Z -> poly) (v : var) : poly :=
  match v with VS (SP l) => F l | _ => pvar v end.
Definition fmap (f : list Z -> list Z) (v : var) : poly :=
  match v with VS (SP l) => pS (f l) | _ => pvar v end.

Section GMap.
Context {t1 t2 : gtype} {pi1 pi2 : Z -> list Z -> res poly} {V1 V2 : list Z -> Prop} {I1 I2 : Z -> Prop}
  {k1 k2 : Z} {mu1 mu2 : list Z -> nat} {fuel1 fuel2 : nat}.
Hypothesis H1 : pieri_sys t1 pi1 V1 I1 k1 mu1 fuel1.
Hypothesis H2 : pieri_sys t2 pi2 V2 I2 k2 mu2 fuel2.
Notation M1 := (M t1 pi1 k1 fuel1).
Notation M2 := (M t2 pi2 k2 fuel2).
Notation lq1 := (supp (linm V1 (eq VQ))).
Notation lq2 := (supp (linm V2 (eq VQ))).

Variable F : list Z -> poly.
Variable s : Z -> poly.
Hypothesis f_V : forall l, V1 l -> lq2 (F l).
Hypothesis f_nil : peq (F []) (pS []).
Hypothesis s_lq : forall i, I1 i -> lq2 (s i).
Notation w := (psubst (gmap F)).
Hypothesis HP : forall i l, I1 i -> V1 l -> peq (w (P pi1 i l)) (M2 (s i) (F l)).

Lemma gw_pS l : peq (w (pS l)) (F l).
Proof. unfold pS. rewrite psubst_pvar. reflexivity. Qed.
Lemma gw_qm qm : Forall (eq VQ) qm -> peq (w (pmono qm)) (pmono qm).
Proof.
  intros H. rewrite psubst_pmono. induction H as [|v qm <- Hq IH]; [reflexivity|]. simpl. rewrite IH.
  change (pmono (VQ :: qm)) with (pmono ([VQ] ++ qm)). rewrite pmono_app. reflexivity.
Qed.
Lemma gw_lq p : lq1 p -> lq2 (w p).
Proof.
  revert p. apply (lin_ind V1 (eq VQ)).
  - intros p r E Hp. eapply supp_peq; [rewrite <- E; reflexivity|]. exact Hp.
  - apply supp_zero.
  - intros qm l c p Hl Hq Hp IH. eapply supp_peq; [symmetry; rewrite psubst_padd, psubst_pscale, psubst_pmul, gw_qm, gw_pS by auto; reflexivity|].
    apply supp_padd; auto. apply supp_pscale. apply (lin_qmul V2 (eq VQ)); auto. all: try (apply f_V; auto).
Qed.
Lemma gw_ext i p : I1 i -> lq1 p -> peq (w (ext pi1 i p)) (M2 (s i) (w p)).
Proof.
  intros Hi. revert p. apply (lin_ind V1 (eq VQ)).
  - intros p r E Hp. rewrite <- (ext_proper _ _ _ _ E), Hp. apply M_peq; [reflexivity|]. rewrite E. reflexivity.
  - symmetry. change (w (ext pi1 i pzero)) with pzero. change (w pzero) with pzero.
    rewrite (sys_comm H2); auto using supp_zero. apply (sys_zero_l (V := V2)). auto.
  - intros qm l c p Hl Hq Hp IH.
    rewrite ext_padd, ext_pscale, (ext_qmul pi1 (eq VQ) eqVQ_isqv), ext_pS by auto.
    assert (E : peq (w (padd (pscale c (pmul (pmono qm) (pS l))) p)) (padd (pscale c (pmul (pmono qm) (F l))) (w p))).
    { rewrite psubst_padd, psubst_pscale, psubst_pmul, gw_qm, gw_pS by auto. reflexivity. }
    rewrite psubst_padd, psubst_pscale, psubst_pmul, IH, HP, gw_qm by auto.
    symmetry. etransitivity; [apply (M_peq t2 pi2 k2 fuel2); [reflexivity|exact E]|].
    rewrite sys_add_r, sys_scale_r, (sys_q_r H2); auto using sys_lq_pS. reflexivity.
Qed.
Lemma gw_comb (W : list Z -> Prop) b a : (forall x, W x -> V1 x) -> lq1 b ->
  (forall x, W x -> peq (w (M1 (pS x) b)) (M2 (F x) (w b))) ->
  supp (linm W (eq VQ)) a -> peq (w (M1 a b)) (M2 (w a) (w b)).
Proof.
  intros HW Hb HK Ha. pose proof (gw_lq b Hb) as Hwb.
  assert (Hup : forall p, supp (linm W (eq VQ)) p -> lq1 p).
  { intros p. apply supp_impl. intros m (u & v & ? & ? & ?). exists u, v; auto. }
  revert a Ha. apply (lin_ind W (eq VQ)).
  - intros p r E Hp. rewrite <- (M_peq t1 pi1 k1 fuel1 p r b b E (reflexivity b)), Hp.
    apply M_peq; [rewrite E|]; reflexivity.
  - reflexivity.
  - intros qm l c p Hl Hq Hp IH. apply Hup in Hp.
    assert (Hpl : lq1 (pS l)) by (apply sys_lq_pS; auto).
    assert (Hpl2 : lq2 (F l)) by auto.
    assert (Hql : lq1 (pmul (pmono qm) (pS l))) by (apply (lin_qmul V1 (eq VQ)); auto).
    assert (Hql2 : lq2 (pmul (pmono qm) (F l))) by (apply (lin_qmul V2 (eq VQ)); auto).
    rewrite (sys_add_l H1), (sys_scale_l H1), (sys_q_l H1); auto using (@sys_lq_vp V1), (@supp_pscale (linm V1 (eq VQ))).
    rewrite psubst_padd, psubst_pscale, psubst_pmul, IH, HK, gw_qm by auto.
    assert (E : peq (w (padd (pscale c (pmul (pmono qm) (pS l))) p)) (padd (pscale c (pmul (pmono qm) (F l))) (w p))).
    { rewrite psubst_padd, psubst_pscale, psubst_pmul, gw_qm, gw_pS by auto. reflexivity. }
    rewrite (M_peq t2 pi2 k2 fuel2 _ _ _ _ E (reflexivity (w b))).
    pose proof (gw_lq p Hp) as Hwp.
    rewrite (sys_add_l H2), (sys_scale_l H2), (sys_q_l H2); auto using (@sys_lq_vp V2), (@supp_pscale (linm V2 (eq VQ))). reflexivity.
Qed.
Lemma gw_M b : lq1 b -> forall l, V1 l -> peq (w (M1 (pS l) b)) (M2 (F l) (w b)).
Proof.
  intros Hb. pose proof (gw_lq b Hb) as Hwb.
  assert (G : forall n l, (mu1 l < n)%nat -> V1 l -> peq (w (M1 (pS l) b)) (M2 (F l) (w b))).
  { induction n as [|n IH]; intros l Hn Hl; [lia|].
    destruct (list_eq_dec Z.eq_dec l []) as [->|Hne].
    - rewrite (M_peq t2 pi2 k2 fuel2 _ _ _ _ f_nil (reflexivity (w b))).
      rewrite (sys_unit H1 b Hb), (sys_unit H2 (w b)) by auto. reflexivity.
    - destruct (sys_rec H1 l b Hl Hb Hne) as (i & l0 & A1 & A2 & A3 & A4 & A5).
      assert (Vl0 : V1 l0) by apply A3.
      assert (L0 : lq2 (F l0)) by auto.
      rewrite A5, psubst_psub.
      rewrite gw_ext; auto; [|apply (sys_lin H1); auto; apply sys_lq_vp, sys_lq_pS; auto].
      rewrite (M_peq t2 pi2 k2 fuel2 _ _ _ _ (reflexivity (s i)) (IH l0 ltac:(destruct A3; lia) Vl0)).
      rewrite (gw_comb (below V1 mu1 l) b (psub (P pi1 i l0) (pS l))); auto.
      + assert (Hsi : lq2 (s i)) by auto.
        rewrite <- (sys_assoc H2) by auto.
        assert (E : peq (w (psub (P pi1 i l0) (pS l))) (psub (M2 (s i) (F l0)) (F l))).
        { rewrite psubst_psub, HP, gw_pS by auto. reflexivity. }
        rewrite (M_peq t2 pi2 k2 fuel2 _ _ _ _ E (reflexivity (w b))).
        assert (Lm : lq2 (M2 (s i) (F l0))) by (apply (sys_lin H2); auto; apply sys_lq_vp; auto).
        assert (Ll : lq2 (F l)) by auto.
        rewrite (sys_sub_l H2) by auto. ring.
      + intros x Hx; apply Hx.
      + intros x [Hx Hx']. apply IH; auto. lia. }
  intros l Hl. apply (G (S (mu1 l))); auto.
Qed.
Theorem sys_gmap a b : lq1 a -> lq1 b -> peq (w (M1 a b)) (M2 (w a) (w b)).
Proof. intros Ha Hb. apply (gw_comb V1); auto. intros. apply gw_M; auto. Qed.
End GMap.

(** the case of a map of classes *)
Section Map.
Context {t1 t2 : gtype} {pi1 pi2 : Z -> list Z -> res poly} {V1 V2 : list Z -> Prop} {I1 I2 : Z -> Prop}
  {k1 k2 : Z} {mu1 mu2 : list Z -> nat} {fuel1 fuel2 : nat}.
Hypothesis H1 : pieri_sys t1 pi1 V1 I1 k1 mu1 fuel1.
Hypothesis H2 : pieri_sys t2 pi2 V2 I2 k2 mu2 fuel2.
Notation M1 := (M t1 pi1 k1 fuel1).
Notation M2 := (M t2 pi2 k2 fuel2).
Notation lq1 := (supp (linm V1 (eq VQ))).
Notation lq2 := (supp (linm V2 (eq VQ))).

Variable f : list Z -> list Z.
Variable s : Z -> poly.
Hypothesis f_V : forall l, V1 l -> V2 (f l).
Hypothesis f_nil : f [] = [].
Hypothesis s_lq : forall i, I1 i -> lq2 (s i).
Notation w := (psubst (fmap f)).
Hypothesis HP : forall i l, I1 i -> V1 l -> peq (w (P pi1 i l)) (M2 (s i) (pS (f l))).

Lemma w_pS l : peq (w (pS l)) (pS (f l)).
Proof. exact (gw_pS (fun l => pS (f l)) l). Qed.
Lemma w_qm qm : Forall (eq VQ) qm -> peq (w (pmono qm)) (pmono qm).
Proof. exact (gw_qm (fun l => pS (f l)) qm). Qed.
Lemma w_lq p : lq1 p -> lq2 (w p).
Proof. apply (gw_lq (V1 := V1) (V2 := V2) (fun l => pS (f l))). intros l Hl. apply sys_lq_pS; auto. Qed.
Lemma w_ext i p : I1 i -> lq1 p -> peq (w (ext pi1 i p)) (M2 (s i) (w p)).
Proof. apply (gw_ext (V1 := V1) (I1 := I1) H2 (fun l => pS (f l)) s); auto. intros l Hl. apply sys_lq_pS; auto. Qed.
Theorem sys_map a b : lq1 a -> lq1 b -> peq (w (M1 a b)) (M2 (w a) (w b)).
Proof.
  apply (sys_gmap H1 H2 (fun l => pS (f l)) s); auto.
  - intros l Hl. apply sys_lq_pS; auto.
  - rewrite f_nil. reflexivity.
Qed.
End Map.

(** ** coefficients of the image under a bijection of classes *)
Section Coef.
Variables (V1 V2 : list Z -> Prop) (f f' : list Z -> list Z).
Hypothesis f_V : forall l, V1 l -> V2 (f l).
Hypothesis f_inv : forall l, V1 l -> f' (f l) = l.
Hypothesis f_V' : forall l, V2 l -> V1 (f' l).
Hypothesis f_inv' : forall l, V2 l -> f (f' l) = l.
Lemma fmap_coef p : supp (linm V1 (eq VQ)) p -> forall d nu, V2 nu -> coef (psubst (fmap f) p) (qS d nu) = coef p (qS d (f' nu)).
Proof.
  revert p. apply (lin_ind V1 (eq VQ) (fun p => forall d nu, V2 nu -> coef (psubst (fmap f) p) (qS d nu) = coef p (qS d (f' nu)))).
  - intros p r E Hp d nu Hn. rewrite <- (E (qS d (f' nu))), <- (Hp d nu Hn). symmetry. assert (H : peq (psubst (fmap f) p) (psubst (fmap f) r)) by (rewrite E; reflexivity). apply H.
  - reflexivity.
  - intros qm l c p Hl Hq Hp IH d nu Hn.
    assert (E : peq (psubst (fmap f) (padd (pscale c (pmul (pmono qm) (pS l))) p)) (padd (pscale c (pmul (pmono qm) (pS (f l)))) (psubst (fmap f) p))).
    { rewrite psubst_padd, psubst_pscale, psubst_pmul, w_qm, w_pS by auto. reflexivity. }
    rewrite (E (qS d nu)), !coef_padd, !coef_pscale, (IH d nu Hn). f_equal. f_equal.
    change (pS (f l)) with (pmono [vS (f l)]). change (pS l) with (pmono [vS l]). rewrite <- !(pmono_app qm [vS _] _).
    cbn [coef pmono].
    assert (HP : forall x, Permutation (qm ++ [vS x]) (qS (length qm) x)).
    { intros x. unfold qS. rewrite (allQ qm) at 1 by auto. symmetry. apply Permutation_cons_append. }
    rewrite (mono_eqb_proper _ _ _ _ (HP (f l)) (Permutation_refl _)), (mono_eqb_proper _ _ _ _ (HP l) (Permutation_refl _)).
    destruct (mono_eqb (qS (length qm) (f l)) (qS d nu)) eqn:E1, (mono_eqb (qS (length qm) l) (qS d (f' nu))) eqn:E2; auto; exfalso.
    + apply mono_eqb_perm, Sys.qS_inj in E1. destruct E1 as [<- <-]. rewrite f_inv in E2 by auto.
      rewrite (proj2 (mono_eqb_perm _ _) (Permutation_refl _)) in E2. discriminate.
    + apply mono_eqb_perm, Sys.qS_inj in E2. destruct E2 as [<- ->]. rewrite f_inv' in E1 by auto.
      rewrite (proj2 (mono_eqb_perm _ _) (Permutation_refl _)) in E1. discriminate.
Qed.
End Coef.
