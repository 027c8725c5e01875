(** Products of a space restricted to the classes of a smaller one. *)

From Coq Require Import ZArith List Lia Bool Permutation QArith Qcanon Setoid Morphisms.
From Verif Require Import Py OrderFacts PyFacts ModelPart ModelQcalc ModelPoly ModelStr ModelGr Spec
  PolyFacts SuppFacts OpTheory WSum Sys Sys2 DetFacts GiamDet PresIdeal2 DualSys.
Import ListNotations.
Open Scope Z_scope.

Section R.
Context {tb ts : gtype} {pib pis : Z -> list Z -> res poly} {Vb Vs : list Z -> Prop} {Ib Is : Z -> Prop}
  {kb ks : Z} {mub mus : list Z -> nat} {fb fs : nat}.
Hypothesis SB : pieri_sys tb pib Vb Ib kb mub fb.
Hypothesis SS : pieri_sys ts pis Vs Is ks mus fs.
Variable fits : list Z -> bool.
Variable isS : Z -> bool.
Notation lqs := (supp (linm Vs (eq VQ))).
Notation lqb := (supp (linm Vb (eq VQ))).
Notation Mb := (M tb pib kb fb).
Notation Ms := (M ts pis ks fs).
Definition rD (l : list Z) : poly := if fits l then pS l else pzero.
Notation rho := (psubst (dv rD)).
Hypothesis Hnil : fits [] = true.
Hypothesis Hfit : forall l, Vb l -> fits l = true -> Vs l.
Hypothesis HI : forall i, Ib i -> isS i = true -> Is i.
Hypothesis Hin : forall i l, Ib i -> isS i = true -> Vb l -> fits l = true -> peq (rho (P pib i l)) (P pis i l).
Hypothesis Hout : forall i l, Ib i -> Vb l -> isS i = false \/ fits l = false -> peq (rho (P pib i l)) pzero.

Lemma rho_S l : peq (rho (pS l)) (rD l).
Proof. unfold pS. rewrite psubst_pvar. reflexivity. Qed.
Lemma rho_lin a qm x c : Forall (eq VQ) qm -> peq (rho (padd (pscale a (pmul (pmono qm) x)) c)) (padd (pscale a (pmul (pmono qm) (rho x))) (rho c)).
Proof. intros Hq. rewrite psubst_padd, psubst_pscale, psubst_pmul, psubst_pmono, (dv_q rD qm Hq). reflexivity. Qed.
Lemma lqs_rD l : Vb l -> lqs (rD l).
Proof. intros Hl. unfold rD. destruct (fits l) eqn:E; [apply (sys_lq_pS (V := Vs)); auto|apply supp_zero]. Qed.
Lemma lqs_rho c : lqb c -> lqs (rho c).
Proof.
  revert c. apply (lin_ind Vb (eq VQ)).
  - intros p r E Hp. eapply supp_peq; [apply psubst_proper; exact E|exact Hp].
  - apply supp_zero.
  - intros qm l c p Hl Hq Hp IH. eapply supp_peq; [symmetry; apply (rho_lin c qm (pS l) p Hq)|].
    apply supp_padd; auto. apply supp_pscale. apply (lin_qmul Vs (eq VQ)); auto. eapply supp_peq; [symmetry; apply rho_S|]. apply lqs_rD; auto.
Qed.
Definition Or (i : Z) (c : poly) : poly := if isS i then ext pis i c else pzero.
Lemma Or_peq i a b : peq a b -> peq (Or i a) (Or i b).
Proof. intros E. unfold Or. destruct (isS i); [unfold ext; rewrite E|]; reflexivity. Qed.
Lemma Or_lin i a qm x c : Forall (eq VQ) qm -> peq (Or i (padd (pscale a (pmul (pmono qm) x)) c)) (padd (pscale a (pmul (pmono qm) (Or i x))) (Or i c)).
Proof.
  intros Hq. unfold Or. destruct (isS i); [|rewrite pscale_pmul; ring]. unfold ext. rewrite psubst_padd, psubst_pscale, psubst_pmul, psubst_pmono, (msubst_q pis (eq VQ) eqVQ_isqv i qm Hq). reflexivity.
Qed.
Lemma extb_lin i a qm l c : Forall (eq VQ) qm -> peq (ext pib i (padd (pscale a (pmul (pmono qm) (pS l))) c)) (padd (pscale a (pmul (pmono qm) (ext pib i (pS l)))) (ext pib i c)).
Proof. intros Hq. unfold ext. rewrite psubst_padd, psubst_pscale, psubst_pmul, psubst_pmono, (msubst_q pib (eq VQ) eqVQ_isqv i qm Hq). reflexivity. Qed.
Lemma r_star i c : Ib i -> lqb c -> peq (rho (ext pib i c)) (Or i (rho c)).
Proof.
  intros Hi. revert c. apply (lin_ind Vb (eq VQ)).
  - intros p r E H. transitivity (rho (ext pib i p)); [apply psubst_proper; unfold ext; rewrite E; reflexivity|]. rewrite H. apply Or_peq, psubst_proper; exact E.
  - unfold Or. destruct (isS i); reflexivity.
  - intros qm l c p Hl Hq Hp IH. etransitivity; [apply psubst_proper, (extb_lin i c qm l p Hq)|]. etransitivity; [apply (rho_lin c qm _ _ Hq)|].
    symmetry. etransitivity; [apply Or_peq, (rho_lin c qm (pS l) p Hq)|]. etransitivity; [apply (Or_lin i c qm _ _ Hq)|]. apply padd_proper; [|symmetry; exact IH]. apply pscale_proper, pmul_proper; [reflexivity|].
    etransitivity; [apply Or_peq, rho_S|]. symmetry. etransitivity; [apply psubst_proper, ext_pS|]. unfold Or, rD. destruct (isS i) eqn:E1; [destruct (fits l) eqn:E2|].
    + etransitivity; [apply (Hin i l); auto|]. symmetry. apply ext_pS.
    + etransitivity; [apply (Hout i l); auto|]. reflexivity.
    + apply (Hout i l); auto.
Qed.
Lemma Or_M i a b : Ib i -> lqs a -> lqs b -> peq (Or i (Ms a b)) (Ms (Or i a) b).
Proof. intros Hi Ha Hb. unfold Or. destruct (isS i) eqn:E; [apply (sys_ext SS); auto|reflexivity]. Qed.
Lemma Or_lqs i c : Ib i -> lqs c -> lqs (Or i c).
Proof. intros Hi Hc. unfold Or. destruct (isS i) eqn:E; [apply (sys_ext_lin SS); auto|apply supp_zero]. Qed.
Lemma Mb_lin b a qm x c : lqb b -> lqb x -> lqb c -> Forall (eq VQ) qm -> peq (Mb (padd (pscale a (pmul (pmono qm) x)) c) b) (padd (pscale a (pmul (pmono qm) (Mb x b))) (Mb c b)).
Proof.
  intros Hb Hx Hc Hq. assert (Hqx : lqb (pmul (pmono qm) x)) by (apply (lin_qmul Vb (eq VQ)); auto). rewrite (sys_add_l SB) by (auto using (@sys_lq_vp Vb); apply (@sys_lq_vp Vb), supp_pscale; auto).
  rewrite (sys_scale_l SB) by auto using (@sys_lq_vp Vb). rewrite (pscale_proper a _ _ (sys_q_l SB qm x b Hq Hx Hb)). reflexivity.
Qed.
Lemma Ms_lin b a qm x c : lqs b -> lqs x -> lqs c -> Forall (eq VQ) qm -> peq (Ms (padd (pscale a (pmul (pmono qm) x)) c) b) (padd (pscale a (pmul (pmono qm) (Ms x b))) (Ms c b)).
Proof.
  intros Hb Hx Hc Hq. assert (Hqx : lqs (pmul (pmono qm) x)) by (apply (lin_qmul Vs (eq VQ)); auto). rewrite (sys_add_l SS) by (auto using (@sys_lq_vp Vs); apply (@sys_lq_vp Vs), supp_pscale; auto).
  rewrite (sys_scale_l SS) by auto using (@sys_lq_vp Vs). rewrite (pscale_proper a _ _ (sys_q_l SS qm x b Hq Hx Hb)). reflexivity.
Qed.
Lemma r_main b : lqb b -> forall N l, (mub l < N)%nat -> Vb l -> peq (rho (Mb (pS l) b)) (Ms (rD l) (rho b)).
Proof.
  intros Hb. assert (Hpb : lqs (rho b)) by (apply lqs_rho; auto). induction N as [|N IH]; intros l HN Hl; [lia|].
  destruct l as [|a l'].
  { rewrite (psubst_proper _ _ _ (sys_unit SB b Hb)). unfold rD. rewrite Hnil. symmetry. apply (sys_unit SS); auto. }
  destruct (sys_rec SB (a :: l') b Hl Hb ltac:(discriminate)) as (p & l0 & E1 & Ip & [V0 M0] & Hst & ER). set (l := a :: l') in *. set (st := psub (P pib p l0) (pS l)) in *.
  assert (Lst : lqb st) by (eapply supp_impl; [|exact Hst]; intros m (x & qm & (Hx & _) & HP & HQ); exists x, qm; auto).
  assert (B1 : peq (rho (Mb st b)) (Ms (rho st) (rho b))).
  { cut (lqb st /\ peq (rho (Mb st b)) (Ms (rho st) (rho b))); [tauto|]. generalize st Hst. clear st Hst Lst ER.
    apply (lin_ind (below Vb mub l) (eq VQ)).
    - intros x y E [H1 H2]. split; [eapply supp_peq; eauto|]. etransitivity; [apply psubst_proper, M_peq; [symmetry; exact E|reflexivity]|]. rewrite H2. apply M_peq; [apply psubst_proper; exact E|reflexivity].
    - split; [apply supp_zero|]. reflexivity.
    - intros qm x c y [Hx Hmx] Hq _ [Hy HE]. assert (Lx : lqb (pS x)) by (apply (sys_lq_pS (V := Vb)); auto). split; [apply supp_padd; auto; apply supp_pscale, (lin_qmul Vb (eq VQ)); auto|].
      etransitivity; [apply psubst_proper, (Mb_lin b c qm (pS x) y Hb Lx Hy Hq)|]. etransitivity; [apply (rho_lin c qm _ _ Hq)|].
      symmetry. etransitivity; [apply M_peq; [apply (rho_lin c qm (pS x) y Hq)|reflexivity]|]. etransitivity; [apply Ms_lin; auto using lqs_rho|]. apply padd_proper; [|symmetry; exact HE]. apply pscale_proper, pmul_proper; [reflexivity|].
      etransitivity; [apply M_peq; [apply rho_S|reflexivity]|]. symmetry. apply IH; auto. lia. }
  assert (L0 : lqs (rD l0)) by (apply lqs_rD; auto). assert (Lx0 : lqb (pS l0)) by (apply (sys_lq_pS (V := Vb)); auto).
  assert (B2 : peq (rho (ext pib p (Mb (pS l0) b))) (Ms (Or p (rD l0)) (rho b))).
  { etransitivity; [apply r_star; auto; apply (sys_lin SB); auto using (@sys_lq_vp Vb)|]. etransitivity; [apply Or_peq, IH; auto; lia|]. apply Or_M; auto. }
  assert (L1 : lqs (Or p (rD l0))) by (apply Or_lqs; auto). assert (L2 : lqs (rho st)) by (apply lqs_rho; auto).
  assert (B3 : peq (rD l) (psub (Or p (rD l0)) (rho st))).
  { assert (T : peq (rho (P pib p l0)) (Or p (rD l0))).
    { etransitivity; [apply psubst_proper; symmetry; apply ext_pS|]. etransitivity; [apply r_star; auto|]. apply Or_peq, rho_S. }
    rewrite <- T. unfold st, psub. rewrite psubst_padd, psubst_pscale, rho_S. rewrite !pscale_pmul, !pconst_opp. change (pconst 1%Qc) with pone. ring. }
  etransitivity; [apply psubst_proper; exact ER|]. unfold psub. rewrite psubst_padd, psubst_pscale. rewrite B1, B2. symmetry.
  etransitivity; [apply M_peq; [exact B3|reflexivity]|]. apply (sys_sub_l SS); auto.
Qed.
Lemma r_prod a b : Vb a -> Vb b -> peq (rho (Mb (pS a) (pS b))) (Ms (rD a) (rD b)).
Proof.
  intros Ha Hb. etransitivity; [apply (r_main (pS b) (sys_lq_pS (V := Vb) b Hb) (S (mub a)) a); auto|]. apply M_peq; [reflexivity|apply rho_S].
Qed.
Lemma coef_rho c d nu : lqb c -> fits nu = true -> coef (rho c) (qS d nu) = coef c (qS d nu).
Proof.
  intros Hc Hnu. revert c Hc. apply (lin_ind Vb (eq VQ)).
  - intros p r E H. rewrite <- !(E _), <- H. apply psubst_proper. symmetry. exact E.
  - reflexivity.
  - intros qm l a p Hl Hq Hp IH. assert (Eq : qm = repeat VQ (length qm)) by (clear -Hq; induction Hq as [|v qm <- _ IH]; [reflexivity|cbn [length repeat]; congruence]). rewrite Eq in *. clear Eq. set (e := length qm) in *.
    rewrite (rho_lin a (repeat VQ e) (pS l) p Hq _), !coef_padd, IH, !coef_pscale, !coef_qmul. destruct (e <=? d)%nat; [|reflexivity]. rewrite (rho_S l _). unfold rD. destruct (fits l) eqn:E; [reflexivity|].
    rewrite coef_pS_q. change (coef pzero (qS (d - e) nu)) with 0%Qc. destruct (l_dec l nu) as [->|]; [congruence|]. destruct (d - e =? 0)%nat; reflexivity.
Qed.
(** the coefficients agree *)
Lemma r_coef a b nu d : Vb a -> Vb b -> fits a = true -> fits b = true -> fits nu = true -> coef (Mb (pS a) (pS b)) (qS d nu) = coef (Ms (pS a) (pS b)) (qS d nu).
Proof.
  intros Ha Hb Fa Fb Fn. rewrite <- (coef_rho _ d nu (sys_lin SB _ _ (sys_lq_vp _ (sys_lq_pS (V := Vb) a Ha)) (sys_lq_pS (V := Vb) b Hb)) Fn).
  rewrite (r_prod a b Ha Hb _). unfold rD. rewrite Fa, Fb. reflexivity.
Qed.
Lemma r_ideal a b nu d : Vb a -> Vb b -> fits a = false -> fits nu = true -> coef (Mb (pS a) (pS b)) (qS d nu) = 0%Qc.
Proof.
  intros Ha Hb Fa Fn. rewrite <- (coef_rho _ d nu (sys_lin SB _ _ (sys_lq_vp _ (sys_lq_pS (V := Vb) a Ha)) (sys_lq_pS (V := Vb) b Hb)) Fn).
  rewrite (r_prod a b Ha Hb _). unfold rD. rewrite Fa. reflexivity.
Qed.
End R.
