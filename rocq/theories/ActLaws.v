(** The laws of [act_with] from the hypotheses of OpTheory.v. *)

From Coq Require Import ZArith List Lia Bool Permutation QArith Qcanon Setoid Morphisms.
From Verif Require Import Py OrderFacts ModelPart ModelQcalc ModelPoly ModelStr ModelGr Spec SpecRing SpecAct
  PolyFacts SuppFacts OpTheory Sys Sys2 SysRing.
Import ListNotations.
Open Scope Z_scope.

Lemma action_laws_ext (E E' L L' : poly -> Prop) act :
  (forall e, E' e <-> E e) -> (forall c, L' c <-> L c) -> action_laws E L act -> action_laws E' L' act.
Proof.
  intros HE HL []. split; intros; repeat match goal with H : E' _ |- _ => apply HE in H | H : L' _ |- _ => apply HL in H end; eauto.
  destruct (al_closed e c) as (r & ? & ?); auto. exists r. rewrite HL. auto.
Qed.
Lemma lin_comb_qs_iff V p : lin_comb_qs V p <-> supp (linm V isqv) p.
Proof.
  unfold lin_comb_qs, supp, linm. split; intros H m Hm; destruct (H m Hm) as (x & qm & Hx & HP & HQ); exists x, qm; (split; [auto|]); (split; [auto|]).
  - apply Forall_forall. intros v Hv. destruct (HQ v Hv) as [->|[->| ->]]; exact I.
  - rewrite Forall_forall in HQ. intros v Hv. specialize (HQ v Hv). destruct v; simpl in HQ; auto; contradiction.
Qed.

Section A.
Variables (t : gtype) (pi : Z -> list Z -> res poly) (V : list Z -> Prop) (I : Z -> Prop) (Q : var -> Prop).
Hypothesis H_Q : forall v, Q v -> isqv v.
Hypothesis H_QVQ : Q VQ.
Hypothesis H_ok : forall i l, I i -> V l -> pi i l = Ok (P pi i l).
Hypothesis H_lin : forall i l, I i -> V l -> lin V Q (P pi i l).
Hypothesis H_spec : forall i, I i -> spec2num t (sv i) = Ok i.
Hypothesis H_comm : forall i j l, I i -> I j -> V l -> peq (ext pi j (P pi i l)) (ext pi i (P pi j l)).

Notation E := (spoly I (eq VQ)).
Notation L := (lin V Q).

Lemma E_Q e : E e -> spoly I Q e.
Proof. apply supp_impl. intros m. apply Forall_impl. intros v [<-|H]; [left|right]; auto. Qed.
Lemma E_VQ e : E e -> forall v, Q v -> mentions v e -> v = VQ.
Proof.
  intros He v Hv (m & Hm & Hin). specialize (He m Hm). rewrite Forall_forall in He. destruct (He v Hin) as [<-|(i & _ & ->)]; auto.
  apply H_Q in Hv. destruct Hv.
Qed.
Lemma A_ok e c : E e -> L c -> exists r, act_with t pi e c = Ok r /\ peq r (OpN t pi e c).
Proof. intros He Hc. eapply (act_with_ok t pi V I Q); eauto using E_Q, E_VQ. Qed.
Lemma A_lin e c : E e -> L c -> L (OpN t pi e c).
Proof. intros He Hc. eapply (OpN_lin t pi V I Q); eauto using E_Q. Qed.
Lemma E_padd e f : E e -> E f -> E (padd e f).
Proof. apply supp_padd. Qed.
Lemma E_pvarq : E (pvar VQ).
Proof. apply spoly_pmono. repeat constructor. Qed.

Lemma act_laws : action_laws E L (act_with t pi).
Proof.
  split.
  - intros e c He Hc. destruct (A_ok e c He Hc) as (r & Er & Pr). exists r. split; auto. eapply supp_peq; [symmetry; exact Pr|]. apply A_lin; auto.
  - intros c Hc. destruct (A_ok pone c) as (r & Er & Pr); auto; [apply spoly_pone|]. exists r. split; auto. rewrite Pr. eapply (OpN_pone t pi V I Q); eauto.
  - intros e f c He Hf Hc. destruct (A_ok e c He Hc) as (x & Ex & Px), (A_ok f c Hf Hc) as (y & Ey & Py), (A_ok (padd e f) c) as (r & Er & Pr); auto using E_padd.
    exists r, x, y. repeat (split; auto). rewrite Pr, Px, Py. eapply (OpN_padd t pi V I Q); eauto using E_Q.
  - intros e f c He Hf Hc. destruct (A_ok f c Hf Hc) as (x & Ex & Px).
    assert (Hx : L x) by (eapply supp_peq; [symmetry; exact Px|]; apply A_lin; auto).
    destruct (A_ok e x He Hx) as (y & Ey & Py). destruct (A_ok (pmul e f) c) as (r & Er & Pr); auto; [apply spoly_pmul; auto|].
    exists r, x, y. repeat (split; auto). rewrite Pr, Py. rewrite (OpN_peq t pi e e x (OpN t pi f c)); [|reflexivity|exact Px].
    eapply (OpN_pmul t pi V I Q); eauto using E_Q.
  - intros s e c He Hc. destruct (A_ok e c He Hc) as (x & Ex & Px), (A_ok (pscale s e) c) as (r & Er & Pr); auto; [apply spoly_pscale; auto|].
    exists r, x. repeat (split; auto). rewrite Pr, Px. eapply (OpN_pscale t pi V I Q); eauto using E_Q.
  - intros c Hc. destruct (A_ok (pvar VQ) c) as (r & Er & Pr); auto using E_pvarq. exists r. split; auto. rewrite Pr.
    change (pvar VQ) with (pmono [VQ]). rewrite (OpN_pmono t pi V I Q); eauto; [apply (opm_q t pi Q); auto | constructor; auto; left; auto].
  - intros e c d He Hc Hd. destruct (A_ok e c He Hc) as (x & Ex & Px), (A_ok e d He Hd) as (y & Ey & Py), (A_ok e (padd c d)) as (r & Er & Pr); auto; [apply supp_padd; auto|].
    exists r, x, y. repeat (split; auto). rewrite Pr, Px, Py. apply OpN_padd_r.
  - intros s e c He Hc. destruct (A_ok e c He Hc) as (x & Ex & Px), (A_ok e (pscale s c)) as (r & Er & Pr); auto; [apply supp_pscale; auto|].
    exists r, x. repeat (split; auto). rewrite Pr, Px. apply OpN_pscale_r.
  - intros e e' c c' He Hc Pe Pc. destruct (A_ok e c He Hc) as (x & Ex & Px), (A_ok e' c') as (y & Ey & Py); try (eapply supp_peq; eauto; fail).
    exists x, y. repeat (split; auto). rewrite Px, Py. apply OpN_peq; auto.
Qed.
Lemma act_sv i c : I i -> L c -> exists r r', act_with t pi (pvar (sv i)) c = Ok r /\ apply_lc (on_part (pi i)) c = Ok r' /\ peq r r'.
Proof.
  intros Hi Hc. destruct (A_ok (pvar (sv i)) c) as (r & Er & Pr); auto; [apply spoly_sv; auto|].
  destruct (apply_pi pi V I Q H_Q H_ok i c Hi Hc) as (r' & Er' & Pr'). exists r, r'. repeat (split; auto).
  rewrite Pr, Pr'. eapply (OpN_sv t pi V I Q); eauto.
Qed.
End A.
