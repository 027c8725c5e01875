(** The quadratic relations present the rings of the maximal isotropic Grassmannians: modulo
    the relations, the combinations of the Giambelli polynomials are closed under
    multiplication by the special classes, so every polynomial is congruent to one of them. *)

From Coq Require Import ZArith List Lia Bool Permutation QArith Qcanon Setoid Morphisms.
From Verif Require Import Py OrderFacts PyFacts ModelPart ModelQcalc ModelPoly ModelStr ModelGr Spec SpecDet SpecPres
  PolyFacts SuppFacts OpTheory PartFacts Sys Sys2 SysApi DetFacts GiamDet ExprFacts RelBC PresIdeal PresIdeal2.
Import ListNotations.
Open Scope Z_scope.

Section X.
Context {t : gtype} {pi : Z -> list Z -> res poly} {V : list Z -> Prop} {I : Z -> Prop} {k : Z} {mu : list Z -> nat} {fuel : nat}.
Hypothesis SYS : pieri_sys t pi V I k mu fuel.
Variables N dq : Z.
Hypothesis Hdq : 1 <= dq.
Hypothesis HI : forall i, 1 <= i <= N -> I i /\ V [i] /\ peq (pS [i]) (P pi i []).
Definition gm (T : Z) (m : mono) : Prop := exists d x, V x /\ Permutation m (qS d x) /\ size x + Z.of_nat d * dq = T.
Hypothesis Hgr : forall i l, 1 <= i <= N -> V l -> supp (gm (i + size l)) (P pi i l).
Hypothesis Hrec : forall a l, V (a :: l) -> 1 <= a <= N /\ V l /\ (mu l < mu (a :: l))%nat /\
  supp (linm (below V mu (a :: l)) (eq VQ)) (psub (P pi a l) (pS (a :: l))).
Hypothesis Hsz : forall l, V l -> 0 <= size l.
Hypothesis Hcons : forall a l, V l -> 1 <= a <= N -> match l with [] => True | b :: _ => b < a end -> V (a :: l).
Notation MM := (M t pi k fuel).
Notation lq := (supp (linm V (eq VQ))).
Notation vp := (supp (polym V)).
Notation h := (hclass N).
Notation A := (special_poly N).
Variable R : poly -> Prop.
Notation J := (in_ideal A R).
Let JP := J_peq A R.
Let JM := J_mul A R (A_mul N).
Let JO := J_opp A R (A_mul N) (A_const N).
Let JA := J_add A R.
Let JZ := J_zero A R.

(** ** the Giambelli polynomials *)
Fixpoint Df (f : nat) (l : list Z) : poly :=
  match f with
  | O => pzero
  | S f' => match l with
            | [] => pone
            | a :: l' => psub (pmul (h a) (Df f' l')) (psubst (dv (Df f')) (psub (P pi a l') (pS (a :: l'))))
            end
  end.
Definition DD (l : list Z) : poly := Df (S (mu l)) l.
Notation theta := (psubst (dv DD)).

Lemma dv_ext (W : list Z -> Prop) D D' c : (forall x, W x -> peq (D x) (D' x)) -> supp (linm W (eq VQ)) c -> peq (psubst (dv D) c) (psubst (dv D') c).
Proof.
  intros HD Hc. transitivity (psubst (dv D) (pnorm c)); [apply psubst_proper; symmetry; apply pnorm_peq|]. transitivity (psubst (dv D') (pnorm c)); [|apply psubst_proper, pnorm_peq].
  apply psubst_ext. intros mo a v Hin Hv. apply supp_rawnorm in Hc. destruct (Hc mo a Hin) as (x & qm & Hx & HP & HQ). apply (Permutation_in _ HP) in Hv. destruct Hv as [<-|Hv].
  - cbn [dv vS]. apply HD; auto.
  - rewrite Forall_forall in HQ. rewrite <- (HQ v Hv). reflexivity.
Qed.
Lemma Df_fuel f : forall f' l, V l -> (mu l < f)%nat -> (mu l < f')%nat -> peq (Df f l) (Df f' l).
Proof.
  induction f as [|f IH]; intros f' l Hl Hf Hf'; [lia|]. destruct f' as [|f']; [lia|]. destruct l as [|a l]; [reflexivity|]. cbn [Df].
  destruct (Hrec a l Hl) as (_ & Hl' & Hmu & Hs). apply psub_proper.
  - apply pmul_proper; [reflexivity|apply IH; auto; lia].
  - apply (dv_ext (below V mu (a :: l))); auto. intros x [Hx Hx']. apply IH; auto; lia.
Qed.
Lemma D_cons a l : V (a :: l) -> peq (DD (a :: l)) (psub (pmul (h a) (DD l)) (theta (psub (P pi a l) (pS (a :: l))))).
Proof.
  intros Hl. destruct (Hrec a l Hl) as (_ & Hl' & Hmu & Hs). unfold DD at 1. cbn [Df]. apply psub_proper.
  - apply pmul_proper; [reflexivity|apply Df_fuel; auto; lia].
  - apply (dv_ext (below V mu (a :: l))); auto. intros x [Hx Hx']. apply Df_fuel; auto; lia.
Qed.
Lemma theta_S l : peq (theta (pS l)) (DD l).
Proof. unfold pS. rewrite psubst_pvar. reflexivity. Qed.
Lemma D_rec a l : V (a :: l) -> peq (pmul (h a) (DD l)) (theta (P pi a l)).
Proof. intros Hl. pose proof (D_cons a l Hl) as E. unfold psub in E at 2. rewrite psubst_padd, psubst_pscale, theta_S, !pscale_pmul, pconst_opp in E. change (pconst 1%Qc) with pone in E.
  assert (E1 : peq (pmul (h a) (DD l)) (padd (DD (a :: l)) (padd (theta (P pi a l)) (pmul (popp pone) (DD (a :: l)))))) by (rewrite E at 1; ring). rewrite E1. ring. Qed.
Lemma A_theta (W : list Z -> Prop) D c : (forall x, W x -> A (D x)) -> supp (linm W (eq VQ)) c -> A (psubst (dv D) c).
Proof.
  intros HD Hc. apply A_iff. eapply supp_psubst; [apply polym_inv| |exact Hc]. intros mo (x & qm & Hx & HP & HQ). apply A_iff.
  apply (A_peq N (pmul (D x) (pmono qm))).
  - symmetry. rewrite (msubst_perm _ _ _ HP). change (msubst (dv D) (vS x :: qm)) with (pmul (D x) (msubst (dv D) qm)). rewrite dv_q by auto. reflexivity.
  - apply A_mul; auto. apply A_mono. eapply Forall_impl; [|exact HQ]. intros v <-. left. reflexivity.
Qed.
Lemma A_Df f : forall l, V l -> A (Df f l).
Proof.
  induction f as [|f IH]; intros l Hl; [apply A_zero|]. destruct l as [|a l]; [apply A_one|]. cbn [Df]. destruct (Hrec a l Hl) as (_ & Hl' & Hmu & Hs).
  unfold psub at 1. apply A_add; [apply A_mul; auto; apply A_h|]. apply A_scale. apply (A_theta (below V mu (a :: l))); auto. intros x [Hx _]. auto.
Qed.
Lemma A_D l : V l -> A (DD l).
Proof. apply A_Df. Qed.
Lemma A_vp p : A p -> vp p.
Proof. intros Hp. apply A_iff in Hp. eapply supp_impl; [|exact Hp]. intros mo. apply Forall_impl. intros v [->|(l & (i & Hi & ->) & ->)]; [left; auto|right; exists [i]; split; auto; apply HI; auto]. Qed.

(** ** values *)
Lemma one_lq : lq (pS []).
Proof. apply (sys_lq_one SYS). Qed.
Lemma MM_pone c : lq c -> peq (MM pone c) c.
Proof. intros Hc. destruct SYS. eapply (OpN_pone t pi V I (eq VQ) eqVQ_isqv); eassumption. Qed.
Lemma MM_zero_r p : peq (MM p pzero) pzero.
Proof. etransitivity; [apply (sys_scale_r (k := k) p pzero 0%Qc)|]. intros mo. rewrite coef_pscale. cbn. ring. Qed.
Lemma MM_zero_l c : peq (MM pzero c) pzero.
Proof. unfold M. reflexivity. Qed.
Lemma A_qm qm : Forall (eq VQ) qm -> A (pmono qm).
Proof. intros HQ. apply A_mono. eapply Forall_impl; [|exact HQ]. intros v <-. left. reflexivity. Qed.
Lemma MM_qm qm c : Forall (eq VQ) qm -> lq c -> peq (MM (pmono qm) c) (pmul (pmono qm) c).
Proof.
  intros HQ Hc. pose proof (A_vp _ (A_qm qm HQ)) as Hv.
  transitivity (MM (pmono qm) (MM (pS []) c)); [apply (sys_peq (k := k)); [reflexivity|symmetry; apply (sys_unit SYS); auto]|].
  transitivity (MM (pmul (pmono qm) (pS [])) c); [symmetry; apply (sys_pmul SYS); auto; apply (sys_lq_vp (V := V)), one_lq|].
  etransitivity; [apply (sys_q_l SYS); auto using one_lq|]. apply pmul_proper; [reflexivity|apply (sys_unit SYS); auto].
Qed.
Lemma MM_h i c : 1 <= i <= N -> lq c -> peq (MM (h i) c) (ext pi i c).
Proof. intros Hi Hc. destruct (HI i Hi) as (H1 & H2 & H3). replace (h i) with (pS [i]) by (symmetry; apply (hq_at N); auto). apply (sys_pieri SYS); auto. Qed.
Lemma MM_sub p r c : vp p -> vp r -> lq c -> peq (MM (psub p r) c) (psub (MM p c) (MM r c)).
Proof.
  intros Hp Hr Hc. unfold psub. etransitivity; [apply (sys_add_l SYS); auto; apply supp_pscale; auto|]. apply padd_proper; [reflexivity|]. apply (sys_scale_l SYS); auto.
Qed.
Lemma val_theta (W : list Z -> Prop) c : (forall x, W x -> V x /\ peq (MM (DD x) (pS [])) (pS x)) -> supp (linm W (eq VQ)) c -> peq (MM (theta c) (pS [])) c.
Proof.
  intros HW Hc. apply supp_rawnorm in Hc.
  assert (G : forall r, rawsupp (linm W (eq VQ)) r -> A (theta r) /\ peq (MM (theta r) (pS [])) r).
  { induction r as [|[mo a] r IH]; intros Hr; [split; [apply A_zero|apply MM_zero_l]|].
    destruct (IH (fun m' c' Hi' => Hr m' c' (or_intror Hi'))) as [I1 I2]. destruct (Hr mo a (or_introl eq_refl)) as (x & qm & Hx & HP & HQ). destruct (HW x Hx) as [Hx1 Hx2].
    assert (Es : peq (msubst (dv DD) mo) (pmul (pmono qm) (DD x))).
    { rewrite (msubst_perm _ _ _ HP). change (msubst (dv DD) (vS x :: qm)) with (pmul (DD x) (msubst (dv DD) qm)). rewrite dv_q by auto. ring. }
    assert (Am : A (msubst (dv DD) mo)) by (apply (A_peq N (pmul (pmono qm) (DD x))); [symmetry; exact Es|apply A_mul; [apply A_qm; auto|apply A_D; auto]]).
    assert (Em : peq (MM (msubst (dv DD) mo) (pS [])) (pmono mo)).
    { etransitivity; [apply (sys_peq (k := k)); [exact Es|reflexivity]|]. etransitivity; [apply (sys_pmul SYS); [apply A_vp, A_qm; auto|apply A_vp, A_D; auto|apply one_lq]|].
      etransitivity; [apply (sys_peq (k := k)); [reflexivity|exact Hx2]|]. etransitivity; [apply MM_qm; auto; apply sys_lq_pS; auto|].
      rewrite (pmono_perm _ _ HP). change (vS x :: qm) with ([vS x] ++ qm). rewrite pmono_app. change (pmono [vS x]) with (pS x). ring. }
    cbn [psubst]. split; [apply A_add; auto; apply A_scale; auto|].
    etransitivity; [apply (sys_add_l SYS); [apply supp_pscale, A_vp; auto|apply A_vp; auto|apply one_lq]|].
    rewrite (poly_cons mo a r). apply padd_proper; [|exact I2]. etransitivity; [apply (sys_scale_l SYS); [apply A_vp; auto|apply one_lq]|]. apply pscale_proper. exact Em. }
  destruct (G _ Hc) as [_ E]. rewrite <- (pnorm_peq c) at 2. rewrite <- E. apply (sys_peq (k := k)); [|reflexivity]. apply psubst_proper. symmetry. apply pnorm_peq.
Qed.
Lemma val_D l : V l -> peq (MM (DD l) (pS [])) (pS l).
Proof.
  remember (mu l) as u eqn:Eu. revert l Eu. induction u as [u IH] using lt_wf_ind. intros l -> Hl. destruct l as [|a l]; [apply MM_pone, one_lq|].
  destruct (Hrec a l Hl) as (Ha & Hl' & Hmu & Hs). assert (Hv : vp (theta (psub (P pi a l) (pS (a :: l))))) by (apply A_vp, (A_theta (below V mu (a :: l))); auto; intros x [Hx _]; apply A_D; auto).
  etransitivity; [apply (sys_peq (k := k)); [apply D_cons; auto|reflexivity]|]. etransitivity; [apply MM_sub; [apply A_vp, A_mul; [apply A_h|apply A_D; auto]|exact Hv|apply one_lq]|].
  assert (E1 : peq (MM (pmul (h a) (DD l)) (pS [])) (P pi a l)).
  { etransitivity; [apply (sys_pmul SYS); [apply A_vp, A_h|apply A_vp, A_D; auto|apply one_lq]|].
    etransitivity; [apply (sys_peq (k := k)); [reflexivity|apply (IH (mu l)); auto]|]. etransitivity; [apply MM_h; auto; apply sys_lq_pS; auto|]. unfold ext, pS. rewrite psubst_pvar. reflexivity. }
  assert (E2 : peq (MM (theta (psub (P pi a l) (pS (a :: l)))) (pS [])) (psub (P pi a l) (pS (a :: l)))).
  { apply (val_theta (below V mu (a :: l))); auto. intros x [Hx Hx']. split; auto. apply (IH (mu x)); auto. }
  etransitivity; [apply psub_proper; [exact E1|exact E2]|]. ring.
Qed.
Lemma val c : lq c -> peq (MM (theta c) (pS [])) c.
Proof. apply val_theta. intros x Hx. split; auto using val_D. Qed.

(** ** congruence to a combination of Giambelli polynomials of degree [T] *)
Definition Wd (T : Z) (p : poly) : Prop := exists c, supp (gm T) c /\ J (psub p (theta c)).
Lemma gm_inv T : minv (gm T).
Proof. intros a b HP (d & x & H1 & H2 & H3). exists d, x. split; auto. split; auto. etransitivity; [symmetry; exact HP|exact H2]. Qed.
Lemma gm_lin T c : supp (gm T) c -> lq c.
Proof. apply supp_impl. intros m (d & x & H1 & H2 & H3). exists x, (repeat VQ d). split; auto. split; auto. apply rep_q. Qed.
Lemma Wd_J T p r : J (psub r p) -> Wd T p -> Wd T r.
Proof. intros H (c & H1 & H2). exists c. split; auto. apply (JP (padd (psub r p) (psub p (theta c)))); [ring|apply JA; auto]. Qed.
Lemma Wd_peq T p r : peq p r -> Wd T p -> Wd T r.
Proof. intros E. apply Wd_J. apply (JP pzero); [rewrite E; ring|apply JZ]. Qed.
Lemma Wd_zero T : Wd T pzero.
Proof. exists pzero. split; [apply supp_zero|]. apply (JP pzero); [|apply JZ]. change (peq pzero (psub pzero pzero)). ring. Qed.
Lemma Wd_add T p r : Wd T p -> Wd T r -> Wd T (padd p r).
Proof.
  intros (c & H1 & H2) (c' & H1' & H2'). exists (padd c c'). split; [apply supp_padd; auto|]. apply (JP (padd (psub p (theta c)) (psub r (theta c')))); [|apply JA; auto].
  rewrite psubst_padd. ring.
Qed.
Lemma Wd_scale T a p : Wd T p -> Wd T (pscale a p).
Proof.
  intros (c & H1 & H2). exists (pscale a c). split; [apply supp_pscale; auto|]. apply (JP (pmul (pconst a) (psub p (theta c)))); [|apply JM; auto; apply A_const].
  rewrite psubst_pscale, !pscale_pmul. ring.
Qed.
Lemma Wd_q T d p : Wd T p -> Wd (T + Z.of_nat d * dq) (pmul p (pmono (repeat VQ d))).
Proof.
  intros (c & H1 & H2). exists (pmul c (pmono (repeat VQ d))). split.
  - eapply (supp_pmul (gm T) (fun m => Permutation m (repeat VQ d))); [apply gm_inv| |exact H1|].
    + intros a b (e & x & A1 & A2 & A3) Hb. exists (e + d)%nat, x. split; auto. split; [|lia]. unfold qS. rewrite repeat_app. change (vS x :: repeat VQ e ++ repeat VQ d) with ((vS x :: repeat VQ e) ++ repeat VQ d). apply Permutation_app; auto.
    + apply supp_pmono; [|reflexivity]. intros a b HP Ha. etransitivity; [symmetry; exact HP|exact Ha].
  - apply (JP (pmul (pmono (repeat VQ d)) (psub p (theta c)))); [|apply JM; auto; apply A_qm, rep_q]. rewrite psubst_pmul, psubst_pmono, dv_q by apply rep_q. ring.
Qed.
Lemma Wd_D l : V l -> Wd (size l) (DD l).
Proof.
  intros Hl. exists (pS l). split; [|apply (JP pzero); [rewrite theta_S; ring|apply JZ]]. change (pS l) with (pmono [vS l]). apply supp_pmono; [apply gm_inv|]. exists 0%nat, l. split; auto. split; [reflexivity|lia].
Qed.
Lemma Wd_bind (Q : nat -> list Z -> Prop) T e c : supp (fun m => exists d x, Q d x /\ Permutation m (qS d x)) c ->
  (forall d x, Q d x -> Wd T (pmul e (pmul (DD x) (pmono (repeat VQ d))))) -> Wd T (pmul e (theta c)).
Proof.
  intros Hc Hx. apply supp_rawnorm in Hc.
  assert (G : forall r, rawsupp (fun m => exists d x, Q d x /\ Permutation m (qS d x)) r -> Wd T (pmul e (theta r))).
  { induction r as [|[mo a] r IH]; intros Hr; [apply (Wd_peq T pzero); [change (peq pzero (pmul e pzero)); ring|apply Wd_zero]|].
    destruct (Hr mo a (or_introl eq_refl)) as (d & x & A1 & A2).
    apply (Wd_peq T (padd (pscale a (pmul e (pmul (DD x) (pmono (repeat VQ d))))) (pmul e (theta r)))).
    - cbn [psubst]. rewrite (msubst_perm _ _ _ A2). change (msubst (dv DD) (qS d x)) with (pmul (DD x) (msubst (dv DD) (repeat VQ d))). rewrite dv_q by apply rep_q. rewrite !pscale_pmul. ring.
    - apply Wd_add; [apply Wd_scale; auto|]. apply IH. intros m' c' Hi'. apply (Hr m' c'). right. auto. }
  eapply Wd_peq; [|exact (G _ Hc)]. apply pmul_proper; [reflexivity|]. apply psubst_proper, pnorm_peq.
Qed.
Lemma Wd_step a T0 p : A (h a) -> Wd T0 p -> (forall d x, V x -> size x + Z.of_nat d * dq = T0 -> Wd (a + size x) (pmul (h a) (DD x))) -> Wd (a + T0) (pmul (h a) p).
Proof.
  intros Ha (c & H1 & H2) Hx. apply (Wd_J _ (pmul (h a) (theta c))).
  - apply (JP (pmul (h a) (psub p (theta c)))); [ring|apply JM; auto].
  - apply (Wd_bind (fun d x => V x /\ size x + Z.of_nat d * dq = T0)); [eapply supp_impl; [|exact H1]; intros m (d & x & A1 & A2 & A3); exists d, x; auto|]. intros d x [Vx Ex]. apply (Wd_peq _ (pmul (pmul (h a) (DD x)) (pmono (repeat VQ d)))); [ring|].
    replace (a + T0) with (a + size x + Z.of_nat d * dq) by lia. apply Wd_q. apply (Hx d); auto.
Qed.

(** ** the relations *)
Variable terms : Z -> list (Qc * Z * Z * nat).
Definition tm (x : Qc * Z * Z * nat) : poly := let '(c, a, b, d) := x in pscale c (pmul (pmul (h a) (h b)) (pmono (repeat VQ d))).
Hypothesis Hterms : forall i, 1 <= i <= N -> J (psub (pmul (h i) (h i)) (psumf tm (terms i))).
Hypothesis Hdeg : forall i c a b d, 1 <= i <= N -> In (c, a, b, d) (terms i) -> b < i /\ a + b + Z.of_nat d * dq = 2 * i.
Hypothesis HR : forall r, R r -> vp r /\ peq (MM r (pS [])) pzero.

Lemma h_neg a : a < 0 -> h a = pzero.
Proof. intros Ha. unfold hclass. destruct (Z.eqb_spec a 0); [lia|]. destruct (Z.ltb_spec 0 a); [lia|]. reflexivity. Qed.
Lemma h_big a : N < a -> 0 < a -> h a = pzero.
Proof. intros Ha H0. unfold hclass. destruct (Z.eqb_spec a 0); [lia|]. destruct (Z.leb_spec a N); [lia|]. rewrite andb_false_r. reflexivity. Qed.

Lemma clo : forall T s u : nat, forall a l, V l -> 0 <= a -> Z.to_nat (a + size l) = T -> Z.to_nat (size l) = s -> mu l = u -> Wd (a + size l) (pmul (h a) (DD l)).
Proof.
  induction T as [T IHT] using lt_wf_ind. induction s as [s IHs] using lt_wf_ind. induction u as [u IHu] using lt_wf_ind.
  intros a l Hl Ha ET Es Eu. pose proof (Hsz l Hl) as Hs0.
  assert (C1 : forall a' l', V l' -> a' + size l' < a + size l -> Wd (a' + size l') (pmul (h a') (DD l'))).
  { intros a' l' Hl' HT. pose proof (Hsz l' Hl'). destruct (Z.ltb_spec a' 0); [rewrite h_neg by auto; apply (Wd_peq _ pzero); [ring|apply Wd_zero]|]. apply (IHT (Z.to_nat (a' + size l')) ltac:(lia) (Z.to_nat (size l')) (mu l')); auto. }
  assert (C2 : forall a' l', V l' -> a' + size l' = a + size l -> size l' < size l -> Wd (a' + size l') (pmul (h a') (DD l'))).
  { intros a' l' Hl' HT Hl2. pose proof (Hsz l' Hl'). apply (IHs (Z.to_nat (size l')) ltac:(lia) (mu l')); auto; lia. }
  clear IHT IHs.
  destruct (Z.eq_dec a 0) as [->|Ha0].
  { apply (Wd_peq _ (DD l)); [change (h 0) with pone; ring|]. apply (Wd_D l Hl). }
  destruct (Z.leb_spec a N) as [HaN|HaN]; [|rewrite h_big by lia; apply (Wd_peq _ pzero); [ring|apply Wd_zero]].
  assert (Hd : {match l with [] => True | b :: _ => b < a end} + {exists b l', l = b :: l' /\ a <= b}).
  { destruct l as [|b l']; [left; exact Logic.I|]. destruct (Z_lt_dec b a); [left; auto|right; exists b, l'; split; auto; lia]. }
  destruct Hd as [Hd|(b & l' & -> & Hab)].
  { assert (Hal := Hcons a l Hl ltac:(lia) Hd). exists (P pi a l). split; [apply Hgr; auto; lia|]. apply (JP pzero); [|apply JZ]. rewrite (D_rec a l Hal). ring. }
  destruct (Hrec b l' Hl) as (Hb & Hl' & Hmu & Hst). change (size (b :: l')) with (b + size l') in *. pose proof (Hsz l' Hl') as Hs1.
  (* the other terms of the recursion *)
  assert (HX : Wd (a + (b + size l')) (pmul (h a) (theta (psub (P pi b l') (pS (b :: l')))))).
  { apply (Wd_bind (fun d x => below V mu (b :: l') x /\ size x + Z.of_nat d * dq = b + size l')).
    - intros mo Hmo. destruct (Hst mo Hmo) as (x & qm & Hx & HP & HQ).
      assert (HG : gm (b + size l') mo).
      { revert Hmo. apply supp_psub; [apply Hgr; auto|]. change (pS (b :: l')) with (pmono [vS (b :: l')]). apply supp_pmono; [apply gm_inv|]. exists 0%nat, (b :: l'). split; auto. split; [reflexivity|]. change (size (b :: l')) with (b + size l'). lia. }
      destruct HG as (d & y & A1 & A2 & A3). exists d, y. split; auto.
      assert (Hy : In (vS y) (vS x :: qm)) by (apply (Permutation_in _ HP), (Permutation_in _ (Permutation_sym A2)); left; reflexivity).
      destruct Hy as [Hy|Hy]; [injection Hy as ->; auto|]. rewrite Forall_forall in HQ. specialize (HQ _ Hy). discriminate.
    - intros d x [[Vx Mx] Ex]. apply (Wd_peq _ (pmul (pmul (h a) (DD x)) (pmono (repeat VQ d)))); [ring|].
      replace (a + (b + size l')) with (a + size x + Z.of_nat d * dq) by lia. apply Wd_q. destruct d as [|d]; [|apply C1; auto; nia].
      apply (IHu (mu x)); auto; try lia. }
  assert (HY : Wd (a + (b + size l')) (pmul (h a) (pmul (h b) (DD l')))).
  { destruct (Z.eq_dec a b) as [<-|Hne].
    - apply (Wd_J _ (psumf (fun x => pmul (tm x) (DD l')) (terms a))).
      + apply (JP (pmul (DD l') (psub (pmul (h a) (h a)) (psumf tm (terms a))))); [|apply JM; [apply A_D; auto|apply Hterms; lia]].
        transitivity (psub (pmul (h a) (pmul (h a) (DD l'))) (pmul (psumf tm (terms a)) (DD l'))); [ring|]. apply psub_proper; [reflexivity|].
        generalize (terms a). intros L. induction L as [|x L IH]; [change (peq (pmul pzero (DD l')) pzero); ring|]. rewrite !psumf_cons, <- IH. ring.
      + assert (G : forall L, (forall x, In x L -> In x (terms a)) -> Wd (a + (a + size l')) (psumf (fun x => pmul (tm x) (DD l')) L)); [|apply G; auto].
        induction L as [|[[[c a'] b'] d] L IH]; intros HL; [apply Wd_zero|]. rewrite psumf_cons. apply Wd_add; [|apply IH; intros x Hx; apply HL; right; auto].
        destruct (Hdeg a c a' b' d ltac:(lia) (HL _ (or_introl eq_refl))) as [Hb' Hd']. cbn [tm].
        apply (Wd_peq _ (pscale c (pmul (pmul (h a') (pmul (h b') (DD l'))) (pmono (repeat VQ d))))); [rewrite !pscale_pmul; ring|]. apply Wd_scale.
        replace (a + (a + size l')) with (a' + (b' + size l') + Z.of_nat d * dq) by lia. apply Wd_q. apply Wd_step; [apply A_h|apply C1; auto; lia|].
        intros d' x Vx Ex. assert (E : (d + d' = 0 \/ 0 < d + d')%nat) by lia. destruct E as [E|E]; [apply C2; auto; lia|]. apply C1; auto. assert (0 < (Z.of_nat d + Z.of_nat d') * dq) by nia. lia.
    - apply (Wd_peq _ (pmul (h b) (pmul (h a) (DD l')))); [ring|]. replace (a + (b + size l')) with (b + (a + size l')) by lia. apply Wd_step; [apply A_h|apply C1; auto; lia|].
      intros d x Vx Ex. destruct d as [|d]; [apply C2; auto; lia|apply C1; auto; nia]. }
  apply (Wd_peq _ (padd (pmul (h a) (pmul (h b) (DD l'))) (pscale (- (1))%Qc (pmul (h a) (theta (psub (P pi b l') (pS (b :: l')))))))).
  - rewrite (D_cons b l' Hl). rewrite pscale_pmul, pconst_opp. change (pconst 1%Qc) with pone. ring.
  - apply Wd_add; auto. apply Wd_scale; auto.
Qed.

(** every polynomial is congruent to a combination of Giambelli polynomials *)
Lemma mono_red mo : Forall (fun v => v = VQ \/ exists l, (exists i, 1 <= i <= N /\ l = [i]) /\ v = vS l) mo -> exists T, Wd T (pmono mo).
Proof.
  induction 1 as [|v mo Hv Hmo (T & IH)].
  - exists (size []). apply (Wd_peq _ (DD [])); [reflexivity|]. apply Wd_D. apply (ps_nil _ _ _ _ _ _ _ SYS).
  - assert (Ep : peq (pmono (v :: mo)) (pmul (pvar v) (pmono mo))) by (change (v :: mo) with ([v] ++ mo); rewrite pmono_app; reflexivity).
    destruct Hv as [->|(l & (i & Hi & ->) & ->)].
    + exists (T + Z.of_nat 1 * dq). apply (Wd_peq _ (pmul (pmono mo) (pmono (repeat VQ 1)))); [rewrite Ep; cbn [repeat]; change (pmono [VQ]) with (pvar VQ); ring|]. apply Wd_q. auto.
    + exists (i + T). apply (Wd_peq _ (pmul (h i) (pmono mo))); [rewrite Ep, (hq_at N i Hi); reflexivity|]. apply Wd_step; auto; [apply A_h|]. intros d x Vx Ex. eapply clo; auto; lia.
Qed.
Lemma red p : A p -> exists c, lq c /\ J (psub p (theta c)).
Proof.
  intros Hp. apply A_iff, supp_rawnorm in Hp.
  assert (G : forall r, rawsupp (polym (fun l => exists i, 1 <= i <= N /\ l = [i])) r -> exists c, lq c /\ J (psub r (theta c))).
  { induction r as [|[mo a] r IH]; intros Hr.
    - exists pzero. split; [apply supp_zero|]. apply (JP pzero); [|apply JZ]. change (peq pzero (psub pzero pzero)). ring.
    - destruct (IH (fun m' c' Hi' => Hr m' c' (or_intror Hi'))) as (c & H1 & H2). destruct (mono_red mo (Hr mo a (or_introl eq_refl))) as (T & c' & H1' & H2').
      exists (padd (pscale a c') c). split; [apply supp_padd; auto; apply supp_pscale; eapply gm_lin; eauto|].
      apply (JP (padd (pmul (pconst a) (psub (pmono mo) (theta c'))) (psub r (theta c)))); [|apply JA; auto; apply JM; auto; apply A_const].
      rewrite (poly_cons mo a r), psubst_padd, psubst_pscale, !pscale_pmul. ring. }
  destruct (G _ Hp) as (c & H1 & H2). exists c. split; auto. eapply JP; [|exact H2]. apply psub_proper; [apply pnorm_peq|reflexivity].
Qed.
Lemma J_value p : J p -> vp p /\ peq (MM p (pS [])) pzero.
Proof.
  intros (l & Hl & E). assert (G : vp (psumf (fun x => pmul (fst x) (snd x)) l) /\ peq (MM (psumf (fun x => pmul (fst x) (snd x)) l) (pS [])) pzero).
  { clear E. induction l as [|[a r] l IH]; [split; [apply supp_zero|apply MM_zero_l]|]. rewrite psumf_cons. cbn [fst snd].
    destruct (IH (fun x Hx => Hl x (or_intror Hx))) as [I1 I2]. destruct (Hl (a, r) (or_introl eq_refl)) as [Ha Hr]. cbn [fst snd] in Ha, Hr. apply HR in Hr. destruct Hr as [Hr1 Hr2].
    assert (Hv : vp (pmul a r)) by (apply vpoly_pmul; auto using A_vp). split; [apply supp_padd; auto|].
    etransitivity; [apply (sys_add_l SYS); auto using one_lq|].
    assert (E0 : peq (MM (pmul a r) (pS [])) pzero).
    { etransitivity; [apply (sys_pmul SYS); auto using A_vp, one_lq|]. etransitivity; [apply (sys_peq (k := k)); [reflexivity|exact Hr2]|apply MM_zero_r]. }
    etransitivity; [apply padd_proper; [exact E0|exact I2]|]. ring. }
  destruct G as [G1 G2]. split; [eapply supp_peq; [symmetry; exact E|exact G1]|]. etransitivity; [apply (sys_peq (k := k)); [exact E|reflexivity]|exact G2].
Qed.
Lemma A_sub p p' : A p -> A p' -> A (psub p p').
Proof. intros. unfold psub. apply A_add; auto. apply A_scale; auto. Qed.
Lemma A_th c : lq c -> A (theta c).
Proof. apply A_theta. apply A_D. Qed.
Lemma pres_max p p' : A p -> A p' -> (peq (MM p (pS [])) (MM p' (pS [])) <-> J (psub p p')).
Proof.
  intros Hp Hp'. pose proof (A_sub p p' Hp Hp') as Hs.
  assert (E1 : peq (MM (psub p p') (pS [])) (psub (MM p (pS [])) (MM p' (pS [])))) by (apply MM_sub; auto using A_vp, one_lq).
  split.
  - intros E. destruct (red _ Hs) as (c & Hc & HJ). destruct (J_value _ HJ) as [_ H0].
    assert (E2 : peq c pzero).
    { etransitivity; [symmetry; apply val; auto|].
      assert (E3 : peq (MM (psub (psub p p') (theta c)) (pS [])) (psub (MM (psub p p') (pS [])) (MM (theta c) (pS [])))) by (apply MM_sub; auto using A_vp, A_th, one_lq).
      rewrite H0 in E3. assert (E4 : peq (MM (psub p p') (pS [])) pzero) by (rewrite E1, E; ring).
      assert (E5 : peq (MM (theta c) (pS [])) (psub (MM (psub p p') (pS [])) (psub (MM (psub p p') (pS [])) (MM (theta c) (pS []))))) by ring.
      etransitivity; [exact E5|]. rewrite <- E3. rewrite (E4 : peq (M _ _ _ _ _ _) _). ring. }
    eapply JP; [|exact HJ]. rewrite (psubst_proper (dv DD) _ _ E2). change (peq (psub (psub p p') pzero) (psub p p')). ring.
  - intros HJ. destruct (J_value _ HJ) as [_ H0]. rewrite H0 in E1.
    transitivity (padd (psub (MM p (pS [])) (MM p' (pS []))) (MM p' (pS []))); [ring|]. rewrite <- E1. ring.
Qed.
End X.
