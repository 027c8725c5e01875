(** Consequences for products: degrees, integrality, and the specialisation
    q = 0. *)

From Coq Require Import ZArith List Lia Bool Permutation QArith Qcanon Setoid Morphisms.
From Verif Require Import Py OrderFacts ModelPart ModelQcalc ModelPoly ModelStr ModelGr Spec
  PolyFacts SuppFacts OpTheory Sys.
Import ListNotations.
Open Scope Z_scope.

Lemma repeatQ e : Forall (eq VQ) (repeat VQ e).
Proof. induction e; simpl; constructor; auto. Qed.

Lemma allQ qm : Forall (eq VQ) qm -> qm = repeat VQ (length qm).
Proof. induction 1; simpl; auto. subst. f_equal; auto. Qed.

(** [lin_comb] of the specification and its counterpart here *)
Lemma lin_comb_iff V p : lin_comb V p <-> supp (linm V (eq VQ)) p.
Proof.
  split; intros H m Hm.
  - destruct (H m Hm) as (d & x & Hx & HP). exists x, (repeat VQ d). split; auto. split; auto. apply repeatQ.
  - destruct (H m Hm) as (x & qm & Hx & HP & HQ). exists (length qm), x. split; auto.
    unfold qS. rewrite <- allQ; auto.
Qed.
Lemma lin_comb0_lin V p : lin_comb0 V p -> lin_comb V p.
Proof. intros H m Hm. destruct (H m Hm) as (x & Hx & ->). exists O, x. split; auto. Qed.
Lemma poly_in_iff V p : poly_in V p <-> supp (polym V) p.
Proof. unfold poly_in, supp, polym. reflexivity. Qed.

Lemma lin_comb0_iff V p : lin_comb0 V p <-> supp (fun m => exists x, V x /\ m = [vS x]) p.
Proof. unfold lin_comb0, supp. reflexivity. Qed.

Lemma pmono_qS e x : peq (pmono (qS e x)) (pmul (pmono (repeat VQ e)) (pS x)).
Proof.
  unfold qS. change (vS x :: repeat VQ e) with ([vS x] ++ repeat VQ e).
  rewrite pmono_app. apply pmul_comm.
Qed.

Section Hom.
Context {t : gtype} {pi : Z -> list Z -> res poly} {V : list Z -> Prop} {I : Z -> Prop}
  {k : Z} {mu : list Z -> nat} {fuel : nat}.
Hypothesis H : pieri_sys t pi V I k mu fuel.
Variable deg : list Z -> Z.
Variable dq : Z.
Hypothesis deg_nil : deg [] = 0.
Hypothesis deg_sel : forall l p l0, V l -> gsel k l = Ok (p, l0) -> deg l = deg l0 + Z.abs p.
Hypothesis P_int : forall i l, I i -> V l -> intp (P pi i l).
Hypothesis P_deg : forall i l, I i -> V l ->
  supp (fun m => exists e x, Permutation m (qS e x) /\ deg x + Z.of_nat e * dq = deg l + Z.abs i) (P pi i l).

Notation MM := (M t pi k fuel).
Notation lq := (supp (linm V (eq VQ))).
Notation HH := (hom deg dq V).

Lemma hom_inv d : minv (HH d).
Proof.
  intros a b Hp (e & x & H1 & H2). exists e, x. split; auto.
  eapply perm_trans; [apply Permutation_sym|]; eauto.
Qed.

Lemma hom_q d e p : supp (HH d) p -> supp (HH (d + Z.of_nat e * dq)) (pmul (pmono (repeat VQ e)) p).
Proof.
  intros Hp. eapply (supp_pmul (fun m => Permutation m (repeat VQ e)) (HH d)); eauto.
  - apply hom_inv.
  - intros a b Ha (e' & x & H1 & H2 & H3). exists (e + e')%nat, x. split; [|split; auto; lia].
    unfold qS in *. rewrite repeat_app.
    eapply perm_trans; [apply Permutation_app; eauto|].
    eapply perm_trans; [apply Permutation_app_comm|]. simpl. constructor. apply Permutation_app_comm.
  - apply supp_pmono; auto. intros a b Hab Ha. eapply perm_trans; [apply Permutation_sym|]; eauto.
Qed.

Lemma hom_ext d i p : I i -> supp (HH d) p -> supp (HH (d + Z.abs i)) (ext pi i p).
Proof.
  intros Hi Hp. unfold ext. eapply supp_psubst; [apply hom_inv| |exact Hp].
  intros m (e & x & H1 & H2 & H3).
  eapply supp_peq; [symmetry; apply msubst_perm; exact H1|].
  assert (E : peq (msubst (sigma pi i) (qS e x)) (pmul (pmono (repeat VQ e)) (P pi i x))).
  { unfold qS. change (vS x :: repeat VQ e) with ([vS x] ++ repeat VQ e).
    rewrite msubst_app, (msubst_q pi (eq VQ) eqVQ_isqv i (repeat VQ e) (repeatQ e)).
    assert (E1 : peq (msubst (sigma pi i) [vS x]) (P pi i x)).
    { simpl. rewrite pmul_comm. apply pmul_1_l. }
    rewrite E1. apply pmul_comm. }
  eapply supp_peq; [symmetry; exact E|].
  replace (d + Z.abs i) with (deg x + Z.abs i + Z.of_nat e * dq) by lia.
  apply hom_q. intros m' Hm'. destruct (P_deg i x Hi H2 m' Hm') as (e' & y & Hy & Ey).
  exists e', y. split; auto. split; auto.
  destruct (sys_P_lq H i x Hi H2 m' Hm') as (y' & qm & Hy' & HP & HQ).
  assert (HPy : Permutation (qS e' y) (qS (length qm) y')).
  { eapply perm_trans; [apply Permutation_sym; exact Hy|]. unfold qS at 1. rewrite <- allQ; auto. }
  apply qS_inj in HPy. destruct HPy as [_ ->]. auto.
Qed.

Lemma int_ext i p : I i -> lq p -> intp p -> intp (ext pi i p).
Proof.
  intros Hi Hp Hip. unfold ext.
  eapply intp_peq; [apply psubst_proper; apply pnorm_peq|].
  apply supp_rawnorm in Hp. apply intp_rawnorm in Hip. revert Hp Hip. generalize (pnorm p). clear p.
  induction p as [|[m c] p IH]; intros H1 H2; simpl; [apply intp_zero|].
  apply intp_padd.
  - apply intp_pscale; [apply (H2 m c); simpl; auto|]. apply intp_msubst. intros v Hv.
    destruct (H1 m c) as (x & qm & Hx & HP & HQ); [simpl; auto|].
    apply (Permutation_in _ HP) in Hv. destruct Hv as [<-|Hv].
    + simpl. apply P_int; auto.
    + rewrite Forall_forall in HQ. rewrite <- (HQ v Hv). apply intp_pvar.
  - apply IH; intros a b Hab; [apply (H1 a b)|apply (H2 a b)]; simpl; auto.
Qed.

Lemma hom_lq d p : supp (HH d) p -> lq p.
Proof. apply supp_impl. intros m Hm. eapply hom_linm; eauto. Qed.

Theorem sys_hom b d0 : supp (HH d0) b -> intp b -> forall l, V l ->
  supp (HH (deg l + d0)) (MM (pS l) b) /\ intp (MM (pS l) b).
Proof.
  intros Hb Hbi l Hl.
  assert (G : (fun d p => supp (HH d) p /\ intp p) (deg l + d0) (MM (pS l) b)); [|exact G].
  apply (sys_graded H deg dq (fun d p => supp (HH d) p /\ intp p)); auto.
  - intros d p r E [A B]. split; [eapply supp_peq; eauto | eapply intp_peq; eauto].
  - intros d. split; [apply supp_zero | apply intp_zero].
  - intros d p r [A B] [A' B']. split; [apply supp_padd | apply intp_padd]; auto.
  - intros d c p Hc [A B]. split; [apply supp_pscale | apply intp_pscale]; auto.
  - intros d p [A B]. split; [|apply intp_pmul; auto; apply intp_pvar].
    pose proof (hom_q d 1 p A) as Hq. replace (d + Z.of_nat 1 * dq) with (d + dq) in Hq by lia. exact Hq.
  - intros d i p Hi Hp [A B]. split; [apply hom_ext | apply int_ext]; auto.
  - eapply hom_lq; eauto.
Qed.

End Hom.

(** ** q = 0 *)

Definition z0 (v : var) : poly := match v with VQ => pzero | _ => pvar v end.

Lemma pmul_0_l p : peq (pmul pzero p) pzero.
Proof. reflexivity. Qed.

Lemma msubst_z0_in m : In VQ m -> peq (msubst z0 m) pzero.
Proof.
  induction m as [|v m IH]; simpl; [tauto|]. intros [->|Hin].
  - reflexivity.
  - rewrite IH by auto. rewrite pmul_comm. reflexivity.
Qed.
Lemma msubst_z0_notin m : ~ In VQ m -> peq (msubst z0 m) (pmono m).
Proof.
  induction m as [|v m IH]; simpl; intros Hn; [reflexivity|].
  rewrite IH by auto. change (v :: m) with ([v] ++ m). rewrite pmono_app.
  destruct v; simpl; try reflexivity. exfalso. auto.
Qed.

Lemma coef_z0 p m : ~ In VQ m -> coef (psubst z0 p) m = coef p m.
Proof.
  intros Hm. rewrite coef_psubst, coef_phi. apply phi_ext. intros a c _.
  destruct (in_dec var_eq_dec VQ a) as [Hin|Hin].
  - rewrite (msubst_z0_in a Hin). simpl. destruct (mono_eqb a m) eqn:E; auto.
    apply mono_eqb_perm in E. exfalso. apply Hm. eapply Permutation_in; eauto.
  - rewrite (msubst_z0_notin a Hin). unfold pmono. simpl. destruct (mono_eqb a m); simpl; ring.
Qed.

Lemma z0_free p : (forall m, coef p m <> 0%Qc -> ~ In VQ m) -> peq (psubst z0 p) p.
Proof.
  intros Hp.
  transitivity (psubst z0 (pnorm p)); [rewrite pnorm_peq; reflexivity|].
  rewrite <- (pnorm_peq p) at 2.
  assert (Hr : rawsupp (fun m => ~ In VQ m) (pnorm p)) by (apply supp_rawnorm; exact Hp).
  revert Hr. generalize (pnorm p). induction p0 as [|[m c] t IH]; intros Hr; simpl; [reflexivity|].
  rewrite poly_cons, IH by (intros a d Hd; apply (Hr a d); simpl; auto).
  rewrite msubst_z0_notin by (apply (Hr m c); simpl; auto). reflexivity.
Qed.

Section Special.
Context {t : gtype} {pi1 pi2 : Z -> list Z -> res poly} {V : list Z -> Prop} {I : Z -> Prop}
  {k : Z} {mu : list Z -> nat} {fuel : nat}.
Hypothesis H1 : pieri_sys t pi1 V I k mu fuel.
Hypothesis H2 : pieri_sys t pi2 V I k mu fuel.
Hypothesis HP : forall i l, I i -> V l -> peq (psubst z0 (P pi1 i l)) (P pi2 i l).

Notation M1 := (M t pi1 k fuel).
Notation M2 := (M t pi2 k fuel).
Notation lq := (supp (linm V (eq VQ))).
Notation z := (psubst z0).

Lemma z0_lq p : lq p -> lq (z p).
Proof.
  intros Hp. eapply supp_psubst; [apply linm_inv| |exact Hp].
  intros m Hm. destruct (in_dec var_eq_dec VQ m) as [Hin|Hin].
  - eapply supp_peq; [symmetry; apply msubst_z0_in; auto|]. apply supp_zero.
  - eapply supp_peq; [symmetry; apply msubst_z0_notin; auto|]. apply supp_pmono; auto. apply linm_inv.
Qed.

Lemma z0_ext i p : I i -> lq p -> peq (z (ext pi1 i p)) (ext pi2 i (z p)).
Proof.
  intros Hi Hp. unfold ext.
  transitivity (z (psubst (sigma pi1 i) (pnorm p))); [rewrite pnorm_peq; reflexivity|].
  transitivity (psubst (sigma pi2 i) (z (pnorm p))); [|rewrite pnorm_peq; reflexivity].
  rewrite !psubst_comp. apply psubst_ext. intros m c v Hin Hv.
  apply supp_rawnorm in Hp. destruct (Hp m c Hin) as (x & qm & Hx & HPm & HQ).
  apply (Permutation_in _ HPm) in Hv. destruct Hv as [<-|Hv].
  - simpl z0. rewrite psubst_pvar. apply HP; auto.
  - rewrite Forall_forall in HQ. rewrite <- (HQ v Hv). simpl sigma. rewrite psubst_pvar. reflexivity.
Qed.

Lemma z0_comb (W : list Z -> Prop) b a : (forall x, W x -> V x) -> lq b ->
  (forall x, W x -> peq (z (M1 (pS x) b)) (M2 (pS x) (z b))) ->
  supp (linm W (eq VQ)) a -> peq (z (M1 a b)) (M2 (z a) (z b)).
Proof.
  intros HW Hb HK Ha. pose proof (z0_lq b Hb) as Hzb.
  assert (Hup : forall p, supp (linm W (eq VQ)) p -> lq p).
  { intros p. apply supp_impl. intros m (u & v & ? & ? & ?). exists u, v; auto. }
  revert a Ha. apply (lin_ind W (eq VQ)).
  - intros p r E Hp.
    rewrite <- (M_peq t pi1 k fuel p r b b E (reflexivity b)), Hp.
    apply M_peq; [rewrite E|]; reflexivity.
  - reflexivity.
  - intros qm l c p Hl Hq Hp IH. apply Hup in Hp.
    assert (Hpl : lq (pS l)) by (apply sys_lq_pS; auto).
    assert (Hql : lq (pmul (pmono qm) (pS l))) by (apply (lin_qmul V (eq VQ)); auto).
    rewrite (sys_add_l H1), (sys_scale_l H1); auto using (@sys_lq_vp V);
      [|apply sys_lq_vp, supp_pscale; auto].
    rewrite (sys_q_l H1); auto.
    rewrite psubst_padd, psubst_pscale, psubst_pmul, IH, HK by auto.
    assert (Ez : peq (z (padd (pscale c (pmul (pmono qm) (pS l))) p))
                     (padd (pscale c (pmul (z (pmono qm)) (pS l))) (z p))).
    { rewrite psubst_padd, psubst_pscale, psubst_pmul.
      rewrite (psubst_pvar z0 (vS l) : peq (z (pS l)) (pS l)). reflexivity. }
    rewrite (M_peq t pi2 k fuel _ _ (z b) (z b) Ez (reflexivity (z b))).
    destruct qm as [|v qm].
    + assert (E0 : forall x, peq (pmul (z (pmono [])) x) x).
      { intros x. rewrite psubst_pmono. simpl. ring. }
      assert (E1 : peq (padd (pscale c (pmul (z (pmono [])) (pS l))) (z p)) (padd (pscale c (pS l)) (z p))).
      { rewrite E0. reflexivity. }
      rewrite (M_peq t pi2 k fuel _ _ (z b) (z b) E1 (reflexivity (z b))).
      rewrite (sys_add_l H2), (sys_scale_l H2); auto using (@sys_lq_vp V), z0_lq.
      * rewrite E0. reflexivity.
      * apply sys_lq_vp, supp_pscale; auto.
    + assert (E0 : forall x, peq (pmul (z (pmono (v :: qm))) x) pzero).
      { intros x. inversion Hq; subst. rewrite psubst_pmono, msubst_z0_in by (simpl; auto). reflexivity. }
      assert (E1 : peq (padd (pscale c (pmul (z (pmono (v :: qm))) (pS l))) (z p)) (z p)).
      { rewrite E0. simpl. apply padd_0_l. }
      rewrite (M_peq t pi2 k fuel _ _ (z b) (z b) E1 (reflexivity (z b))).
      rewrite E0. simpl. apply padd_0_l.
Qed.

Lemma z0_M b : lq b -> forall l, V l -> peq (z (M1 (pS l) b)) (M2 (pS l) (z b)).
Proof.
  intros Hb. pose proof (z0_lq b Hb) as Hzb.
  assert (G : forall n l, (mu l < n)%nat -> V l -> peq (z (M1 (pS l) b)) (M2 (pS l) (z b))).
  { induction n as [|n IH]; intros l Hn Hl; [lia|].
    destruct (list_eq_dec Z.eq_dec l []) as [->|Hne].
    - rewrite (sys_unit H1 b Hb), (sys_unit H2 (z b)) by auto. reflexivity.
    - destruct (sys_rec H1 l b Hl Hb Hne) as (p & l0 & A1 & A2 & A3 & A4 & A5).
      destruct (sys_rec H2 l (z b) Hl Hzb Hne) as (p' & l0' & B1 & B2 & B3 & B4 & B5).
      rewrite A1 in B1. inversion B1; subst p' l0'. clear B1.
      rewrite A5, B5, psubst_psub.
      assert (Vl0 : V l0) by apply A3.
      rewrite z0_ext; auto; [|apply (sys_lin H1); auto; apply sys_lq_vp, sys_lq_pS; auto].
      rewrite IH; auto; [|destruct A3; lia].
      rewrite (z0_comb (below V mu l) b (psub (P pi1 p l0) (pS l))); auto.
      + rewrite (M_peq t pi2 k fuel (z (psub (P pi1 p l0) (pS l))) (psub (P pi2 p l0) (pS l)) (z b) (z b));
          [reflexivity | | reflexivity].
        rewrite psubst_psub, HP by auto. unfold pS. rewrite psubst_pvar. reflexivity.
      + intros x Hx; apply Hx.
      + intros x [Hx Hx']. apply IH; auto. lia. }
  intros l Hl. apply (G (S (mu l))); auto.
Qed.

Theorem sys_q0 a b : lq a -> lq b -> peq (z (M1 a b)) (M2 (z a) (z b)).
Proof. intros Ha Hb. apply (z0_comb V); auto. intros. apply z0_M; auto. Qed.

Lemma z0_vp p : supp (polym V) p -> supp (polym V) (z p).
Proof.
  intros Hp. eapply supp_psubst; [apply polym_inv| |exact Hp].
  intros m Hm. destruct (in_dec var_eq_dec VQ m) as [Hin|Hin].
  - eapply supp_peq; [symmetry; apply msubst_z0_in; auto|]. apply supp_zero.
  - eapply supp_peq; [symmetry; apply msubst_z0_notin; auto|]. apply supp_pmono; auto. apply polym_inv.
Qed.

Lemma vp_lin_q a b : a = pvar VQ -> lq b -> peq (M1 a b) (pmul (pvar VQ) b).
Proof.
  intros -> Hb.
  rewrite <- (sys_unit H1 b Hb) at 1.
  assert (Hv : supp (polym V) (pvar VQ)).
  { apply supp_pvar; [apply polym_inv|]. constructor; auto. }
  rewrite <- (sys_pmul H1); auto using (@sys_lq_vp V), (sys_lq_one H1).
  change (pvar VQ) with (pmono [VQ]).
  rewrite (sys_q_l H1 [VQ] (pS []) b) by auto using (sys_lq_one H1).
  rewrite (sys_unit H1 b Hb). reflexivity.
Qed.

(** ... and for polynomial expressions in the first factor *)
Theorem sys_q0_poly a b : supp (polym V) a -> lq b -> peq (z (M1 a b)) (M2 (z a) (z b)).
Proof.
  intros Ha. revert b. 
  assert (Hmono : forall m, polym V m -> forall b, lq b -> peq (z (M1 (pmono m) b)) (M2 (z (pmono m)) (z b))).
  { induction 1 as [|v m Hv Hm IH]; intros b Hb.
    - assert (E1 : peq (M1 (pmono []) b) b).
      { unfold M. rewrite psubst_pmono. simpl msubst.
        destruct H1. eapply (OpN_pone t pi1 V I (eq VQ) eqVQ_isqv); eassumption. }
      assert (E2 : peq (M2 (z (pmono [])) (z b)) (z b)).
      { unfold M. rewrite !psubst_pmono. simpl msubst. rewrite psubst_pone.
        pose proof (z0_lq b Hb). destruct H2. eapply (OpN_pone t pi2 V I (eq VQ) eqVQ_isqv); eassumption. }
      rewrite E1, E2. reflexivity.
    - assert (Hvm : supp (polym V) (pmono m)) by (apply supp_pmono; auto; apply polym_inv).
      assert (Hvv : supp (polym V) (pmono [v])) by (apply supp_pmono; [apply polym_inv|]; constructor; auto).
      assert (E : peq (pmono (v :: m)) (pmul (pmono [v]) (pmono m))) by apply (pmono_app [v] m).
      rewrite E, psubst_pmul.
      rewrite (sys_pmul H1), (sys_pmul H2); auto using z0_lq, z0_vp.
      assert (Hl : lq (M1 (pmono m) b)) by (apply (sys_lin H1); auto).
      rewrite <- (IH b Hb).
      destruct Hv as [->|(l & Hl' & ->)].
      + rewrite (vp_lin_q (pmono [VQ])) by auto.
        rewrite psubst_pmul. change (pvar VQ) with (pmono [VQ]).
        assert (Ez : peq (z (pmono [VQ])) pzero) by (rewrite psubst_pmono, msubst_z0_in by (simpl; auto); reflexivity).
        rewrite Ez, (sys_zero_l (V := V) (z (M1 (pmono m) b))); [reflexivity|].
        apply z0_lq; auto.
      + apply (sys_q0 (pS l)); auto. apply sys_lq_pS; auto. }
  revert a Ha.
  enough (G : forall a, supp (polym V) a -> supp (polym V) a /\ forall b, lq b -> peq (z (M1 a b)) (M2 (z a) (z b))).
  { intros a Ha. apply G; auto. }
  apply (supp_ind (polym V)).
  - intros p r E (Hp & Hk). split; [eapply supp_peq; eauto|]. intros b Hb. rewrite <- E. auto.
  - split; [apply supp_zero|]. intros b Hb.
    rewrite (sys_zero_l (V := V) b Hb). change (z pzero) with pzero. rewrite (sys_zero_l (V := V) (z b) (z0_lq b Hb)). reflexivity.
  - intros m c p Hm (Hp & IH).
    assert (Hvm : supp (polym V) (pmono m)) by (apply supp_pmono; auto; apply polym_inv).
    split; [apply supp_padd; auto; apply supp_pscale; auto|]. intros b Hb.
    rewrite (sys_add_l H1), (sys_scale_l H1), !psubst_padd, !psubst_pscale; auto using supp_pscale.
    rewrite (sys_add_l H2), (sys_scale_l H2); auto using supp_pscale, z0_vp, z0_lq.
    rewrite IH, Hmono by auto. reflexivity.
Qed.

End Special.

(** ** Poincare duality: if the Pieri operators are self-adjoint for the pairing
    of [S_l] with [S_(dual l)], the coefficient of the point in a product is
    that pairing. *)
Section Dual.
Context {t : gtype} {pi : Z -> list Z -> res poly} {V : list Z -> Prop} {I : Z -> Prop}
  {k : Z} {mu : list Z -> nat} {fuel : nat}.
Hypothesis H : pieri_sys t pi V I k mu fuel.
Variable dual : list Z -> list Z.

(** the linear functional [a |-> <a, b>] *)
Definition pair_with (b : poly) (m : mono) : Qc :=
  match m with
  | [VS (SP x)] => coef b [vS (dual x)]
  | _ => 0%Qc
  end.

Lemma pair_inv b : perm_inv (pair_with b).
Proof.
  intros x y Hp. destruct x as [|v [|w x]].
  - apply Permutation_nil in Hp. subst. auto.
  - apply Permutation_length_1_inv in Hp. subst. auto.
  - apply Permutation_length in Hp. destruct y as [|v' [|w' y]]; simpl in *; try discriminate.
    destruct v as [s| | |], v' as [s'| | |]; try destruct s; try destruct s'; auto.
Qed.

Hypothesis adj : forall i l nu, I i -> V l -> V nu ->
  coef (P pi i nu) [vS (dual l)] = phi (pair_with (pS nu)) (P pi i l).

Notation MM := (M t pi k fuel).
Notation lq := (supp (linm V (eq VQ))).

Lemma coef_q0 qm p x : Forall (eq VQ) qm -> qm <> [] -> coef (pmul (pmono qm) p) [vS x] = 0%Qc.
Proof.
  intros Hq Hne. rewrite coef_pmul. simpl. rewrite phi_zero; [ring|].
  intros m c _. destruct (mono_eqb (qm ++ m) [vS x]) eqn:E; auto.
  apply mono_eqb_perm in E. destruct qm as [|v qm]; [congruence|]. inversion Hq; subst.
  simpl in E. apply Permutation_sym, Permutation_length_1_inv in E. discriminate.
Qed.

Lemma coef_nilq p m : coef (pmul (pmono []) p) m = coef p m.
Proof. apply (pmul_1_l p). Qed.

Ltac pair_cases m :=
  unfold pair_with; destruct m as [|[[?x|? ?]| | |] [|? ?]]; try reflexivity.

Lemma pair_padd b b' m : pair_with (padd b b') m = (pair_with b m + pair_with b' m)%Qc.
Proof. pair_cases m. apply coef_padd. Qed.
Lemma pair_pscale c b m : pair_with (pscale c b) m = (c * pair_with b m)%Qc.
Proof. pair_cases m; try ring. apply coef_pscale. Qed.
Lemma pair_peq b b' m : peq b b' -> pair_with b m = pair_with b' m.
Proof. intros E. pair_cases m. apply E. Qed.

Lemma adj_ext i l b : I i -> V l -> lq b ->
  coef (ext pi i b) [vS (dual l)] = phi (pair_with b) (P pi i l).
Proof.
  intros Hi Hl. revert b. apply (lin_ind V (eq VQ)).
  - intros p r E Hp. transitivity (coef (ext pi i p) [vS (dual l)]).
    + symmetry. apply ext_proper. auto.
    + rewrite Hp. apply phi_ext. intros. apply pair_peq; auto.
  - rewrite phi_zero; auto. intros m c _. unfold pair_with.
    destruct m as [|[[x|? ?]| | |] [|? ?]]; reflexivity.
  - intros qm nu c p Hnu Hq _ Hp.
    transitivity (c * coef (pmul (pmono qm) (P pi i nu)) [vS (dual l)] + coef (ext pi i p) [vS (dual l)])%Qc.
    + rewrite <- coef_pscale, <- coef_padd.
      assert (E : peq (ext pi i (padd (pscale c (pmul (pmono qm) (pS nu))) p))
                      (padd (pscale c (pmul (pmono qm) (P pi i nu))) (ext pi i p))).
      { rewrite ext_padd, ext_pscale, (ext_qmul pi (eq VQ) eqVQ_isqv) by auto. rewrite ext_pS. reflexivity. }
      apply E.
    + rewrite Hp.
      transitivity (phi (fun m => c * pair_with (pmul (pmono qm) (pS nu)) m + pair_with p m)%Qc (P pi i l)).
      * rewrite phi_add, phi_mul. f_equal. f_equal. destruct qm as [|v qm].
        -- rewrite coef_nilq, adj by auto. apply phi_ext. intros m d _. apply pair_peq.
           intros m'. symmetry. apply coef_nilq.
        -- rewrite coef_q0; auto; [|discriminate]. symmetry. apply phi_zero.
           intros m d _. pair_cases m.
           apply coef_q0; auto. discriminate.
      * apply phi_ext. intros m d _. rewrite pair_padd, pair_pscale. auto.
Qed.

Lemma dual_comb (W : list Z -> Prop) b a : (forall x, W x -> V x) -> lq b ->
  (forall x, W x -> coef (MM (pS x) b) [vS (dual [])] = coef b [vS (dual x)]) ->
  supp (linm W (eq VQ)) a -> coef (MM a b) [vS (dual [])] = phi (pair_with b) a.
Proof.
  intros HW Hb HK.
  assert (Hup : forall p, supp (linm W (eq VQ)) p -> lq p).
  { intros p. apply supp_impl. intros m (u & v & ? & ? & ?). exists u, v; auto. }
  revert a. apply (lin_ind W (eq VQ)).
  - intros p r E Hp. rewrite <- (phi_peq _ p r (pair_inv b) E), <- Hp.
    symmetry. apply (M_peq t pi k fuel p r b b E (reflexivity b)).
  - reflexivity.
  - intros qm l c p Hl Hq Hp IH. apply Hup in Hp.
    assert (Hpl : lq (pS l)) by (apply sys_lq_pS; auto).
    assert (Hql : lq (pmul (pmono qm) (pS l))) by (apply (lin_qmul V (eq VQ)); auto).
    rewrite phi_padd, phi_pscale, <- IH by apply pair_inv.
    assert (E : peq (MM (padd (pscale c (pmul (pmono qm) (pS l))) p) b)
                    (padd (pscale c (pmul (pmono qm) (MM (pS l) b))) (MM p b))).
    { rewrite (sys_add_l H), (sys_scale_l H); auto using (@sys_lq_vp V);
        [|apply sys_lq_vp, supp_pscale; auto].
      rewrite (sys_q_l H); auto. reflexivity. }
    rewrite (E [vS (dual [])]), coef_padd, coef_pscale. f_equal. f_equal.
    rewrite phi_pmul by apply pair_inv. destruct qm as [|v qm].
    + rewrite coef_nilq, HK by auto. simpl. ring.
    + rewrite coef_q0; auto; [|discriminate]. simpl. inversion Hq; subst. ring.
Qed.

Theorem sys_dual l : V l -> forall b, lq b -> coef (MM (pS l) b) [vS (dual [])] = coef b [vS (dual l)].
Proof.
  assert (G : forall n l, (mu l < n)%nat -> V l -> forall b, lq b ->
              coef (MM (pS l) b) [vS (dual [])] = coef b [vS (dual l)]).
  { induction n as [|n IH]; intros l0 Hn Hl b Hb; [lia|].
    destruct (list_eq_dec Z.eq_dec l0 []) as [->|Hne].
    - apply (sys_unit H b Hb).
    - destruct (sys_rec H l0 b Hl Hb Hne) as (p & l1 & A1 & A2 & A3 & A4 & A5).
      assert (Vl1 : V l1) by apply A3.
      rewrite (A5 [vS (dual [])]), coef_psub.
      rewrite (dual_comb (below V mu l0) b (psub (P pi p l1) (pS l0))); auto.
      + rewrite (sys_ext_r H p (pS l1) b A2 ltac:(apply sys_lq_pS; auto) Hb [vS (dual [])]).
        rewrite IH; auto; [|destruct A3; lia | apply (sys_ext_lin H); auto].
        rewrite adj_ext by auto. unfold psub. rewrite phi_padd, phi_pscale by apply pair_inv.
        unfold pS, pvar. simpl. ring.
      + intros x Hx; apply Hx.
      + intros x [Hx Hx']. apply IH; auto. lia. }
  intros Hl b Hb. apply (G (S (mu l))); auto.
Qed.

End Dual.
