(** What the classical and the quantum Pieri operators of one Grassmannian have
    in common, and the laws that follow. *)

From Coq Require Import ZArith List Lia Bool Permutation QArith Qcanon Setoid Morphisms.
From Verif Require Import Py OrderFacts ModelPart ModelQcalc ModelPoly ModelStr ModelGr Spec SpecPieri SpecRing
  PolyFacts SuppFacts OpTheory Enum PyFacts PartFacts WSum Sys Sys2 SysApi FactsA SysRing CoefSys RecBCD RingC.
Import ListNotations.
Open Scope Z_scope.

(** ** facts about coefficients *)
Lemma coef_z0_in p m : In VQ m -> coef (psubst z0 p) m = 0%Qc.
Proof.
  intros Hm. rewrite coef_psubst. apply phi_zero. intros a c _.
  destruct (in_dec var_eq_dec VQ a) as [Hin|Hin].
  - rewrite (msubst_z0_in a Hin). reflexivity.
  - rewrite (msubst_z0_notin a Hin). unfold pmono. simpl. destruct (mono_eqb a m) eqn:E; auto.
    apply mono_eqb_perm in E. exfalso. apply Hin. eapply Permutation_in; [apply Permutation_sym|]; eauto.
Qed.
Lemma q0_coefs p r W W' : qcoefs p W -> qcoefs r W' -> (forall mu, W 0%nat mu = W' 0%nat mu) -> (forall d mu, (1 <= d)%nat -> W' d mu = 0%Qc) ->
  peq (psubst z0 p) r.
Proof.
  intros (H1 & H2) (H3 & H4) HW HW' m. destruct (in_dec var_eq_dec VQ m) as [Hin|Hin].
  - rewrite coef_z0_in by auto. symmetry. destruct (Qc_eq_dec (coef r m) 0%Qc) as [E|E]; auto. destruct (H4 m E) as (d & mu & HP).
    rewrite (coef_perm _ _ _ HP), H3. destruct d as [|d]; [|apply HW'; lia]. exfalso. apply (Permutation_in _ HP) in Hin. destruct Hin as [Hin|[]]. discriminate.
  - rewrite coef_z0 by auto. assert (G : forall d mu, Permutation m (qS d mu) -> coef p m = coef r m).
    { intros d mu HP. rewrite !(coef_perm _ _ _ HP), H1, H3. destruct d as [|d]; [apply HW|]. exfalso. apply Hin. apply (Permutation_in _ (Permutation_sym HP)). right. left. reflexivity. }
    destruct (Qc_eq_dec (coef r m) 0%Qc) as [E|E]; [|destruct (H4 m E) as (d & mu & HP); eauto].
    destruct (Qc_eq_dec (coef p m) 0%Qc) as [E'|E']; [congruence|]. destruct (H2 m E') as (d & mu & HP); eauto.
Qed.
Lemma special_coefs p l W : qcoefs p W -> W 0%nat l = 1%Qc -> (forall d mu, W d mu <> 0%Qc -> d = 0%nat /\ mu = l) -> peq (pS l) p.
Proof.
  intros HQ Hl HW m. pose proof (rec_supp (fun _ => False) p l W HQ Hl) as G.
  assert (G' : supp (linm (fun _ : list Z => False) (eq VQ)) (psub p (pS l))).
  { apply G. intros d mu Hne Hd. destruct (HW d mu Hne) as [-> ->]. apply (Hd eq_refl). reflexivity. }
  destruct (Qc_eq_dec (coef (psub p (pS l)) m) 0%Qc) as [E|E].
  - rewrite coef_psub in E. assert (coef p m = coef (pS l) m); [|congruence]. transitivity (coef p m - coef (pS l) m + coef (pS l) m)%Qc; [ring|]. rewrite E. ring.
  - destruct (G' m E) as (x & qm & [] & _).
Qed.
Lemma gsel_deg_part k l p l0 : is_partition l -> gsel k l = Ok (p, l0) -> size l = size l0 + Z.abs p.
Proof.
  intros Hl. destruct l as [|p0 t].
  - unfold gsel. change (last [] 1 =? 0) with false. rewrite andb_false_r.
    change (sl_from [] 1) with (@nil Z). cbn [bind hd]. intros E. inversion E; subst. reflexivity.
  - rewrite gsel_part by auto. intros E. inversion E; subst. destruct (partition_tl p l0 Hl) as (_ & Hp & _).
    change (size (p :: l0)) with (p + size l0). lia.
Qed.

(** ** the package *)
Definition graded (dq : Z) (I : Z -> Prop) (V : list Z -> Prop) (pi : Z -> list Z -> res poly) : Prop :=
  forall i l, I i -> V l -> exists r, apply_lc (on_part (pi i)) (pS l) = Ok r /\ positive_coefs r /\ homogeneous dq (size l + Z.abs i) r.

Record ring_data (g : gr) (V : list Z -> Prop) (I : Z -> Prop) (mu : list Z -> nat) : Prop := {
  rd_cl : pieri_sys (g_type g) (pieri_fun g) V I (g_k g) mu (giam_fuel g);
  rd_qu : pieri_sys (g_type g) (qpieri_fun g) V I (g_k g) mu (giam_fuel g);
  rd_q0 : forall i l, I i -> V l -> peq (psubst z0 (P (qpieri_fun g) i l)) (P (pieri_fun g) i l);
  rd_V : forall i, I i -> V (num2spec i);
  rd_spc : forall i, I i -> peq (pS (num2spec i)) (P (pieri_fun g) i []);
  rd_spq : forall i, I i -> peq (pS (num2spec i)) (P (qpieri_fun g) i []);
  rd_gsel : forall l p l0, V l -> gsel (g_k g) l = Ok (p, l0) -> size l = size l0 + Z.abs p;
  rd_gc : graded (degree_q g) I V (pieri_fun g);
  rd_gq : graded (degree_q g) I V (qpieri_fun g)
}.

Section Data.
Context {g : gr} {V : list Z -> Prop} {I : Z -> Prop} {mu : list Z -> nat}.
Hypothesis D : ring_data g V I mu.

Lemma rd_laws : product_laws V (mult g) /\ product_laws V (qmult g).
Proof. split; [apply (sys_laws (rd_cl _ _ _ _ D))|apply (sys_laws (rd_qu _ _ _ _ D))]. Qed.
Lemma rd_conv : conversion_laws V (mult g) (toS g) /\ conversion_laws V (qmult g) (qtoS g).
Proof. split; [apply (sys_conv (rd_cl _ _ _ _ D))|apply (sys_conv (rd_qu _ _ _ _ D))]. Qed.
Lemma rd_giam (X : list Z -> Prop) : (forall i, I i -> X (num2spec i)) ->
  giambelli_laws V X (giambelli g) (act g) /\ giambelli_laws V X (qgiambelli g) (qact g).
Proof. intros HX. split; [apply (sys_giambelli (rd_cl _ _ _ _ D) X HX)|apply (sys_giambelli (rd_qu _ _ _ _ D) X HX)]. Qed.
Lemma rd_comm : operators_commute V I (pieri g) /\ operators_commute V I (qpieri g).
Proof. split; [apply (sys_pi_comm (rd_cl _ _ _ _ D))|apply (sys_pi_comm (rd_qu _ _ _ _ D))]. Qed.
Lemma rd_special i c : I i -> lin_comb V c ->
  (exists r r', mult g (pS (num2spec i)) c = Ok r /\ pieri g i c = Ok r' /\ peq r r') /\
  (exists r r', qmult g (pS (num2spec i)) c = Ok r /\ qpieri g i c = Ok r' /\ peq r r').
Proof.
  intros Hi Hc. pose proof (rd_V _ _ _ _ D i Hi) as HV. split.
  - apply (sys_special (rd_cl _ _ _ _ D) i _ c Hi HV (rd_spc _ _ _ _ D i Hi) Hc).
  - apply (sys_special (rd_qu _ _ _ _ D) i _ c Hi HV (rd_spq _ _ _ _ D i Hi) Hc).
Qed.
Lemma graded_P dq pi : (forall i l, I i -> V l -> pi i l = Ok (P pi i l)) -> graded dq I V pi -> forall i l, I i -> V l ->
  intp (P pi i l) /\ supp (fun m => exists e x, Permutation m (qS e x) /\ size x + Z.of_nat e * dq = size l + Z.abs i) (P pi i l).
Proof.
  intros Hok G i l Hi Hl. destruct (G i l Hi Hl) as (r & E & H1 & H2). destruct (on_class (pi i) l _ (Hok i l Hi Hl)) as (r' & E' & Pr).
  rewrite E in E'. injection E' as <-. split.
  - eapply intp_peq; [exact Pr|]. intros m. destruct (Qc_eq_dec (coef r m) 0%Qc) as [E0|E0]; [rewrite E0; exists 0; reflexivity|]. destruct (H1 m E0) as (z & _ & Hz). exists z. exact Hz.
  - eapply supp_peq; [exact Pr|]. intros m Hm. exact (H2 m Hm).
Qed.
Lemma rd_homog lam nu : V lam -> V nu ->
  (exists r, mult g (pS lam) (pS nu) = Ok r /\ homogeneous (degree_q g) (size lam + size nu) r /\ integral r) /\
  (exists r, qmult g (pS lam) (pS nu) = Ok r /\ homogeneous (degree_q g) (size lam + size nu) r /\ integral r).
Proof.
  intros Hl Hn. split.
  - apply (sys_homog (rd_cl _ _ _ _ D) size (degree_q g) lam nu); auto; try (apply (rd_gsel _ _ _ _ D)).
    + intros. apply (graded_P _ _ (ps_ok _ _ _ _ _ _ _ (rd_cl _ _ _ _ D)) (rd_gc _ _ _ _ D)); auto.
    + intros. apply (graded_P _ _ (ps_ok _ _ _ _ _ _ _ (rd_cl _ _ _ _ D)) (rd_gc _ _ _ _ D)); auto.
  - apply (sys_homog (rd_qu _ _ _ _ D) size (degree_q g) lam nu); auto; try (apply (rd_gsel _ _ _ _ D)).
    + intros. apply (graded_P _ _ (ps_ok _ _ _ _ _ _ _ (rd_qu _ _ _ _ D)) (rd_gq _ _ _ _ D)); auto.
    + intros. apply (graded_P _ _ (ps_ok _ _ _ _ _ _ _ (rd_qu _ _ _ _ D)) (rd_gq _ _ _ _ D)); auto.
Qed.
Lemma rd_q0_mult a b : lin_comb0 V a -> lin_comb0 V b ->
  exists x r, qmult g a b = Ok x /\ mult g a b = Ok r /\ same_q_free_part x r.
Proof. apply (sys_q0_mult (rd_qu _ _ _ _ D) (rd_cl _ _ _ _ D) (rd_q0 _ _ _ _ D)). Qed.
Lemma rd_q0_toS a : poly_in V a -> (forall mo, In VQ mo -> coef a mo = 0%Qc) ->
  exists x r, qtoS g a = Ok x /\ toS g a = Ok r /\ same_q_free_part x r.
Proof. apply (sys_q0_toS (rd_qu _ _ _ _ D) (rd_cl _ _ _ _ D) (rd_q0 _ _ _ _ D)). Qed.
End Data.
