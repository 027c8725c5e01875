(** Strange duality, abstractly: if every Pieri operator has an adjoint for the
    pairing of StrangePair.v up to one unitary invertible Pieri operator, then the
    adjoint of the product with a class is the product with its dual, up to the
    product with the class of a point. *)

From Coq Require Import ZArith List Lia Bool Permutation QArith Qcanon Setoid Morphisms.
From Verif Require Import Py OrderFacts ModelPart ModelQcalc ModelPoly ModelStr ModelGr Spec
  PolyFacts SuppFacts OpTheory WSum Sys Sys2 DualSys StrangePair.
Import ListNotations.
Open Scope Z_scope.

Section S.
Context {t : gtype} {pi : Z -> list Z -> res poly} {V : list Z -> Prop} {I : Z -> Prop}
  {k : Z} {mu : list Z -> nat} {fuel : nat}.
Hypothesis H : pieri_sys t pi V I k mu fuel.
Notation MM := (M t pi k fuel).
Notation lq := (supp (linm V (eq VQ))).
Variable kap : Z.
Hypothesis Hkap : I kap.
Notation K := (ext pi kap).
Hypothesis half : forall i, I i -> exists c, lq c /\
  forall d x y, V x -> V y -> sp d (P pi i x) (pS y) = sp d (P pi kap x) (MM c (pS y)).
Hypothesis unit : forall d x y, V x -> V y -> sp d (pS x) (pS y) = sp d (P pi kap x) (P pi kap y).
Hypothesis inv : exists c e, lq c /\ forall p, lq p -> peq (K (MM c p)) (pmul (pmono (repeat VQ e)) p).

Lemma q_all e : Forall (eq VQ) (repeat VQ e).
Proof. induction e; constructor; auto. Qed.
Lemma q_lq e p : lq p -> lq (pmul (pmono (repeat VQ e)) p).
Proof. intros. apply (lin_qmul V (eq VQ)); auto. apply q_all. Qed.
Lemma lq_vp p : lq p -> supp (polym V) p.
Proof. apply sys_lq_vp. Qed.
Lemma MM_lq a b : lq a -> lq b -> lq (MM a b).
Proof. intros. apply (sys_lin H); auto using lq_vp. Qed.
Lemma ext_lin_op i : I i -> lin_op V (ext pi i).
Proof.
  intros Hi. split; [intros; apply ext_proper; auto|]. split; [intros; apply ext_padd|]. split; [intros; apply ext_pscale|]. split; [reflexivity|].
  intros e p Hp. apply (ext_qmul pi (eq VQ) eqVQ_isqv). apply q_all.
Qed.
Lemma MM_lin_op a : lq a -> lin_op V (MM a).
Proof.
  intros Ha. split; [intros; apply M_peq; auto; reflexivity|]. split; [intros; apply sys_add_r|]. split; [intros; apply sys_scale_r|]. split.
  - transitivity (MM a (pscale 0%Qc pzero)); [apply M_peq; [reflexivity|]; intros mo; rewrite coef_pscale; cbn; ring|].
    rewrite sys_scale_r. intros mo. rewrite coef_pscale. cbn [pzero coef]. ring.
  - intros e p Hp. apply (sys_q_r H); auto. apply q_all.
Qed.

Lemma ext_adj i : I i -> exists c, lq c /\ forall d p r, lq p -> lq r -> sp d (ext pi i p) r = sp d (K p) (MM c r).
Proof.
  intros Hi. destruct (half i Hi) as (c & Hc & E). exists c. split; auto.
  apply (sp_bilin V (ext pi i) (fun r => r) K (MM c)); auto using ext_lin_op, MM_lin_op, lin_op_id.
  intros d x y Hx Hy. rewrite (sp_peq_l d _ _ _ (ext_pS pi i x)), (sp_peq_l d _ _ _ (ext_pS pi kap x)). auto.
Qed.
Lemma K_unit d p r : lq p -> lq r -> sp d p r = sp d (K p) (K r).
Proof.
  apply (sp_bilin V (fun p => p) (fun r => r) K K); auto using ext_lin_op, lin_op_id.
  intros e x y Hx Hy. rewrite (sp_peq_l e _ _ _ (ext_pS pi kap x)), (sp_peq_r e _ _ _ (ext_pS pi kap y)). auto.
Qed.

Fixpoint Kn (N : nat) (p : poly) : poly := match N with O => p | S n => K (Kn n p) end.
Lemma Kn_lq N p : lq p -> lq (Kn N p).
Proof. intros Hp. induction N; cbn [Kn]; auto. apply (sys_ext_lin H); auto. Qed.
Lemma Kn_peq N p r : peq p r -> peq (Kn N p) (Kn N r).
Proof. intros E. induction N; cbn [Kn]; auto. apply ext_proper; auto. Qed.
Lemma Kn_add N M p : Kn (N + M) p = Kn N (Kn M p).
Proof. induction N; cbn [Kn Nat.add]; congruence. Qed.
Lemma Kn_S N p : Kn N (K p) = Kn (S N) p.
Proof. replace (S N) with (N + 1)%nat by lia. rewrite Kn_add. reflexivity. Qed.
Lemma Kn_unit N d p r : lq p -> lq r -> sp d p r = sp d (Kn N p) (Kn N r).
Proof. intros Hp Hr. induction N; cbn [Kn]; auto. rewrite IHN. apply K_unit; apply Kn_lq; auto. Qed.
Lemma Kn_MM_r N a b : lq a -> lq b -> peq (Kn N (MM a b)) (MM a (Kn N b)).
Proof.
  intros Ha Hb. induction N; cbn [Kn]; [reflexivity|]. rewrite (ext_proper _ _ _ _ IHN). apply (sys_ext_r H); auto. apply Kn_lq; auto.
Qed.
Lemma Kn_MM_l N a b : lq a -> lq b -> peq (Kn N (MM a b)) (MM (Kn N a) b).
Proof.
  intros Ha Hb. induction N; cbn [Kn]; [reflexivity|]. rewrite (ext_proper _ _ _ _ IHN). apply (sys_ext H); auto. apply Kn_lq; auto.
Qed.
Lemma Kn_q N e p : lq p -> peq (Kn N (pmul (pmono (repeat VQ e)) p)) (pmul (pmono (repeat VQ e)) (Kn N p)).
Proof.
  intros Hp. induction N; cbn [Kn]; [reflexivity|]. rewrite (ext_proper _ _ _ _ IHN). apply (ext_qmul pi (eq VQ) eqVQ_isqv). apply q_all.
Qed.
Lemma Kn_inv N : exists e, forall z, V z -> exists p, lq p /\ peq (Kn N p) (pmul (pmono (repeat VQ e)) (pS z)).
Proof.
  destruct inv as (c & f & Hc & E). induction N as [|N (e & IH)].
  - exists 0%nat. intros z Hz. exists (pS z). split; [apply sys_lq_pS; auto|]. cbn [Kn repeat]. symmetry. apply pmul_1_l.
  - exists (e + f)%nat. intros z Hz. destruct (IH z Hz) as (p & Hp & Ep). exists (MM c p). split; [apply MM_lq; auto|].
    cbn [Kn]. rewrite (ext_proper _ _ _ _ (Kn_MM_r N c p Hc Hp)), (E (Kn N p) (Kn_lq N p Hp)), Ep.
    rewrite pmul_assoc. apply pmul_proper; [|reflexivity]. rewrite <- pmono_app, <- repeat_app. replace (f + e)%nat with (e + f)%nat by lia. reflexivity.
Qed.

(** ** operators with an adjoint *)
Definition adjb (T : poly -> poly) (N f : nat) (a : poly) : Prop :=
  lq a /\ forall d p r, lq p -> lq r -> sp d (T p) r = sp (d - Z.of_nat f) (Kn N p) (MM a r).

Lemma adjb_raise T N f a N' f' : (N <= N')%nat -> (f <= f')%nat -> adjb T N f a -> exists a', adjb T N' f' a'.
Proof.
  intros HN Hf (Ha & E). exists (pmul (pmono (repeat VQ (f' - f))) (Kn (N' - N) a)). split; [apply q_lq, Kn_lq; auto|].
  intros d p r Hp Hr. rewrite E by auto.
  rewrite (sp_peq_r _ _ (MM (pmul (pmono (repeat VQ (f' - f))) (Kn (N' - N) a)) r) (pmul (pmono (repeat VQ (f' - f))) (Kn (N' - N) (MM a r)))).
  - rewrite sp_q_r. replace N' with (N' - N + N)%nat at 1 by lia. rewrite Kn_add, <- Kn_unit; auto using Kn_lq, MM_lq. f_equal. lia.
  - rewrite (sys_q_l H) by auto using q_all, Kn_lq. apply pmul_proper; [reflexivity|]. symmetry. apply Kn_MM_l; auto.
Qed.
Definition adjx (T : poly -> poly) : Prop := exists N f a, adjb T N f a.
Lemma adjx_peq T T' : (forall p, lq p -> peq (T p) (T' p)) -> adjx T -> adjx T'.
Proof.
  intros E (N & f & a & Ha & HA). exists N, f, a. split; auto. intros d p r Hp Hr. rewrite <- HA by auto. apply sp_peq_l. symmetry. auto.
Qed.
Lemma adjx_add T T' : adjx T -> adjx T' -> adjx (fun p => padd (T p) (T' p)).
Proof.
  intros (N & f & a & HA) (N' & f' & a' & HA').
  destruct (adjb_raise T N f a (N + N') (f + f') ltac:(lia) ltac:(lia) HA) as (b & Hb & EB).
  destruct (adjb_raise T' N' f' a' (N + N') (f + f') ltac:(lia) ltac:(lia) HA') as (b' & Hb' & EB').
  exists (N + N')%nat, (f + f')%nat, (padd b b'). split; [apply supp_padd; auto|]. intros d p r Hp Hr.
  rewrite sp_padd_l, EB, EB' by auto. rewrite <- sp_padd_r. apply sp_peq_r. symmetry. apply (sys_add_l H); auto using lq_vp.
Qed.
Lemma adjx_scale c T : adjx T -> adjx (fun p => pscale c (T p)).
Proof.
  intros (N & f & a & Ha & HA). exists N, f, (pscale c a). split; [apply supp_pscale; auto|]. intros d p r Hp Hr.
  rewrite sp_pscale_l, HA by auto. rewrite <- sp_pscale_r. apply sp_peq_r. symmetry. apply (sys_scale_l H); auto using lq_vp.
Qed.
Lemma adjx_q e T : adjx T -> adjx (fun p => pmul (pmono (repeat VQ e)) (T p)).
Proof.
  intros (N & f & a & Ha & HA). exists N, (f + e)%nat, a. split; auto. intros d p r Hp Hr.
  rewrite sp_q_l, HA by auto. replace (d - Z.of_nat e - Z.of_nat f) with (d - Z.of_nat (f + e)) by lia. reflexivity.
Qed.
Lemma adjx_ext i l : I i -> V l -> adjx (MM (pS l)) -> adjx (fun p => ext pi i (MM (pS l) p)).
Proof.
  intros Hi Hl (N & f & a & Ha & HA). destruct (ext_adj i Hi) as (c & Hc & E). exists (S N), f, (MM a c). split; [apply MM_lq; auto|].
  assert (HL : lq (pS l)) by (apply sys_lq_pS; auto).
  intros d p r Hp Hr. rewrite E by auto using MM_lq.
  rewrite (sp_peq_l d _ (MM (pS l) (K p))) by (apply (sys_ext_r H); auto).
  rewrite HA by auto using MM_lq, (sys_ext_lin H).
  rewrite <- Kn_S.
  apply sp_peq_r. symmetry. apply (sys_assoc H); auto.
Qed.
Lemma adjx_zero : adjx (fun _ => pzero).
Proof.
  exists 0%nat, 0%nat, pzero. split; [apply supp_zero|]. intros d p r Hp Hr.
  rewrite (sp_peq_r _ _ (MM pzero r) pzero) by (apply (@sys_zero_l t pi V); auto). rewrite sp_zero_r. reflexivity.
Qed.
Lemma adjx_comb (W : list Z -> Prop) a : (forall l, W l -> V l) -> (forall l, W l -> adjx (MM (pS l))) -> supp (linm W (eq VQ)) a -> adjx (MM a).
Proof.
  intros HW HS. revert a. apply (lin_ind W (eq VQ)).
  - intros a b E Ha. apply (adjx_peq (MM a)); auto. intros p Hp. apply M_peq; [auto|reflexivity].
  - apply (adjx_peq (fun _ => pzero)); [|apply adjx_zero]. intros p Hp. symmetry. apply (@sys_zero_l t pi V); auto.
  - intros qm l c a Hl Hq Ha IH.
    assert (HlV : lq (pS l)) by (apply sys_lq_pS; auto).
    assert (HaV : lq a) by (eapply supp_impl; [|exact Ha]; intros m (x & q & Hx & Hr' & Hq'); exists x, q; auto).
    assert (HqV : lq (pmul (pmono qm) (pS l))) by (apply (lin_qmul V (eq VQ)); auto).
    apply (adjx_peq (fun p => padd (pscale c (pmul (pmono (repeat VQ (length qm))) (MM (pS l) p))) (MM a p))).
    + intros b Hb. rewrite <- (allQ qm Hq). symmetry. rewrite (sys_add_l H), (sys_scale_l H), (sys_q_l H); auto using (@sys_lq_vp V), (@supp_pscale (linm V (eq VQ))). reflexivity.
    + apply adjx_add; auto. apply adjx_scale, adjx_q. auto.
Qed.
Lemma adjx_class l : V l -> adjx (MM (pS l)).
Proof.
  remember (mu l) as N eqn:EN. revert l EN. induction N as [N IH] using (well_founded_induction Wf_nat.lt_wf). intros l -> Hl.
  destruct (list_eq_dec Z.eq_dec l []) as [->|Hne].
  { exists 0%nat, 0%nat, (pS []). split; [apply sys_lq_pS; auto|]. intros d p r Hp Hr. cbn [Kn]. rewrite Z.sub_0_r.
    rewrite (sp_peq_l d (MM (pS []) p) p) by (apply (sys_unit H); auto). rewrite (sp_peq_r d _ (MM (pS []) r) r) by (apply (sys_unit H); auto). reflexivity. }
  destruct (sys_rec H l pzero Hl (supp_zero _) Hne) as (i & l0 & Hg & Hi & (Hl0 & Hm) & HS & _).
  apply (adjx_peq (fun p => padd (ext pi i (MM (pS l0) p)) (pscale (-(1))%Qc (MM (psub (P pi i l0) (pS l)) p)))).
  - intros p Hp. destruct (sys_rec H l p Hl Hp Hne) as (i' & l0' & Hg' & _ & _ & _ & E1). rewrite Hg in Hg'. injection Hg' as <- <-.
    rewrite E1. intros x. rewrite coef_psub, coef_padd, coef_pscale. ring.
  - apply adjx_add; [apply adjx_ext; auto; apply (IH (mu l0) Hm l0 eq_refl Hl0)|]. apply adjx_scale. apply (adjx_comb (below V mu l)); auto.
    + intros x (Hx & _); auto.
    + intros x (Hx & Hmx). apply (IH (mu x) Hmx x eq_refl Hx).
Qed.

(** ** the class of a point *)
Variable dual : list Z -> list Z.
Variable pt : list Z.
Hypothesis Hpt : V pt.
Hypothesis HV : forall l, V l -> V (dual l).
Hypothesis HD : forall l, V l -> dual (dual l) = l.
Hypothesis pts : forall l x d, V l -> V x ->
  coef (MM (pS l) (pS x)) (qS d pt) = if (d =? 0)%nat then (if l_dec l (dual x) then 1%Qc else 0%Qc) else 0%Qc.
Variable N0 : nat.
Hypothesis ptK : forall p, lq p -> peq (MM (pS pt) p) (Kn N0 p).

Lemma sp_point l p d : V l -> lq p -> sp d (MM (pS l) p) (pS pt) = sp d p (pS (dual l)).
Proof.
  intros Hl. assert (HL : lq (pS l)) by (apply sys_lq_pS; auto). intros Hp.
  revert d. revert p Hp. apply (lin_ind V (eq VQ) (fun p => forall d, sp d (MM (pS l) p) (pS pt) = sp d p (pS (dual l)))).
  - intros p r E Hp d. rewrite <- (sp_peq_l d _ _ _ E), <- Hp. apply sp_peq_l. apply M_peq; [reflexivity|symmetry; auto].
  - intros d. destruct (MM_lin_op (pS l) HL) as (_ & _ & _ & E & _). rewrite (sp_peq_l d _ _ _ E). reflexivity.
  - intros qm x c p Hx Hq Hp IH d. assert (HX : lq (pS x)) by (apply sys_lq_pS; auto).
    rewrite (sp_peq_l d _ _ _ (sys_add_r _ _ _)), !sp_padd_l, IH. f_equal.
    rewrite (sp_peq_l d _ _ _ (sys_scale_r _ _ _)), !sp_pscale_l. f_equal.
    rewrite (sp_peq_l d _ _ _ (sys_q_r H qm _ _ Hq HL HX)). rewrite (allQ qm Hq), !sp_q_l. generalize (d - Z.of_nat (length qm)). clear d. intros d.
    rewrite (sp_pS_r V) by (apply MM_lq; auto). rewrite (sp_pS_r V) by auto. destruct (Z.leb_spec 0 d); auto.
    rewrite pts by auto. rewrite coef_pS_q. destruct (Z.to_nat d =? 0)%nat; auto.
    destruct (l_dec l (dual x)) as [E|E], (l_dec x (dual l)) as [E'|E']; auto; exfalso.
    + apply E'. rewrite E, HD; auto.
    + apply E. rewrite E', HD; auto.
Qed.

Theorem strange l d p r : V l -> lq p -> lq r ->
  sp d (MM (pS l) p) r = sp d (MM (pS pt) p) (MM (pS (dual l)) r).
Proof.
  intros Hl Hp Hr. destruct (adjx_class l Hl) as (N & f & a & Ha & HA).
  assert (HL : lq (pS l)) by (apply sys_lq_pS; auto). assert (HP : lq (pS pt)) by (apply sys_lq_pS; auto).
  assert (HDl : lq (pS (dual l))) by (apply sys_lq_pS; auto). pose proof (sys_lq_one H) as H1.
  set (D := pS (dual l)) in *.
  (* the adjoint on the unit *)
  assert (E1 : forall d p, lq p -> sp (d - Z.of_nat f) (Kn N p) a = sp d (Kn N0 p) D).
  { clear d p Hp. intros d p Hp. rewrite <- (sp_peq_r _ _ _ _ (sys_one H a Ha)). rewrite <- HA by auto.
    rewrite (Kn_unit N0 d) by auto using MM_lq. rewrite <- (sp_peq_l d _ _ _ (ptK _ (MM_lq _ _ HL Hp))), <- (sp_peq_r d _ _ _ (ptK _ H1)).
    rewrite (sp_peq_r d _ _ _ (sys_one H _ HP)). rewrite (sp_peq_l d _ _ _ (sys_swap H _ _ _ (lq_vp _ HP) (lq_vp _ HL) Hp)).
    rewrite sp_point by auto using MM_lq. apply sp_peq_l. auto. }
  assert (E2 : peq (Kn N0 a) (pmul (pmono (repeat VQ f)) (Kn N D))).
  { apply (sp_nondeg V); auto using Kn_lq, q_lq. intros e z Hz. destruct (Kn_inv (N0 + N)) as (g & G). destruct (G z Hz) as (u & Hu & Eu).
    assert (Q : forall w, lq w -> sp e (pS z) w = sp (e + Z.of_nat g) (Kn (N0 + N) u) w).
    { intros w Hw. rewrite (sp_peq_l _ _ _ _ Eu), sp_q_l. f_equal. lia. }
    rewrite !Q by auto using Kn_lq, q_lq. rewrite sp_q_r. rewrite Kn_add at 1. rewrite <- Kn_unit by auto using Kn_lq.
    rewrite Nat.add_comm, Kn_add, <- Kn_unit by auto using Kn_lq. specialize (E1 (e + Z.of_nat g + Z.of_nat f) u Hu).
    replace (e + Z.of_nat g + Z.of_nat f - Z.of_nat f) with (e + Z.of_nat g) in E1 by lia. exact E1. }
  rewrite HA by auto. rewrite (Kn_unit N0) by auto using Kn_lq, MM_lq.
  rewrite (sp_peq_r _ _ _ _ (Kn_MM_l N0 a r Ha Hr)).
  rewrite (sp_peq_r _ _ _ (pmul (pmono (repeat VQ f)) (Kn N (MM D r)))).
  - rewrite sp_q_r. replace (d - Z.of_nat f + Z.of_nat f) with d by lia. rewrite <- Kn_add, Nat.add_comm, Kn_add, <- Kn_unit by auto using Kn_lq, MM_lq.
    apply sp_peq_l. symmetry. auto.
  - transitivity (MM (pmul (pmono (repeat VQ f)) (Kn N D)) r); [apply M_peq; [exact E2|reflexivity]|].
    rewrite (sys_q_l H) by auto using q_all, Kn_lq. apply pmul_proper; [reflexivity|]. symmetry. apply Kn_MM_l; auto.
Qed.
End S.
