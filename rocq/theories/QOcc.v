(** Which powers of q occur in a product of two classes: chains with at most [R]
    Pieri products, when a product of at most [R] special classes has no q. *)

From Coq Require Import ZArith List Lia Bool Permutation QArith Qcanon Setoid Morphisms.
From Verif Require Import Py OrderFacts ModelPart ModelQcalc ModelPoly ModelStr ModelGr Spec
  PolyFacts SuppFacts OpTheory WSum Sys Sys2 DualSys Reach.
Import ListNotations.
Open Scope Z_scope.

Section QOcc.
Context {t : gtype} {pi : Z -> list Z -> res poly} {V : list Z -> Prop} {I : Z -> Prop}
  {k : Z} {mu : list Z -> nat} {fuel : nat}.
Hypothesis H : pieri_sys t pi V I k mu fuel.
Hypothesis pos : forall i l d x, I i -> V l -> (0 <= coef (P pi i l) (qS d x))%Qc.
Variable R : nat.
Hypothesis noq : forall i l d x, I i -> V l -> (length l < R)%nat -> coef (P pi i l) (qS d x) <> 0%Qc -> d = 0%nat /\ (length x <= S (length l))%nat.
Hypothesis sel : forall l p l0, V l -> l <> [] -> gsel k l = Ok (p, l0) -> length l = S (length l0).
Hypothesis len : forall l, V l -> (length l <= R)%nat.

Notation MM := (M t pi k fuel).
Notation lq := (supp (linm V (eq VQ))).

Inductive nsteps (x : list Z) : nat -> nat -> list Z -> Prop :=
| ns_refl : nsteps x 0 0 x
| ns_stay r d y : nsteps x r d y -> nsteps x (S r) d y
| ns_step r d y i e z : nsteps x r d y -> I i -> coef (P pi i y) (qS e z) <> 0%Qc -> nsteps x (S r) (d + e) z.

Definition lenV (r : nat) (l : list Z) : Prop := V l /\ (length l <= r)%nat.
(** the combinations without q of classes with at most [r] parts *)
Definition fr (r : nat) : poly -> Prop := supp (linm (lenV r) (fun _ => False)).
Lemma fr_lq r p : fr r p -> lq p.
Proof.
  intros Hp. eapply supp_impl; [|exact Hp]. intros m (l & qm & (Hl & _) & HP & HQ). exists l, qm. split; auto. split; auto.
  eapply Forall_impl; [|exact HQ]. intros a [].
Qed.
Lemma fr_S r p : fr r p -> fr (S r) p.
Proof.
  intros Hp. eapply supp_impl; [|exact Hp]. intros m (l & qm & (Hl & Hr) & HP & HQ). exists l, qm. split; [split; auto|auto].
Qed.
Lemma P_fr i l r : I i -> V l -> (length l <= r)%nat -> (r < R)%nat -> fr (S r) (P pi i l).
Proof.
  intros Hi Hl Hr HR m Hm. destruct (sys_P_lq H i l Hi Hl m Hm) as (x & qm & Hx & HP & HQ). rewrite (allQ qm HQ) in HP.
  rewrite (coef_perm _ _ _ HP) in Hm. destruct (noq i l (length qm) x Hi Hl ltac:(lia) Hm) as (E & HL).
  destruct qm as [|v qm]; [|discriminate]. exists x, []. split; [split; [auto|lia]|]. split; [exact HP|constructor].
Qed.
Lemma ext_fr i r p : I i -> (r < R)%nat -> fr r p -> fr (S r) (ext pi i p).
Proof.
  intros Hi HR. revert p. apply (lin_ind (lenV r) (fun _ => False) (fun p => fr (S r) (ext pi i p))).
  - intros p r' E Hp. apply (supp_peq _ (ext pi i p)); auto. unfold ext. apply psubst_proper. auto.
  - apply supp_zero.
  - intros qm l c p (Hl & Hlr) HQ _ IH. destruct qm as [|v qm]; [|inversion HQ; contradiction].
    apply (supp_peq _ (padd (pscale c (P pi i l)) (ext pi i p))).
    { rewrite ext_padd, ext_pscale. assert (E : peq (pmul (pmono []) (pS l)) (pS l)) by apply pmul_1_l.
      assert (E2 : peq (ext pi i (pmul (pmono []) (pS l))) (P pi i l)) by (rewrite <- ext_pS; unfold ext; apply psubst_proper; auto).
      rewrite E2. reflexivity. }
    apply supp_padd; [apply supp_pscale; apply P_fr; auto|exact IH].
Qed.

(** ** A chain gives a product *)
Lemma nsteps_prod x r d y : V x -> nsteps x r d y -> (r <= R)%nat ->
  exists w, fr r w /\ nonneg (MM w (pS x)) /\ coef (MM w (pS x)) (qS d y) <> 0%Qc.
Proof.
  intros Hx. assert (Sx : lq (pS x)) by (apply sys_lq_pS; auto). assert (S0 : lq (pS [])) by apply (sys_lq_one H).
  induction 1 as [|r d y HS IH|r d y i e z HS IH Hi Hc]; intros HR.
  - exists (pS []). assert (E : peq (MM (pS []) (pS x)) (pS x)) by (rewrite (sys_comm H) by auto; apply (sys_one H); auto).
    split; [|split].
    + intros m Hm. apply coef_pvar_neq0 in Hm. subst m. exists [], []. split; [split; [apply (ps_nil _ _ _ _ _ _ _ H)|cbn; lia]|split; [reflexivity|constructor]].
    + intros d y. rewrite (E _), coef_pS_q. destruct (d =? 0)%nat; [destruct (l_dec x y)|]; discriminate.
    + rewrite (E _), coef_pS_q. cbn [Nat.eqb]. destruct (l_dec x x); [discriminate|congruence].
  - destruct (IH ltac:(lia)) as (w & Hw & G). exists w. split; auto. apply fr_S. auto.
  - destruct (IH ltac:(lia)) as (w & Hw & Hn & Hy). exists (ext pi i w). split; [apply ext_fr; auto|].
    apply fr_lq in Hw. assert (HM : lq (MM w (pS x))) by (apply (sys_lin H); auto using (@sys_lq_vp V)).
    pose proof (sys_ext H i w (pS x) Hi Hw Sx) as E. split.
    + intros f v. rewrite <- (E _). apply (ext_nonneg pos i _ Hi HM Hn).
    + rewrite <- (E _). apply (ext_term pos i _ d y e z); auto.
Qed.
Lemma free_term b r w d z : lq b -> fr r w -> coef (MM w b) (qS d z) <> 0%Qc -> exists v, V v /\ coef (MM (pS v) b) (qS d z) <> 0%Qc.
Proof.
  intros Hb. revert w. apply (lin_ind (lenV r) (fun _ => False) (fun w => coef (MM w b) (qS d z) <> 0%Qc -> exists v, V v /\ coef (MM (pS v) b) (qS d z) <> 0%Qc)).
  - intros p s E Hp Hc. apply Hp. rewrite (M_peq t pi k fuel p s b b E ltac:(reflexivity) (qS d z)). auto.
  - intros Hc. exfalso. apply Hc. apply (@sys_zero_l t pi V); auto.
  - intros qm l c a (Hl & _) HQ Ha IH Hc. destruct qm as [|v qm]; [|inversion HQ; contradiction]. apply fr_lq in Ha.
    assert (HlV : lq (pS l)) by (apply sys_lq_pS; auto).
    assert (E0 : peq (pmul (pmono []) (pS l)) (pS l)) by apply pmul_1_l.
    assert (E : peq (MM (padd (pscale c (pmul (pmono []) (pS l))) a) b) (padd (pscale c (MM (pS l) b)) (MM a b))).
    { transitivity (MM (padd (pscale c (pS l)) a) b); [apply M_peq; [rewrite E0|]; reflexivity|].
      rewrite (sys_add_l H), (sys_scale_l H); auto using (@sys_lq_vp V), (@supp_pscale (linm V (eq VQ))). reflexivity. }
    rewrite (E _), coef_padd, coef_pscale in Hc.
    destruct (Qc_eq_dec (coef (MM a b) (qS d z)) 0%Qc) as [E1|E1]; [|apply IH; auto].
    exists l. split; auto. intros E2. apply Hc. rewrite E1, E2. ring.
Qed.

(** ** The terms of a product *)
Section K.
Variable x : list Z.
Hypothesis Hx : V x.
Lemma nsteps_V r d y : nsteps x r d y -> V y.
Proof. induction 1; auto. eapply lq_V; [apply (sys_P_lq H); eauto|eauto]. Qed.
Definition Kn (r : nat) (m : mono) : Prop := exists y d, nsteps x r d y /\ Permutation m (qS d y).
Lemma Kn_inv r : minv (Kn r).
Proof. intros m m' HP (y & d & H1 & H2). exists y, d. split; auto. rewrite <- HP. auto. Qed.
Lemma Kn_ext i r p : I i -> supp (Kn r) p -> supp (Kn (S r)) (ext pi i p).
Proof.
  intros Hi Hp. unfold ext. apply (supp_peq _ (psubst (sigma pi i) (pnorm p))); [apply psubst_proper, pnorm_peq|].
  apply supp_rawnorm in Hp. revert Hp. generalize (pnorm p). clear p. induction p as [|[m c] p IH]; intros Hp; cbn [psubst]; [apply supp_zero|].
  apply supp_padd; [|apply IH; intros a b Hab; apply (Hp a b); right; auto]. apply supp_pscale.
  destruct (Hp m c) as (y & d & HR & HP); [left; auto|]. pose proof (nsteps_V _ _ _ HR) as Hy.
  apply (supp_peq _ (pmul (pmono (repeat VQ d)) (P pi i y))); [rewrite (msubst_perm (sigma pi i) m _ HP); symmetry; apply msubst_qS|].
  assert (HL : supp (fun m => exists z e, coef (P pi i y) (qS e z) <> 0%Qc /\ Permutation m (qS e z)) (P pi i y)).
  { intros m1 Hm1. destruct (sys_P_lq H i y Hi Hy m1 Hm1) as (z & qm & Hz & HP1 & HQ). rewrite (allQ qm HQ) in HP1.
    exists z, (length qm). change (vS z :: repeat VQ (length qm)) with (qS (length qm) z) in HP1. rewrite (coef_perm _ m1 _ HP1) in Hm1. auto. }
  eapply (supp_pmul (fun m => Permutation m (repeat VQ d))); [apply Kn_inv| | |exact HL].
  - intros a b Ha (z & e & Hc & Hb). exists z, (d + e)%nat. split; [eapply ns_step; eauto|].
    rewrite Ha, Hb. unfold qS. rewrite <- Permutation_middle, repeat_app. reflexivity.
  - apply supp_pmono; [|reflexivity]. intros a b HPab Ha. rewrite <- HPab. auto.
Qed.
Lemma stay_many r s d y : (r <= s)%nat -> nsteps x r d y -> nsteps x s d y.
Proof. induction 1; auto. intros. apply ns_stay. auto. Qed.
Lemma Kn_comb (W : list Z -> Prop) r a : (forall l, W l -> V l /\ supp (Kn r) (MM (pS l) (pS x))) -> supp (linm W (fun _ => False)) a -> supp (Kn r) (MM a (pS x)).
Proof.
  intros HW. assert (Sx : lq (pS x)) by (apply sys_lq_pS; auto). revert a. apply (lin_ind W (fun _ => False) (fun a => supp (Kn r) (MM a (pS x)))).
  - intros a b E Ha. apply (supp_peq _ (MM a (pS x))); auto. apply M_peq; [auto|reflexivity].
  - apply (supp_peq _ pzero); [symmetry; apply (@sys_zero_l t pi V); auto|apply supp_zero].
  - intros qm l c a Hl HQ Ha IH. destruct qm as [|v qm]; [|inversion HQ; contradiction]. destruct (HW l Hl) as (Vl & Kl).
    assert (HaV : lq a) by (eapply supp_impl; [|exact Ha]; intros m (y & q & Hy & Hr' & Hq'); exists y, q; split; [apply HW; auto|split; [auto|eapply Forall_impl; [|exact Hq']; intros ? []]]).
    assert (E0 : peq (pmul (pmono []) (pS l)) (pS l)) by apply pmul_1_l.
    apply (supp_peq _ (padd (pscale c (MM (pS l) (pS x))) (MM a (pS x)))).
    { transitivity (MM (padd (pscale c (pS l)) a) (pS x)); [symmetry|apply M_peq; [rewrite E0|]; reflexivity].
      rewrite (sys_add_l H), (sys_scale_l H); auto using (@sys_lq_vp V), (@supp_pscale (linm V (eq VQ))), (@sys_lq_pS V). reflexivity. }
    apply supp_padd; auto. apply supp_pscale. auto.
Qed.
Lemma class_Kn l r : V l -> (length l <= r)%nat -> (r <= R)%nat -> supp (Kn r) (MM (pS l) (pS x)).
Proof.
  assert (Sx : lq (pS x)) by (apply sys_lq_pS; auto).
  remember (mu l) as N eqn:EN. revert l r EN. induction N as [N IH] using (well_founded_induction Wf_nat.lt_wf). intros l r -> Hl Hr HR.
  destruct (list_eq_dec Z.eq_dec l []) as [->|Hne].
  { apply (supp_peq _ (pS x)); [symmetry; apply (sys_unit H); auto|]. apply supp_pvar; [apply Kn_inv|]. exists x, 0%nat. split; [|reflexivity].
    apply (stay_many 0); [lia|apply ns_refl]. }
  destruct (sys_rec H l (pS x) Hl Sx Hne) as (i & l0 & Hg & Hi & (Hl0 & Hm) & HS & E1).
  pose proof (sel l i l0 Hl Hne Hg) as EL.
  apply (supp_peq _ _ _ (symmetry E1)).
  assert (ES : forall a b, peq (psub a b) (padd a (pscale (-(1))%Qc b))).
  { intros a b m. rewrite coef_psub, coef_padd, coef_pscale. ring. }
  apply (supp_peq _ _ _ (symmetry (ES _ _))). destruct r as [|r]; [lia|].
  apply supp_padd.
  - apply Kn_ext; auto. apply (IH (mu l0) Hm l0 r); auto; lia.
  - apply supp_pscale. apply (Kn_comb (fun y => below V mu l y /\ (length y <= S r)%nat)).
    + intros y ((Vy & My) & Ly). split; auto. apply (IH (mu y) My y (S r)); auto.
    + intros m' Hm'. destruct (HS _ Hm') as (y & qm & HB & HP & HQ).
      assert (F : fr (S r) (psub (P pi i l0) (pS l))).
      { apply (supp_peq _ _ _ (symmetry (ES _ _))). apply supp_padd; [apply P_fr; auto; lia|]. apply supp_pscale.
        intros m2 Hm2. apply coef_pvar_neq0 in Hm2. subst m2. exists l, []. split; [split; auto|split; [reflexivity|constructor]]. }
      destruct (F _ Hm') as (y' & qm' & (Vy & Ly) & HP' & HQ'). destruct qm' as [|v qm']; [|inversion HQ'; contradiction].
      rewrite (allQ qm HQ) in HP. assert (HPP : Permutation (qS (length qm) y) (qS 0 y')) by (rewrite <- HP; exact HP').
      apply qS_inj in HPP. destruct HPP as (_ & <-). exists y, []. split; [split; auto|]. split; [exact HP'|constructor].
Qed.
Lemma prod_nsteps l d z : V l -> coef (MM (pS l) (pS x)) (qS d z) <> 0%Qc -> nsteps x R d z.
Proof.
  intros Hl Hc. destruct (class_Kn l R Hl (len l Hl) (le_n _) _ Hc) as (y & e & HS & HP). apply (qS_inj d z e y) in HP. destruct HP as [-> ->]. auto.
Qed.
End K.

Variable dual : list Z -> list Z.
Hypothesis HV : forall l, V l -> V (dual l).
Hypothesis HD : forall l, V l -> dual (dual l) = l.
Hypothesis adj : forall i d x y, I i -> V x -> V y ->
  coef (P pi i x) (qS d (dual y)) = coef (P pi i y) (qS d (dual x)).

Theorem power_occurs x y d : V x -> V y ->
  ((exists z, coef (MM (pS x) (pS y)) (qS d z) <> 0%Qc) <-> nsteps x R d (dual y)).
Proof.
  intros Hx Hy. assert (Sx := @sys_lq_pS V x Hx). assert (Sy := @sys_lq_pS V y Hy). split.
  - intros (z & Hc).
    assert (HL : lq (MM (pS x) (pS y))) by (apply (sys_lin H); auto using (@sys_lq_vp V)).
    assert (Hz : V z) by (eapply lq_V; eauto). rewrite <- (HD z Hz), (sym_constants H dual HD adj) in Hc by auto.
    apply (prod_nsteps x Hx (dual z)); auto. rewrite (sys_comm H _ _ (sys_lq_pS _ (HV z Hz)) Sx _). auto.
  - intros HS. destruct (nsteps_prod x R d _ Hx HS (le_n _)) as (w & Hw & _ & Hc).
    destruct (free_term (pS x) R w d _ Sx Hw Hc) as (v & Hv & Hc'). exists (dual v).
    rewrite (sys_comm H _ _ (sys_lq_pS v Hv) Sx _), (sym_constants H dual HD adj) in Hc' by auto. auto.
Qed.
End QOcc.
