(** When is a product of two classes zero?  If the coefficients of the Pieri
    products are not negative and the Pieri operators are self-adjoint, exactly
    when the dual of one class cannot be reached from the other by a chain of
    terms of Pieri products. *)

From Coq Require Import ZArith List Lia Bool Permutation QArith Qcanon Setoid Morphisms.
From Verif Require Import Py OrderFacts ModelPart ModelQcalc ModelPoly ModelStr ModelGr Spec
  PolyFacts SuppFacts OpTheory WSum Sys Sys2 DualSys.
Import ListNotations.
Open Scope Z_scope.

Section Reach.
Context {t : gtype} {pi : Z -> list Z -> res poly} {V : list Z -> Prop} {I : Z -> Prop}
  {k : Z} {mu : list Z -> nat} {fuel : nat}.
Hypothesis H : pieri_sys t pi V I k mu fuel.
Hypothesis pos : forall i l d x, I i -> V l -> (0 <= coef (P pi i l) (qS d x))%Qc.

Notation MM := (M t pi k fuel).
Notation lq := (supp (linm V (eq VQ))).

Inductive reach (x : list Z) : list Z -> Prop :=
| reach_refl : reach x x
| reach_step y z i d : reach x y -> I i -> coef (P pi i y) (qS d z) <> 0%Qc -> reach x z.

Lemma lq_V p d x : lq p -> coef p (qS d x) <> 0%Qc -> V x.
Proof.
  intros Hp Hc. destruct (Hp _ Hc) as (y & qm & Hy & HP & HQ). rewrite (allQ qm HQ) in HP.
  apply (qS_inj d x (length qm) y) in HP. destruct HP as [_ ->]. auto.
Qed.
Lemma reach_V x y : V x -> reach x y -> V y.
Proof. intros Hx. induction 1; auto. eapply lq_V; [apply (sys_P_lq H); eauto|eauto]. Qed.
Lemma reach_trans x y z : reach x y -> reach y z -> reach x z.
Proof. intros H1 H2. induction H2; auto. eapply reach_step; eauto. Qed.

(** ** Coefficients that are not negative *)
Definition nonneg (p : poly) : Prop := forall d x, (0 <= coef p (qS d x))%Qc.

Lemma Qcadd_nonneg a b : (0 <= a -> 0 <= b -> 0 <= a + b)%Qc.
Proof. intros Ha Hb. replace 0%Qc with (0 + 0)%Qc by ring. apply Qcplus_le_compat; auto. Qed.
Lemma Qcmul_nonneg a b : (0 <= a -> 0 <= b -> 0 <= a * b)%Qc.
Proof. intros Ha Hb. replace 0%Qc with (0 * b)%Qc by ring. apply Qcmult_le_compat_r; auto. Qed.

Lemma msubst_qS i e x : peq (msubst (sigma pi i) (qS e x)) (pmul (pmono (repeat VQ e)) (P pi i x)).
Proof.
  unfold qS. change (vS x :: repeat VQ e) with ([vS x] ++ repeat VQ e).
  rewrite msubst_app, (msubst_q pi (eq VQ) eqVQ_isqv i (repeat VQ e) (repeatQ e)).
  assert (E1 : peq (msubst (sigma pi i) [vS x]) (P pi i x)) by (simpl; rewrite pmul_comm; apply pmul_1_l).
  rewrite E1. apply pmul_comm.
Qed.

Lemma ext_nonneg i p : I i -> lq p -> nonneg p -> nonneg (ext pi i p).
Proof.
  intros Hi Hp Hn d x. unfold ext.
  rewrite (psubst_proper (sigma pi i) p (pnorm p) (symmetry (pnorm_peq p)) (qS d x)).
  assert (Hr : forall m c, In (m, c) (pnorm p) -> linm V (eq VQ) m /\ (0 <= c)%Qc).
  { intros m c Hin. pose proof (supp_rawnorm _ _ Hp m c Hin) as Hm. split; auto.
    destruct Hm as (y & qm & _ & HP & HQ). rewrite (allQ qm HQ) in HP.
    rewrite <- (nf_coef_in _ m c (pnorm_nf p) Hin), coef_pnorm, (coef_perm p m _ HP). apply Hn. }
  revert Hr. generalize (pnorm p). clear p Hp Hn.
  induction p as [|[m c] p IH]; intros Hr; cbn [psubst]; [apply Qcle_refl|].
  rewrite coef_padd, coef_pscale. apply Qcadd_nonneg.
  - destruct (Hr m c) as ((y & qm & Hy & HP & HQ) & Hc); [left; auto|]. apply Qcmul_nonneg; auto.
    rewrite (allQ qm HQ) in HP. change (vS y :: repeat VQ (length qm)) with (qS (length qm) y) in HP. rewrite (msubst_perm (sigma pi i) m _ HP (qS d x)), (msubst_qS i (length qm) y (qS d x)), coef_qmul.
    destruct (length qm <=? d)%nat; [apply pos; auto|apply Qcle_refl].
  - apply IH. intros a b Hab. apply Hr. right. auto.
Qed.

Lemma Qcpos_neq a : (0 <= a)%Qc -> a <> 0%Qc -> (0 < a)%Qc.
Proof. intros Ha Hn. apply Qcle_lt_or_eq in Ha. destruct Ha as [|<-]; auto. contradiction. Qed.

(** a term of [p] keeps its successors in [ext i p] *)
Lemma ext_term i p d y e z : I i -> lq p -> nonneg p -> coef p (qS d y) <> 0%Qc -> coef (P pi i y) (qS e z) <> 0%Qc ->
  coef (ext pi i p) (qS (d + e) z) <> 0%Qc.
Proof.
  intros Hi Hp Hn Hy Hz. assert (HV : V y) by (eapply lq_V; eauto).
  set (c := coef p (qS d y)) in *.
  set (u := pscale c (pmul (pmono (repeat VQ d)) (pS y))). set (r := psub p u).
  assert (Hu : lq u) by (apply supp_pscale, (lin_qmul V (eq VQ)); [apply repeatQ|apply sys_lq_pS; auto]).
  assert (Cu : forall f x, coef u (qS f x) = if (f =? d)%nat then (if l_dec y x then c else 0%Qc) else 0%Qc).
  { intros f x. unfold u. rewrite coef_pscale, coef_qmul. destruct (Nat.eqb_spec f d) as [->|Hne].
    - rewrite Nat.leb_refl, Nat.sub_diag, coef_pS_q. cbn [Nat.eqb]. destruct (l_dec y x); ring.
    - destruct (Nat.leb_spec d f); [|ring]. rewrite coef_pS_q. destruct (Nat.eqb_spec (f - d) 0); [lia|ring]. }
  assert (Hr : lq r).
  { unfold r. apply (supp_peq _ (padd p (pscale (-(1))%Qc u))).
    - intros m. rewrite coef_psub, coef_padd, coef_pscale. ring.
    - apply supp_padd; auto. apply supp_pscale; auto. }
  assert (Nr : nonneg r).
  { intros f x. unfold r. rewrite coef_psub, Cu. destruct (Nat.eqb_spec f d) as [->|Hne].
    - destruct (l_dec y x) as [<-|Hne]; [unfold c; replace (coef p (qS d y) - coef p (qS d y))%Qc with 0%Qc by ring; apply Qcle_refl|].
      replace (coef p (qS d x) - 0)%Qc with (coef p (qS d x)) by ring. apply Hn.
    - replace (coef p (qS f x) - 0)%Qc with (coef p (qS f x)) by ring. apply Hn. }
  assert (E : peq p (padd u r)) by (unfold r; ring).
  assert (E1 : peq (ext pi i p) (padd (pscale c (pmul (pmono (repeat VQ d)) (P pi i y))) (ext pi i r))).
  { rewrite (ext_proper pi i _ _ E). unfold u. rewrite ext_padd, ext_pscale, (ext_qmul pi (eq VQ) eqVQ_isqv), ext_pS; auto using repeatQ. reflexivity. }
  rewrite (E1 _), coef_padd, coef_pscale, coef_qmul.
  replace (d <=? d + e)%nat with true by (symmetry; apply Nat.leb_le; lia).
  replace (d + e - d)%nat with e by lia.
  assert (P1 : (0 < c * coef (P pi i y) (qS e z))%Qc).
  { replace 0%Qc with (0 * coef (P pi i y) (qS e z))%Qc by ring. apply Qcmult_lt_compat_r; apply Qcpos_neq; auto. apply Hn. }
  assert (P2 := ext_nonneg i r Hi Hr Nr (d + e)%nat z).
  intros E0. apply (Qclt_not_eq _ _ P1). apply Qcle_antisym; [apply Qclt_le_weak; auto|].
  rewrite <- E0. rewrite <- (Qcplus_0_r (c * _)) at 1. apply Qcplus_le_compat; [apply Qcle_refl|auto].
Qed.

(** a chain from [x] to [y] multiplies the class [x] by something with the term [y] *)
Lemma chain_prod x y : V x -> reach x y -> exists p d, lq p /\ nonneg p /\ coef p (qS d y) <> 0%Qc /\
  forall b, lq b -> peq (MM (pS x) b) pzero -> peq (MM p b) pzero.
Proof.
  intros Hx. induction 1 as [|y z i e _ (p & d & Hp & Hn & Hy & Hz) Hi Hc].
  - exists (pS x), 0%nat. split; [apply sys_lq_pS; auto|]. split; [|split].
    + intros d y. rewrite coef_pS_q. destruct (d =? 0)%nat; [destruct (l_dec x y)|]; discriminate.
    + rewrite coef_pS_q. cbn [Nat.eqb]. destruct (l_dec x x); [discriminate|congruence].
    + auto.
  - exists (ext pi i p), (d + e)%nat. split; [apply (sys_ext_lin H); auto|]. split; [apply ext_nonneg; auto|]. split; [eapply ext_term; eauto|].
    intros b Hb E. rewrite <- (sys_ext H i p b Hi Hp Hb), (ext_proper pi i _ _ (Hz b Hb E)). reflexivity.
Qed.

(** the terms of a product with the class [x] can be reached from [x] *)
Lemma prod_reach l x d z : V l -> V x -> coef (MM (pS l) (pS x)) (qS d z) <> 0%Qc -> reach x z.
Proof.
  intros Hl Hx Hc. set (W := fun y => V y /\ reach x y).
  assert (HL : supp (linm W (eq VQ)) (MM (pS l) (pS x))).
  { destruct (sys_giam H l Hl) as (E & _ & HE & Pl).
    assert (Hx' := @sys_lq_pS V x Hx).
    apply (supp_peq _ (OpN t pi E (pS x))).
    - rewrite (sys_act H E (pS x) HE Hx'). apply M_peq; [auto|reflexivity].
    - apply (OpN_lin t pi W I (eq VQ) eqVQ_isqv); auto.
      + intros i y Hi (Vy & Ry) m Hm. destruct (sys_P_lq H i y Hi Vy m Hm) as (w & qm & Hw & HP & HQ).
        exists w, qm. split; [|auto]. split; auto. apply (reach_step x y w i (length qm)); auto.
        intros E0. apply Hm. rewrite (coef_perm _ m _ HP), <- E0. rewrite (allQ qm HQ) at 1. reflexivity.
      + apply (ps_spec _ _ _ _ _ _ _ H).
      + apply (lin_pS W (eq VQ)). split; auto. apply reach_refl. }
  destruct (HL _ Hc) as (y & qm & (_ & Hy) & HP & HQ). rewrite (allQ qm HQ) in HP.
  apply (qS_inj d z (length qm) y) in HP. destruct HP as [_ ->]. auto.
Qed.

Variable dual : list Z -> list Z.
Hypothesis HV : forall l, V l -> V (dual l).
Hypothesis HD : forall l, V l -> dual (dual l) = l.
Hypothesis adj : forall i d x y, I i -> V x -> V y ->
  coef (P pi i x) (qS d (dual y)) = coef (P pi i y) (qS d (dual x)).

Theorem nonzero_reach x y : V x -> V y -> (~ peq (MM (pS x) (pS y)) pzero <-> reach x (dual y)).
Proof.
  intros Hx Hy. split.
  - intros Hn. assert (HL : lq (MM (pS x) (pS y))) by (apply (sys_lin H); auto using (@sys_lq_vp V), (@sys_lq_pS V)).
    assert (HE : exists m, coef (MM (pS x) (pS y)) m <> 0%Qc).
    { destruct (pnorm (MM (pS x) (pS y))) as [|[m c] r] eqn:EN.
      - exfalso. apply Hn. rewrite <- pnorm_peq, EN. reflexivity.
      - exists m. rewrite <- coef_pnorm, (nf_coef_in _ m c (pnorm_nf _)); [|rewrite EN; left; auto].
        pose proof (pnorm_nf (MM (pS x) (pS y))) as [_ HF]. rewrite EN in HF. inversion HF as [|? ? [_ G] ?]; subst. exact G. }
    destruct HE as (m & Hm). destruct (HL m Hm) as (z & qm & Hz & HP & HQ). rewrite (allQ qm HQ) in HP.
    rewrite (coef_perm _ m _ HP) in Hm. change (vS z :: repeat VQ (length qm)) with (qS (length qm) z) in Hm. rewrite <- (HD z Hz) in Hm.
    rewrite (sym_constants H dual HD adj) in Hm by auto.
    apply (prod_reach (dual z) x (length qm)); auto.
    rewrite (sys_comm H _ _ (sys_lq_pS _ (HV z Hz)) (sys_lq_pS _ Hx) _). auto.
  - intros Hr E. destruct (chain_prod x _ Hx Hr) as (p & d & Hp & _ & Hc & Hb).
    specialize (Hb (pS y) (sys_lq_pS y Hy) E). apply Hc.
    assert (V0 : V []) by apply (ps_nil _ _ _ _ _ _ _ H).
    rewrite <- (pair_pS_r dual HD d p y Hy Hp).
    assert (Sy : lq (pS y)) by (apply sys_lq_pS; auto). assert (S0 : lq (pS [])) by (apply sys_lq_pS; auto).
    rewrite (pair_peq_r dual d p (pS y) (MM (pS y) (pS []))) by (symmetry; apply (sys_one H); auto).
    rewrite <- (class_sa H dual HD adj y Hy d p (pS []) Hp S0).
    rewrite (pair_peq_l dual d _ pzero); [apply pair_zero_l|]. rewrite (sys_comm H); auto.
Qed.

Lemma reach_dual x y : V x -> reach x y -> reach (dual y) (dual x).
Proof.
  intros Hx. induction 1 as [|y z i d HR IH Hi Hc]; [apply reach_refl|].
  assert (Vy := reach_V x y Hx HR). assert (Vz : V z) by (eapply lq_V; [apply (sys_P_lq H); eauto|eauto]).
  apply (reach_trans _ (dual y)); auto. apply (reach_step _ (dual z) _ i d); auto; [apply reach_refl|].
  rewrite <- adj, HD; auto.
Qed.
Lemma reach_from_one x : V x -> reach [] x.
Proof.
  intros Hx. assert (V0 : V []) by apply (ps_nil _ _ _ _ _ _ _ H). apply (prod_reach x [] 0%nat); auto.
  rewrite (sys_one H (pS x) (sys_lq_pS x Hx) _), coef_pS_q. cbn [Nat.eqb]. destruct (l_dec x x); [discriminate|congruence].
Qed.
Lemma reach_to_point x : V x -> reach x (dual []).
Proof.
  intros Hx. assert (V0 : V []) by apply (ps_nil _ _ _ _ _ _ _ H). rewrite <- (HD x Hx). apply reach_dual; auto. apply reach_from_one; auto.
Qed.
Theorem reach_all : reach (dual []) [] -> forall x y, V x -> V y -> reach x y.
Proof.
  intros HR x y Hx Hy. apply (reach_trans _ (dual [])); [apply reach_to_point; auto|]. apply (reach_trans _ []); auto. apply reach_from_one; auto.
Qed.
End Reach.
