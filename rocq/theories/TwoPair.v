(** Products with two quantum parameters are self-adjoint for the pairing of classes
    with their duals: the lemmas behind C85 in PropsPair.v. *)

From Coq Require Import ZArith List Lia Bool Permutation QArith Qcanon Setoid Morphisms.
From Verif Require Import Py OrderFacts PyFacts ModelPart ModelQcalc ModelPoly ModelStr ModelGr Spec SpecRing SpecPieri SpecAct SpecWeight
  PolyFacts SuppFacts Enum WSum ExprFacts OpTheory Sys Sys2 RingD PosFacts RelAct.
Import ListNotations.
Open Scope Z_scope.

Section Pair.
Variables (V : list Z -> Prop) (I : Z -> Prop) (pi : Z -> list Z -> res poly) (du : list Z -> list Z).
Notation L := (supp (linm V isqv)).
Hypothesis HD : forall l, V l -> du (du l) = l.
Hypothesis HP : forall i l, I i -> V l -> L (P pi i l).
Hypothesis HA : forall i x y qs, I i -> V x -> V y -> Forall isqv qs ->
  coef (P pi i x) (vS (du y) :: qs) = coef (P pi i y) (vS (du x) :: qs).

(** the coefficient of the class [z], a polynomial in q, q1, q2 *)
Definition cp (z : list Z) (v : var) : poly :=
  match v with VS (SP l) => if l_dec l z then pone else pzero | VS _ => pzero | _ => pvar v end.
Definition cpoly (r : poly) (z : list Z) : poly := psubst (cp z) r.
Definition tau (r : poly) (v : var) : poly :=
  match v with VS (SP l) => cpoly r (du l) | VS _ => pzero | _ => pvar v end.
Definition B (p r : poly) : poly := psubst (tau r) p.

Lemma psubst_lin s s' p : L p -> (forall x, V x -> peq (s (vS x)) (s' (vS x))) -> (forall v, isqv v -> peq (s v) (s' v)) -> peq (psubst s p) (psubst s' p).
Proof.
  intros Hp H1 H2. transitivity (psubst s (pnorm p)); [rewrite pnorm_peq; reflexivity|]. transitivity (psubst s' (pnorm p)); [|rewrite pnorm_peq; reflexivity].
  apply psubst_ext. intros m c v Hin Hv. apply supp_rawnorm in Hp. destruct (Hp m c Hin) as (x & qm & Hx & HPm & HQ).
  apply (Permutation_in _ HPm) in Hv. destruct Hv as [<-|Hv]; auto. rewrite Forall_forall in HQ. auto.
Qed.
Lemma psubst_qs s qs : (forall v, isqv v -> s v = pvar v) -> Forall isqv qs -> peq (psubst s (pmono qs)) (pmono qs).
Proof.
  intros Hs Hq. assert (E : peq (psubst s (pmono qs)) (msubst s qs)).
  { unfold pmono. cbn [psubst]. intros m. rewrite coef_padd, coef_pscale. simpl. ring. }
  rewrite E. induction Hq as [|v t Hv Ht IH]; [reflexivity|]. change (msubst s (v :: t)) with (pmul (s v) (msubst s t)).
  assert (E' : peq (psubst s (pmono t)) (msubst s t)).
  { unfold pmono. cbn [psubst]. intros m. rewrite coef_padd, coef_pscale. simpl. ring. }
  rewrite IH, Hs by auto. change (v :: t) with ([v] ++ t). rewrite pmono_app. reflexivity.
Qed.
Lemma cp_q z v : isqv v -> cp z v = pvar v.
Proof. destruct v; simpl; intros H; try contradiction; reflexivity. Qed.
Lemma tau_q r v : isqv v -> tau r v = pvar v.
Proof. destruct v; simpl; intros H; try contradiction; reflexivity. Qed.

(** the value on one term *)
Lemma psubst_term s c qm l p : (forall v, isqv v -> s v = pvar v) -> Forall isqv qm ->
  peq (psubst s (padd (pscale c (pmul (pmono qm) (pS l))) p)) (padd (pscale c (pmul (pmono qm) (s (vS l)))) (psubst s p)).
Proof.
  intros Hs Hq. rewrite psubst_padd, psubst_pscale, psubst_pmul, (psubst_qs s qm Hs Hq). change (pS l) with (pvar (vS l)). rewrite psubst_pvar. reflexivity.
Qed.

(** linear in the second argument *)
Lemma B_add p r r' : L p -> peq (B p (padd r r')) (padd (B p r) (B p r')).
Proof.
  apply (lin_ind V isqv (fun p => peq (B p (padd r r')) (padd (B p r) (B p r')))); unfold B.
  - intros a b E H. rewrite <- E. exact H.
  - reflexivity.
  - intros qm l c a Hl Hq Ha IH. rewrite !psubst_term by (auto; apply tau_q). rewrite IH. cbn [tau vS]. unfold cpoly. rewrite psubst_padd.
    rewrite !pscale_pmul. ring.
Qed.
Lemma B_mul p c qm r : L p -> Forall isqv qm -> peq (B p (pscale c (pmul (pmono qm) r))) (pscale c (pmul (pmono qm) (B p r))).
Proof.
  intros Hp Hqm. revert p Hp. apply (lin_ind V isqv (fun p => peq (B p (pscale c (pmul (pmono qm) r))) (pscale c (pmul (pmono qm) (B p r))))); unfold B.
  - intros a b E H. rewrite <- E. exact H.
  - change (psubst (tau r) pzero) with pzero. change (psubst (tau (pscale c (pmul (pmono qm) r))) pzero) with pzero. rewrite pscale_pmul. ring.
  - intros qm' l c' a Hl Hq Ha IH. rewrite !psubst_term by (auto; apply tau_q). rewrite IH. cbn [tau vS]. unfold cpoly. rewrite psubst_pscale, psubst_pmul, (psubst_qs _ qm (cp_q _) Hqm).
    set (u := psubst (cp (du l)) r). set (w := psubst (tau r) a).
    rewrite !pscale_pmul. ring.
Qed.
Lemma B_class r l : V l -> L r -> peq (B r (pS l)) (cpoly r (du l)).
Proof.
  intros Hl Hr. unfold B, cpoly at 1. apply psubst_lin; auto.
  - intros x Hx. unfold vS. cbn [tau cp]. unfold cpoly. change (pS l) with (pvar (vS l)). rewrite psubst_pvar. unfold vS. cbn [cp].
    destruct (l_dec l (du x)) as [E|E], (l_dec x (du l)) as [E'|E']; try reflexivity; exfalso.
    + apply E'. rewrite E, HD; auto.
    + apply E. rewrite E', HD; auto.
  - intros v Hv. rewrite tau_q, cp_q by auto. reflexivity.
Qed.
Lemma B_sym p r : L p -> L r -> peq (B p r) (B r p).
Proof.
  intros Hp Hr. revert p Hp. apply (lin_ind V isqv (fun p => peq (B p r) (B r p))).
  - intros a b E H. unfold B in *. transitivity (psubst (tau r) a); [rewrite E; reflexivity|]. rewrite H. apply psubst_lin; auto.
    + intros x Hx. unfold vS. cbn [tau]. unfold cpoly. rewrite E. reflexivity.
    + intros v Hv. rewrite !tau_q by auto. reflexivity.
  - assert (E : peq (B r pzero) (B r (pscale 0%Qc (pmul (pmono []) pzero)))).
    { unfold B. apply psubst_lin; auto; [|intros v Hv; rewrite !tau_q by auto; reflexivity].
      intros x Hx. unfold vS. cbn [tau]. unfold cpoly. rewrite psubst_pscale. intros m. rewrite coef_pscale. simpl. ring. }
    rewrite E, B_mul by auto. intros m. rewrite coef_pscale. simpl. ring.
  - intros qm l c a Hl Hq Ha IH. rewrite B_add, B_mul, B_class by auto. unfold B at 1. rewrite psubst_term by (auto; apply tau_q). fold (B a r). rewrite IH. reflexivity.
Qed.

(** coefficients *)
Lemma coef_cpoly p z m : L p -> coef (cpoly p z) m = if forallb (fun v => negb (match v with VS _ => true | _ => false end)) m then coef p (vS z :: m) else 0%Qc.
Proof.
  revert p. apply (lin_ind V isqv (fun p => coef (cpoly p z) m = if forallb (fun v => negb (match v with VS _ => true | _ => false end)) m then coef p (vS z :: m) else 0%Qc)).
  - intros a b E H. rewrite <- (E (vS z :: m)), <- H. unfold cpoly. apply psubst_proper. symmetry; auto.
  - destruct (forallb _ m); reflexivity.
  - intros qm l c a Hl Hq Ha IH. unfold cpoly in *. rewrite (psubst_term (cp z) c qm l a (cp_q z) Hq m), !coef_padd, !coef_pscale, IH.
    assert (E : coef (pmul (pmono qm) (cp z (vS l))) m = if forallb (fun v => negb (match v with VS _ => true | _ => false end)) m then coef (pmul (pmono qm) (pS l)) (vS z :: m) else 0%Qc).
    { assert (El : peq (pmul (pmono qm) (pS l)) (pmono (qm ++ [vS l]))) by (rewrite pmono_app; reflexivity). rewrite (El _).
      unfold vS at 1. cbn [cp]. destruct (l_dec l z) as [->|Hne].
      - assert (E1 : peq (pmul (pmono qm) pone) (pmono qm)) by (rewrite pmul_comm; apply pmul_1_l). rewrite (E1 m).
        unfold pmono. cbn [coef]. destruct (forallb _ m) eqn:Ef.
        + assert (Eq : mono_eqb qm m = mono_eqb (qm ++ [vS z]) (vS z :: m)); [|rewrite Eq; reflexivity].
          apply eq_true_iff_eq. rewrite !mono_eqb_perm. rewrite <- Permutation_cons_append. split; intros HH; [constructor; auto|eapply Permutation_cons_inv; eauto].
        + destruct (mono_eqb qm m) eqn:Em; [|ring]. exfalso. apply mono_eqb_perm in Em. assert (Hm : Forall isqv m) by (eapply Permutation_Forall; eauto).
          rewrite <- not_true_iff_false in Ef. apply Ef. apply forallb_forall. intros v Hv. rewrite Forall_forall in Hm. specialize (Hm v Hv). destruct v; simpl in *; try contradiction; reflexivity.
      - assert (E1 : peq (pmul (pmono qm) pzero) pzero) by (rewrite pmul_comm; reflexivity). rewrite (E1 m). destruct (forallb _ m) eqn:Ef; [|reflexivity].
        unfold pmono. cbn [coef]. destruct (mono_eqb (qm ++ [vS l]) (vS z :: m)) eqn:Em; [|simpl; ring]. exfalso. apply mono_eqb_perm in Em.
        assert (Hin : In (vS l) (vS z :: m)) by (eapply Permutation_in; [exact Em|]; apply in_or_app; right; left; reflexivity).
        destruct Hin as [E|Hin]; [inversion E; congruence|]. rewrite forallb_forall in Ef. specialize (Ef _ Hin). discriminate. }
    rewrite E. destruct (forallb _ m); ring.
Qed.
Lemma noclass m : forallb (fun v => negb (match v with VS _ => true | _ => false end)) m = true -> Forall isqv m.
Proof. intros H. apply Forall_forall. intros v Hv. rewrite forallb_forall in H. specialize (H v Hv). destruct v; simpl in *; auto; discriminate. Qed.
Lemma cpoly_adj i x y : I i -> V x -> V y -> peq (cpoly (P pi i x) (du y)) (cpoly (P pi i y) (du x)).
Proof.
  intros Hi Hx Hy m. rewrite !coef_cpoly by auto. destruct (forallb _ m) eqn:E; [|reflexivity]. apply HA; auto. apply noclass; auto.
Qed.

(** ** self-adjoint operators *)
Lemma ext_half i x r : I i -> V x -> L r -> peq (B (P pi i x) r) (cpoly (ext pi i r) (du x)).
Proof.
  intros Hi Hx Hr. rewrite B_sym by auto. unfold B, cpoly, ext. rewrite psubst_comp. apply psubst_lin; auto.
  - intros y Hy. unfold vS. cbn [tau sigma]. apply cpoly_adj; auto.
  - intros v Hv. rewrite tau_q by auto. destruct v; simpl in Hv; try contradiction; cbn [sigma]; rewrite psubst_pvar; reflexivity.
Qed.
Lemma ext_sa i p r : I i -> L p -> L r -> peq (B (ext pi i p) r) (B p (ext pi i r)).
Proof.
  intros Hi Hp Hr. unfold B at 1, ext at 1. rewrite psubst_comp. unfold B. apply psubst_lin; auto.
  - intros x Hx. unfold vS. cbn [tau sigma]. apply ext_half; auto.
  - intros v Hv. rewrite tau_q by auto. destruct v; simpl in Hv; try contradiction; cbn [sigma]; rewrite psubst_pvar; reflexivity.
Qed.
Lemma B_peq p p' r r' : L p -> peq p p' -> peq r r' -> peq (B p r) (B p' r').
Proof.
  intros Hp E1 E2. unfold B. rewrite <- E1. apply psubst_lin; auto.
  - intros x Hx. unfold vS. cbn [tau]. unfold cpoly. rewrite E2. reflexivity.
  - intros v Hv. rewrite !tau_q by auto. reflexivity.
Qed.
End Pair.
