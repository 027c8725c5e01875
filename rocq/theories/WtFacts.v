(** Giambelli polynomials are homogeneous: the lemmas behind PropsWeight.v. *)

From Coq Require Import ZArith List Lia Bool Permutation QArith Qcanon Setoid Morphisms.
From Verif Require Import Py OrderFacts ModelPart ModelQcalc ModelPoly ModelStr ModelGr Spec SpecRing SpecPieri SpecAct SpecWeight
  PolyFacts SuppFacts OpTheory Sys RingData.
Import ListNotations.
Open Scope Z_scope.

Section W.
Variable dq : Z.
Notation md := (mono_degree dq).

Lemma md_app a b : md (a ++ b) = md a + md b.
Proof. induction a as [|v t IH]; cbn [app mono_degree]; lia. Qed.
Lemma md_perm a b : Permutation a b -> md a = md b.
Proof. induction 1; cbn [mono_degree]; lia. Qed.

(** a second condition on the monomials, closed under products *)
Variable K : var -> Prop.
Definition wm (d : Z) (m : mono) : Prop := md m = d /\ Forall K m.
Definition wi (d : Z) (p : poly) : Prop := supp (wm d) p /\ intp p.

Lemma wm_minv d : minv (wm d).
Proof. intros a b H [H1 H2]. split; [rewrite <- (md_perm a b); auto|eapply Permutation_Forall; eauto]. Qed.
Lemma wi_peq d p r : peq p r -> wi d p -> wi d r.
Proof. intros E [H1 H2]. split; [eapply supp_peq|eapply intp_peq]; eauto. Qed.
Lemma wi_zero d : wi d pzero.
Proof. split; [apply supp_zero|apply intp_zero]. Qed.
Lemma wi_padd d p r : wi d p -> wi d r -> wi d (padd p r).
Proof. intros [] []. split; [apply supp_padd|apply intp_padd]; auto. Qed.
Lemma wi_psub d p r : wi d p -> wi d r -> wi d (psub p r).
Proof. intros [] []. split; [apply supp_psub|apply intp_psub]; auto. Qed.
Lemma wi_pscale d c p : isint c -> wi d p -> wi d (pscale c p).
Proof. intros Hc []. split; [apply supp_pscale|apply intp_pscale]; auto. Qed.
Lemma wi_pmul a b p r : wi a p -> wi b r -> wi (a + b) (pmul p r).
Proof.
  intros [] []. split; [|apply intp_pmul; auto]. eapply (supp_pmul (wm a) (wm b)); eauto using wm_minv.
  intros x y [] []. split; [rewrite md_app; lia|]. apply Forall_app; auto.
Qed.
Lemma wi_pmono m : Forall K m -> wi (md m) (pmono m).
Proof. intros H. split; [|apply intp_pmono]. apply supp_pmono; [apply wm_minv|]. split; auto. Qed.
Lemma wi_pvar v : K v -> wi (var_degree dq v) (pvar v).
Proof. intros H. replace (var_degree dq v) with (md [v]) by (cbn [mono_degree]; lia). apply wi_pmono. auto. Qed.

Lemma wi_mapply f m r : (forall v x, In v m -> image f v = Ok x -> wi (var_degree dq v) x) -> mapply f m = Ok r -> wi (md m) r.
Proof.
  revert r. induction m as [|v t IH]; cbn [mapply]; intros r H E; [inversion E; apply (wi_pmono []); constructor|].
  destruct (image f v) as [x|] eqn:E1; [|discriminate]. destruct (mapply f t) as [y|] eqn:E2; [|discriminate]. cbn [bind] in E. inversion E; subst r.
  cbn [mono_degree]. apply wi_pmul; [apply (H v); auto; left; auto|apply IH; auto; intros w z Hw; apply H; right; auto].
Qed.
Lemma wi_apply d f p r : (forall v x, mentions v p -> image f v = Ok x -> wi (var_degree dq v) x) ->
  supp (fun m => md m = d) p -> intp p -> apply_lc f p = Ok r -> wi d r.
Proof.
  intros H Hw Hi. apply supp_rawnorm in Hw. apply intp_rawnorm in Hi. unfold apply_lc.
  assert (HM : forall v m c, In (m, c) (pnorm p) -> In v m -> mentions v p).
  { intros v m c Hin Hv. exists m. split; auto. rewrite <- coef_pnorm, (nf_coef_in _ m c (pnorm_nf p) Hin).
    destruct (pnorm_nf p) as [_ HF]. rewrite Forall_forall in HF. apply (HF _ Hin). }
  revert Hw Hi HM r. generalize (pnorm p). intros l. induction l as [|[m c] t IH]; cbn [tapply]; intros Hw Hi HM r E; [inversion E; apply wi_zero|].
  destruct (mapply f m) as [x|] eqn:E1; [|discriminate]. destruct (tapply f t) as [y|] eqn:E2; [|discriminate]. cbn [bind] in E. inversion E; subst r.
  apply wi_padd.
  - apply wi_pscale; [apply (Hi m c); left; auto|]. assert (Em : md m = d) by (apply (Hw m c); left; auto). rewrite <- Em. eapply wi_mapply; eauto. intros v z Hv. apply H. apply (HM v m c); auto. left; auto.
  - apply IH; auto; intros; [intros a b Hab; apply (Hw a b); right; auto|intros a b Hab; apply (Hi a b); right; auto|]. eapply HM; [right|]; eauto.
Qed.

(** ** the recursion *)
Section G.
Context {t : gtype} {pi : Z -> list Z -> res poly} {V : list Z -> Prop} {I : Z -> Prop} {k : Z} {mu : list Z -> nat} {fuel : nat}.
Hypothesis H : pieri_sys t pi V I k mu fuel.
Hypothesis HG : forall l p l0, V l -> gsel k l = Ok (p, l0) -> size l = size l0 + Z.abs p.
Hypothesis HD : forall i l, I i -> V l ->
  intp (P pi i l) /\ supp (fun m => exists e x, Permutation m (qS e x) /\ size x + Z.of_nat e * dq = size l + Z.abs i) (P pi i l).
Hypothesis HS : forall i, I i -> size (num2spec i) = Z.abs i.
Hypothesis HK : forall l, K (vS l).
Hypothesis HQ : forall i l m v, I i -> V l -> coef (P pi i l) m <> 0%Qc -> In v m -> K v.

Lemma gri_wi f : forall l e, V l -> giambelli_rec_inner f pi k l = Ok e -> wi (size l) e.
Proof.
  induction f as [|f IH]; intros l e Hl E; [discriminate|]. destruct (list_eq_dec Z.eq_dec l []) as [->|Hne].
  { cbn [giambelli_rec_inner] in E. inversion E; subst e. apply (wi_pmono []). constructor. }
  rewrite gri_unfold in E by auto. destruct (ps_rec _ _ _ _ _ _ _ H l Hl Hne) as (p & l0 & E0 & Hp & [Hl0 Hmu] & Hst).
  rewrite E0 in E. cbn [bind] in E. rewrite (ps_ok _ _ _ _ _ _ _ H) in E by auto. cbn [bind] in E.
  unfold symbol in E. rewrite (ps_nonneg _ _ _ _ _ _ _ H), (ps_specnonneg _ _ _ _ _ _ _ H) in E by auto. cbn [bind] in E.
  destruct (giambelli_rec_inner f pi k l0) as [a|] eqn:Ea; [|discriminate]. cbn [bind] in E.
  change (pvar (VS (SP l))) with (pS l) in E. set (st := psub (P pi p l0) (pS l)) in *.
  destruct (apply_lc _ st) as [b|] eqn:Eb; [|discriminate]. cbn [bind] in E. inversion E; subst e. clear E.
  pose proof (HG l p l0 Hl E0) as Hsz. destruct (HD p l0 Hp Hl0) as [Hint Hh].
  apply wi_psub.
  - rewrite Hsz, Z.add_comm, <- (HS p Hp). apply wi_pmul; [apply (wi_pvar (vS (num2spec p))); auto|eauto].
  - apply (wi_apply (size l) _ st) in Eb; auto.
    + intros v x (m & Hm & Hv) Ev. assert (Kv : K v).
      { destruct (Hst m Hm) as (y & qm & Hy & HP & HF). apply (Permutation_in v HP) in Hv. destruct Hv as [<-|Hv]; auto.
        rewrite Forall_forall in HF. specialize (HF v Hv). subst v.
        assert (Hc : coef (P pi p l0) m <> 0%Qc).
        { intros E. apply Hm. unfold st. rewrite coef_psub, E. destruct (Qc_eq_dec (coef (pmono [vS l]) m) 0%Qc) as [Em|Em]; [change (pmono [vS l]) with (pS l) in Em; rewrite Em; ring|].
          exfalso. unfold pmono in Em. cbn [coef] in Em. destruct (mono_eqb [vS l] m) eqn:Em'; [|congruence]. clear Em. rename Em' into Em. apply mono_eqb_perm in Em.
          assert (Hin : In VQ [VS (SP l)]) by (eapply Permutation_in; [symmetry; exact Em|]; eapply Permutation_in; [symmetry; exact HP|]; right; auto).
          destruct Hin as [Hin|[]]. discriminate. }
        eapply (HQ p l0 m); eauto. eapply Permutation_in; [symmetry; exact HP|]. right; auto. }
      destruct (Hst m Hm) as (y & qm & [Hy _] & HP & HF). apply (Permutation_in v HP) in Hv. destruct Hv as [<-|Hv].
      * cbn [image on_part] in Ev. apply (IH y x Hy Ev).
      * rewrite Forall_forall in HF. specialize (HF v Hv). subst v. inversion Ev. apply wi_pvar; auto.
    + unfold st. apply supp_psub.
      * eapply supp_impl; [|exact Hh]. intros m (e & x & HP & Hd). rewrite (md_perm _ _ HP). unfold qS, vS. cbn [mono_degree].
        replace (md (repeat VQ e)) with (Z.of_nat e * dq); [cbn [var_degree]; lia|]. clear. induction e; [reflexivity|]. rewrite Nat2Z.inj_succ. cbn [repeat mono_degree var_degree]. lia.
      * intros m Hm. apply (supp_pmono (fun m => md m = size l) [vS l]) in Hm; auto; [intros x y Hxy; rewrite (md_perm _ _ Hxy); auto|]. cbn [mono_degree var_degree vS]. lia.
    + unfold st. apply intp_psub; auto. apply intp_pvar.
Qed.
Lemma giam_wi lam : V lam -> exists e, apply_lc (on_part (giambelli_rec_inner fuel pi k)) (pS lam) = Ok e /\ wi (size lam) e.
Proof.
  intros Hl. destruct (sys_giam H lam Hl) as (e & Ee & _).
  destruct (apply_lc_ok (on_part (giambelli_rec_inner fuel pi k)) (fun _ => e) (pS lam)) as (r & Er & Pr).
  { intros m c v Hin Hv. change (pnorm (pS lam)) with (pS lam) in Hin. destruct Hin as [Hin|[]]. inversion Hin; subst. destruct Hv as [<-|[]].
    exists e. split; auto. reflexivity. }
  exists r. split; auto. apply (wi_peq _ e); [|eapply gri_wi; eauto]. symmetry. rewrite Pr. change (pS lam) with (pvar (vS lam)). apply psubst_pvar.
Qed.
End G.
End W.
