(** Multiplying by special classes keeps coefficients positive: the lemmas behind PropsPos.v. *)

From Coq Require Import ZArith List Lia Bool Permutation QArith Qcanon Setoid Morphisms.
From Verif Require Import Py OrderFacts ModelPart ModelQcalc ModelPoly ModelStr ModelGr Spec SpecRing SpecPieri SpecAct
  PolyFacts SuppFacts OpTheory.
Import ListNotations.
Open Scope Z_scope.

(** ** positive polynomials *)
Definition rawpos (p : poly) : Prop := forall m c, In (m, c) p -> positive_integer c.

Lemma pi_add a b : positive_integer a -> positive_integer b -> positive_integer (a + b)%Qc.
Proof.
  intros (x & Hx & ->) (y & Hy & ->). exists (x + y). split; [lia|]. apply Qc_is_canon. unfold Qcplus, Q2Qc. cbn [this]. rewrite !Qred_correct, inject_Z_plus. reflexivity.
Qed.
Lemma pi_mul a b : positive_integer a -> positive_integer b -> positive_integer (a * b)%Qc.
Proof.
  intros (x & Hx & ->) (y & Hy & ->). exists (x * y). split; [nia|]. apply Qc_is_canon. unfold Qcmult, Q2Qc. cbn [this]. rewrite !Qred_correct, inject_Z_mult. reflexivity.
Qed.
Lemma pi_one : positive_integer 1%Qc.
Proof. exists 1. split; [lia|]. apply Qc_is_canon. reflexivity. Qed.

Lemma raw_pos p : rawpos p -> positive_coefs p.
Proof.
  intros H m. assert (coef p m = 0%Qc \/ positive_integer (coef p m)) as [E|E]; [|congruence|auto].
  induction p as [|[a c] t IH]; simpl; [auto|]. destruct IH as [E|E]; [intros x y Hxy; apply (H x y); right; auto| |]; destruct (mono_eqb a m); auto; right.
  - rewrite E. rewrite Qcplus_0_r. apply (H a c). left; auto.
  - apply pi_add; auto. apply (H a c). left; auto.
Qed.
Lemma pos_peq p r : peq p r -> positive_coefs p -> positive_coefs r.
Proof. intros E H m. rewrite <- (E m). apply H. Qed.
Lemma pos_raw p : positive_coefs p -> rawpos (pnorm p).
Proof.
  intros H m c Hin. pose proof (nf_coef_in _ m c (pnorm_nf p) Hin) as E. destruct (pnorm_nf p) as [_ HF]. rewrite Forall_forall in HF.
  rewrite coef_pnorm in E. rewrite <- E. apply H. rewrite E. apply (HF _ Hin).
Qed.
Lemma pos_padd p r : positive_coefs p -> positive_coefs r -> positive_coefs (padd p r).
Proof.
  intros Hp Hr m. rewrite coef_padd. intros E. destruct (Qc_eq_dec (coef p m) 0%Qc) as [E1|E1], (Qc_eq_dec (coef r m) 0%Qc) as [E2|E2].
  - exfalso. apply E. rewrite E1, E2. reflexivity.
  - rewrite E1, Qcplus_0_l. auto.
  - rewrite E2, Qcplus_0_r. auto.
  - apply pi_add; auto.
Qed.
Lemma pos_pscale c p : positive_integer c -> positive_coefs p -> positive_coefs (pscale c p).
Proof. intros Hc Hp m. rewrite coef_pscale. intros E. apply pi_mul; auto. apply Hp. intros E'. apply E. rewrite E'. ring. Qed.
Lemma pos_pmul p r : positive_coefs p -> positive_coefs r -> positive_coefs (pmul p r).
Proof.
  intros Hp Hr. apply (pos_peq (rmul (pnorm p) (pnorm r))); [symmetry; apply pmul_rmul_norm|]. apply raw_pos. intros m c Hin.
  unfold rmul in Hin. apply in_flat_map in Hin. destruct Hin as ([a ca] & Ha & Hin). simpl in Hin. unfold tmul in Hin.
  apply in_map_iff in Hin. destruct Hin as ([b cb] & E & Hb). inversion E; subst. simpl. apply pi_mul; [eapply (pos_raw p)|eapply (pos_raw r)]; eauto.
Qed.
Lemma pos_pmono m : positive_coefs (pmono m).
Proof. apply raw_pos. intros a c [E|[]]. inversion E; subst. apply pi_one. Qed.
Lemma pos_zero : positive_coefs pzero.
Proof. intros m H. simpl in H. congruence. Qed.

(** substituting positive polynomials for the variables *)
Lemma pos_mapply f m r : (forall v x, In v m -> image f v = Ok x -> positive_coefs x) -> mapply f m = Ok r -> positive_coefs r.
Proof.
  revert r. induction m as [|v t IH]; cbn [mapply]; intros r H E; [inversion E; apply (pos_pmono [])|].
  destruct (image f v) as [x|] eqn:E1; [|discriminate]. destruct (mapply f t) as [y|] eqn:E2; [|discriminate]. cbn [bind] in E. inversion E; subst r.
  apply pos_pmul; [apply (H v); auto; left; auto|apply IH; auto; intros w z Hw; apply H; right; auto].
Qed.
Lemma pos_apply f p r : (forall v x, mentions v p -> image f v = Ok x -> positive_coefs x) -> positive_coefs p -> apply_lc f p = Ok r -> positive_coefs r.
Proof.
  intros H Hp. apply pos_raw in Hp. unfold apply_lc.
  assert (HM : forall v m c, In (m, c) (pnorm p) -> In v m -> mentions v p).
  { intros v m c Hin Hv. exists m. split; auto. rewrite <- coef_pnorm, (nf_coef_in _ m c (pnorm_nf p) Hin).
    destruct (pnorm_nf p) as [_ HF]. rewrite Forall_forall in HF. apply (HF _ Hin). }
  revert Hp HM r. generalize (pnorm p). intros l. induction l as [|[m c] t IH]; cbn [tapply]; intros Hp HM r E; [inversion E; apply pos_zero|].
  destruct (mapply f m) as [x|] eqn:E1; [|discriminate]. destruct (tapply f t) as [y|] eqn:E2; [|discriminate]. cbn [bind] in E. inversion E; subst r.
  apply pos_padd.
  - apply pos_pscale; [apply (Hp m c); left; auto|]. eapply pos_mapply; eauto. intros v z Hv. apply H. apply (HM v m c); auto. left; auto.
  - apply IH; auto; intros; [intros a b Hab; apply (Hp a b); right; auto|]. eapply HM; [right|]; eauto.
Qed.

(** ** actions *)
Section Act.
Variables (V X : list Z -> Prop) (I : Z -> Prop) (L : poly -> Prop) (act : poly -> poly -> res poly) (f : Z -> list Z -> res poly).
Let pi (i : Z) (p : poly) : res poly := apply_lc (on_part (f i)) p.
Hypothesis HL : forall c, L c -> forall m, coef c m <> 0%Qc -> exists x qs, V x /\ Permutation m (vS x :: qs) /\ forall v, In v qs -> v = VQ \/ v = VQ1 \/ v = VQ2.
Hypothesis HX : forall x, X x -> exists i, I i /\ x = special_class i.
Hypothesis HA : action_laws (poly_in X) L act.
Hypothesis HS : special_acts I L act pi.
Hypothesis HP : forall i l, I i -> V l -> exists r, pi i (pS l) = Ok r /\ positive_coefs r.

Lemma pi_pos i c r : I i -> L c -> positive_coefs c -> pi i c = Ok r -> positive_coefs r.
Proof.
  intros Hi Hc Pc E. apply (pos_apply _ c r) in E; auto. intros v x (m & Hm & Hv) Ev. destruct (HL c Hc m Hm) as (l & qs & Hl & Pm & Hq).
  apply (Permutation_in v) in Pm; [|auto]. cbn [In] in Pm. destruct Pm as [<-|Pm].
  - destruct (HP i l Hi Hl) as (r' & E' & Pr'). unfold pi in E'. destruct (apply_lc_ok (on_part (f i)) (fun _ => x) (pS l)) as (z & Ez & Pz).
    { intros m' c' v' Hin Hv'. change (pnorm (pS l)) with (pS l) in Hin. destruct Hin as [Hin|[]]. inversion Hin; subst. destruct Hv' as [<-|[]].
      exists x. split; auto. reflexivity. }
    rewrite E' in Ez. inversion Ez; subst z. apply (pos_peq r'); auto. rewrite Pz. change (pS l) with (pvar (vS l)). apply psubst_pvar.
  - destruct (Hq v Pm) as [->|[->| ->]]; inversion Ev; apply (pos_pmono [_]).
Qed.
Lemma coef_mono_iff a b : coef (pmono a) b <> 0%Qc <-> Permutation a b.
Proof.
  unfold pmono. cbn [coef]. destruct (mono_eqb a b) eqn:E.
  - apply mono_eqb_perm in E. rewrite Qcplus_0_r. split; auto. intros _. discriminate.
  - split; [congruence|]. intros H. apply mono_eqb_perm in H. congruence.
Qed.
Lemma poly_in_mono m : poly_in X (pmono m) <-> Forall (fun v => v = VQ \/ exists x, X x /\ v = vS x) m.
Proof.
  split.
  - intros H. apply H. apply coef_mono_iff. reflexivity.
  - intros H m' Hm'. apply coef_mono_iff in Hm'. eapply Permutation_Forall; eauto.
Qed.
Lemma poly_in_peq p r : peq p r -> poly_in X p -> poly_in X r.
Proof. intros E H m. rewrite <- (E m). apply H. Qed.
Lemma act_mono m c : poly_in X (pmono m) -> L c -> positive_coefs c -> exists r, act (pmono m) c = Ok r /\ L r /\ positive_coefs r.
Proof.
  intros Hm Hc Pc. induction m as [|v t IH].
  - destruct (al_one _ _ _ HA c Hc) as (r & E & Pr). destruct (al_closed _ _ _ HA pone c) as (r' & E' & Lr); auto.
    rewrite E in E'. inversion E'; subst r'. exists r. split; auto. split; auto. apply (pos_peq c); auto. symmetry; auto.
  - assert (HF := proj1 (poly_in_mono _) Hm). inversion HF as [|? ? Hv HT]; subst.
    apply poly_in_mono in HT. assert (Ev : poly_in X (pvar v)) by (apply (proj2 (poly_in_mono [v])); constructor; [exact Hv|constructor]).
    destruct (IH HT) as (y & Ey & Ly & Py).
    destruct (al_product _ _ _ HA (pvar v) (pmono t) c Ev HT Hc) as (r & x & z & Er & Ex & Ez & Pr).
    rewrite Ey in Ex. inversion Ex; subst x.
    assert (Pz : positive_coefs z).
    { destruct Hv as [->|(l & Hl & ->)].
      - destruct (al_q _ _ _ HA y Ly) as (w & Ew & Pw). rewrite Ez in Ew. inversion Ew; subst w.
        eapply pos_peq; [symmetry; exact Pw|]. apply pos_pmul; auto. apply (pos_pmono [VQ]).
      - destruct (HX l Hl) as (i & Hi & ->). destruct (HS i y Hi Ly) as (w & w' & Ew & Ew' & Pw). change (pvar (vS (special_class i))) with (pS (special_class i)) in Ez.
        rewrite Ez in Ew. inversion Ew; subst w. eapply pos_peq; [symmetry; exact Pw|]. eapply (pi_pos i y); eauto. }
    assert (Em : peq (pmul (pvar v) (pmono t)) (pmono (v :: t))) by (change (v :: t) with ([v] ++ t); rewrite pmono_app; reflexivity).
    destruct (al_equal _ _ _ HA (pmul (pvar v) (pmono t)) (pmono (v :: t)) c c) as (u & u' & Eu & Eu' & Pu); auto; [|reflexivity|].
    { eapply poly_in_peq; [symmetry; exact Em|exact Hm]. }
    rewrite Er in Eu. inversion Eu; subst u. destruct (al_closed _ _ _ HA (pmono (v :: t)) c Hm Hc) as (w & Ew & Lw). rewrite Eu' in Ew. inversion Ew; subst w.
    exists u'. split; auto. split; auto. apply (pos_peq z); auto. rewrite <- Pr. auto.
Qed.
Theorem act_pos e c : poly_in X e -> L c -> positive_coefs e -> positive_coefs c -> exists r, act e c = Ok r /\ L r /\ positive_coefs r.
Proof.
  intros He Hc Pe Pc.
  assert (G : forall l, rawsupp (Forall (fun v => v = VQ \/ exists x, X x /\ v = vS x)) l -> rawpos l -> poly_in X l /\ exists r, act l c = Ok r /\ L r /\ positive_coefs r).
  { induction l as [|[m k] t IH]; intros Hs Hp.
    - split; [intros m H; simpl in H; congruence|]. assert (H0 : poly_in X pzero) by (intros m H; simpl in H; congruence).
      destruct (al_closed _ _ _ HA pzero c H0 Hc) as (r & Er & Lr). exists r. split; auto. split; auto.
      destruct (al_scalar _ _ _ HA 0%Qc pone c) as (u & w & Eu & Ew & Pu); auto; [apply (poly_in_mono []); constructor|].
      destruct (al_equal _ _ _ HA pzero (pscale 0%Qc pone) c c H0 Hc) as (a & b & Ea & Eb & Pab); [|reflexivity|].
      { intros m. rewrite coef_pscale. simpl. ring. }
      rewrite Er in Ea. rewrite Eu in Eb. inversion Ea; inversion Eb; subst. eapply pos_peq; [|apply pos_zero]. rewrite Pab, Pu. intros m. rewrite coef_pscale. simpl. ring.
    - destruct IH as (Ht & r & Er & Lr & Pr); [intros a b Hab; apply (Hs a b); right; auto|intros a b Hab; apply (Hp a b); right; auto|].
      assert (Hm : poly_in X (pmono m)) by (apply poly_in_mono; apply (Hs m k); left; auto).
      destruct (act_mono m c Hm Hc Pc) as (x & Ex & Lx & Px).
      destruct (al_scalar _ _ _ HA k (pmono m) c Hm Hc) as (u & x' & Eu & Ex' & Pu). rewrite Ex in Ex'. inversion Ex'; subst x'.
      assert (Hu : poly_in X (pscale k (pmono m))). { intros m' Hm'. rewrite coef_pscale in Hm'. apply Hm. intros E. apply Hm'. rewrite E. ring. }
      destruct (al_sum _ _ _ HA _ _ c Hu Ht Hc) as (s & a & b & Es & Ea & Eb & Ps). rewrite Eu in Ea. rewrite Er in Eb. inversion Ea; inversion Eb; subst a b.
      assert (EE : peq (padd (pscale k (pmono m)) t) ((m, k) :: t)).
      { intros m'. rewrite coef_padd, coef_pscale. unfold pmono. cbn [coef]. destruct (mono_eqb m m'); ring. }
      assert (HE : poly_in X (padd (pscale k (pmono m)) t)) by (apply supp_padd; auto).
      assert (HE' : poly_in X ((m, k) :: t)) by (eapply poly_in_peq; eauto).
      split; auto. destruct (al_equal _ _ _ HA _ _ c c HE Hc EE ltac:(reflexivity)) as (y & y' & Ey & Ey' & Pyy). rewrite Es in Ey. inversion Ey; subst y.
      destruct (al_closed _ _ _ HA _ c HE' Hc) as (w & Ew & Lw). rewrite Ey' in Ew. inversion Ew; subst w.
      exists y'. split; auto. split; auto. eapply pos_peq; [exact Pyy|]. eapply pos_peq; [symmetry; exact Ps|]. apply pos_padd; auto.
      eapply pos_peq; [symmetry; exact Pu|]. apply pos_pscale; auto. apply (Hp m k); left; auto. }
  assert (HN : peq (pnorm e) e) by apply pnorm_peq.
  destruct (G (pnorm e)) as (HE & r & Er & Lr & Pr); [apply supp_rawnorm; exact He|apply pos_raw; auto|].
  destruct (al_equal _ _ _ HA _ _ c c HE Hc HN ltac:(reflexivity)) as (y & y' & Ey & Ey' & Py). rewrite Er in Ey. inversion Ey; subst y.
  destruct (al_closed _ _ _ HA e c He Hc) as (w & Ew & Lw). rewrite Ey' in Ew. inversion Ew; subst w.
  exists y'. split; auto. split; auto. eapply pos_peq; eauto.
Qed.
End Act.
