(** The hypotheses of OpTheory.v bundled into one record, and its conclusions
    restated for the products of the library. *)

From Coq Require Import ZArith List Lia Bool Permutation QArith Qcanon Setoid Morphisms.
From Verif Require Import Py OrderFacts ModelPart ModelQcalc ModelPoly ModelStr ModelGr Spec
  PolyFacts SuppFacts OpTheory.
Import ListNotations.
Open Scope Z_scope.

Record pieri_sys (t : gtype) (pi : Z -> list Z -> res poly) (V : list Z -> Prop) (I : Z -> Prop)
  (k : Z) (mu : list Z -> nat) (fuel : nat) : Prop := {
  ps_ok : forall i l, I i -> V l -> pi i l = Ok (P pi i l);
  ps_lin : forall i l, I i -> V l -> lin V (eq VQ) (P pi i l);
  ps_nil : V [];
  ps_spec : forall i, I i -> spec2num t (sv i) = Ok i;
  ps_comm : forall i j l, I i -> I j -> V l -> peq (ext pi j (P pi i l)) (ext pi i (P pi j l));
  ps_nonneg : forall l, V l -> schur_nonneg (SP l) = true;
  ps_specnonneg : forall i, I i -> schur_nonneg (SP (num2spec i)) = true;
  ps_rec : forall l, V l -> l <> [] ->
    exists p l0, gsel k l = Ok (p, l0) /\ I p /\ below V mu l l0 /\
      supp (linm (below V mu l) (eq VQ)) (psub (P pi p l0) (pS l));
  ps_fuel : forall l, V l -> (mu l < fuel)%nat
}.

#[global] Instance M_Proper t pi k fuel : Proper (peq ==> peq ==> peq) (M t pi k fuel).
Proof. intros a a' Ha b b' Hb. apply M_peq; auto. Qed.
#[global] Instance OpN_Proper t pi : Proper (peq ==> peq ==> peq) (OpN t pi).
Proof. intros a a' Ha b b' Hb. apply OpN_peq; auto. Qed.

Section S.
Context {t : gtype} {pi : Z -> list Z -> res poly} {V : list Z -> Prop} {I : Z -> Prop}
  {k : Z} {mu : list Z -> nat} {fuel : nat}.
Hypothesis H : pieri_sys t pi V I k mu fuel.

Notation MM := (M t pi k fuel).
Notation lq := (supp (linm V (eq VQ))).
Notation vp := (supp (polym V)).

Lemma eqVQ_isqv v : VQ = v -> isqv v.
Proof. intros <-. exact Logic.I. Qed.

Lemma eqVQ_only v : VQ = v -> v = VQ.
Proof. auto. Qed.
Ltac full lem := destruct H; repeat match goal with X : vp _ |- _ => apply supp_polym_eqVQ in X end;
  first [eapply (lem t pi V I (eq VQ) eqVQ_isqv eq_refl) | eapply (lem t pi V I (eq VQ) eqVQ_isqv)]; first [eassumption | exact eqVQ_only].

Definition pr (a b : poly) : res poly := prod t pi k fuel a b.

Lemma sys_prod a b : vp a -> lq b -> exists r, pr a b = Ok r /\ peq r (MM a b).
Proof. intros. full prod_ok. Qed.
Lemma sys_lin a b : vp a -> lq b -> lq (MM a b).
Proof. intros. full M_lin. Qed.
Lemma sys_one a : lq a -> peq (MM a (pS [])) a.
Proof. intros. full M_one. Qed.
Lemma sys_comm a b : lq a -> lq b -> peq (MM a b) (MM b a).
Proof. intros. full M_comm. Qed.
Lemma sys_swap a b c : vp a -> vp b -> lq c -> peq (MM a (MM b c)) (MM b (MM a c)).
Proof. intros. full M_swap. Qed.
Lemma sys_pmul a b c : vp a -> vp b -> lq c -> peq (MM (pmul a b) c) (MM a (MM b c)).
Proof. intros. full M_pmul. Qed.
Lemma sys_lq_one : lq (pS []).
Proof. destruct H. apply (lin_one V (eq VQ)); auto. Qed.
Lemma sys_lq_pS l : V l -> lq (pS l).
Proof. apply (lin_pS V (eq VQ)). Qed.
Lemma sys_lq_vp a : lq a -> vp a.
Proof. eapply linq_vpoly. Qed.
Lemma sys_assoc a b c : lq a -> lq b -> lq c -> peq (MM (MM a b) c) (MM a (MM b c)).
Proof.
  intros Ha Hb Hc. pose proof (sys_lin a b (sys_lq_vp a Ha) Hb). full M_assoc.
Qed.
Lemma sys_toS a c : vp a -> lq c -> peq (MM (MM a (pS [])) c) (MM a c).
Proof.
  intros Ha Hc. pose proof (sys_lin a (pS []) Ha sys_lq_one). full M_toS.
Qed.
Lemma sys_unit a : lq a -> peq (MM (pS []) a) a.
Proof. intros Ha. rewrite sys_comm; auto using sys_lq_one. apply sys_one; auto. Qed.
Lemma sys_add_r a b c : peq (MM a (padd b c)) (padd (MM a b) (MM a c)).
Proof. apply OpN_padd_r. Qed.
Lemma sys_scale_r a b c : peq (MM a (pscale c b)) (pscale c (MM a b)).
Proof. apply OpN_pscale_r. Qed.
Lemma sys_peq a a' b b' : peq a a' -> peq b b' -> peq (MM a b) (MM a' b').
Proof. apply M_peq. Qed.
Lemma sys_spoly a : vp a -> spoly I (eq VQ) (psubst (G pi k fuel) a).
Proof. intros. full Ga_spoly. Qed.
Lemma sys_OpN_pmul E F p : spoly I (eq VQ) E -> spoly I (eq VQ) F -> lq p ->
  peq (OpN t pi (pmul E F) p) (OpN t pi E (OpN t pi F p)).
Proof. intros. full OpN_pmul. Qed.
Lemma sys_OpN_sv i p : I i -> lq p -> peq (OpN t pi (pvar (sv i)) p) (ext pi i p).
Proof. intros. full OpN_sv. Qed.

(** left linearity needs [c] to be a linear combination *)
Lemma sys_add_l a b c : vp a -> vp b -> lq c -> peq (MM (padd a b) c) (padd (MM a c) (MM b c)).
Proof.
  intros Ha Hb Hc. unfold M.
  rewrite (OpN_peq t pi _ (padd (psubst (G pi k fuel) a) (psubst (G pi k fuel) b)) c c);
    [|apply psubst_padd | reflexivity].
  apply sys_spoly in Ha, Hb. full OpN_padd.
Qed.
Lemma sys_scale_l a b c : vp a -> lq b -> peq (MM (pscale c a) b) (pscale c (MM a b)).
Proof.
  intros Ha Hb. unfold M.
  rewrite (OpN_peq t pi _ (pscale c (psubst (G pi k fuel) a)) b b); [|apply psubst_pscale | reflexivity].
  apply sys_spoly in Ha. full OpN_pscale.
Qed.

Lemma sys_giam l : V l -> exists E, giambelli_rec_inner fuel pi k l = Ok E /\
  spoly I (eq VQ) E /\ peq (OpN t pi E (pS [])) (pS l).
Proof.
  intros Hl. assert (Hf : (mu l < fuel)%nat) by (destruct H; auto).
  assert (exists E, giambelli_rec_inner fuel pi k l = Ok E /\ is_giam t pi I (eq VQ) l E) by full giam_ok.
  auto.
Qed.

(** multiplying by a special class is the Pieri rule *)
Lemma sys_pieri i l c : I i -> V l -> peq (pS l) (P pi i []) -> lq c ->
  peq (MM (pS l) c) (ext pi i c).
Proof.
  intros Hi Hl El Hc.
  rewrite sys_comm; auto using sys_lq_pS.
  assert (E1 : peq (pS l) (OpN t pi (pvar (sv i)) (pS []))).
  { rewrite El. rewrite sys_OpN_sv; auto using sys_lq_one.
    unfold ext, pS. rewrite psubst_pvar. reflexivity. }
  assert (Hs : spoly I (eq VQ) (pvar (sv i))) by (apply spoly_sv; auto).
  assert (Hc' : spoly I (eq VQ) (psubst (G pi k fuel) c)) by (apply sys_spoly, sys_lq_vp; auto).
  rewrite (sys_peq c c (pS l) _ (reflexivity c) E1).
  unfold M. rewrite <- sys_OpN_pmul; auto using sys_lq_one.
  rewrite (OpN_peq t pi _ (pmul (pvar (sv i)) (psubst (G pi k fuel) c)) (pS []) (pS []));
      [|apply pmul_comm | reflexivity].
  rewrite sys_OpN_pmul; auto using sys_lq_one.
  change (OpN t pi (psubst (G pi k fuel) c) (pS [])) with (MM c (pS [])).
  rewrite sys_OpN_sv; auto.
  - rewrite sys_one; auto. reflexivity.
  - apply (sys_lin c (pS [])); auto using sys_lq_one, sys_lq_vp.
Qed.

End S.

Lemma repeat_perm {A} (a : A) d l : Permutation (repeat a d) l -> l = repeat a d.
Proof.
  revert l. induction d as [|d IH]; simpl; intros l H.
  - apply Permutation_nil in H. auto.
  - assert (Hl : Forall (eq a) l).
    { eapply Permutation_Forall; [exact H|]. constructor; auto. clear. induction d; simpl; constructor; auto. }
    destruct l as [|b l]; [apply Permutation_sym, Permutation_nil in H; discriminate|].
    inversion Hl; subst. apply Permutation_cons_inv in H. f_equal. auto.
Qed.

Lemma qS_inj d x e y : Permutation (qS d x) (qS e y) -> d = e /\ x = y.
Proof.
  intros H. assert (Hl := Permutation_length H). unfold qS in *. simpl in Hl.
  rewrite !repeat_length in Hl. inversion Hl; subst. split; auto.
  assert (Hin : In (vS x) (vS y :: repeat VQ e)) by (eapply Permutation_in; [exact H|]; simpl; auto).
  destruct Hin as [E|E].
  - inversion E; auto.
  - apply repeat_spec in E. discriminate.
Qed.

Lemma coef_pvar_neq0 v m : coef (pvar v) m <> 0%Qc -> m = [v].
Proof.
  unfold pvar. simpl. destruct (mono_eqb [v] m) eqn:E.
  - intros _. apply mono_eqb_perm in E. apply Permutation_length_1_inv in E. auto.
  - intros H. exfalso. apply H. auto.
Qed.

(** ** Induction over products *)
Section Ind.
Context {t : gtype} {pi : Z -> list Z -> res poly} {V : list Z -> Prop} {I : Z -> Prop}
  {k : Z} {mu : list Z -> nat} {fuel : nat}.
Hypothesis H : pieri_sys t pi V I k mu fuel.

Notation MM := (M t pi k fuel).
Notation lq := (supp (linm V (eq VQ))).

Lemma sys_ext_lin i p : I i -> lq p -> lq (ext pi i p).
Proof. intros. destruct H. eapply (ext_lin pi V I (eq VQ) eqVQ_isqv); eassumption. Qed.

Lemma sys_OpN_lin E p : spoly I (eq VQ) E -> lq p -> lq (OpN t pi E p).
Proof. intros. destruct H. eapply (OpN_lin t pi V I (eq VQ) eqVQ_isqv); eassumption. Qed.

(** acting with a polynomial in special classes is multiplying by its value *)
Lemma sys_act E b : spoly I (eq VQ) E -> lq b -> peq (OpN t pi E b) (MM (OpN t pi E (pS [])) b).
Proof.
  intros HE Hb. pose proof (sys_lq_one H) as H1.
  assert (HEo : lq (OpN t pi E (pS []))) by (apply sys_OpN_lin; auto).
  rewrite (sys_comm H _ b HEo Hb). unfold M.
  assert (HG : spoly I (eq VQ) (psubst (G pi k fuel) b)) by (apply (sys_spoly H), sys_lq_vp; auto).
  rewrite <- (sys_OpN_pmul H); auto.
  rewrite (OpN_peq t pi _ (pmul E (psubst (G pi k fuel) b)) (pS []) (pS []));
    [|apply pmul_comm | reflexivity].
  rewrite (sys_OpN_pmul H); auto.
  apply OpN_peq; [reflexivity|].
  symmetry. apply (sys_one H b); auto.
Qed.

Lemma sys_ext_one i b : I i -> lq b -> peq (ext pi i b) (MM (P pi i []) b).
Proof.
  intros Hi Hb. rewrite <- (sys_OpN_sv H); auto. rewrite sys_act; auto using (spoly_sv I (eq VQ)).
  apply M_peq; [|reflexivity]. rewrite (sys_OpN_sv H); auto using (sys_lq_one H).
  apply ext_pS.
Qed.

Lemma sys_P_lq i l : I i -> V l -> lq (P pi i l).
Proof. destruct H. intros. apply ps_lin0; auto. Qed.

(** a Pieri operator may be applied to either factor *)
Lemma sys_ext i a b : I i -> lq a -> lq b -> peq (ext pi i (MM a b)) (MM (ext pi i a) b).
Proof.
  intros Hi Ha Hb.
  assert (V []) by apply H.
  rewrite sys_ext_one; auto; [|apply (sys_lin H); auto using (@sys_lq_vp V)].
  rewrite <- (sys_assoc H); auto using sys_P_lq.
  apply M_peq; [|reflexivity]. symmetry. apply sys_ext_one; auto.
Qed.
Lemma sys_ext_r i a b : I i -> lq a -> lq b -> peq (ext pi i (MM a b)) (MM a (ext pi i b)).
Proof.
  intros Hi Ha Hb. rewrite (sys_comm H a b), sys_ext, (sys_comm H); auto using sys_ext_lin.
  reflexivity.
Qed.

Lemma sys_zero_l b : lq b -> peq (MM pzero b) pzero.
Proof. intros Hb. unfold M. reflexivity. Qed.
Lemma sys_sub_l a a' b : lq a -> lq a' -> lq b -> peq (MM (psub a a') b) (psub (MM a b) (MM a' b)).
Proof.
  intros Ha Ha' Hb.
  assert (E : forall x y, peq (psub x y) (padd x (pscale (-(1)) y))).
  { intros x y m. rewrite coef_psub, coef_padd, coef_pscale. ring. }
  rewrite (E (MM a b) (MM a' b)), (M_peq t pi k fuel (psub a a') _ b b (E a a') (reflexivity b)).
  rewrite (sys_add_l H), (sys_scale_l H); auto using (@sys_lq_vp V).
  - reflexivity.
  - apply sys_lq_vp. apply supp_pscale; auto.
Qed.

(** multiplication by powers of q *)
Lemma sys_q_l qm a b : Forall (eq VQ) qm -> lq a -> lq b ->
  peq (MM (pmul (pmono qm) a) b) (pmul (pmono qm) (MM a b)).
Proof.
  intros Hq Ha Hb.
  assert (Hv : supp (polym V) (pmono qm)).
  { apply supp_pmono; [apply polym_inv|]. eapply Forall_impl; [|exact Hq]. intros v <-; auto. }
  rewrite (sys_pmul H); auto using (@sys_lq_vp V).
  assert (Hl : lq (MM a b)) by (apply (sys_lin H); auto using (@sys_lq_vp V)).
  assert (Hs : Forall (isspec I (eq VQ)) qm) by (apply isspec_q; auto).
  unfold M at 1.
  rewrite (OpN_peq t pi _ (pmono qm) (MM a b) (MM a b)); [| |reflexivity].
  - assert (E1 : peq (OpN t pi (pmono qm) (MM a b)) (opm t pi qm (MM a b))).
    { destruct H. eapply (OpN_pmono t pi V I (eq VQ) eqVQ_isqv); eassumption. }
    rewrite E1. apply (opm_q t pi (eq VQ) eqVQ_isqv); auto.
  - rewrite psubst_pmono. clear -Hq. induction Hq as [|v qm <- _ IH]; [reflexivity|].
    change (VQ :: qm) with ([VQ] ++ qm). rewrite msubst_app, IH, pmono_app. apply pmul_proper; [|reflexivity].
    simpl. transitivity (pmul (pvar VQ) pone); [reflexivity|]. rewrite pmul_comm. apply pmul_1_l.
Qed.

Lemma sys_q_r qm a b : Forall (eq VQ) qm -> lq a -> lq b ->
  peq (MM a (pmul (pmono qm) b)) (pmul (pmono qm) (MM a b)).
Proof.
  intros Hq Ha Hb.
  assert (lq (pmul (pmono qm) b)) by (apply (lin_qmul V (eq VQ)); auto).
  rewrite (sys_comm H), sys_q_l, (sys_comm H b a); auto. reflexivity.
Qed.

(** the recursion satisfied by the product *)
Lemma sys_rec l b : V l -> lq b -> l <> [] ->
  exists p l0, gsel k l = Ok (p, l0) /\ I p /\ below V mu l l0 /\
    supp (linm (below V mu l) (eq VQ)) (psub (P pi p l0) (pS l)) /\
    peq (MM (pS l) b) (psub (ext pi p (MM (pS l0) b)) (MM (psub (P pi p l0) (pS l)) b)).
Proof.
  intros Hl Hb Hne. destruct (ps_rec _ _ _ _ _ _ _ H l Hl Hne) as (p & l0 & H1 & H2 & H3 & H4).
  exists p, l0. repeat (split; [assumption|]).
  assert (V l0) by apply H3.
  rewrite sys_sub_l, sys_ext; auto using (sys_lq_pS (V := V)), sys_P_lq.
  assert (E : peq (MM (ext pi p (pS l0)) b) (MM (P pi p l0) b)).
  { apply M_peq; [|reflexivity]. apply ext_pS. }
  rewrite E. ring.
Qed.

(** a graded predicate preserved by the Pieri operators holds of all products *)
Section Graded.
Variable deg : list Z -> Z.
Variable dq : Z.
Variable K : Z -> poly -> Prop.
Hypothesis K_peq : forall d p r, peq p r -> K d p -> K d r.
Hypothesis K_zero : forall d, K d pzero.
Hypothesis K_add : forall d p r, K d p -> K d r -> K d (padd p r).
Hypothesis K_scale : forall d c p, isint c -> K d p -> K d (pscale c p).
Hypothesis K_q : forall d p, K d p -> K (d + dq) (pmul (pvar VQ) p).
Hypothesis K_ext : forall d i p, I i -> lq p -> K d p -> K (d + Z.abs i) (ext pi i p).
Hypothesis deg_nil : deg [] = 0.
Hypothesis deg_sel : forall l p l0, V l -> gsel k l = Ok (p, l0) -> deg l = deg l0 + Z.abs p.
Hypothesis P_int : forall i l, I i -> V l -> intp (P pi i l).
Hypothesis P_deg : forall i l, I i -> V l ->
  supp (fun m => exists e x, Permutation m (qS e x) /\ deg x + Z.of_nat e * dq = deg l + Z.abs i) (P pi i l).

Lemma K_qpow e d p : K d p -> K (d + Z.of_nat e * dq) (pmul (pmono (repeat VQ e)) p).
Proof.
  intros Hp. induction e as [|e IH].
  - apply (K_peq _ p); [|replace (d + Z.of_nat 0 * dq) with d by lia; auto].
    change (pmono (repeat VQ 0)) with (pmono []). rewrite pmono_nil. ring.
  - replace (d + Z.of_nat (S e) * dq) with (d + Z.of_nat e * dq + dq) by lia.
    eapply K_peq; [|apply K_q, IH].
    change (repeat VQ (S e)) with ([VQ] ++ repeat VQ e). rewrite pmono_app.
    change (pmono [VQ]) with (pvar VQ). ring.
Qed.

(** the support of a homogeneous combination below [l] *)
Definition hom (W : list Z -> Prop) (d : Z) (m : mono) : Prop :=
  exists e x, Permutation m (qS e x) /\ W x /\ deg x + Z.of_nat e * dq = d.

Lemma hom_linm W d m : hom W d m -> linm W (eq VQ) m.
Proof.
  intros (e & x & H1 & H2 & H3). exists x, (repeat VQ e). split; auto. split; auto.
  clear. induction e; simpl; constructor; auto.
Qed.

Lemma K_comb (W : list Z -> Prop) b d0 a d : (forall x, W x -> V x) -> lq b ->
  (forall x, W x -> K (deg x + d0) (MM (pS x) b)) ->
  supp (hom W d) a -> intp a -> K (d + d0) (MM a b).
Proof.
  intros HW Hb HK Ha Hi.
  apply (K_peq _ (MM (pnorm a) b)); [apply M_peq; [apply pnorm_peq | reflexivity]|].
  apply supp_rawnorm in Ha. apply intp_rawnorm in Hi. revert Ha Hi.
  generalize (pnorm a). clear a. induction p as [|[m c] p IH]; intros Ha Hi.
  - apply (K_peq _ pzero); [symmetry; apply (sys_zero_l b Hb)|]. apply K_zero.
  - assert (Hm : hom W d m) by (apply (Ha m c); simpl; auto).
    assert (Hp : rawsupp (hom W d) p) by (intros x y Hxy; apply (Ha x y); simpl; auto).
    assert (Hpi : rawint p) by (intros x y Hxy; apply (Hi x y); simpl; auto).
    assert (Hc : isint c) by (apply (Hi m c); simpl; auto).
    assert (Hlp : lq p).
    { apply rawsupp_supp; [apply linm_inv|]. intros x y Hxy.
      destruct (hom_linm _ _ _ (Hp x y Hxy)) as (u & v & ? & ? & ?). exists u, v. auto. }
    destruct Hm as (e & x & Hx1 & Hx2 & Hx3).
    assert (Vx : V x) by auto.
    assert (HqF : Forall (eq VQ) (repeat VQ e)) by (clear; induction e; simpl; constructor; auto).
    assert (Em : peq (pmono m) (pmul (pmono (repeat VQ e)) (pS x))).
    { rewrite (pmono_perm _ _ Hx1). unfold qS. change (vS x :: repeat VQ e) with ([vS x] ++ repeat VQ e).
      rewrite pmono_app. apply pmul_comm. }
    assert (Hlm : lq (pmul (pmono (repeat VQ e)) (pS x))).
    { apply (lin_qmul V (eq VQ)); [auto|]. apply sys_lq_pS; auto. }
    apply (K_peq _ (padd (pscale c (pmul (pmono (repeat VQ e)) (MM (pS x) b))) (MM p b))).
    + rewrite (M_peq t pi k fuel ((m, c) :: p) (padd (pscale c (pmul (pmono (repeat VQ e)) (pS x))) p) b b);
        [|rewrite poly_cons, Em; reflexivity | reflexivity].
      rewrite (sys_add_l H); auto using (@sys_lq_vp V); [|apply sys_lq_vp, supp_pscale; auto].
      rewrite (sys_scale_l H); auto using (@sys_lq_vp V).
      rewrite sys_q_l; auto using (sys_lq_pS (V := V)). reflexivity.
    + apply K_add; auto. apply K_scale; auto. rewrite <- Hx3.
      replace (deg x + Z.of_nat e * dq + d0) with (deg x + d0 + Z.of_nat e * dq) by lia.
      apply K_qpow. auto.
Qed.

Theorem sys_graded b d0 : lq b -> K d0 b -> forall l, V l -> K (deg l + d0) (MM (pS l) b).
Proof.
  intros Hb Hb0. 
  assert (G : forall n l, (mu l < n)%nat -> V l -> K (deg l + d0) (MM (pS l) b)).
  { induction n as [|n IH]; intros l Hn Hl; [lia|].
    destruct (list_eq_dec Z.eq_dec l []) as [->|Hne].
    - apply (K_peq _ b); [symmetry; apply (sys_unit H); auto|]. rewrite deg_nil. auto.
    - destruct (sys_rec l b Hl Hb Hne) as (p & l0 & H1 & H2 & H3 & H4 & H5).
      assert (Hd : deg l = deg l0 + Z.abs p) by eauto.
      eapply K_peq; [symmetry; exact H5|].
      assert (E : forall x y, peq (psub x y) (padd x (pscale (-(1)) y))).
      { intros x y m. rewrite coef_psub, coef_padd, coef_pscale. ring. }
      eapply K_peq; [symmetry; apply E|]. apply K_add.
      + replace (deg l + d0) with (deg l0 + d0 + Z.abs p) by lia.
        apply K_ext; auto.
        * apply (sys_lin H); auto. apply sys_lq_vp, sys_lq_pS, H3.
        * apply IH; [|apply H3]. destruct H3; lia.
      + apply K_scale; [apply isint_opp, isint_1|].
        apply (K_comb (below V mu l)); auto.
        * intros x Hx. apply Hx.
        * intros x [Hx Hx']. apply IH; auto. lia.
        * intros m Hm. destruct (H4 m Hm) as (x & qm & Hx & HP & HQ).
          exists (List.length qm), x. 
          assert (Eq : qm = repeat VQ (List.length qm)).
          { clear -HQ. induction HQ; simpl; auto. subst. f_equal; auto. }
          assert (HP' : Permutation m (qS (List.length qm) x)) by (unfold qS; rewrite <- Eq; auto).
          split; auto. split; auto.
          rewrite coef_psub in Hm.
          destruct (Qc_eq_dec (coef (P pi p l0) m) 0%Qc) as [E0|E0].
          -- rewrite E0 in Hm.
             assert (Hc : coef (pS l) m <> 0%Qc) by (intros E1; apply Hm; rewrite E1; ring).
             apply coef_pvar_neq0 in Hc. subst m.
             apply (qS_inj 0 l) in HP'. destruct HP' as [<- <-]. lia.
          -- destruct (P_deg p l0 H2 ltac:(apply H3) m E0) as (e & y & Hy & Ey).
             assert (HPy : Permutation (qS (List.length qm) x) (qS e y)).
             { eapply perm_trans; [apply Permutation_sym; exact HP'|]. auto. }
             apply qS_inj in HPy. destruct HPy as [-> ->]. lia.
        * apply intp_psub; [apply P_int; auto; apply H3|]. apply intp_pvar. }
  intros l Hl. apply (G (S (mu l)) l); auto.
Qed.

End Graded.
End Ind.
