(** The algebra behind [act_lc], [giambelli_rec_inner] and the products: if the
    Pieri operators are defined, linear and commute, then the products computed
    by the code are the products of a commutative ring.  Everything is stated
    for an arbitrary family of Pieri operators and instantiated later. *)

From Coq Require Import ZArith List Lia Bool Permutation Sorted QArith Qcanon Setoid Morphisms Ring String.
From Verif Require Import Py OrderFacts ModelPart ModelQcalc ModelPoly ModelStr ModelGr Spec PolyFacts SuppFacts.
Import ListNotations.
Open Scope Z_scope.




(** The quantum parameters *)
Definition isqv (v : var) : Prop := match v with VQ | VQ1 | VQ2 => True | VS _ => False end.

(** [m] is a product of parameters in [Q] and one class in [V] *)
Definition linm (V : list Z -> Prop) (Q : var -> Prop) (m : mono) : Prop :=
  exists l qm, V l /\ Permutation m (vS l :: qm) /\ Forall Q qm.

(** [m] is a product of classes in [V] and parameters [q] *)
Definition polym (V : list Z -> Prop) (m : mono) : Prop :=
  Forall (fun v => v = VQ \/ exists l, V l /\ v = vS l) m.

(** ... and parameters in [Q] *)
Definition polymQ (V : list Z -> Prop) (Q : var -> Prop) (m : mono) : Prop :=
  Forall (fun v => Q v \/ exists l, V l /\ v = vS l) m.
Lemma polym_eqVQ V m : polym V m <-> polymQ V (eq VQ) m.
Proof. split; apply Forall_impl; intros v [E|E]; auto. Qed.

Lemma linm_inv V Q : minv (linm V Q).
Proof.
  intros a b H (l & qm & H1 & H2 & H3). exists l, qm. split; auto. split; auto.
  eapply perm_trans; [apply Permutation_sym|]; eauto.
Qed.

Lemma Forall_minv (R : var -> Prop) : minv (Forall R).
Proof. intros a b H Ha. eapply Permutation_Forall; eauto. Qed.

Lemma polym_inv V : minv (polym V).
Proof. apply Forall_minv. Qed.
Lemma polymQ_inv V Q : minv (polymQ V Q).
Proof. apply Forall_minv. Qed.

Lemma linm_cons V (Q : var -> Prop) v m : Q v -> linm V Q m -> linm V Q (v :: m).
Proof.
  intros Hq (l & qm & H1 & H2 & H3). exists l, (v :: qm). split; auto. split; auto.
  eapply perm_trans; [apply perm_skip; eauto|]. constructor.
Qed.

Lemma linm_app V (Q : var -> Prop) qm m : Forall Q qm -> linm V Q m -> linm V Q (qm ++ m).
Proof. induction 1; simpl; auto. intros. apply linm_cons; auto. Qed.

Section Ops.

Variable t : gtype.
Variable pi : Z -> list Z -> res poly.
Variable V : list Z -> Prop.
Variable I : Z -> Prop.
(** the parameters allowed in the coefficients of linear combinations *)
Variable Q : var -> Prop.
Hypothesis H_Q : forall v, Q v -> isqv v.
Hypothesis H_QVQ : Q VQ.

Definition P (i : Z) (l : list Z) : poly := match pi i l with Ok p => p | Err _ => pzero end.

Definition sv (i : Z) : var := vS (num2spec i).
Definition one : poly := pS [].

Definition lin : poly -> Prop := supp (linm V Q).

Definition sigma (i : Z) (v : var) : poly :=
  match v with
  | VS (SP l) => P i l
  | VS (SPair _ _) => pzero
  | _ => pvar v
  end.
Definition ext (i : Z) (p : poly) : poly := psubst (sigma i) p.

Hypothesis H_ok : forall i l, I i -> V l -> pi i l = Ok (P i l).
Hypothesis H_lin : forall i l, I i -> V l -> lin (P i l).
Hypothesis H_nil : V [].
Hypothesis H_spec : forall i, I i -> spec2num t (sv i) = Ok i.
Hypothesis H_comm : forall i j l, I i -> I j -> V l -> peq (ext j (P i l)) (ext i (P j l)).

Global Instance ext_proper i : Proper (peq ==> peq) (ext i).
Proof. intros p r H. unfold ext. rewrite H. reflexivity. Qed.

Lemma ext_padd i p r : peq (ext i (padd p r)) (padd (ext i p) (ext i r)).
Proof. apply psubst_padd. Qed.
Lemma ext_pscale i c p : peq (ext i (pscale c p)) (pscale c (ext i p)).
Proof. apply psubst_pscale. Qed.
Lemma ext_pS i l : peq (ext i (pS l)) (P i l).
Proof. apply psubst_pvar. Qed.

Lemma msubst_q i qm : Forall Q qm -> peq (msubst (sigma i) qm) (pmono qm).
Proof.
  induction 1 as [|v qm Hv _ IH]; simpl; [reflexivity|].
  rewrite IH. change (pmono (v :: qm)) with (pmono ([v] ++ qm)). rewrite pmono_app.
  apply H_Q in Hv. destruct v; simpl in Hv; try contradiction; reflexivity.
Qed.

Lemma ext_qmul i qm p : Forall Q qm -> peq (ext i (pmul (pmono qm) p)) (pmul (pmono qm) (ext i p)).
Proof.
  intros H. unfold ext. rewrite psubst_pmul, psubst_pmono, msubst_q; auto. reflexivity.
Qed.

Lemma linm_split m : linm V Q m ->
  exists l qm, V l /\ Forall Q qm /\ peq (pmono m) (pmul (pmono qm) (pS l)).
Proof.
  intros (l & qm & H1 & H2 & H3). exists l, qm. split; auto. split; auto.
  rewrite (pmono_perm _ _ H2). change (vS l :: qm) with ([vS l] ++ qm).
  rewrite pmono_app, pmul_comm. reflexivity.
Qed.

(** Induction over a linear combination of classes *)
Lemma lin_ind (K : poly -> Prop) :
  (forall p r, peq p r -> K p -> K r) ->
  K pzero ->
  (forall qm l c p, V l -> Forall Q qm -> lin p -> K p ->
     K (padd (pscale c (pmul (pmono qm) (pS l))) p)) ->
  forall p, lin p -> K p.
Proof.
  intros H1 H2 H3 p Hp.
  cut (lin p /\ K p); [tauto|].
  revert p Hp. apply (supp_ind (linm V Q) (fun p => lin p /\ K p)).
  - intros p r E [Ha Hb]. split; eauto. eapply supp_peq; eauto.
  - split; auto. apply supp_zero.
  - intros m c p Hm [Ha Hb]. destruct (linm_split m Hm) as (l & qm & Hl & Hq & E).
    split.
    + apply supp_padd; auto. apply supp_pscale. apply supp_pmono; auto. apply linm_inv.
    + apply (H1 (padd (pscale c (pmul (pmono qm) (pS l))) p)); auto.
      rewrite E. reflexivity.
Qed.

Lemma lin_qmul qm p : Forall Q qm -> lin p -> lin (pmul (pmono qm) p).
Proof.
  intros Hq Hp. eapply (supp_pmul (Forall Q) (linm V Q)); eauto.
  - apply linm_inv.
  - intros. apply linm_app; auto.
  - apply supp_pmono; auto. apply Forall_minv.
Qed.

Lemma lin_pS l : V l -> lin (pS l).
Proof.
  intros H. apply supp_pvar; [apply linm_inv|]. exists l, []. auto.
Qed.

Lemma ext_lin i p : I i -> lin p -> lin (ext i p).
Proof.
  intros Hi. revert p. apply lin_ind.
  - intros p r E H. eapply supp_peq; [|exact H]. rewrite E. reflexivity.
  - apply supp_zero.
  - intros qm l c p Hl Hq Hp IH.
    apply (supp_peq _ (padd (pscale c (pmul (pmono qm) (P i l))) (ext i p))).
    { rewrite ext_padd, ext_pscale, ext_qmul, ext_pS; auto. reflexivity. }
    apply supp_padd; auto. apply supp_pscale. apply lin_qmul; auto.
Qed.

Lemma ext_comm i j p : I i -> I j -> lin p -> peq (ext i (ext j p)) (ext j (ext i p)).
Proof.
  intros Hi Hj. revert p. apply lin_ind.
  - intros p r E H. rewrite <- E. auto.
  - reflexivity.
  - intros qm l c p Hl Hq Hp IH.
    rewrite !ext_padd, !ext_pscale, !ext_qmul, !ext_pS; auto.
    rewrite IH. rewrite (H_comm j i); auto. reflexivity.
Qed.

(** *** Operators given by polynomials in the special classes *)

Definition opv (v : var) (p : poly) : poly :=
  match v with
  | VS _ => match spec2num t v with Ok i => ext i p | Err _ => pzero end
  | _ => pmul (pvar v) p
  end.
Definition opm (m : mono) (p : poly) : poly := fold_right opv p m.
Fixpoint Op (E : poly) (p : poly) : poly :=
  match E with
  | [] => pzero
  | (m, c) :: E' => padd (pscale c (opm m p)) (Op E' p)
  end.
Definition OpN (E p : poly) : poly := Op (pnorm E) p.

Definition isspec (v : var) : Prop := Q v \/ exists i, I i /\ v = sv i.
Definition spoly : poly -> Prop := supp (Forall isspec).
Definition rawspec : poly -> Prop := rawsupp (Forall isspec).

Lemma opv_q v p : Q v -> opv v p = pmul (pvar v) p.
Proof. intros H. apply H_Q in H. destruct v; simpl in H; try contradiction; reflexivity. Qed.
Lemma opv_sv i p : I i -> opv (sv i) p = ext i p.
Proof. intros Hi. pose proof (H_spec i Hi) as H. unfold sv, vS in *. simpl. simpl in H. rewrite H. auto. Qed.

Global Instance opv_proper v : Proper (peq ==> peq) (opv v).
Proof.
  intros p r H. unfold opv. destruct v; try (rewrite H; reflexivity).
  destruct (spec2num t (VS s)); [|reflexivity]. rewrite H. reflexivity.
Qed.
Global Instance opm_proper m : Proper (peq ==> peq) (opm m).
Proof. intros p r H. induction m as [|v m IH]; simpl; auto. apply opv_proper; auto. Qed.

Lemma opv_padd v p r : peq (opv v (padd p r)) (padd (opv v p) (opv v r)).
Proof.
  unfold opv. destruct v; try ring.
  destruct (spec2num t (VS s)); [apply ext_padd | ring].
Qed.
Lemma opv_pscale v c p : peq (opv v (pscale c p)) (pscale c (opv v p)).
Proof.
  unfold opv. destruct v; try (rewrite !pscale_pmul; ring).
  destruct (spec2num t (VS s)); [apply ext_pscale | rewrite pscale_pmul; ring].
Qed.
Lemma opm_padd m p r : peq (opm m (padd p r)) (padd (opm m p) (opm m r)).
Proof. induction m as [|v m IH]; simpl; [reflexivity|]. rewrite IH. apply opv_padd. Qed.
Lemma opm_pscale m c p : peq (opm m (pscale c p)) (pscale c (opm m p)).
Proof. induction m as [|v m IH]; simpl; [reflexivity|]. rewrite IH. apply opv_pscale. Qed.
Lemma opv_zero v : peq (opv v pzero) pzero.
Proof.
  unfold opv. destruct v; try ring. destruct (spec2num t (VS s)); reflexivity.
Qed.
Lemma opm_zero m : peq (opm m pzero) pzero.
Proof. induction m as [|v m IH]; simpl; [reflexivity|]. rewrite IH. apply opv_zero. Qed.
Lemma opm_app a b p : opm (a ++ b) p = opm a (opm b p).
Proof. unfold opm. apply fold_right_app. Qed.

Lemma opv_lin v p : isspec v -> lin p -> lin (opv v p).
Proof.
  intros [Hv|(i & Hi & ->)] Hp.
  - rewrite opv_q by auto. apply (lin_qmul [v]); auto.
  - rewrite opv_sv; auto. apply ext_lin; auto.
Qed.
Lemma opm_lin m p : Forall isspec m -> lin p -> lin (opm m p).
Proof. induction 1; simpl; auto. intros. apply opv_lin; auto. Qed.

Lemma opv_comm v w p : isspec v -> isspec w -> lin p -> peq (opv v (opv w p)) (opv w (opv v p)).
Proof.
  intros [Hv|(i & Hi & ->)] [Hw|(j & Hj & ->)] Hp; rewrite ?opv_sv, ?(opv_q v), ?(opv_q w) by auto.
  - ring.
  - change (pvar v) with (pmono [v]). rewrite ext_qmul; [reflexivity | auto].
  - change (pvar w) with (pmono [w]). rewrite ext_qmul; [reflexivity | auto].
  - apply ext_comm; auto.
Qed.

Lemma opm_perm a b p : Permutation a b -> Forall isspec a -> lin p -> peq (opm a p) (opm b p).
Proof.
  intros H. induction H; intros Ha Hp; simpl.
  - reflexivity.
  - inversion Ha; subst. rewrite IHPermutation; auto. reflexivity.
  - inversion Ha as [|? ? H1 H2]; inversion H2; subst. apply opv_comm; auto. apply opm_lin; auto.
  - rewrite IHPermutation1; auto. apply IHPermutation2; auto.
    eapply Permutation_Forall; eauto.
Qed.

Lemma coef_Op E p m' : coef (Op E p) m' = phi (fun m => coef (opm m p) m') E.
Proof.
  induction E as [|[m c] E IH]; simpl; auto. rewrite coef_padd, coef_pscale, IH. reflexivity.
Qed.

Global Instance Op_proper E : Proper (peq ==> peq) (Op E).
Proof.
  intros p r H. induction E as [|[m c] E IH]; simpl; [reflexivity|].
  rewrite IH. apply padd_proper; [|reflexivity]. rewrite H. reflexivity.
Qed.

Lemma Op_pnorm E p : rawspec E -> lin p -> peq (Op (pnorm E) p) (Op E p).
Proof.
  intros HE Hp m'. rewrite !coef_Op. apply phi_pnorm. intros m c Hin.
  assert (Forall isspec m) by (eapply HE; eauto).
  apply opm_perm; auto; [apply msort_perm|].
  eapply Permutation_Forall; [apply Permutation_sym, msort_perm|]; auto.
Qed.

Lemma spoly_raw E : spoly E -> rawspec (pnorm E).
Proof. apply supp_rawnorm. Qed.
Lemma raw_spoly E : rawspec E -> spoly E.
Proof. apply rawsupp_supp, Forall_minv. Qed.

(** [OpN E] may be computed from any representation of [E] with special
    monomials only *)
Lemma OpN_raw E F p : peq E F -> rawspec F -> lin p -> peq (OpN E p) (Op F p).
Proof.
  intros H HF Hp. unfold OpN. rewrite (peq_pnorm _ _ H). apply Op_pnorm; auto.
Qed.

Lemma OpN_peq E F p r : peq E F -> peq p r -> peq (OpN E p) (OpN F r).
Proof. intros H H'. unfold OpN. rewrite (peq_pnorm _ _ H), H'. reflexivity. Qed.

Lemma Op_app E F p : peq (Op (E ++ F) p) (padd (Op E p) (Op F p)).
Proof.
  induction E as [|[m c] E IH]; simpl; [ring|]. rewrite IH. ring.
Qed.

Lemma Op_lin E p : rawspec E -> lin p -> lin (Op E p).
Proof.
  induction E as [|[m c] E IH]; simpl; intros HE Hp; [apply supp_zero|].
  apply supp_padd.
  - apply supp_pscale. apply opm_lin; auto. apply (HE m c). simpl; auto.
  - apply IH; auto. intros a d Hin. apply (HE a d). simpl; auto.
Qed.

Lemma OpN_lin E p : spoly E -> lin p -> lin (OpN E p).
Proof. intros HE Hp. apply Op_lin; auto. apply spoly_raw; auto. Qed.

Lemma Op_padd_r E p r : peq (Op E (padd p r)) (padd (Op E p) (Op E r)).
Proof.
  induction E as [|[m c] E IH]; simpl; [ring|].
  rewrite IH, opm_padd. rewrite !pscale_pmul. ring.
Qed.
Lemma Op_pscale_r E c p : peq (Op E (pscale c p)) (pscale c (Op E p)).
Proof.
  induction E as [|[m d] E IH]; simpl; [reflexivity|].
  rewrite IH, opm_pscale. rewrite !pscale_pmul. ring.
Qed.
Lemma OpN_padd_r E p r : peq (OpN E (padd p r)) (padd (OpN E p) (OpN E r)).
Proof. apply Op_padd_r. Qed.
Lemma OpN_pscale_r E c p : peq (OpN E (pscale c p)) (pscale c (OpN E p)).
Proof. apply Op_pscale_r. Qed.

Lemma opm_Op m F p : peq (opm m (Op F p)) (Op (tmul m 1 F) p).
Proof.
  induction F as [|[b d] F IH]; simpl; [apply opm_zero|].
  rewrite opm_padd, opm_pscale, <- opm_app, IH.
  replace (1 * d)%Qc with d by ring. reflexivity.
Qed.

Lemma tmul_scale m c F p : peq (Op (tmul m c F) p) (pscale c (Op (tmul m 1 F) p)).
Proof.
  induction F as [|[b d] F IH]; simpl; [reflexivity|].
  rewrite IH. replace (1 * d)%Qc with d by ring.
  intros x. rewrite !coef_padd, !coef_pscale, !coef_padd, !coef_pscale. ring.
Qed.

Lemma Op_rmul E F p : peq (Op (rmul E F) p) (Op E (Op F p)).
Proof.
  induction E as [|[m c] E IH]; simpl; [reflexivity|].
  rewrite Op_app, IH, opm_Op, tmul_scale. reflexivity.
Qed.

Lemma rawspec_rmul E F : rawspec E -> rawspec F -> rawspec (rmul E F).
Proof.
  apply rawsupp_rmul. intros a b Ha Hb. apply Forall_app; auto.
Qed.

Lemma OpN_pmul E F p : spoly E -> spoly F -> lin p -> peq (OpN (pmul E F) p) (OpN E (OpN F p)).
Proof.
  intros HE HF Hp. rewrite (OpN_raw (pmul E F) (rmul (pnorm E) (pnorm F))); auto.
  - apply Op_rmul.
  - apply pmul_rmul_norm.
  - apply rawspec_rmul; apply spoly_raw; auto.
Qed.

Lemma OpN_padd E F p : spoly E -> spoly F -> lin p ->
  peq (OpN (padd E F) p) (padd (OpN E p) (OpN F p)).
Proof.
  intros HE HF Hp. rewrite (OpN_raw (padd E F) (pnorm E ++ pnorm F)); auto.
  - apply Op_app.
  - rewrite poly_app, !pnorm_peq. reflexivity.
  - apply rawsupp_app; apply spoly_raw; auto.
Qed.

Lemma Op_pscale E c p : peq (Op (pscale c E) p) (pscale c (Op E p)).
Proof.
  intros m. rewrite coef_pscale, !coef_Op. apply phi_pscale.
Qed.

Lemma OpN_pscale c E p : spoly E -> lin p -> peq (OpN (pscale c E) p) (pscale c (OpN E p)).
Proof.
  intros HE Hp. rewrite (OpN_raw (pscale c E) (pscale c (pnorm E))); auto.
  - apply Op_pscale.
  - rewrite pnorm_peq. reflexivity.
  - intros m d Hin. unfold pscale in Hin. apply in_map_iff in Hin.
    destruct Hin as ([a e] & E' & Hin). inversion E'; subst. simpl.
    eapply spoly_raw; eauto.
Qed.

Lemma OpN_psub E F p : spoly E -> spoly F -> lin p ->
  peq (OpN (psub E F) p) (psub (OpN E p) (OpN F p)).
Proof.
  intros HE HF Hp. unfold psub. rewrite OpN_padd, OpN_pscale; auto.
  - reflexivity.
  - apply supp_pscale; auto.
Qed.

Lemma OpN_pmono m p : Forall isspec m -> lin p -> peq (OpN (pmono m) p) (opm m p).
Proof.
  intros Hm Hp. rewrite (OpN_raw (pmono m) (pmono m)); auto; [|reflexivity|].
  - unfold pmono. simpl. rewrite pscale_1. ring.
  - intros a c [E|[]]. inversion E; subst; auto.
Qed.

Lemma OpN_pone p : lin p -> peq (OpN pone p) p.
Proof. intros Hp. apply (OpN_pmono []); auto. Qed.

Lemma spoly_pmul E F : spoly E -> spoly F -> spoly (pmul E F).
Proof.
  intros. eapply supp_pmul; eauto; [apply Forall_minv|].
  intros. apply Forall_app; auto.
Qed.
Lemma spoly_pmono m : Forall isspec m -> spoly (pmono m).
Proof. intros. apply supp_pmono; auto. apply Forall_minv. Qed.
Lemma spoly_pscale c E : spoly E -> spoly (pscale c E).
Proof. apply supp_pscale. Qed.
Lemma spoly_psub E F : spoly E -> spoly F -> spoly (psub E F).
Proof. apply supp_psub. Qed.
Lemma spoly_pone : spoly pone.
Proof. apply (spoly_pmono []). constructor. Qed.
Lemma spoly_sv i : I i -> spoly (pvar (sv i)).
Proof. intros. apply (spoly_pmono [sv i]). constructor; auto. right. eauto. Qed.
Lemma OpN_sv i p : I i -> lin p -> peq (OpN (pvar (sv i)) p) (ext i p).
Proof.
  intros Hi Hp. rewrite (OpN_pmono [sv i]); auto.
  - change (opm [sv i] p) with (opv (sv i) p). rewrite opv_sv; auto. reflexivity.
  - constructor; auto. right; eauto.
Qed.

Lemma opm_q qm p : Forall Q qm -> peq (opm qm p) (pmul (pmono qm) p).
Proof.
  induction 1 as [|v qm Hv _ IH]; simpl; [rewrite pmono_nil; ring|].
  rewrite opv_q by auto. rewrite IH. change (pmono (v :: qm)) with (pmono ([v] ++ qm)).
  rewrite pmono_app. change (pvar v) with (pmono [v]). ring.
Qed.

Lemma isspec_q qm : Forall Q qm -> Forall isspec qm.
Proof. apply Forall_impl. intros v Hv. left; auto. Qed.

Lemma isqv_q qm : Forall (eq VQ) qm -> Forall Q qm.
Proof. apply Forall_impl. intros v <-. auto. Qed.

(** *** [act_lc] computes [OpN] *)

Lemma var_eqb_eq a b : var_eqb a b = true <-> a = b.
Proof.
  unfold var_eqb. rewrite <- (cmp_eq _ vcmp_ok). destruct (vcmp a b); split; congruence.
Qed.

Lemma has_var_in v m : has_var v m = true <-> In v m.
Proof.
  unfold has_var. rewrite existsb_exists. split.
  - intros (w & Hw & E). apply var_eqb_eq in E. subst; auto.
  - intros H. exists v. split; auto. apply var_eqb_eq; auto.
Qed.

Lemma remove_var_perm v m : In v m -> Permutation m (v :: remove_var v m).
Proof.
  induction m as [|w m IH]; simpl; [tauto|]. intros H.
  destruct (var_eqb v w) eqn:E.
  - apply var_eqb_eq in E. subst. auto.
  - destruct H as [->|H].
    + assert (var_eqb v v = true) by (apply var_eqb_eq; auto). congruence.
    + eapply perm_trans; [apply perm_skip; apply IH; auto | constructor].
Qed.

Definition msize (p : poly) : nat := List.length (flat_map fst p).

Lemma msize_cons m c p : msize ((m, c) :: p) = (List.length m + msize p)%nat.
Proof. unfold msize. simpl. rewrite app_length. reflexivity. Qed.

Lemma msize_pins m c p : (msize (pins m c p) <= List.length m + msize p)%nat.
Proof.
  induction p as [|[m' c'] p IH]; simpl.
  - destruct (qc_is0 c); [unfold msize; simpl; lia | rewrite msize_cons; lia].
  - destruct (mcmp m m') eqn:E.
    + destruct (qc_is0 (c + c')); rewrite ?msize_cons; lia.
    + destruct (qc_is0 c); rewrite ?msize_cons; lia.
    + rewrite !msize_cons. lia.
Qed.

Lemma msize_pnorm p : (msize (pnorm p) <= msize p)%nat.
Proof.
  induction p as [|[m c] p IH]; simpl; auto.
  pose proof (msize_pins (msort m) c (pnorm p)).
  assert (E : List.length (msort m) = List.length m) by (apply Permutation_length, msort_perm).
  rewrite msize_cons. fold (pnorm p) in *. lia.
Qed.

Definition dv (v : var) (p : poly) : poly :=
  map (fun mc => (remove_var v (fst mc), snd mc)) (filter (fun mc => has_var v (fst mc)) p).
Definition s0 (v : var) (p : poly) : poly := filter (fun mc => negb (has_var v (fst mc))) p.

Lemma dv_s0_size v p :
  (msize (dv v p) + msize (s0 v p) + List.length (filter (fun mc => has_var v (fst mc)) p)
   <= msize p)%nat.
Proof.
  unfold dv, s0. induction p as [|[m c] p IH]; simpl; auto.
  destruct (has_var v m) eqn:E; simpl; rewrite !msize_cons.
  - apply has_var_in in E. apply remove_var_perm in E. apply Permutation_length in E.
    simpl in E. lia.
  - lia.
Qed.

Lemma fold_name_min_in l v : In (fold_left name_min l v) (v :: l).
Proof.
  revert v. induction l as [|w l IH]; intros v; simpl; auto.
  destruct (IH (name_min v w)) as [H|H]; auto.
  rewrite <- H. unfold name_min. destruct (String.compare _ _); auto.
Qed.

Lemma first_var_none p : first_var p = None -> forall m c v, In (m, c) (pnorm p) -> In v m -> v = VQ.
Proof.
  unfold first_var. destruct (free_vars p) eqn:E; [|congruence].
  intros _ m c v Hin Hv. destruct (is_q v) eqn:Eq; [destruct v; simpl in Eq; congruence|].
  assert (H : In v (free_vars p)).
  { unfold free_vars. apply filter_In. split; [|rewrite Eq; auto].
    apply in_flat_map. exists (m, c). auto. }
  rewrite E in H. destruct H.
Qed.

Lemma first_var_some p v : first_var p = Some v ->
  v <> VQ /\ exists m c, In (m, c) (pnorm p) /\ In v m.
Proof.
  unfold first_var. destruct (free_vars p) as [|w l] eqn:E; [congruence|].
  intros H. assert (Ev : fold_left name_min l w = v) by congruence.
  assert (Hin : In v (free_vars p)).
  { rewrite E, <- Ev. apply fold_name_min_in. }
  unfold free_vars in Hin. apply filter_In in Hin. destruct Hin as [Hin Hq].
  apply in_flat_map in Hin. destruct Hin as ([m c] & H1 & H2).
  split; [intros ->; simpl in Hq; congruence | exists m, c; auto].
Qed.

Lemma apply_pi i p : I i -> lin p ->
  exists r, apply_lc (on_part (pi i)) p = Ok r /\ peq r (ext i p).
Proof.
  intros Hi Hp. apply apply_lc_ok. intros m c v Hin Hv.
  apply supp_rawnorm in Hp. specialize (Hp m c Hin).
  destruct Hp as (l & qm & Hl & HP & HQ).
  apply (Permutation_in _ HP) in Hv. destruct Hv as [<-|Hv].
  - simpl. exists (P i l). rewrite H_ok; auto. split; reflexivity.
  - rewrite Forall_forall in HQ. apply HQ in Hv.
    apply H_Q in Hv. destruct v; simpl in Hv; try contradiction; simpl; eexists; split; reflexivity.
Qed.

Lemma Op_split v i E p : v = sv i -> I i -> rawspec E -> lin p ->
  peq (Op E p) (padd (ext i (Op (dv v E) p)) (Op (s0 v E) p)).
Proof.
  intros Hv Hi HE Hp. induction E as [|[m c] E IH]; simpl.
  - unfold ext. simpl. ring.
  - assert (Hm : Forall isspec m) by (apply (HE m c); simpl; auto).
    assert (HE' : rawspec E) by (intros a d Hin; apply (HE a d); simpl; auto).
    specialize (IH HE'). unfold dv, s0. simpl. destruct (has_var v m) eqn:E0; simpl.
    + fold (dv v E). fold (s0 v E).
      rewrite ext_padd, ext_pscale.
      apply has_var_in in E0. apply remove_var_perm in E0.
      rewrite (opm_perm _ _ p E0); auto. simpl.
      rewrite Hv at 1. rewrite opv_sv; auto. rewrite IH. ring.
    + fold (dv v E). fold (s0 v E). rewrite IH. ring.
Qed.

Lemma rawspec_dv v E : rawspec E -> rawspec (dv v E).
Proof.
  intros HE m c Hin. unfold dv in Hin. apply in_map_iff in Hin.
  destruct Hin as ([a d] & Ea & Hin). inversion Ea; subst. simpl.
  apply filter_In in Hin. destruct Hin as [Hin Hh]. simpl in Hh.
  apply has_var_in in Hh. apply remove_var_perm in Hh.
  specialize (HE _ _ Hin). eapply Permutation_Forall in HE; [|exact Hh].
  inversion HE; auto.
Qed.

Lemma rawspec_s0 v E : rawspec E -> rawspec (s0 v E).
Proof.
  intros HE m c Hin. unfold s0 in Hin. apply filter_In in Hin. eapply HE. apply Hin.
Qed.

(** [v] occurs in [p] *)
Definition mentions (v : var) (p : poly) : Prop := exists m, coef p m <> 0%Qc /\ In v m.
Lemma mentions_peq v p r : peq p r -> mentions v p -> mentions v r.
Proof. intros E (m & Hm & Hv). exists m. rewrite <- E. auto. Qed.
Lemma coef_dv v p m : coef (dv v p) m = coef p (v :: m).
Proof.
  unfold dv. induction p as [|[a c] p IH]; [reflexivity|]. cbn [filter fst]. destruct (has_var v a) eqn:E.
  - cbn [map fst snd coef]. rewrite IH. apply has_var_in, remove_var_perm in E.
    rewrite (mono_eqb_proper a (v :: remove_var v a) (v :: m) (v :: m)) by auto.
    destruct (mono_eqb (remove_var v a) m) eqn:E1.
    + apply mono_eqb_perm in E1. replace (mono_eqb (v :: remove_var v a) (v :: m)) with true; auto. symmetry. apply mono_eqb_perm. constructor. auto.
    + apply mono_eqb_false in E1. replace (mono_eqb (v :: remove_var v a) (v :: m)) with false; auto. symmetry. apply mono_eqb_false. intros H. apply E1. eapply Permutation_cons_inv; eauto.
  - cbn [coef]. replace (mono_eqb a (v :: m)) with false; auto. symmetry. apply mono_eqb_false. intros H.
    assert (Hi : In v a) by (eapply Permutation_in; [apply Permutation_sym; exact H|]; simpl; auto). apply has_var_in in Hi. congruence.
Qed.
Lemma coef_s0 v p m : coef (s0 v p) m = if has_var v m then 0%Qc else coef p m.
Proof.
  unfold s0. induction p as [|[a c] p IH]; [destruct (has_var v m); reflexivity|]. cbn [filter fst].
  assert (Hp : Permutation a m -> has_var v a = has_var v m).
  { intros H. destruct (has_var v a) eqn:E1, (has_var v m) eqn:E2; auto.
    - apply has_var_in in E1. apply (Permutation_in _ H) in E1. apply has_var_in in E1. congruence.
    - apply has_var_in in E2. apply Permutation_sym in H. apply (Permutation_in _ H) in E2. apply has_var_in in E2. congruence. }
  destruct (has_var v a) eqn:E; cbn [negb coef].
  - rewrite IH. destruct (mono_eqb a m) eqn:E1; [|reflexivity]. apply mono_eqb_perm in E1. rewrite <- (Hp E1). reflexivity.
  - rewrite IH. destruct (mono_eqb a m) eqn:E1; [|reflexivity]. apply mono_eqb_perm in E1. rewrite <- (Hp E1). reflexivity.
Qed.
Lemma mentions_parts v w p : v <> w -> mentions v p <-> mentions v (dv w p) \/ mentions v (s0 w p).
Proof.
  intros Hn. split.
  - intros (m & Hm & Hv). destruct (has_var w m) eqn:E.
    + left. apply has_var_in, remove_var_perm in E. exists (remove_var w m). rewrite coef_dv, <- (coef_perm p _ _ E). split; auto.
      apply (Permutation_in _ E) in Hv. destruct Hv; [congruence|auto].
    + right. exists m. rewrite coef_s0, E. auto.
  - intros [(m & Hm & Hv)|(m & Hm & Hv)].
    + rewrite coef_dv in Hm. exists (w :: m). split; auto. simpl; auto.
    + rewrite coef_s0 in Hm. destruct (has_var w m); [congruence|]. exists m. auto.
Qed.

(** the result of a call: [r] up to [peq], or ValueError because of a second
    quantum parameter in [E] *)
Definition gives (E : poly) (x : res poly) (r : poly) : Prop :=
  match x with
  | Ok y => peq y r /\ (forall v, Q v -> mentions v E -> v = VQ)
  | Err e => e = ValueError /\ exists v, Q v /\ v <> VQ /\ mentions v E
  end.
Lemma gives_ok E x r : (forall v, Q v -> mentions v E -> v = VQ) -> gives E x r -> exists y, x = Ok y /\ peq y r.
Proof. intros H. destruct x as [y|e]; simpl; [intros (? & _); eauto|]. intros (_ & v & Hv & Hn & Hm). destruct (Hn (H v Hv Hm)). Qed.

Lemma act_lc_ok fuel : forall E p, spoly E -> lin p -> (msize (pnorm E) < fuel)%nat ->
  gives E (act_lc fuel t pi E p) (OpN E p).
Proof.
  induction fuel as [|f IH]; intros E p HE Hp Hf; [lia|].
  simpl. destruct (first_var E) as [v|] eqn:Ev.
  - apply first_var_some in Ev. destruct Ev as (Hq & m & c & Hin & Hv).
    assert (Hraw := spoly_raw E HE).
    assert (Hs : isspec v).
    { specialize (Hraw _ _ Hin). rewrite Forall_forall in Hraw. auto. }
    destruct Hs as [HQv|(i & Hi & Hvi)].
    { assert (Hme : mentions v E).
      { exists m. split; auto. rewrite <- coef_pnorm, (nf_coef_in _ m c (pnorm_nf E) Hin). destruct (pnorm_nf E) as [_ HF]. rewrite Forall_forall in HF. apply (HF _ Hin). }
      pose proof (H_Q v HQv) as Hqv. destruct v; simpl in Hqv; try contradiction; try congruence; simpl; split; eauto. }
    assert (HME : forall u, Q u -> mentions u E <-> mentions u (dv v (pnorm E)) \/ mentions u (s0 v (pnorm E))).
    { intros u Hu. rewrite <- mentions_parts; [|intros ->; apply H_Q in Hu; rewrite Hvi in Hu; destruct Hu]. split; apply mentions_peq; [symmetry|]; apply pnorm_peq. }
    assert (Hsn : spec2num t v = Ok i) by (rewrite Hvi; auto).
    rewrite Hsn. cbn [bind].
    assert (Hpos : (1 <= List.length (filter (fun mc => has_var v (fst mc)) (pnorm E)))%nat).
    { assert (Hf' : In (m, c) (filter (fun mc => has_var v (fst mc)) (pnorm E))).
      { apply filter_In. split; auto. simpl. apply has_var_in; auto. }
      destruct (filter _ _); [destruct Hf' | simpl; lia]. }
    pose proof (dv_s0_size v (pnorm E)) as Hsz.
    fold (dv v (pnorm E)) in *. fold (s0 v (pnorm E)) in *.
    assert (Hd : rawspec (dv v (pnorm E))) by (apply rawspec_dv; auto).
    assert (H0 : rawspec (s0 v (pnorm E))) by (apply rawspec_s0; auto).
    change (div_var v E) with (dv v (pnorm E)). change (subs0 v E) with (s0 v (pnorm E)).
    assert (G1 : gives (dv v (pnorm E)) (act_lc f t pi (dv v (pnorm E)) p) (OpN (dv v (pnorm E)) p)).
    { apply IH; auto; [apply raw_spoly; auto|]. pose proof (msize_pnorm (dv v (pnorm E))). lia. }
    assert (G2 : gives (s0 v (pnorm E)) (act_lc f t pi (s0 v (pnorm E)) p) (OpN (s0 v (pnorm E)) p)).
    { apply IH; auto; [apply raw_spoly; auto|]. pose proof (msize_pnorm (s0 v (pnorm E))). lia. }
    destruct (act_lc f t pi (dv v (pnorm E)) p) as [r1|]; [|destruct G1 as (-> & u & Hu & Hn & Hme); split; auto; exists u; rewrite HME; auto]. cbn [bind].
    destruct (act_lc f t pi (s0 v (pnorm E)) p) as [r2|]; [|destruct G2 as (-> & u & Hu & Hn & Hme); split; auto; exists u; rewrite HME; auto]. cbn [bind].
    destruct G1 as (P1 & F1), G2 as (P2 & F2).
    assert (Hl1 : lin r1).
    { eapply supp_peq; [symmetry; exact P1|]. apply OpN_lin; auto. apply raw_spoly; auto. }
    destruct (apply_pi i r1 Hi Hl1) as (r3 & E3 & P3). rewrite E3. cbn [bind gives].
    split; [|intros u Hu Hme; apply HME in Hme; auto; destruct Hme; auto].
    rewrite P3, P1, P2. unfold OpN at 3.
    rewrite (Op_split v i (pnorm E) p Hvi Hi Hraw Hp).
    rewrite (OpN_raw (dv v (pnorm E)) (dv v (pnorm E))); auto; [|reflexivity].
    rewrite (OpN_raw (s0 v (pnorm E)) (s0 v (pnorm E))); auto; [|reflexivity].
    reflexivity.
  - cbn [gives].
    pose proof (first_var_none E Ev) as HQ. split.
    2:{ intros v _ (m & Hm & Hv).
        assert (Hin : supp (fun m => Forall (eq VQ) m) E).
        { apply supp_norm_iff; [apply Forall_minv|]. intros a c Hin. apply Forall_forall. intros w Hw. symmetry. eapply HQ; eauto. }
        specialize (Hin m Hm). rewrite Forall_forall in Hin. symmetry. auto. }
    unfold OpN.
    rewrite <- (pnorm_peq E) at 1. revert HQ. generalize (pnorm E). clear E HE Hf Ev IH.
    intros E. induction E as [|[m c] E IH]; intros HQ; simpl.
    + change (@nil (mono * Qc)) with pzero. ring.
    + rewrite poly_cons.
      assert (Hm : Forall Q m).
      { apply Forall_forall. intros v Hv. replace v with VQ; auto. symmetry. eapply HQ; eauto. simpl; auto. }
      rewrite (opm_q m p Hm). rewrite <- IH; [rewrite !pscale_pmul; ring|].
      intros a d v Hin. apply (HQ a d v). simpl; auto.
Qed.

Lemma act_with_gives E p : spoly E -> lin p -> gives E (act_with t pi E p) (OpN E p).
Proof. intros HE Hp. apply act_lc_ok; auto. Qed.
Lemma act_with_ok E p : (forall v, Q v -> mentions v E -> v = VQ) -> spoly E -> lin p ->
  exists r, act_with t pi E p = Ok r /\ peq r (OpN E p).
Proof. intros H1 HE Hp. apply (gives_ok E); auto. apply act_with_gives; auto. Qed.

(** *** Giambelli *)

Variable k : Z.
Variable mu : list Z -> nat.

(** the choice of special class and remaining shape in giambelli_rec_inner *)
Definition gsel (lam : list Z) : res (Z * list Z) :=
  let lz := last lam 1 =? 0 in
  let p0 := hd 0 lam in
  let p := if (p0 =? k) && lz then - k else p0 in
  lam0 <- (if (lz : bool) then
             x1 <- py_get lam 1 ;;
             Ok (if x1 <? k then sl lam 1 (-1) else sl_from lam 1)
           else Ok (sl_from lam 1)) ;;
  Ok (p, lam0).

Definition below (l : list Z) (x : list Z) : Prop := V x /\ (mu x < mu l)%nat.

Hypothesis H_nonneg : forall l, V l -> schur_nonneg (SP l) = true.
Hypothesis H_specnonneg : forall i, I i -> schur_nonneg (SP (num2spec i)) = true.
Hypothesis H_rec : forall l, V l -> l <> [] ->
  exists p l0, gsel l = Ok (p, l0) /\ I p /\ below l l0 /\
    supp (linm (below l) Q) (psub (P p l0) (pS l)).

Lemma lin_one : lin one.
Proof. apply lin_pS; auto. Qed.

Lemma symbol_ok l : V l -> symbol (SP l) = Ok (pS l).
Proof. intros H. unfold symbol. rewrite H_nonneg; auto. Qed.

Definition is_giam (l : list Z) (E : poly) : Prop := spoly E /\ peq (OpN E one) (pS l).

(** [s] maps the classes in [W] to Giambelli polynomials: then substituting it
    into a polynomial in these classes gives a polynomial in the special
    classes. *)
Lemma giam_subst_spoly (W : list Z -> Prop) s E :
  (forall l, W l -> spoly (s (vS l))) -> (forall v, Q v -> s v = pvar v) ->
  supp (polymQ W Q) E -> spoly (psubst s E).
Proof.
  intros Hs Hq HE. eapply supp_psubst; [apply Forall_minv| |exact HE].
  intros m Hm. induction Hm as [|v m Hv _ IH]; simpl; [apply spoly_pone|].
  apply spoly_pmul; auto. destruct Hv as [Hv|(l & Hl & ->)]; auto.
  rewrite Hq by auto. apply (spoly_pmono [v]). repeat constructor. auto.
Qed.

Lemma linm_polymQ W m : linm W Q m -> polymQ W Q m.
Proof.
  intros (l & qm & Hl & HP & HQ). unfold polymQ.
  eapply Permutation_Forall; [apply Permutation_sym; eauto|].
  constructor; [right; eauto|]. eapply Forall_impl; [|exact HQ]. auto.
Qed.

(** ... and a linear combination is recovered by acting on the unit. *)
Lemma giam_subst_one (W : list Z -> Prop) s E :
  (forall l, W l -> is_giam l (s (vS l))) -> (forall v, Q v -> s v = pvar v) ->
  supp (linm W Q) E -> peq (OpN (psubst s E) one) E.
Proof.
  intros Hs Hq HE.
  transitivity (OpN (psubst s (pnorm E)) one).
  { apply OpN_peq; [rewrite pnorm_peq|]; reflexivity. }
  rewrite <- (pnorm_peq E) at 2.
  apply supp_rawnorm in HE. revert HE. generalize (pnorm E). clear E.
  intros E. induction E as [|[m c] E IH]; intros HE; simpl.
  - reflexivity.
  - assert (Hm : linm W Q m) by (apply (HE m c); simpl; auto).
    assert (HE' : rawsupp (linm W Q) E) by (intros a d Hin; apply (HE a d); simpl; auto).
    assert (Hsp : forall l, W l -> spoly (s (vS l))) by (intros; apply Hs; auto).
    assert (Sm : spoly (msubst s m)).
    { apply linm_polymQ in Hm. clear - Hm Hsp Hq.
      induction Hm as [|v m Hv _ IH]; simpl; [apply spoly_pone|].
      apply spoly_pmul; auto. destruct Hv as [Hv|(l & Hl & ->)]; auto.
      rewrite Hq by auto. apply (spoly_pmono [v]). repeat constructor. auto. }
    assert (SE : spoly (psubst s E)).
    { apply (giam_subst_spoly W); auto. apply rawsupp_supp; [apply polymQ_inv|].
      intros a d Hin. apply linm_polymQ. eapply HE'; eauto. }
    rewrite OpN_padd, OpN_pscale, IH; auto using lin_one, spoly_pscale.
    rewrite poly_cons. apply padd_proper; [|reflexivity].
    apply pscale_proper.
    destruct Hm as (l & qm & Hl & HP & HQ).
    assert (Eq : peq (msubst s qm) (pmono qm)).
    { clear - HQ Hq. induction HQ as [|v qm Hv _ IH]; simpl; [reflexivity|].
      rewrite Hq, IH by auto. change (v :: qm) with ([v] ++ qm). rewrite pmono_app. reflexivity. }
    assert (Em : peq (msubst s m) (pmul (pmono qm) (s (vS l)))).
    { rewrite (msubst_perm s _ _ HP). simpl. rewrite Eq. ring. }
    rewrite (OpN_peq _ _ one one Em); [|reflexivity].
    rewrite OpN_pmul; auto using lin_one.
    + rewrite OpN_pmono.
      * destruct (Hs l Hl) as [_ Hg]. rewrite opm_q; auto. rewrite Hg.
        rewrite (pmono_perm _ _ HP). change (vS l :: qm) with ([vS l] ++ qm).
        rewrite pmono_app. rewrite pmul_comm. reflexivity.
      * apply isspec_q; auto.
      * apply OpN_lin; auto using lin_one.
    + apply spoly_pmono, isspec_q; auto.
Qed.

Lemma gri_unfold f l : l <> [] ->
  giambelli_rec_inner (S f) pi k l =
  (' (p, l0) <- gsel l ;;
   y <- pi p l0 ;;
   s <- symbol (SP l) ;;
   a <- giambelli_rec_inner f pi k l0 ;;
   b <- apply_lc (on_part (giambelli_rec_inner f pi k)) (psub y s) ;;
   sp <- symbol (SP (num2spec p)) ;;
   Ok (psub (pmul sp a) b)).
Proof.
  intros Hl. destruct l as [|p0 l]; [congruence|].
  unfold gsel. cbn [giambelli_rec_inner hd].
  destruct (last (p0 :: l) 1 =? 0).
  - destruct (py_get (p0 :: l) 1); reflexivity.
  - reflexivity.
Qed.

Lemma giam_ok f : forall l, V l -> (mu l < f)%nat ->
  exists E, giambelli_rec_inner f pi k l = Ok E /\ is_giam l E.
Proof.
  induction f as [|f IH]; intros l Hl Hf; [lia|].
  destruct l as [|p0 l1] eqn:El.
  { exists pone. split; auto. split; [apply spoly_pone|].
    apply OpN_pone, lin_one. }
  rewrite <- El in *. clear p0 l1 El.
  destruct (list_eq_dec Z.eq_dec l []) as [->|Hne].
  { exists pone. split; auto. split; [apply spoly_pone|]. apply OpN_pone, lin_one. }
  rewrite gri_unfold; auto.
  destruct (H_rec l Hl Hne) as (p & l0 & -> & Hp & [Hl0 Hmu] & Hst). simpl.
  rewrite H_ok; auto. simpl. rewrite symbol_ok; auto. simpl.
  destruct (IH l0) as (a & -> & [Ha1 Ha2]); auto; [lia|]. simpl.
  set (s := fun v => match v with
                     | VS (SP x) => match giambelli_rec_inner f pi k x with Ok E => E | Err _ => pzero end
                     | VS _ => pzero | _ => pvar v end).
  set (stuff := psub (P p l0) (pS l)) in *.
  assert (Hs : forall x, below l x -> giambelli_rec_inner f pi k x = Ok (s (vS x)) /\ is_giam x (s (vS x))).
  { intros x [Hx Hx']. destruct (IH x) as (E & E1 & E2); auto; [lia|].
    simpl. rewrite E1. split; auto. }
  destruct (apply_lc_ok (on_part (giambelli_rec_inner f pi k)) s stuff) as (b & -> & Hb).
  { intros m c v Hin Hv. apply supp_rawnorm in Hst. specialize (Hst _ _ Hin).
    destruct Hst as (x & qm & Hx & HP & HQ).
    apply (Permutation_in _ HP) in Hv. destruct Hv as [<-|Hv].
    - exists (s (vS x)). split; [|reflexivity]. simpl. apply Hs; auto.
    - rewrite Forall_forall in HQ. apply HQ, H_Q in Hv.
      exists (pvar v). destruct v; simpl in Hv; try contradiction; split; reflexivity. }
  simpl. unfold symbol. rewrite H_specnonneg; auto. simpl.
  eexists. split; [reflexivity|].
  assert (Sb : spoly b).
  { eapply supp_peq; [symmetry; exact Hb|]. apply (giam_subst_spoly (below l)); auto.
    - intros x Hx. apply Hs; auto.
    - intros v Hv. apply H_Q in Hv. destruct v; simpl in Hv; try contradiction; reflexivity.
    - eapply supp_impl; [|exact Hst]. intros m. apply linm_polymQ. }
  change (pvar (VS (SP (num2spec p)))) with (pvar (sv p)).
  assert (Sp : spoly (pvar (sv p))) by (apply spoly_sv; auto).
  split.
  - apply supp_psub; auto. apply spoly_pmul; auto.
  - rewrite OpN_psub, OpN_pmul; auto using lin_one, spoly_pmul.
    rewrite OpN_sv; auto; [|apply OpN_lin; auto using lin_one].
    rewrite Ha2, ext_pS.
    rewrite (OpN_peq _ _ one one Hb); [|reflexivity].
    rewrite (giam_subst_one (below l)); auto.
    + unfold stuff. ring.
    + intros x Hx. apply Hs; auto.
    + intros v Hv. apply H_Q in Hv. destruct v; simpl in Hv; try contradiction; reflexivity.
Qed.

(** *** Products *)

Variable fuel : nat.
Hypothesis H_fuel : forall l, V l -> (mu l < fuel)%nat.

Definition G (v : var) : poly :=
  match v with
  | VS (SP x) => match giambelli_rec_inner fuel pi k x with Ok E => E | Err _ => pzero end
  | VS _ => pzero
  | _ => pvar v
  end.

Lemma G_ok l : V l -> giambelli_rec_inner fuel pi k l = Ok (G (vS l)) /\ is_giam l (G (vS l)).
Proof.
  intros Hl. destruct (giam_ok fuel l Hl (H_fuel l Hl)) as (E & E1 & E2).
  simpl. rewrite E1. auto.
Qed.

Lemma G_q v : Q v -> G v = pvar v.
Proof. intros Hv. apply H_Q in Hv. destruct v; simpl in Hv; try contradiction; reflexivity. Qed.

(** polynomials in classes of [V] and parameters *)
Definition vpoly : poly -> Prop := supp (polymQ V Q).

Definition giam (a : poly) : res poly := apply_lc (on_part (giambelli_rec_inner fuel pi k)) a.

Lemma giam_lc_ok a : vpoly a -> exists E, giam a = Ok E /\ peq E (psubst G a) /\ spoly E.
Proof.
  intros Ha. destruct (apply_lc_ok (on_part (giambelli_rec_inner fuel pi k)) G a) as (E & E1 & E2).
  - intros m c v Hin Hv. apply supp_rawnorm in Ha. specialize (Ha _ _ Hin).
    unfold polymQ in Ha. rewrite Forall_forall in Ha. destruct (Ha v Hv) as [HQ|(l & Hl & ->)].
    + exists (pvar v). apply H_Q in HQ. destruct v; simpl in HQ; try contradiction; split; reflexivity.
    + exists (G (vS l)). split; [|reflexivity]. simpl. apply G_ok; auto.
  - exists E. split; auto. split; auto.
    eapply supp_peq; [symmetry; exact E2|]. apply (giam_subst_spoly V); auto using G_q.
    intros l Hl. apply G_ok; auto.
Qed.

Lemma Ga_spoly a : vpoly a -> spoly (psubst G a).
Proof.
  intros Ha. apply (giam_subst_spoly V); auto using G_q. intros l Hl. apply G_ok; auto.
Qed.

(** the product, as a function *)
Definition M (a b : poly) : poly := OpN (psubst G a) b.

Definition prod (a b : poly) : res poly := x <- giam a ;; act_with t pi x b.

Lemma gives_peq E F x r : peq E F -> gives E x r -> gives F x r.
Proof.
  intros HE. destruct x as [y|e]; simpl.
  - intros (A & B). split; auto. intros v Hv Hm. apply B; auto. eapply mentions_peq; [symmetry; exact HE|auto].
  - intros (A & v & B & C & D). split; auto. exists v. split; auto. split; auto. eapply mentions_peq; eauto.
Qed.
Lemma prod_gives a b : vpoly a -> lin b -> gives (psubst G a) (prod a b) (M a b).
Proof.
  intros Ha Hb. destruct (giam_lc_ok a Ha) as (E & E1 & E2 & E3).
  unfold prod. rewrite E1. cbn [bind].
  pose proof (act_with_gives E b E3 Hb) as R. apply (gives_peq _ _ _ _ E2) in R.
  destruct (act_with t pi E b) as [r|e]; [|exact R].
  destruct R as (R & HR). split; auto. rewrite R. apply OpN_peq; auto. reflexivity.
Qed.
Lemma prod_ok a b : (forall v, Q v -> v = VQ) -> vpoly a -> lin b -> exists r, prod a b = Ok r /\ peq r (M a b).
Proof. intros H1 Ha Hb. apply (gives_ok (psubst G a)); auto. apply prod_gives; auto. Qed.

Lemma M_lin a b : vpoly a -> lin b -> lin (M a b).
Proof. intros. apply OpN_lin; auto. apply Ga_spoly; auto. Qed.

Lemma M_peq a a' b b' : peq a a' -> peq b b' -> peq (M a b) (M a' b').
Proof. intros H1 H2. apply OpN_peq; auto. rewrite H1. reflexivity. Qed.

Lemma lin_vpoly p : lin p -> vpoly p.
Proof. apply supp_impl. intros m. apply linm_polymQ. Qed.

Lemma M_one a : lin a -> peq (M a one) a.
Proof.
  intros Ha. apply (giam_subst_one V); auto using G_q. intros l Hl. apply G_ok; auto.
Qed.

Lemma M_pmul a b p : vpoly a -> vpoly b -> lin p -> peq (M (pmul a b) p) (M a (M b p)).
Proof.
  intros Ha Hb Hp. unfold M. rewrite (OpN_peq _ (pmul (psubst G a) (psubst G b)) p p).
  - apply OpN_pmul; auto; apply Ga_spoly; auto.
  - apply psubst_pmul.
  - reflexivity.
Qed.

Lemma vpolyQ_pmul a b : vpoly a -> vpoly b -> vpoly (pmul a b).
Proof.
  intros. eapply supp_pmul; eauto; [apply polymQ_inv|]. intros. apply Forall_app; auto.
Qed.

Lemma M_swap a b p : vpoly a -> vpoly b -> lin p -> peq (M a (M b p)) (M b (M a p)).
Proof.
  intros Ha Hb Hp. rewrite <- !M_pmul; auto. apply M_peq; [apply pmul_comm | reflexivity].
Qed.

Lemma M_comm a b : lin a -> lin b -> peq (M a b) (M b a).
Proof.
  intros Ha Hb.
  rewrite <- (M_peq a a (M b one) b); [|reflexivity | apply M_one; auto].
  rewrite M_swap; auto using lin_vpoly, lin_one.
  apply M_peq; [reflexivity | apply M_one; auto].
Qed.

Lemma M_assoc a b c : lin a -> lin b -> lin c -> lin (M a b) ->
  peq (M (M a b) c) (M a (M b c)).
Proof.
  intros Ha Hb Hc Hab.
  rewrite M_comm; auto. rewrite M_swap; auto using lin_vpoly.
  apply M_peq; [reflexivity | apply M_comm; auto].
Qed.

(** [toS] on polynomials *)
Lemma M_toS a p : vpoly a -> lin (M a one) -> lin p -> peq (M (M a one) p) (M a p).
Proof.
  intros Ha Hl Hp. rewrite M_comm; auto.
  rewrite M_swap; auto using lin_vpoly, lin_one. apply M_peq; [reflexivity | apply M_one; auto].
Qed.

End Ops.

Lemma linm_polym W m : linm W (eq VQ) m -> polym W m.
Proof. intros H. apply polym_eqVQ. apply linm_polymQ. auto. Qed.
Lemma linq_vpoly W p : supp (linm W (eq VQ)) p -> supp (polym W) p.
Proof. apply supp_impl. intros m. apply linm_polym. Qed.
Lemma vpoly_pmul W a b : supp (polym W) a -> supp (polym W) b -> supp (polym W) (pmul a b).
Proof. intros. eapply supp_pmul; eauto; [apply polym_inv|]. intros. apply Forall_app; auto. Qed.
Lemma supp_polym_eqVQ W p : supp (polym W) p -> supp (polymQ W (eq VQ)) p.
Proof. apply supp_impl. intros m. apply polym_eqVQ. Qed.
