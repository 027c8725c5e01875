(** Algebra of the polynomials of ModelPoly.v. *)

From Coq Require Import ZArith List Lia Bool Permutation Sorted QArith Qcanon Setoid Morphisms Ring.
From Verif Require Import Py OrderFacts ModelPart ModelQcalc ModelPoly.
Import ListNotations.
Open Scope Z_scope.

(** ** Monomials *)

Lemma vkey_inj a b : vkey a = vkey b -> a = b.
Proof.
  destruct a as [[l|t u]| | |], b as [[l'|t' u']| | |]; simpl; try congruence.
  intros E. inversion E as [[E1 E2]].
  unfold zlen in E1. apply Nat2Z.inj in E1.
  apply app_eq_app in E2. destruct E2 as (w & [[Ea Eb]|[Ea Eb]]).
  - subst. rewrite app_length in E1. destruct w; [|simpl in E1; lia].
    rewrite app_nil_r. simpl. reflexivity.
  - subst. rewrite app_length in E1. destruct w; [|simpl in E1; lia].
    rewrite app_nil_r. simpl. reflexivity.
Qed.

Lemma vcmp_ok : cmp_ok vcmp.
Proof. apply (cmp_map_ok vkey zl_cmp zl_cmp_ok vkey_inj). Qed.

Lemma mcmp_ok : cmp_ok mcmp.
Proof. apply lcmp_ok, vcmp_ok. Qed.

Lemma var_eq_dec (a b : var) : {a = b} + {a <> b}.
Proof.
  destruct (vcmp a b) eqn:E.
  - left. apply (cmp_eq _ vcmp_ok); auto.
  - right. intros ->. rewrite (cmp_refl _ vcmp_ok) in E. congruence.
  - right. intros ->. rewrite (cmp_refl _ vcmp_ok) in E. congruence.
Qed.

Lemma msort_perm m : Permutation (msort m) m.
Proof. apply isort_perm. Qed.

Lemma msort_eq a b : msort a = msort b <-> Permutation a b.
Proof. apply isort_unique, vcmp_ok. Qed.

Lemma msort_idem m : msort (msort m) = msort m.
Proof. apply msort_eq, msort_perm. Qed.

Lemma mono_eqb_perm a b : mono_eqb a b = true <-> Permutation a b.
Proof.
  unfold mono_eqb. rewrite <- msort_eq, <- (cmp_eq _ mcmp_ok).
  destruct (mcmp (msort a) (msort b)); split; congruence.
Qed.

Lemma mono_eqb_false a b : mono_eqb a b = false <-> ~ Permutation a b.
Proof. rewrite <- not_true_iff_false, mono_eqb_perm. tauto. Qed.

Lemma mono_eqb_proper a a' b b' :
  Permutation a a' -> Permutation b b' -> mono_eqb a b = mono_eqb a' b'.
Proof.
  intros H1 H2. destruct (mono_eqb a' b') eqn:E.
  - apply mono_eqb_perm. apply mono_eqb_perm in E.
    eapply perm_trans; [eassumption|]. eapply perm_trans; [eassumption|].
    apply Permutation_sym; auto.
  - apply mono_eqb_false. apply mono_eqb_false in E. intros H. apply E.
    eapply perm_trans; [apply Permutation_sym; eassumption|].
    eapply perm_trans; eassumption.
Qed.

(** ** Coefficients *)

Open Scope Qc_scope.

Definition bq (b : bool) : Qc := if b then 1 else 0.

(** Linear functional on polynomials given by its values on monomials. *)
Fixpoint phi (f : mono -> Qc) (p : poly) : Qc :=
  match p with
  | [] => 0
  | (m, c) :: t => c * f m + phi f t
  end.

Lemma coef_phi p m : coef p m = phi (fun m' => bq (mono_eqb m' m)) p.
Proof.
  induction p as [|[m' c] t IH]; simpl; auto.
  rewrite <- IH. destruct (mono_eqb m' m); unfold bq; ring.
Qed.

Lemma phi_app f p r : phi f (p ++ r) = phi f p + phi f r.
Proof. induction p as [|[m c] t IH]; simpl; [ring|]. rewrite IH. ring. Qed.

Lemma phi_ext f g p : (forall m c, In (m, c) p -> f m = g m) -> phi f p = phi g p.
Proof.
  induction p as [|[m c] t IH]; simpl; intros H; auto.
  rewrite (H m c), IH; auto. intros; eapply H; eauto.
Qed.

Lemma phi_add f g p : phi (fun m => f m + g m) p = phi f p + phi g p.
Proof. induction p as [|[m c] t IH]; simpl; [ring|]. rewrite IH. ring. Qed.

Lemma phi_mul c f p : phi (fun m => c * f m) p = c * phi f p.
Proof. induction p as [|[m d] t IH]; simpl; [ring|]. rewrite IH. ring. Qed.

Lemma phi_zero f p : (forall m c, In (m, c) p -> f m = 0) -> phi f p = 0.
Proof.
  induction p as [|[m c] t IH]; simpl; intros H; auto.
  rewrite (H m c), IH; auto; [ring|]. intros; eapply H; eauto.
Qed.

Lemma phi_swap (f : mono -> mono -> Qc) p r :
  phi (fun a => phi (fun b => f a b) r) p = phi (fun b => phi (fun a => f a b) p) r.
Proof.
  induction p as [|[m c] t IH]; simpl.
  - symmetry. apply phi_zero. auto.
  - rewrite IH, phi_add, phi_mul. reflexivity.
Qed.

Lemma phi_pscale c f p : phi f (pscale c p) = c * phi f p.
Proof. induction p as [|[m d] t IH]; simpl; [ring|]. rewrite IH. ring. Qed.

Lemma phi_tmul m c f p : phi f (tmul m c p) = c * phi (fun b => f (m ++ b)%list) p.
Proof. induction p as [|[m' d] t IH]; simpl; [ring|]. fold (tmul m c t). rewrite IH. ring. Qed.

Definition rmul (p r : poly) : poly := flat_map (fun mc => tmul (fst mc) (snd mc) r) p.

Lemma phi_rmul f p r :
  phi f (rmul p r) = phi (fun a => phi (fun b => f (a ++ b)%list) r) p.
Proof.
  induction p as [|[m c] t IH]; simpl; auto.
  rewrite phi_app, phi_tmul, IH. reflexivity.
Qed.

Definition perm_inv (f : mono -> Qc) : Prop := forall a b, Permutation a b -> f a = f b.

Lemma qc_is0_true c : qc_is0 c = true <-> c = 0.
Proof. unfold qc_is0. destruct (Qc_eq_dec c 0); split; congruence. Qed.
Lemma qc_is0_false c : qc_is0 c = false <-> c <> 0.
Proof. unfold qc_is0. destruct (Qc_eq_dec c 0); split; congruence. Qed.

Lemma phi_pins f m c p : phi f (pins m c p) = c * f m + phi f p.
Proof.
  induction p as [|[m' c'] t IH]; simpl.
  - destruct (qc_is0 c) eqn:E; simpl; [|ring].
    apply qc_is0_true in E. subst. ring.
  - destruct (mcmp m m') eqn:E.
    + apply (cmp_eq _ mcmp_ok) in E. subst m'.
      destruct (qc_is0 (c + c')) eqn:E0; simpl; [|ring].
      apply qc_is0_true in E0.
      transitivity ((c + c') * f m + phi f t); [rewrite E0; ring | ring].
    + destruct (qc_is0 c) eqn:E0; simpl; [|ring].
      apply qc_is0_true in E0. subst. ring.
    + simpl. rewrite IH. ring.
Qed.

Lemma phi_pnorm f p :
  (forall m c, In (m, c) p -> f (msort m) = f m) -> phi f (pnorm p) = phi f p.
Proof.
  induction p as [|[m c] t IH]; simpl; intros H; auto.
  rewrite phi_pins, IH; [|intros; eapply H; eauto].
  rewrite (H m c); auto.
Qed.

Lemma phi_pnorm_inv f p : perm_inv f -> phi f (pnorm p) = phi f p.
Proof. intros H. apply phi_pnorm. intros. apply H, msort_perm. Qed.

Lemma eqb_perm_inv m : perm_inv (fun m' => bq (mono_eqb m' m)).
Proof. intros a b H. rewrite (mono_eqb_proper a b m m); auto. Qed.

Lemma coef_pnorm p m : coef (pnorm p) m = coef p m.
Proof. rewrite !coef_phi. apply phi_pnorm_inv, eqb_perm_inv. Qed.

Lemma coef_perm p m m' : Permutation m m' -> coef p m = coef p m'.
Proof.
  intros H. rewrite !coef_phi. apply phi_ext. intros a c _.
  rewrite (mono_eqb_proper a a m m'); auto.
Qed.

Lemma coef_app p r m : coef (p ++ r) m = coef p m + coef r m.
Proof. rewrite !coef_phi. apply phi_app. Qed.

Lemma coef_padd p r m : coef (padd p r) m = coef p m + coef r m.
Proof. unfold padd. rewrite coef_pnorm. apply coef_app. Qed.

Lemma coef_pscale c p m : coef (pscale c p) m = c * coef p m.
Proof. rewrite !coef_phi. apply phi_pscale. Qed.

Lemma coef_psub p r m : coef (psub p r) m = coef p m - coef r m.
Proof. unfold psub. rewrite coef_padd, coef_pscale. ring. Qed.

Lemma coef_pmul p r m :
  coef (pmul p r) m = phi (fun a => phi (fun b => bq (mono_eqb (a ++ b)%list m)) r) p.
Proof.
  unfold pmul. rewrite coef_pnorm, coef_phi. exact (phi_rmul (fun m' => bq (mono_eqb m' m)) p r).
Qed.

Lemma coef_nil m : coef [] m = 0.
Proof. reflexivity. Qed.

(** ** Canonical form *)

Definition mlt (a b : mono * Qc) : Prop := mcmp (fst a) (fst b) = Lt.

Definition nf (p : poly) : Prop :=
  StronglySorted mlt p /\ Forall (fun mc => msort (fst mc) = fst mc /\ snd mc <> 0) p.

Lemma pins_in m c p x : In x (pins m c p) -> fst x = m \/ In (fst x) (map fst p).
Proof.
  induction p as [|[m' c'] t IH]; simpl.
  - destruct (qc_is0 c); simpl; [tauto|]. intros [<-|[]]; auto.
  - destruct (mcmp m m') eqn:E.
    + apply (cmp_eq _ mcmp_ok) in E. subst.
      destruct (qc_is0 (c + c')); simpl.
      * intros H. right. right. apply in_map; auto.
      * intros [<-|H]; auto. right; right. apply in_map; auto.
    + destruct (qc_is0 c); simpl.
      * intros [<-|H]; auto. right; right; apply in_map; auto.
      * intros [<-|[<-|H]]; auto. right; right; apply in_map; auto.
    + simpl. intros [<-|H]; auto. apply IH in H. tauto.
Qed.

Lemma pins_nf m c p : msort m = m -> nf p -> nf (pins m c p).
Proof.
  intros Hm. induction p as [|[m' c'] t IH]; simpl; intros [HS HF].
  - destruct (qc_is0 c) eqn:E; [split; constructor|].
    apply qc_is0_false in E. split; repeat constructor; auto.
  - inversion HS; inversion HF; subst.
    destruct (mcmp m m') eqn:E.
    + apply (cmp_eq _ mcmp_ok) in E. subst.
      destruct (qc_is0 (c + c')) eqn:E0; [split; auto|].
      apply qc_is0_false in E0. split; constructor; auto.
    + destruct (qc_is0 c) eqn:E0; [split; auto|].
      apply qc_is0_false in E0. split.
      * constructor; auto. constructor; [exact E|].
        eapply Forall_impl; [|exact H2]. intros [a d]. unfold mlt; simpl.
        intros. eapply (cmp_trans _ mcmp_ok); eauto.
      * constructor; auto.
    + destruct IH as [IH1 IH2]; [split; auto|].
      split; constructor; auto.
      rewrite Forall_forall in *. intros x Hx.
      apply pins_in in Hx. unfold mlt; simpl. destruct Hx as [Hx|Hx].
      * rewrite Hx. rewrite (cmp_opp _ mcmp_ok m m'), E. reflexivity.
      * apply in_map_iff in Hx. destruct Hx as (y & Hy & Hin). rewrite <- Hy.
        apply (H2 y) in Hin. exact Hin.
Qed.

Lemma pnorm_nf p : nf (pnorm p).
Proof.
  induction p as [|[m c] t IH]; simpl; [split; constructor|].
  apply pins_nf; auto. apply msort_idem.
Qed.

Lemma nf_coef_notin p m :
  nf p -> ~ In (msort m) (map fst p) -> coef p m = 0.
Proof.
  intros [HS HF] Hn. rewrite coef_phi. apply phi_zero. intros a c Hin.
  destruct (mono_eqb a m) eqn:E; auto. exfalso. apply Hn.
  apply mono_eqb_perm in E. apply msort_eq in E.
  rewrite Forall_forall in HF. specialize (HF _ Hin). simpl in HF.
  destruct HF as [HF _]. rewrite <- E, HF. apply in_map_iff. exists (a, c). auto.
Qed.

Lemma mcmp_irrefl m : mcmp m m <> Lt.
Proof. rewrite (cmp_refl _ mcmp_ok). congruence. Qed.

Lemma nf_coef_in p m c : nf p -> In (m, c) p -> coef p m = c.
Proof.
  induction p as [|[m' c'] t IH]; simpl; [tauto|].
  intros [HS HF] Hin. inversion HS; inversion HF; subst.
  assert (Hnt : nf t) by (split; auto).
  destruct Hin as [E|Hin].
  - inversion E; subst.
    replace (mono_eqb m m) with true by (symmetry; apply mono_eqb_perm; auto).
    rewrite nf_coef_notin; auto; [ring|].
    intros Hin. apply in_map_iff in Hin. destruct Hin as ([a d] & Ha & Hin). simpl in Ha.
    rewrite Forall_forall in H2. specialize (H2 _ Hin). unfold mlt in H2. simpl in H2.
    simpl in H5. destruct H5 as [H5 _]. rewrite H5 in Ha. subst a.
    apply (mcmp_irrefl m); auto.
  - rewrite (IH Hnt Hin).
    destruct (mono_eqb m' m) eqn:E; auto. exfalso.
    apply mono_eqb_perm in E. apply msort_eq in E.
    destruct Hnt as [_ HFt]. rewrite Forall_forall in HFt, H2.
    specialize (HFt _ Hin). specialize (H2 _ Hin). simpl in *. unfold mlt in H2; simpl in H2.
    destruct HFt as [HFt _]. destruct H5 as [H5 _]. rewrite HFt, H5 in E. subst.
    apply (mcmp_irrefl m); auto.
Qed.

Lemma nf_unique p r : nf p -> nf r -> peq p r -> p = r.
Proof.
  revert r. induction p as [|[m c] t IH]; intros r Hp Hr He.
  - destruct r as [|[m' c'] t']; auto.
    specialize (He m'). rewrite (nf_coef_in ((m', c') :: t') m' c') in He; simpl; auto.
    destruct Hr as [_ HF]. inversion HF; subst. simpl in *. destruct H1. congruence.
  - destruct r as [|[m' c'] t'].
    { specialize (He m). rewrite (nf_coef_in ((m, c) :: t) m c) in He; simpl; auto.
      destruct Hp as [_ HF]. inversion HF; subst. simpl in *. destruct H1. congruence. }
    assert (Hpt : nf t). { destruct Hp as [A B]; inversion A; inversion B; split; auto. }
    assert (Hrt : nf t'). { destruct Hr as [A B]; inversion A; inversion B; split; auto. }
    assert (Hmp : msort m = m /\ c <> 0). { destruct Hp as [A B]; inversion B; auto. }
    assert (Hmr : msort m' = m' /\ c' <> 0). { destruct Hr as [A B]; inversion B; auto. }
    assert (Hlp : Forall (mlt (m, c)) t). { destruct Hp as [A B]; inversion A; auto. }
    assert (Hlr : Forall (mlt (m', c')) t'). { destruct Hr as [A B]; inversion A; auto. }
    assert (m = m').
    { destruct (mcmp m m') eqn:E.
      - apply (cmp_eq _ mcmp_ok); auto.
      - exfalso. specialize (He m).
        rewrite (nf_coef_in ((m, c) :: t) m c) in He; simpl; auto.
        rewrite nf_coef_notin in He; auto; [destruct Hmp; congruence|].
        destruct Hmp as [Hmp _]. rewrite Hmp. simpl. intros [->|Hin].
        + apply (mcmp_irrefl m E).
        + apply in_map_iff in Hin. destruct Hin as ([a d] & Ha & Hin). simpl in Ha; subst a.
          rewrite Forall_forall in Hlr. apply Hlr in Hin. unfold mlt in Hin. simpl in Hin.
          apply (mcmp_irrefl m). eapply (cmp_trans _ mcmp_ok); eauto.
      - exfalso. specialize (He m').
        rewrite (nf_coef_in ((m', c') :: t') m' c') in He; simpl; auto.
        assert (E' : mcmp m' m = Lt) by (rewrite (cmp_opp _ mcmp_ok m m'), E; auto).
        rewrite nf_coef_notin in He; auto; [destruct Hmr; congruence|].
        destruct Hmr as [Hmr _]. rewrite Hmr. simpl. intros [->|Hin].
        + apply (mcmp_irrefl m' E').
        + apply in_map_iff in Hin. destruct Hin as ([a d] & Ha & Hin). simpl in Ha; subst a.
          rewrite Forall_forall in Hlp. apply Hlp in Hin. unfold mlt in Hin. simpl in Hin.
          apply (mcmp_irrefl m'). eapply (cmp_trans _ mcmp_ok); eauto. }
    subst m'.
    assert (c = c').
    { specialize (He m). rewrite (nf_coef_in ((m, c) :: t) m c), (nf_coef_in ((m, c') :: t') m c') in He; simpl; auto. }
    subst c'. f_equal. apply IH; auto.
    intros m0. specialize (He m0). simpl in He. destruct (mono_eqb m m0); auto.
    apply (f_equal (fun x => x - c)) in He.
    transitivity (c + coef t m0 - c); [ring|]. rewrite He. ring.
Qed.

Lemma peq_pnorm p r : peq p r -> pnorm p = pnorm r.
Proof.
  intros H. apply nf_unique; try apply pnorm_nf.
  intros m. rewrite !coef_pnorm. apply H.
Qed.

Lemma pnorm_peq p : peq (pnorm p) p.
Proof. intros m. apply coef_pnorm. Qed.

Lemma pnorm_idem p : pnorm (pnorm p) = pnorm p.
Proof. apply peq_pnorm, pnorm_peq. Qed.

Lemma peq_iff p r : peq p r <-> pnorm p = pnorm r.
Proof.
  split; [apply peq_pnorm|]. intros H m.
  rewrite <- (coef_pnorm p), <- (coef_pnorm r), H. reflexivity.
Qed.

Lemma pnorm_in p m c : In (m, c) (pnorm p) -> exists m' c', In (m', c') p /\ Permutation m m'.
Proof.
  revert m c. induction p as [|[m' c'] t IH]; simpl; [tauto|].
  intros m c Hin. apply pins_in in Hin. simpl in Hin. destruct Hin as [->|Hin].
  - exists m', c'. split; auto. apply msort_perm.
  - apply in_map_iff in Hin. destruct Hin as ([a d] & Ha & Hin). simpl in Ha. subst a.
    destruct (IH _ _ Hin) as (m1 & c1 & H1 & H2). exists m1, c1. auto.
Qed.

(** ** Setoid *)

Global Instance peq_equiv : Equivalence peq.
Proof.
  constructor.
  - intros p m; reflexivity.
  - intros p r H m; symmetry; apply H.
  - intros p r s H1 H2 m; rewrite H1; apply H2.
Qed.

Lemma phi_peq f p r : perm_inv f -> peq p r -> phi f p = phi f r.
Proof.
  intros Hf H. rewrite <- (phi_pnorm_inv f p Hf), <- (phi_pnorm_inv f r Hf).
  rewrite (peq_pnorm _ _ H). reflexivity.
Qed.

Global Instance padd_proper : Proper (peq ==> peq ==> peq) padd.
Proof. intros p p' H r r' H' m. rewrite !coef_padd, H, H'. reflexivity. Qed.

Global Instance psub_proper : Proper (peq ==> peq ==> peq) psub.
Proof. intros p p' H r r' H' m. rewrite !coef_psub, H, H'. reflexivity. Qed.

Global Instance pscale_proper c : Proper (peq ==> peq) (pscale c).
Proof. intros p p' H m. rewrite !coef_pscale, H. reflexivity. Qed.

Lemma prod_perm_inv_l m r :
  perm_inv (fun a => phi (fun b => bq (mono_eqb (a ++ b)%list m)) r).
Proof.
  intros a a' H. apply phi_ext. intros b c _.
  rewrite (mono_eqb_proper (a ++ b)%list (a' ++ b)%list m m); auto.
  apply Permutation_app_tail; auto.
Qed.

Lemma prod_perm_inv_r m a : perm_inv (fun b => bq (mono_eqb (a ++ b)%list m)).
Proof.
  intros b b' H.
  rewrite (mono_eqb_proper (a ++ b)%list (a ++ b')%list m m); auto.
  apply Permutation_app_head; auto.
Qed.

Global Instance pmul_proper : Proper (peq ==> peq ==> peq) pmul.
Proof.
  intros p p' H r r' H' m. rewrite !coef_pmul.
  rewrite (phi_peq _ p p' (prod_perm_inv_l m r) H).
  apply phi_ext. intros a c _. apply phi_peq; auto. apply prod_perm_inv_r.
Qed.

Definition popp (p : poly) : poly := pscale (- (1)) p.

Global Instance popp_proper : Proper (peq ==> peq) popp.
Proof. intros p p' H m. unfold popp. rewrite !coef_pscale, H. reflexivity. Qed.

Lemma padd_comm p r : peq (padd p r) (padd r p).
Proof. intros m. rewrite !coef_padd. ring. Qed.
Lemma padd_assoc p r s : peq (padd p (padd r s)) (padd (padd p r) s).
Proof. intros m. rewrite !coef_padd. ring. Qed.
Lemma padd_0_l p : peq (padd pzero p) p.
Proof. intros m. rewrite coef_padd. unfold pzero. simpl. ring. Qed.

Lemma pmul_comm p r : peq (pmul p r) (pmul r p).
Proof.
  intros m. rewrite !coef_pmul, phi_swap.
  apply phi_ext. intros b cb _. apply phi_ext. intros a ca _.
  rewrite (mono_eqb_proper (a ++ b)%list (b ++ a)%list m m); auto.
  apply Permutation_app_comm.
Qed.

Lemma phi_pmul f p r : perm_inv f ->
  phi f (pmul p r) = phi (fun a => phi (fun b => f (a ++ b)%list) r) p.
Proof.
  intros Hf. unfold pmul. rewrite phi_pnorm_inv; auto. apply (phi_rmul f p r).
Qed.

Lemma pmul_assoc p r s : peq (pmul p (pmul r s)) (pmul (pmul p r) s).
Proof.
  intros m. rewrite !coef_pmul.
  rewrite (phi_pmul _ p r (prod_perm_inv_l m s)).
  apply phi_ext. intros a ca _.
  rewrite (phi_pmul _ r s (prod_perm_inv_r m a)).
  apply phi_ext. intros b cb _. apply phi_ext. intros d cd _.
  rewrite app_assoc. reflexivity.
Qed.

Lemma pmul_1_l p : peq (pmul pone p) p.
Proof.
  intros m. rewrite coef_pmul. unfold pone, pconst. simpl.
  rewrite coef_phi. ring.
Qed.

Lemma phi_padd f p r : perm_inv f -> phi f (padd p r) = phi f p + phi f r.
Proof. intros Hf. unfold padd. rewrite phi_pnorm_inv; auto. apply phi_app. Qed.

Lemma pmul_add_l p r s : peq (pmul (padd p r) s) (padd (pmul p s) (pmul r s)).
Proof.
  intros m. rewrite coef_padd, !coef_pmul.
  apply phi_padd, prod_perm_inv_l.
Qed.

Lemma poly_ring_theory : ring_theory pzero pone padd pmul psub popp peq.
Proof.
  constructor.
  - exact padd_0_l.
  - exact padd_comm.
  - exact padd_assoc.
  - exact pmul_1_l.
  - exact pmul_comm.
  - exact pmul_assoc.
  - exact pmul_add_l.
  - intros x y m. unfold psub, popp. reflexivity.
  - intros x m. unfold popp. rewrite coef_padd, coef_pscale. simpl. ring.
Qed.

Lemma poly_ring_ext : ring_eq_ext padd pmul popp peq.
Proof. constructor; [exact padd_proper | exact pmul_proper | exact popp_proper]. Qed.

Add Ring poly_ring : poly_ring_theory (setoid peq_equiv poly_ring_ext).

Lemma pscale_pmul c p : peq (pscale c p) (pmul (pconst c) p).
Proof.
  intros m. rewrite coef_pscale, coef_pmul. unfold pconst. simpl.
  rewrite coef_phi. ring.
Qed.

Lemma pmul_pscale_l c p r : peq (pmul (pscale c p) r) (pscale c (pmul p r)).
Proof. rewrite !pscale_pmul. ring. Qed.
Lemma pmul_pscale_r c p r : peq (pmul p (pscale c r)) (pscale c (pmul p r)).
Proof. rewrite !pscale_pmul. ring. Qed.

Lemma pscale_1 p : peq (pscale 1 p) p.
Proof. intros m. rewrite coef_pscale. ring. Qed.
Lemma pscale_mul c d p : peq (pscale (c * d) p) (pscale c (pscale d p)).
Proof. intros m. rewrite !coef_pscale. ring. Qed.

(** A term as a product *)
Definition pmono (m : mono) : poly := [(m, 1)].

Lemma pmono_app a b : peq (pmono (a ++ b)) (pmul (pmono a) (pmono b)).
Proof.
  intros m. rewrite coef_pmul. unfold pmono. simpl.
  destruct (mono_eqb (a ++ b)%list m); unfold bq; ring.
Qed.

Lemma pmono_perm a b : Permutation a b -> peq (pmono a) (pmono b).
Proof.
  intros H m. unfold pmono. simpl. rewrite (mono_eqb_proper a b m m); auto.
Qed.

Lemma pmono_nil : peq (pmono []) pone.
Proof. reflexivity. Qed.

Lemma poly_cons m c p : peq ((m, c) :: p) (padd (pscale c (pmono m)) p).
Proof.
  intros m0. rewrite coef_padd, coef_pscale. unfold pmono. simpl.
  destruct (mono_eqb m m0); ring.
Qed.

Lemma poly_app p r : peq (p ++ r) (padd p r).
Proof. intros m. rewrite coef_padd. apply coef_app. Qed.

(** ** Substitution *)

Definition msubst (s : var -> poly) (m : mono) : poly :=
  fold_right (fun v acc => pmul (s v) acc) pone m.

Fixpoint psubst (s : var -> poly) (p : poly) : poly :=
  match p with
  | [] => pzero
  | (m, c) :: t => padd (pscale c (msubst s m)) (psubst s t)
  end.

Lemma msubst_app s a b : peq (msubst s (a ++ b)) (pmul (msubst s a) (msubst s b)).
Proof.
  induction a as [|v a IH]; simpl.
  - ring.
  - rewrite IH. ring.
Qed.

Lemma msubst_perm s a b : Permutation a b -> peq (msubst s a) (msubst s b).
Proof.
  induction 1; simpl.
  - reflexivity.
  - rewrite IHPermutation. reflexivity.
  - ring.
  - etransitivity; eauto.
Qed.

Lemma coef_psubst s p m : coef (psubst s p) m = phi (fun a => coef (msubst s a) m) p.
Proof.
  induction p as [|[a c] t IH]; simpl; auto.
  rewrite coef_padd, coef_pscale, IH. reflexivity.
Qed.

Global Instance psubst_proper s : Proper (peq ==> peq) (psubst s).
Proof.
  intros p r H m. rewrite !coef_psubst. apply phi_peq; auto.
  intros a b Hab. apply (msubst_perm s a b Hab).
Qed.

Lemma psubst_app s p r : peq (psubst s (p ++ r)) (padd (psubst s p) (psubst s r)).
Proof. intros m. rewrite coef_padd, !coef_psubst. apply phi_app. Qed.

Lemma psubst_padd s p r : peq (psubst s (padd p r)) (padd (psubst s p) (psubst s r)).
Proof.
  unfold padd at 1. rewrite pnorm_peq. apply psubst_app.
Qed.

Lemma psubst_pscale s c p : peq (psubst s (pscale c p)) (pscale c (psubst s p)).
Proof. intros m. rewrite coef_pscale, !coef_psubst. apply phi_pscale. Qed.

Lemma psubst_psub s p r : peq (psubst s (psub p r)) (psub (psubst s p) (psubst s r)).
Proof. unfold psub. rewrite psubst_padd, psubst_pscale. reflexivity. Qed.

Lemma coef_pmul_phi p r m :
  coef (pmul p r) m = phi (fun a => coef (pmul (pmono a) r) m) p.
Proof.
  rewrite coef_pmul. apply phi_ext. intros a c _.
  rewrite coef_pmul. unfold pmono. simpl. ring.
Qed.

Lemma psubst_pmono s m : peq (psubst s (pmono m)) (msubst s m).
Proof. unfold pmono. simpl. rewrite pscale_1. ring. Qed.

Lemma psubst_pmul s p r : peq (psubst s (pmul p r)) (pmul (psubst s p) (psubst s r)).
Proof.
  induction p as [|[a c] t IH].
  - intros m. reflexivity.
  - rewrite (poly_cons a c t).
    assert (E : peq (pmul (padd (pscale c (pmono a)) t) r)
                    (padd (pscale c (pmul (pmono a) r)) (pmul t r))).
    { rewrite !pscale_pmul. ring. }
    rewrite E, psubst_padd, psubst_pscale, IH, psubst_padd, psubst_pscale, psubst_pmono.
    assert (E2 : peq (psubst s (pmul (pmono a) r)) (pmul (msubst s a) (psubst s r))).
    { clear. induction r as [|[b d] r IH].
      - assert (E0 : peq (pmul (pmono a) []) pzero) by (change (@nil (mono * Qc)) with pzero; ring).
        rewrite E0. simpl. change (@nil (mono * Qc)) with pzero. ring.
      - rewrite (poly_cons b d r).
        assert (E : peq (pmul (pmono a) (padd (pscale d (pmono b)) r))
                        (padd (pscale d (pmono (a ++ b))) (pmul (pmono a) r))).
        { rewrite pmono_app, !pscale_pmul. ring. }
        rewrite E, psubst_padd, psubst_pscale, IH, psubst_padd, psubst_pscale, !psubst_pmono,
          msubst_app, !pscale_pmul. ring. }
    rewrite E2, !pscale_pmul. ring.
Qed.

Lemma psubst_pconst s c : peq (psubst s (pconst c)) (pconst c).
Proof. intros m. rewrite coef_psubst. unfold pconst. cbn [phi msubst fold_right].
  unfold pone, pconst. cbn [coef].
  destruct (mono_eqb [] m); ring. Qed.

Lemma psubst_pvar s v : peq (psubst s (pvar v)) (s v).
Proof. unfold pvar. simpl. rewrite pscale_1. ring. Qed.

Lemma psubst_pone s : peq (psubst s pone) pone.
Proof. apply psubst_pconst. Qed.

Lemma msubst_ext s s' m : (forall v, In v m -> peq (s v) (s' v)) -> peq (msubst s m) (msubst s' m).
Proof.
  induction m as [|v m IH]; simpl; intros H; [reflexivity|].
  rewrite (H v), IH; auto. reflexivity.
Qed.

Lemma psubst_ext s s' p :
  (forall m c v, In (m, c) p -> In v m -> peq (s v) (s' v)) -> peq (psubst s p) (psubst s' p).
Proof.
  induction p as [|[m c] t IH]; simpl; intros H; [reflexivity|].
  rewrite IH, (msubst_ext s s' m); auto; [reflexivity| |]; intros; eapply H; eauto.
Qed.

(** Composition of substitutions *)
Lemma psubst_msubst s s' m : peq (psubst s (msubst s' m)) (msubst (fun v => psubst s (s' v)) m).
Proof.
  induction m as [|v m IH]; simpl.
  - exact (psubst_pone s).
  - rewrite psubst_pmul, IH. reflexivity.
Qed.

Lemma psubst_comp s s' p : peq (psubst s (psubst s' p)) (psubst (fun v => psubst s (s' v)) p).
Proof.
  induction p as [|[m c] t IH]; simpl; [reflexivity|].
  rewrite psubst_padd, psubst_pscale, psubst_msubst, IH. reflexivity.
Qed.

(** ** apply_lc is substitution when the function is defined on all classes that
    occur *)

Lemma mapply_ok f s m :
  (forall v, In v m -> exists x, image f v = Ok x /\ peq x (s v)) ->
  exists r, mapply f m = Ok r /\ peq r (msubst s m).
Proof.
  induction m as [|v m IH]; simpl; intros H.
  - exists pone. split; auto. reflexivity.
  - destruct (H v) as (x & -> & Hx); auto. destruct IH as (r & -> & Hr); auto.
    simpl. exists (pmul x r). split; auto. rewrite Hx, Hr. reflexivity.
Qed.

Lemma tapply_ok f s p :
  (forall m c v, In (m, c) p -> In v m -> exists x, image f v = Ok x /\ peq x (s v)) ->
  exists r, tapply f p = Ok r /\ peq r (psubst s p).
Proof.
  induction p as [|[m c] t IH]; simpl; intros H.
  - exists pzero. split; auto. reflexivity.
  - destruct (mapply_ok f s m) as (x & -> & Hx); [intros; eapply H; eauto|].
    destruct IH as (r & -> & Hr); [intros; eapply H; eauto|].
    simpl. eexists. split; [reflexivity|]. rewrite Hx, Hr. reflexivity.
Qed.

Lemma apply_lc_ok f s p :
  (forall m c v, In (m, c) (pnorm p) -> In v m -> exists x, image f v = Ok x /\ peq x (s v)) ->
  exists r, apply_lc f p = Ok r /\ peq r (psubst s p).
Proof.
  intros H. destruct (tapply_ok f s (pnorm p) H) as (r & E & Hr).
  exists r. split; auto. rewrite Hr, pnorm_peq. reflexivity.
Qed.

Lemma apply_lc_peq f p r : peq p r -> apply_lc f p = apply_lc f r.
Proof. intros H. unfold apply_lc. rewrite (peq_pnorm _ _ H). reflexivity. Qed.
