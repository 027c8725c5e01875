(** Giambelli polynomials of a space from those of a larger one: the special classes that do not fit are put to 0. *)

From Coq Require Import ZArith List Lia Bool Permutation QArith Qcanon Setoid Morphisms.
From Verif Require Import Py OrderFacts PyFacts ModelPart ModelQcalc ModelPoly ModelStr ModelGr Spec
  PolyFacts SuppFacts OpTheory WSum Sys Sys2 DetFacts GiamDet PresIdeal2 DualSys Depth Restrict Conv SpecQG SpecRows.
Import ListNotations.
Open Scope Z_scope.

(** the polynomial that the recursion computes *)
Section G.
Context {t : gtype} {pi : Z -> list Z -> res poly} {V : list Z -> Prop} {I : Z -> Prop} {k : Z} {mu : list Z -> nat} {fuel : nat}.
Hypothesis H : pieri_sys t pi V I k mu fuel.
Definition Gl (l : list Z) : poly := match giambelli_rec_inner fuel pi k l with Ok E => E | _ => pzero end.
Lemma gl_f f l : V l -> (mu l < f)%nat -> exists E, giambelli_rec_inner f pi k l = Ok E.
Proof.
  destruct H as [h1 h2 h3 h4 h5 h6 h7 h8 h9]. intros Hl Hf. destruct (giam_ok _ _ _ _ (eq VQ) eqVQ_isqv h1 h2 h3 h4 h5 k _ h6 h7 h8 f l Hl Hf) as (E & HE & _). eauto.
Qed.
Lemma gl_ok l : V l -> giambelli_rec_inner fuel pi k l = Ok (Gl l).
Proof. intros Hl. destruct (gl_f fuel l Hl (ps_fuel _ _ _ _ _ _ _ H l Hl)) as (E & HE). unfold Gl. rewrite HE. reflexivity. Qed.
Lemma gl_less f l E : V l -> (f <= fuel)%nat -> giambelli_rec_inner f pi k l = Ok E -> E = Gl l.
Proof. intros Hl Hf HE. pose proof (giam_mono pi k f fuel l E Hf HE) as A. rewrite (gl_ok l Hl) in A. congruence. Qed.
Lemma gl_nil : peq (Gl []) pone.
Proof. pose proof (ps_fuel _ _ _ _ _ _ _ H [] (ps_nil _ _ _ _ _ _ _ H)) as Hf. unfold Gl. destruct fuel as [|f]; [lia|]. reflexivity. Qed.
Lemma gl_rec l p l0 : V l -> l <> [] -> gsel k l = Ok (p, l0) -> I p -> V l0 /\ peq (psubst (dv Gl) (P pi p l0)) (pmul (pvar (sv p)) (Gl l0)).
Proof.
  intros Hl Hne Es0 _. destruct (ps_rec _ _ _ _ _ _ _ H l Hl Hne) as (p' & l0' & Es & Hp & [Hl0 Hmu] & Hst). rewrite Es0 in Es. injection Es as <- <-. split; auto.
  pose proof (ps_fuel _ _ _ _ _ _ _ H l Hl) as Hfu. destruct fuel as [|f] eqn:Ef; [lia|]. rewrite <- Ef in *. assert (HE : giambelli_rec_inner (S f) pi k l = Ok (Gl l)) by (rewrite <- Ef; apply gl_ok; auto).
  rewrite gri_unfold in HE by auto. rewrite Es0 in HE. simpl in HE.
  rewrite (ps_ok _ _ _ _ _ _ _ H) in HE; auto. simpl in HE. unfold symbol at 1 in HE. rewrite (ps_nonneg _ _ _ _ _ _ _ H) in HE; auto. simpl in HE.
  destruct (gl_f f l0 Hl0 ltac:(lia)) as (a & Ea). pose proof (gl_less f l0 a Hl0 ltac:(lia) Ea) as Ha. rewrite Ea in HE. simpl in HE.
  change (pvar (VS (SP l))) with (pS l) in HE. set (stuff := psub (P pi p l0) (pS l)) in *.
  destruct (apply_lc_ok (on_part (giambelli_rec_inner f pi k)) (dv Gl) stuff) as (b & Eb & Hb).
  { intros m c v Hin Hv. apply supp_rawnorm in Hst. specialize (Hst _ _ Hin). destruct Hst as (x & qm & [Hx1 Hx2] & HP & HQ).
    apply (Permutation_in _ HP) in Hv. destruct Hv as [<-|Hv].
    - destruct (gl_f f x Hx1 ltac:(lia)) as (E & E1). exists E. split; auto. rewrite (gl_less f x E Hx1 ltac:(lia) E1). reflexivity.
    - rewrite Forall_forall in HQ. apply HQ in Hv. subst v. exists (pvar VQ). split; reflexivity. }
  rewrite Eb in HE. simpl in HE. unfold symbol in HE. rewrite (ps_specnonneg _ _ _ _ _ _ _ H) in HE; auto. simpl in HE. injection HE as HE.
  assert (HG : peq (Gl l) (psub (pmul (pvar (sv p)) (Gl l0)) (psubst (dv Gl) stuff))).
  { rewrite <- HE. change (pvar (VS (SP (num2spec p)))) with (pvar (sv p)). rewrite <- Ha, Hb. ring. }
  assert (HS : peq (psubst (dv Gl) stuff) (psub (psubst (dv Gl) (P pi p l0)) (Gl l))).
  { unfold stuff. rewrite psubst_psub. unfold pS. rewrite psubst_pvar. reflexivity. }
  rewrite HS in HG. assert (A : peq (psub (psubst (dv Gl) (P pi p l0)) (pmul (pvar (sv p)) (Gl l0))) pzero).
  { set (X := psubst (dv Gl) (P pi p l0)) in *. set (Y := pmul (pvar (sv p)) (Gl l0)) in *. set (W := Gl l) in *. transitivity (psub W (psub Y (psub X W))); [ring|]. rewrite <- HG. ring. }
  transitivity (padd (psub (psubst (dv Gl) (P pi p l0)) (pmul (pvar (sv p)) (Gl l0))) (pmul (pvar (sv p)) (Gl l0))); [ring|]. rewrite A. ring.
Qed.
Lemma gl_fix s l : V l -> peq (s VQ) (pvar VQ) -> (forall i, I i -> peq (s (sv i)) (pvar (sv i))) -> peq (psubst s (Gl l)) (Gl l).
Proof.
  intros Hl Hq Hs. assert (HG : spoly I (eq VQ) (Gl l)).
  { pose proof (gl_ok l Hl) as E. pose proof (ps_fuel _ _ _ _ _ _ _ H l Hl) as Hf. destruct H as [h1 h2 h3 h4 h5 h6 h7 h8 h9]. destruct (giam_ok _ _ _ _ (eq VQ) eqVQ_isqv h1 h2 h3 h4 h5 k _ h6 h7 h8 fuel l Hl Hf) as (E' & HE & HS & _). rewrite E in HE. injection HE as <-. exact HS. }
  apply supp_rawnorm in HG. transitivity (psubst s (pnorm (Gl l))); [apply psubst_proper; symmetry; apply pnorm_peq|].
  transitivity (psubst pvar (pnorm (Gl l))); [|rewrite psubst_pvar_id; apply pnorm_peq].
  apply psubst_ext. intros m c v Hin Hv. specialize (HG m c Hin). rewrite Forall_forall in HG. destruct (HG v Hv) as [<-|(i & Hi & ->)]; auto.
Qed.
End G.
Arguments Gl pi k fuel l : clear implicits.

Section R.
Context {tb ts : gtype} {pib pis : Z -> list Z -> res poly} {Vb Vs : list Z -> Prop} {Ib Is : Z -> Prop}
  {k : Z} {mub mus : list Z -> nat} {fb fs : nat}.
Hypothesis SB : pieri_sys tb pib Vb Ib k mub fb.
Hypothesis SS : pieri_sys ts pis Vs Is k mus fs.
Variable fits : list Z -> bool.
Variable Top : list Z -> Prop.
Notation rho := (psubst (dv (rD fits))).
(** the substitution *)
Variable s : var -> poly.
Hypothesis s_q : peq (s VQ) (pvar VQ).
Hypothesis s_in : forall p, Is p -> peq (s (sv p)) (pvar (sv p)).
Hypothesis HV : forall l, Vs l -> Vb l.
Hypothesis HI : forall i, Is i -> Ib i.
Hypothesis Hfit : forall l, Vs l -> fits l = true.
Hypothesis Htop : forall l, Top l -> Vb l /\ fits l = false /\ exists p r, l <> [] /\ gsel k l = Ok (p, r) /\ Ib p /\ peq (s (sv p)) pzero /\ peq (P pib p r) (pS l).
Hypothesis Hin : forall l p r, Vs l -> l <> [] -> gsel k l = Ok (p, r) -> Is p -> Vs r -> peq (rho (P pib p r)) (P pis p r) /\ supp (linm (fun x => Vs x \/ Top x) (eq VQ)) (P pib p r).
Notation Gb := (Gl pib k fb).
Definition Ds (l : list Z) : poly := psubst s (Gb l).
Lemma top_zero l : Top l -> peq (Ds l) pzero.
Proof.
  intros Hl. destruct (Htop l Hl) as (A & _ & p & r & Hne & Es & Ip & Ez & Ep). destruct (gl_rec SB l p r A Hne Es Ip) as [_ E]. unfold Ds.
  assert (EG : peq (Gb l) (pmul (pvar (sv p)) (Gb r))).
  { rewrite <- E. rewrite (psubst_proper _ _ _ Ep). unfold pS. rewrite psubst_pvar. reflexivity. }
  rewrite (psubst_proper _ _ _ EG), psubst_pmul, psubst_pvar, Ez. ring.
Qed.
Lemma Ds_lin c : supp (linm (fun x => Vs x \/ Top x) (eq VQ)) c -> peq (psubst (dv Ds) (rho c)) (psubst s (psubst (dv Gb) c)).
Proof.
  revert c. apply (lin_ind (fun x => Vs x \/ Top x) (eq VQ)).
  - intros p r E HH. rewrite <- (psubst_proper _ _ _ (psubst_proper _ _ _ E)), HH. apply psubst_proper, psubst_proper; exact E.
  - reflexivity.
  - intros qm l a c Hl Hq Hc IH. rewrite !psubst_padd, !psubst_pscale, !psubst_pmul, IH. apply padd_proper; [|reflexivity]. apply pscale_proper. apply pmul_proper.
    + rewrite (psubst_proper _ _ _ (psubst_pmono _ _)), !psubst_pmono. rewrite (psubst_proper (dv Ds) _ (pmono qm)) by (rewrite (dv_q (rD fits) qm Hq); reflexivity).
      rewrite psubst_pmono, (dv_q Ds qm Hq). rewrite (psubst_proper s _ (pmono qm)) by (rewrite (dv_q Gb qm Hq); reflexivity). rewrite psubst_pmono.
      clear -Hq s_q. induction Hq as [|v qm <- Hq IH]; [reflexivity|]. change (pmono (VQ :: qm)) with (pmono ([VQ] ++ qm)). rewrite pmono_app, IH. change (msubst s (VQ :: qm)) with (pmul (s VQ) (msubst s qm)). apply pmul_proper; [symmetry; exact s_q|reflexivity].
    + unfold pS. rewrite (psubst_proper _ _ _ (psubst_pvar _ _)), (psubst_proper s _ _ (psubst_pvar _ _)). change (dv (rD fits) (vS l)) with (rD fits l). change (dv Gb (vS l)) with (Gb l). unfold rD. destruct Hl as [Hl|Hl].
      * rewrite (Hfit l Hl). unfold pS. rewrite psubst_pvar. reflexivity.
      * destruct (Htop l Hl) as (_ & F & _). rewrite F. change (psubst (dv Ds) pzero) with pzero. symmetry. apply (top_zero l Hl).
Qed.
Lemma gs_main l : Vs l -> peq (Gl pis k fs l) (psubst s (Gb l)).
Proof.
  intros Hl. destruct (giam_unique SS Ds) with (l := l) as (E & HE & PE); auto.
  - unfold Ds. rewrite (psubst_proper _ _ _ (gl_nil SB)). unfold pone. reflexivity.
  - intros x p r Hx Hne Es Ip Hr. destruct (Hin x p r Hx Hne Es Ip Hr) as [E1 E2]. destruct (gl_rec SB x p r (HV x Hx) Hne Es (HI p Ip)) as [_ E3].
    rewrite <- (psubst_proper _ _ _ E1), (Ds_lin _ E2), (psubst_proper _ _ _ E3), psubst_pmul, psubst_pvar, (s_in p Ip). reflexivity.
  - rewrite (gl_ok SS l Hl) in HE. injection HE as ->. exact PE.
Qed.
End R.

(** several steps *)
Lemma chain (F : nat -> list Z -> poly) c (V : list Z -> Prop) :
  (forall l, V l -> peq (psubst (rows_above c) (F O l)) (F O l)) ->
  (forall j l, V l -> peq (F j l) (psubst (row_becomes (c + Z.of_nat j + 1) pzero) (F (S j) l))) ->
  forall j l, V l -> peq (F O l) (psubst (rows_above c) (F j l)).
Proof.
  intros H0 H1 j. induction j as [|j IH]; intros l Hl; [symmetry; apply H0; exact Hl|].
  rewrite (IH l Hl), (psubst_proper _ _ _ (H1 j l Hl)), psubst_comp. apply psubst_ext. intros m a v _ _.
  destruct v as [[x|u w]| | |]; try (cbn [row_becomes]; rewrite psubst_pvar; reflexivity).
  destruct x as [|x [|y x']]; try (cbn [row_becomes]; rewrite psubst_pvar; reflexivity).
  unfold row_becomes. destruct (Z.eqb_spec x (c + Z.of_nat j + 1)) as [->|]; [|rewrite psubst_pvar; reflexivity].
  unfold rows_above. destruct (Z.ltb_spec c (c + Z.of_nat j + 1)); [reflexivity|lia].
Qed.
Lemma above_other c i : i <= c -> peq (rows_above c (sv i)) (pvar (sv i)).
Proof. intros Hi. unfold sv, num2spec. destruct (0 <? i); [|reflexivity]. unfold rows_above, vS. destruct (Z.ltb_spec c i); [lia|reflexivity]. Qed.
