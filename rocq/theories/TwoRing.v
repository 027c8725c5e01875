(** OG(n,2n+2), 1 <= n <= 7, with its two quantum parameters as an instance of
    OpTheory.v. *)

From Coq Require Import ZArith List Lia Bool Permutation QArith Qcanon Setoid Morphisms.
From Verif Require Import Py OrderFacts PyFacts ModelPart ModelQcalc ModelPoly ModelStr ModelGr Spec SpecRing SpecPieri SpecAct
  PolyFacts SuppFacts Enum FillFacts PartFacts ConjFacts PairFacts CompsFacts CompsBound PieriA QPieriA WSum PieriCoef PieriD QPieriD QPieriD1
  OpTheory Sys Sys2 SysRing Word Transfer Extract CoefSys CommC RecBCD RingC CommB RingB ApiPieriQ WordD CoefD CommD CommD2 RingD RingD0 ApiRingD GiamSame TwoComm ActLaws.
Import ListNotations.
Open Scope Z_scope.

Section T.
Variable n : Z.
Hypothesis Hn : 1 <= n <= 7.
Notation V := (typed_in 1 n (n + 1)).
Notation mu := (muM (n + 1)).
Notation pi := (qpieri_fun (gD 1 n)).
Notation II := (ID 1 n).
Notation fuel := (giam_fuel (gD 1 n)).

Lemma okT : okD false 1 n.
Proof. split; [lia|discriminate]. Qed.
Lemma VT : typed_in 1 (n + 1 - 1) (n + 1) = V.
Proof. replace (n + 1 - 1) with n by lia. reflexivity. Qed.
Lemma T_coefs p lam : V lam -> exists r c, pi p lam = Ok r /\ expands12 r c /\ quantum_D1 n p lam c.
Proof. intros H. apply (qpieriD1_coefs n p lam); auto. Qed.
Lemma q12_isqv d1 d2 : Forall isqv (repeat VQ1 d1 ++ repeat VQ2 d2).
Proof. apply Forall_app. split; apply Forall_forall; intros v Hv; apply repeat_spec in Hv; subst; exact I. Qed.
Lemma T_ok i l : II i -> V l -> pi i l = Ok (P pi i l).
Proof. intros _ Hl. destruct (T_coefs i l Hl) as (r & c & E & _). unfold P. rewrite E. reflexivity. Qed.
Lemma T_lin i l : II i -> V l -> lin V isqv (P pi i l).
Proof.
  intros _ Hl. destruct (T_coefs i l Hl) as (r & c & E & (X1 & X2) & HW). unfold P. rewrite E. intros m Hm.
  destruct (X2 m Hm) as (d1 & d2 & x & HP). rewrite (coef_perm _ _ _ HP), X1 in Hm. destruct HW as (_ & _ & _ & _ & H4).
  exists x, (repeat VQ1 d1 ++ repeat VQ2 d2). split; [apply (H4 d1 d2 x Hm)|]. split; [exact HP|apply q12_isqv].
Qed.
Lemma T_spec i : II i -> spec2num TD (sv i) = Ok i.
Proof. apply (ps_spec _ _ _ _ _ _ _ (sysD 1 n false okT)). Qed.
Lemma T_nil : V [].
Proof. rewrite <- VT. apply (ps_nil _ _ _ _ _ _ _ (sysD 1 n false okT)). Qed.
Lemma T_nonneg l : V l -> schur_nonneg (SP l) = true.
Proof. rewrite <- VT. apply (ps_nonneg _ _ _ _ _ _ _ (sysD 1 n false okT)). Qed.
Lemma T_specnonneg i : II i -> schur_nonneg (SP (num2spec i)) = true.
Proof. apply (ps_specnonneg _ _ _ _ _ _ _ (sysD 1 n false okT)). Qed.
Lemma T_fuel l : V l -> (mu l < fuel)%nat.
Proof. rewrite <- VT. apply (ps_fuel _ _ _ _ _ _ _ (sysD 1 n false okT)). Qed.
Lemma T_special i : II i -> V (num2spec i).
Proof. rewrite <- VT. apply (num2spec_D 1 n false okT). Qed.

Lemma T_rec l : V l -> l <> [] ->
  exists p l0, gsel 1 l = Ok (p, l0) /\ II p /\ below V mu l l0 /\
    supp (linm (below V mu l) isqv) (psub (P pi p l0) (pS l)).
Proof.
  intros Hl Hne. pose proof Hl as Hl'. rewrite <- VT in Hl'.
  destruct (gselD 1 n false okT l Hl' Hne) as (p & l0 & Eg & Hp & Hl0' & Hh). exists p, l0. split; auto. split; auto.
  pose proof Hl0' as Hl0. rewrite VT in Hl0.
  destruct (typed_range 1 n l Hl') as (L1 & L2). destruct (typed_range 1 n l0 Hl0') as (T1 & T2).
  assert (Hap : 1 <= Z.abs p <= n + 1) by (destruct Hp as [H|H]; lia).
  assert (Es : size l = size l0 + Z.abs p).
  { destruct Hh as (Es & _). rewrite <- (size_shape _ _ _ _ Hl), <- (size_shape _ _ _ _ Hl0), Es. change (size (Z.abs p :: shape l0)) with (Z.abs p + size (shape l0)). lia. }
  split; [split; auto; apply muM_size; auto; lia|].
  destruct (T_coefs p l0 Hl0) as (r & c & E & (X1 & X2) & HW). unfold P. rewrite E.
  assert (HH := fun nu => coef_D_head 1 n false okT l p l0 nu _ Hl' Hl0' Hh (proj1 HW nu)).
  assert (H1l : c 0%nat 0%nat l = 1%Qc) by (apply HH; reflexivity).
  intros m Hm. rewrite coef_psub, coef_pS in Hm.
  assert (Hpm : coef r m <> 0%Qc /\ m <> [vS l]).
  { split; intros E0.
    - rewrite E0 in Hm. apply Hm. unfold wval. destruct m as [|[[a|a b]| | |] [|v m]]; try reflexivity.
      destruct (l_dec l a) as [->|]; [|reflexivity]. exfalso. specialize (X1 0%nat 0%nat a). change (q12S 0 0 a) with [VS (SP a)] in X1. rewrite E0, H1l in X1. discriminate.
    - subst m. apply Hm. specialize (X1 0%nat 0%nat l). change (q12S 0 0 l) with [vS l] in X1. rewrite X1, H1l. unfold wval, vS. destruct (l_dec l l); [ring|congruence]. }
  destruct Hpm as [Hpm Hne']. destruct (X2 m Hpm) as (d1 & d2 & nu & HP).
  rewrite (coef_perm _ _ _ HP), X1 in Hpm. exists nu, (repeat VQ1 d1 ++ repeat VQ2 d2). split; [|split; [exact HP|apply q12_isqv]].
  assert (Hnu : V nu) by (destruct HW as (_ & _ & _ & _ & H4); apply (H4 d1 d2 nu Hpm)).
  split; auto. assert (Hnu' := Hnu). rewrite <- VT in Hnu'. destruct (typed_range 1 n nu Hnu') as (N1 & N2).
  destruct (quantum_D1_good n p l0 c d1 d2 nu ltac:(lia) Hl0 HW Hpm) as (_ & Hs).
  destruct (Nat.eq_dec (d1 + d2) 0) as [Hd|Hd].
  - destruct d1; [|lia]. destruct d2; [|lia]. destruct (HH nu) as (_ & G0).
    destruct (G0 Hpm) as (_ & G1 & G2); [intros ->; apply Hne'; apply perm_vS; exact HP|]. apply muM_head; auto.
  - apply muM_size; auto. nia.
Qed.

Lemma isqv_id v : isqv v -> isqv v. Proof. auto. Qed.
Ltac full lem := first [eapply (lem TD pi V II isqv isqv_id I) | eapply (lem TD pi V II isqv isqv_id) | eapply (lem TD pi V II isqv)]; eauto using T_ok, T_lin, T_nil, T_spec, T_nonneg, T_specnonneg, T_rec, T_fuel; try (intros; apply comm_D1; auto; fail).
Notation L := (supp (linm V isqv)).
Notation vp := (supp (polymQ V isqv)).
Notation MM := (M TD pi 1 fuel).
Notation GG := (psubst (G pi 1 fuel)).
Notation mul := (prod TD pi 1 fuel).

Lemma t_gives a b : vp a -> L b -> gives isqv (GG a) (mul a b) (MM a b).
Proof. intros. full prod_gives. Qed.
Lemma t_lin a b : vp a -> L b -> L (MM a b).
Proof. intros. full M_lin. Qed.
Lemma t_vp a : L a -> vp a.
Proof. intros. apply (lin_vpoly V isqv); auto. Qed.
Lemma t_one a : L a -> peq (MM a (pS [])) a.
Proof. intros. full M_one. Qed.
Lemma t_comm a b : L a -> L b -> peq (MM a b) (MM b a).
Proof. intros. full M_comm. Qed.
Lemma t_swap a b c : vp a -> vp b -> L c -> peq (MM a (MM b c)) (MM b (MM a c)).
Proof. intros. full M_swap. Qed.
Lemma t_assoc a b c : L a -> L b -> L c -> peq (MM (MM a b) c) (MM a (MM b c)).
Proof. intros. full M_assoc. apply t_lin; auto using t_vp. Qed.
Lemma t_spoly a : vp a -> spoly II isqv (GG a).
Proof. intros. full Ga_spoly. Qed.
Lemma t_giam a : vp a -> exists E, giam pi 1 fuel a = Ok E /\ peq E (GG a) /\ spoly II isqv E.
Proof. intros. full giam_lc_ok. Qed.
Lemma t_L_one : L (pS []).
Proof. apply (lin_one V isqv). apply T_nil. Qed.
Lemma t_val a b r : L a -> L b -> mul a b = Ok r -> peq r (MM a b) /\ (forall v, isqv v -> mentions v (GG a) -> v = VQ).
Proof. intros Ha Hb E. pose proof (t_gives a b (t_vp a Ha) Hb) as G0. rewrite E in G0. exact G0. Qed.
Lemma t_def a b : L a -> L b -> (forall v, isqv v -> mentions v (GG a) -> v = VQ) -> exists r, mul a b = Ok r /\ peq r (MM a b).
Proof. intros Ha Hb E. eapply gives_ok; [exact E|]. apply t_gives; auto using t_vp. Qed.
Lemma t_add_l a b c : vp a -> vp b -> L c -> peq (MM (padd a b) c) (padd (MM a c) (MM b c)).
Proof.
  intros Ha Hb Hc. unfold M. rewrite (OpN_peq TD pi _ (padd (GG a) (GG b)) c c); [|apply psubst_padd|reflexivity].
  apply t_spoly in Ha, Hb. full OpN_padd.
Qed.
Lemma t_Op_var v p : isqv v -> L p -> peq (OpN TD pi (pvar v) p) (pmul (pvar v) p).
Proof.
  intros Hv Hp. change (pvar v) with (pmono [v]). assert (Hs : Forall (isspec II isqv) [v]) by (constructor; [left; exact Hv|constructor]).
  assert (X : peq (OpN TD pi (pmono [v]) p) (opm TD pi [v] p)) by full OpN_pmono.
  rewrite X. apply (opm_q TD pi isqv isqv_id). constructor; [exact Hv|constructor].
Qed.
Lemma t_var v a b : isqv v -> vp a -> L b -> peq (MM a (pmul (pvar v) b)) (pmul (pvar v) (MM a b)).
Proof.
  intros Hv Ha Hb. assert (Hs := t_spoly a Ha). assert (Hsv : spoly II isqv (pvar v)) by (apply spoly_pmono; constructor; [left; exact Hv|constructor]).
  assert (K : forall E F, spoly II isqv E -> spoly II isqv F -> peq (OpN TD pi (pmul E F) b) (OpN TD pi E (OpN TD pi F b))) by (intros; full OpN_pmul).
  assert (Hl : L (MM a b)) by (apply t_lin; auto).
  rewrite <- (t_Op_var v (MM a b)) by auto. unfold M at 2. rewrite <- K by auto.
  rewrite (OpN_peq TD pi _ (pmul (GG a) (pvar v)) b b); [|apply pmul_comm|reflexivity].
  rewrite K by auto. unfold M. apply OpN_peq; [reflexivity|]. symmetry. apply t_Op_var; auto.
Qed.
End T.

Lemma no12_iff e : no_q1_q2 e <-> (forall v, isqv v -> mentions v e -> v = VQ).
Proof.
  split.
  - intros H v Hv (m & Hm & Hin). destruct (H m Hm). destruct v; simpl in Hv; try contradiction; auto.
  - intros H m Hm. split; intros Hin; [assert (VQ1 = VQ) by (apply H; [exact I|exists m; auto])|assert (VQ2 = VQ) by (apply H; [exact I|exists m; auto])]; discriminate.
Qed.
Lemma mentions_padd v a b : mentions v (padd a b) -> mentions v a \/ mentions v b.
Proof.
  intros (m & Hm & Hin). destruct (Qc_eq_dec (coef a m) 0) as [E|E]; [|left; exists m; auto].
  right. exists m. split; auto. intros E'. apply Hm. rewrite coef_padd, E, E'. ring.
Qed.

Section Sp.
Variable n : Z.
Hypothesis Hn : 1 <= n <= 7.
Notation V := (typed_in 1 n (n + 1)).
Notation pi := (qpieri_fun (gD 1 n)).
Notation II := (ID 1 n).
Notation fuel := (giam_fuel (gD 1 n)).

Lemma special_T i : II i -> peq (pS (num2spec i)) (P pi i []).
Proof.
  intros Hi. assert (Hok := okT n Hn). rewrite (specialD 1 n false Hok i Hi).
  destruct (T_coefs n Hn i [] (T_nil n Hn)) as (r & c & E & (X1 & X2) & H0 & H1 & H2 & H3 & H4).
  destruct (piD_coefs 1 n false Hok i []) as (r' & W' & E' & (Y1 & Y2) & H0' & H1'); [rewrite VT; apply T_nil; auto|].
  cbv zeta in H1, H2. change (Z.of_nat (length (shape []))) with 0 in H1, H2. replace (0 =? n) with false in H1, H2 by lia. cbn [andb] in H1, H2.
  change (part [] 0) with 0 in H3. replace (0 =? n + 1) with false in H3 by lia.
  unfold P. rewrite E, E'.
  assert (HC : forall nu, coef r [vS nu] = coef r' [vS nu]).
  { intros nu. pose proof (X1 0%nat 0%nat nu) as A. pose proof (Y1 0%nat nu) as B. change (q12S 0 0 nu) with [vS nu] in A. change (qS 0 nu) with [vS nu] in B.
    rewrite A, B. apply (coef_D_unique _ _ _ _ _ _ _ (H0 nu) (H0' nu)). }
  intros m. destruct (Qc_eq_dec (coef r m) 0) as [Z1|Z1].
  - destruct (Qc_eq_dec (coef r' m) 0) as [Z2|Z2]; [congruence|]. exfalso. destruct (Y2 m Z2) as (d & nu & HP).
    rewrite (coef_perm _ _ _ HP) in Z1. assert (Z3 := Z2). rewrite (coef_perm _ _ _ HP), Y1 in Z3.
    destruct d; [|apply Z3, H1'; lia]. apply Z2. rewrite (coef_perm _ _ _ HP). change (qS 0 nu) with [vS nu] in *. rewrite <- HC. exact Z1.
  - destruct (X2 m Z1) as (d1 & d2 & nu & HP). rewrite !(coef_perm _ _ _ HP). rewrite (coef_perm _ _ _ HP), X1 in Z1.
    destruct (H4 _ _ _ Z1) as (D1 & D2 & Hnu).
    destruct d1 as [|[|d1]]; [| |lia]; (destruct d2 as [|[|d2]]; [| |lia]).
    + symmetry. apply HC.
    + exfalso. apply Z1, H2, Hnu.
    + exfalso. apply Z1, H1, Hnu.
    + exfalso. apply Z1, H3.
Qed.
Lemma gsel_special i : II i -> gsel 1 (num2spec i) = Ok (i, []).
Proof.
  intros Hi. unfold num2spec. destruct (Z.ltb_spec 0 i) as [L|L].
  - unfold gsel. change (last [i] 1) with i. replace (i =? 0) with false by lia. rewrite andb_false_r. reflexivity.
  - destruct Hi as [Hi| ->]; [lia|]. reflexivity.
Qed.
Lemma G_special i : II i -> peq (G pi 1 fuel (vS (num2spec i))) (pvar (sv i)).
Proof.
  intros Hi. assert (Hf := T_fuel n Hn (num2spec i) (T_special n Hn i Hi)).
  destruct fuel as [|f] eqn:Ef; [lia|]. unfold G, vS.
  rewrite gri_unfold by (unfold num2spec; destruct (0 <? i); discriminate).
  rewrite gsel_special by auto. cbn [bind]. rewrite T_ok by (auto using T_nil). cbn [bind].
  rewrite (symbol_ok V (T_nonneg n Hn)) by (apply T_special; auto). cbn [bind].
  assert (f <> O).
  { intros ->. unfold giam_fuel in Ef. cbn [g_n g_k gD] in Ef. nia. }
  assert (Ea : giambelli_rec_inner f pi 1 [] = Ok pone) by (destruct f; [congruence|reflexivity]). rewrite Ea. cbn [bind].
  assert (E0 : peq (psub (P pi i []) (pS (num2spec i))) pzero) by (rewrite (special_T i Hi); ring).
  destruct (apply_lc_ok (on_part (giambelli_rec_inner f pi 1)) (fun _ => pzero) (psub (P pi i []) (pS (num2spec i)))) as (b & Eb & Pb).
  { intros m c v Hin _. exfalso. assert (Hc := nf_coef_in _ m c (pnorm_nf _) Hin). rewrite coef_pnorm, (E0 m) in Hc.
    destruct (pnorm_nf (psub (P pi i []) (pS (num2spec i)))) as [_ HF]. rewrite Forall_forall in HF. apply (HF _ Hin). rewrite <- Hc. reflexivity. }
  rewrite Eb. cbn [bind]. assert (Ey : symbol (SP (num2spec i)) = Ok (pS (num2spec i))) by (unfold symbol; rewrite (T_specnonneg n Hn i Hi); reflexivity). try rewrite Ey. cbn [bind].
  rewrite Pb, E0. change (psubst (fun _ => pzero) pzero) with pzero. fold (vS (num2spec i)). unfold sv. change (pvar (vS (num2spec i))) with (pS (num2spec i)). ring.
Qed.

Notation L := (supp (linm V isqv)).
Notation mul := (prod TD pi 1 fuel).
Lemma GG_special i : II i -> peq (psubst (G pi 1 fuel) (pS (num2spec i))) (pvar (sv i)).
Proof. intros Hi. unfold pS. rewrite psubst_pvar. apply G_special; auto. Qed.
Lemma not_mentions_pvar x v : isqv v -> mentions v (pvar (vS x)) -> v = VQ.
Proof. intros Hv (m & Hm & Hin). apply coef_pvar_neq0 in Hm. subst m. destruct Hin as [<-|[]]. destruct Hv. Qed.
Lemma GG_special_q i v : II i -> isqv v -> mentions v (psubst (G pi 1 fuel) (pS (num2spec i))) -> v = VQ.
Proof. intros Hi Hv Hm. apply (mentions_peq v _ _ (GG_special i Hi)) in Hm. eapply not_mentions_pvar; eauto. Qed.
Lemma t_special i c : II i -> L c -> exists r r', mul (pS (num2spec i)) c = Ok r /\ apply_lc (on_part (pi i)) c = Ok r' /\ peq r r'.
Proof.
  intros Hi Hc. assert (Hs : L (pS (num2spec i))) by (apply (lin_pS V isqv), T_special; auto).
  destruct (t_def n Hn _ c Hs Hc) as (r & Er & Pr); [intros v; apply GG_special_q; auto|].
  destruct (apply_pi pi V II isqv isqv_id (T_ok n Hn) i c Hi Hc) as (r' & Er' & Pr'). exists r, r'. split; auto. split; auto.
  rewrite Pr, Pr'. unfold M. rewrite (OpN_peq TD pi _ (pvar (sv i)) c c); [|apply GG_special; auto|reflexivity].
  eapply (OpN_sv TD pi V II isqv); eauto using T_lin, T_spec; intros; apply comm_D1; auto.
Qed.
Lemma GG_nil : peq (psubst (G pi 1 fuel) (pS [])) pone.
Proof.
  unfold pS. rewrite psubst_pvar. unfold G, vS. assert (Hf := T_fuel n Hn [] (T_nil n Hn)). destruct fuel as [|f]; [lia|]. reflexivity.
Qed.
Lemma GG_nil_q v : isqv v -> mentions v (psubst (G pi 1 fuel) (pS [])) -> v = VQ.
Proof.
  intros Hv Hm. apply (mentions_peq v _ _ GG_nil) in Hm. destruct Hm as (m & Hm & Hin). exfalso.
  destruct m as [|w m]; [destruct Hin|]. pose proof (spoly_pone (fun _ => False) (fun _ => False) _ Hm) as F. inversion F as [|? ? [K|(? & [] & _)] ?]. exact K.
Qed.
(** the Giambelli polynomials of classes contain neither q1 nor q2 *)
Lemma G_free l : V l -> spoly II (eq VQ) (G pi 1 fuel (vS l)).
Proof.
  intros Hl. assert (Hl' := Hl). rewrite <- VT in Hl'. pose proof (sysD 1 n false (okT n Hn)) as S0. cbn [piD] in S0.
  assert (E : giambelli_rec_inner fuel pi 1 l = giambelli_rec_inner fuel (pieri_fun (gD 1 n)) 1 l).
  { apply (giam_same_class S0); auto; [|apply (ps_fuel _ _ _ _ _ _ _ S0); auto]. intros x p x0 Hx Hne Es. apply (step_D 1 n x p x0); auto. lia. }
  destruct (sys_giam S0 l Hl') as (e & Ee & He & _). unfold G, vS. rewrite E, Ee. exact He.
Qed.
Definition has12 (m : mono) : Prop := In VQ1 m \/ In VQ2 m.
Lemma has12_inv : minv has12.
Proof. intros a b HP [H|H]; [left|right]; eapply Permutation_in; eauto. Qed.
Lemma free_iff a : L a -> no_q1_q2 (psubst (G pi 1 fuel) a) <-> no_q1_q2 a.
Proof.
  intros Ha.
  assert (HF : forall b, supp (linm V (eq VQ)) b -> no_q1_q2 (psubst (G pi 1 fuel) b)).
  { intros b Hb. assert (Hs : spoly II (eq VQ) (psubst (G pi 1 fuel) b)).
    { apply (giam_subst_spoly II (eq VQ) V); [intros l Hl; apply G_free; auto|intros v <-; reflexivity|].
      eapply supp_impl; [|exact Hb]. apply linm_polymQ. }
    apply no12_iff. intros v Hv (m & Hm & Hin). specialize (Hs m Hm). rewrite Forall_forall in Hs.
    destruct (Hs v Hin) as [<-|(i & _ & ->)]; auto. destruct Hv. }
  assert (HL : forall b, L b -> no_q1_q2 b -> supp (linm V (eq VQ)) b).
  { intros b Hb Hq m Hm. destruct (Hb m Hm) as (x & qm & Hx & HP & HQ). exists x, qm. split; auto. split; auto.
    destruct (Hq m Hm) as (Q1 & Q2). apply Forall_forall. intros v Hv. rewrite Forall_forall in HQ. specialize (HQ v Hv).
    assert (Hin : In v m) by (eapply Permutation_in; [apply Permutation_sym; exact HP|right; exact Hv]).
    destruct v; simpl in HQ; try contradiction; auto; contradiction. }
  split; intros Hq; [|apply HF, HL; auto].
  set (a0 := s0 VQ2 (s0 VQ1 a)).
  assert (C0 : forall m, coef a0 m = if has_var VQ2 m then 0%Qc else if has_var VQ1 m then 0%Qc else coef a m) by (intros m; unfold a0; rewrite !coef_s0; reflexivity).
  assert (Q0 : no_q1_q2 a0).
  { intros m Hm. rewrite C0 in Hm. destruct (has_var VQ2 m) eqn:E2; [congruence|]. destruct (has_var VQ1 m) eqn:E1; [congruence|].
    split; intros Hin; apply has_var_in in Hin; congruence. }
  assert (L0 : L a0).
  { intros m Hm. apply Ha. rewrite C0 in Hm. destruct (has_var VQ2 m); [congruence|]. destruct (has_var VQ1 m); congruence. }
  set (a1 := psub a a0).
  assert (L1 : L a1) by (apply supp_psub; auto).
  assert (W1 : supp has12 a1).
  { intros m Hm. unfold a1 in Hm. rewrite coef_psub, C0 in Hm. destruct (has_var VQ2 m) eqn:E2; [right; apply has_var_in; auto|].
    destruct (has_var VQ1 m) eqn:E1; [left; apply has_var_in; auto|]. exfalso. apply Hm. ring. }
  assert (W2 : supp has12 (psubst (G pi 1 fuel) a1)).
  { eapply supp_psubst; [apply has12_inv| |exact W1]. intros m Hm.
    assert (Hm' : exists v m', (v = VQ1 \/ v = VQ2) /\ Permutation m (v :: m')).
    { destruct Hm as [Hm|Hm]; apply remove_var_perm in Hm; eauto. }
    destruct Hm' as (v & m' & Hv & HP). apply (supp_peq _ (msubst (G pi 1 fuel) (v :: m'))); [symmetry; apply msubst_perm; auto|].
    cbn [msubst]. apply (supp_pmul has12 (fun _ => True) has12); [apply has12_inv| | |].
    - intros x y [Hx|Hx] _; [left|right]; apply in_or_app; auto.
    - destruct Hv as [->| ->]; apply supp_pvar; try apply has12_inv; [left|right]; left; auto.
    - intros ? ?. exact Logic.I. }
  assert (E : peq a (padd a0 a1)) by (unfold a1; ring).
  assert (Z1 : peq (psubst (G pi 1 fuel) a1) pzero).
  { intros m. change (coef pzero m) with 0%Qc. destruct (Qc_eq_dec (coef (psubst (G pi 1 fuel) a1) m) 0) as [|N1]; auto. exfalso.
    pose proof (W2 m N1) as Hm.
    assert (Hz : forall b, no_q1_q2 b -> coef b m = 0%Qc).
    { intros b Hb. destruct (Qc_eq_dec (coef b m) 0) as [|Nb]; auto. destruct (Hb m Nb) as (B1 & B2). destruct Hm; contradiction. }
    apply N1. pose proof (Hz _ Hq) as Z2. pose proof (Hz _ (HF a0 (HL a0 L0 Q0))) as Z0.
    assert (E3 : peq (psubst (G pi 1 fuel) a) (padd (psubst (G pi 1 fuel) a0) (psubst (G pi 1 fuel) a1))) by (rewrite E at 1; apply psubst_padd).
    rewrite (E3 m), coef_padd, Z0 in Z2. rewrite <- Z2. ring. }
  assert (E1 : peq a1 pzero).
  { rewrite <- (t_one n Hn a1 L1). unfold M. rewrite (OpN_peq TD pi _ pzero (pS []) (pS [])); [reflexivity|exact Z1|reflexivity]. }
  intros m Hm. apply Q0. rewrite (E m), coef_padd, (E1 m) in Hm. intros Hc. apply Hm. rewrite Hc. reflexivity.
Qed.
Lemma two_laws (X : list Z -> Prop) : (forall i, II i -> X (num2spec i)) ->
  partial_product_laws V X (giam pi 1 fuel) mul.
Proof.
  intros HX. assert (LQ : forall a, lin_comb_qs V a -> L a) by (intros a; apply lin_comb_qs_iff).
  assert (QL : forall a, L a -> lin_comb_qs V a) by (intros a; apply lin_comb_qs_iff).
  split.
  - intros a Ha. apply LQ in Ha. destruct (t_giam n Hn a (t_vp n a Ha)) as (e & Ee & _ & Hs). exists e. split; auto.
    intros m Hm v Hv. specialize (Hs m Hm). rewrite Forall_forall in Hs. destruct (Hs v Hv) as [H|(i & Hi & ->)].
    + destruct v; simpl in H; auto; contradiction.
    + right. right. right. exists (num2spec i). auto.
  - intros a b Ha Hb. apply LQ in Ha, Hb.
    assert (HM : (forall v, isqv v -> mentions v (psubst (G pi 1 fuel) a) -> v = VQ) <-> no_q1_q2 a) by (rewrite <- no12_iff; apply free_iff; auto).
    pose proof (t_gives n Hn a b (t_vp n a Ha) Hb) as G0. split; intros Hq.
    + pose proof (proj2 HM Hq) as Hq'. clear Hq. rename Hq' into Hq. destruct (gives_ok _ _ _ _ Hq G0) as (r & Er & Pr). exists r. split; auto. apply QL. eapply supp_peq; [symmetry; exact Pr|]. apply t_lin; auto using t_vp.
    + destruct (mul a b) as [r|x]; cbn in G0; [|destruct G0 as (-> & _); reflexivity]. exfalso. apply Hq. apply (proj1 HM). apply G0.
  - intros a b r r' Ha Hb E1 E2. apply LQ in Ha, Hb. destruct (t_val n Hn a b r Ha Hb E1) as (P1 & _), (t_val n Hn b a r' Hb Ha E2) as (P2 & _).
    rewrite P1, P2. apply t_comm; auto.
  - intros a b c ab bc r r' Ha Hb Hc E1 E2 E3 E4. apply LQ in Ha, Hb, Hc.
    destruct (t_val n Hn a b ab Ha Hb E1) as (P1 & _), (t_val n Hn b c bc Hb Hc E3) as (P3 & _).
    assert (Hab : L ab) by (eapply supp_peq; [symmetry; exact P1|]; apply t_lin; auto using t_vp).
    assert (Hbc : L bc) by (eapply supp_peq; [symmetry; exact P3|]; apply t_lin; auto using t_vp).
    destruct (t_val n Hn ab c r Hab Hc E2) as (P2 & _), (t_val n Hn a bc r' Ha Hbc E4) as (P4 & _).
    rewrite P2, P4. rewrite (M_peq TD pi 1 fuel ab (M TD pi 1 fuel a b) c c), (M_peq TD pi 1 fuel a a bc (M TD pi 1 fuel b c)); auto; try reflexivity. apply t_assoc; auto.
  - intros a b c bc ac r r' Ha Hb Hc E1 E2 E3 E4. apply LQ in Ha, Hb, Hc.
    destruct (t_val n Hn b c bc Hb Hc E1) as (P1 & _), (t_val n Hn a c ac Ha Hc E3) as (P3 & _).
    assert (Hbc : L bc) by (eapply supp_peq; [symmetry; exact P1|]; apply t_lin; auto using t_vp).
    assert (Hac : L ac) by (eapply supp_peq; [symmetry; exact P3|]; apply t_lin; auto using t_vp).
    destruct (t_val n Hn a bc r Ha Hbc E2) as (P2 & _), (t_val n Hn b ac r' Hb Hac E4) as (P4 & _).
    rewrite P2, P4. rewrite (M_peq TD pi 1 fuel a a bc (M TD pi 1 fuel b c)), (M_peq TD pi 1 fuel b b ac (M TD pi 1 fuel a c)); auto; try reflexivity. apply t_swap; auto using t_vp.
  - intros a Ha. apply LQ in Ha. destruct (t_def n Hn (pS []) a (t_L_one n Hn) Ha) as (r & Er & Pr); [apply GG_nil_q|]. exists r. split; auto.
    rewrite Pr, t_comm; auto using t_L_one. apply t_one; auto.
  - intros a r Ha E. apply LQ in Ha. destruct (t_val n Hn a (pS []) r Ha (t_L_one n Hn) E) as (Pr & _). rewrite Pr. apply t_one; auto.
  - intros a b c x y Ha Hb Hc E1 E2. apply LQ in Ha, Hb, Hc.
    destruct (t_val n Hn a c x Ha Hc E1) as (P1 & F1), (t_val n Hn b c y Hb Hc E2) as (P2 & F2).
    assert (Hab : L (padd a b)) by (apply supp_padd; auto).
    destruct (t_def n Hn (padd a b) c Hab Hc) as (r & Er & Pr).
    { intros v Hv Hm. apply (mentions_peq v _ _ (psubst_padd _ a b)) in Hm. apply mentions_padd in Hm. destruct Hm; auto. }
    exists r. split; auto. rewrite Pr, P1, P2. apply t_add_l; auto using t_vp.
  - intros a b c x Ha Hb Hc E1. apply LQ in Ha, Hb, Hc. destruct (t_val n Hn a b x Ha Hb E1) as (P1 & F1).
    destruct (t_def n Hn a c Ha Hc F1) as (y & Ey & Py). assert (Hbc : L (padd b c)) by (apply supp_padd; auto). destruct (t_def n Hn a (padd b c) Ha Hbc F1) as (r & Er & Pr).
    exists r, y. split; auto. split; auto. rewrite Pr, P1, Py. apply OpN_padd_r.
  - intros v a b r Hv Ha Hb E. apply LQ in Ha, Hb. destruct (t_val n Hn a b r Ha Hb E) as (P1 & F1). assert (Hv' : isqv v) by (destruct Hv as [->|[->| ->]]; exact I).
    assert (Hvb : L (pmul (pvar v) b)).
    { change (pvar v) with (pmono [v]). apply (lin_qmul V isqv); auto. }
    destruct (t_def n Hn a _ Ha Hvb F1) as (y & Ey & Py). exists y. split; auto. rewrite Py, P1. apply t_var; auto using t_vp.
Qed.
End Sp.
