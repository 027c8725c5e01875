(** Putting the classes outside a smaller space to 0 is compatible with mult and toS, for polynomials in the classes. *)

From Coq Require Import ZArith List Lia Bool Permutation QArith Qcanon Setoid Morphisms.
From Verif Require Import Py OrderFacts PyFacts ModelPart ModelQcalc ModelPoly ModelStr ModelGr Spec SpecPieri SpecRing SpecAct SpecQG SpecDet SpecRows
  PolyFacts SuppFacts ExprFacts OpTheory GrInv WSum Sys Sys2 SysApi SysRing FillFacts PartFacts ConjFacts PieriCoef PieriD QPieriD RecBCD CommC CommB RingC RingB RingD RingD0 RingData ApiRing ApiRingD Conv TopClass CompsFacts CompsBound
  DetFacts QGiamC GiamDet PresIdeal2 DualSys ApiGr Check Restrict StabC StabD RestrictPoly StabGiam.
From Verif Require IGQuant RingA FactsA StabA.
Import ListNotations.
Open Scope Z_scope.

Lemma keep_rD (V : list Z -> Prop) ok fits p : (forall l, V l -> ok l = fits l) -> supp (polym V) p -> peq (put (keep ok) p) (psubst (dv (rD fits)) p).
Proof.
  intros H Hp. rewrite put_eq. apply supp_rawnorm in Hp. transitivity (psubst (keep ok) (pnorm p)); [apply psubst_proper; symmetry; apply pnorm_peq|].
  transitivity (psubst (dv (rD fits)) (pnorm p)); [|apply psubst_proper, pnorm_peq]. apply psubst_ext. intros m c v Hin Hv. specialize (Hp m c Hin). unfold polym in Hp. rewrite Forall_forall in Hp.
  destruct (Hp v Hv) as [->|(l & Hl & ->)]; [reflexivity|]. change (dv (rD fits) (vS l)) with (rD fits l). unfold rD, vS. cbn [keep]. rewrite (H l Hl). reflexivity.
Qed.
Lemma fits_nat r c l : 0 <= r -> fits_box r c l = ((part l 0 <=? c) && (length l <=? Z.to_nat r)%nat).
Proof. intros Hr. unfold fits_box. f_equal. destruct (Z.leb_spec (Z.of_nat (length l)) r), (Nat.leb_spec (length l) (Z.to_nat r)); auto; lia. Qed.

(** two systems and the map between them *)
Definition hom {tb ts} (pib pis : Z -> list Z -> res poly) (Vb : list Z -> Prop) kb ks fb fs (fits : list Z -> bool) : Prop :=
  forall a b, supp (polym Vb) a -> supp (linm Vb (eq VQ)) b ->
  peq (psubst (dv (rD fits)) (M tb pib kb fb a b)) (M ts pis ks fs (psubst (dv (rD fits)) a) (psubst (dv (rD fits)) b)).
Section Api.
Context {tb ts : gtype} {pib pis : Z -> list Z -> res poly} {Vb Vs : list Z -> Prop} {Ib Is : Z -> Prop}
  {kb ks : Z} {mub mus : list Z -> nat} {fb fs : nat}.
Hypothesis SB : pieri_sys tb pib Vb Ib kb mub fb.
Hypothesis SS : pieri_sys ts pis Vs Is ks mus fs.
Variables fits ok : list Z -> bool.
Hypothesis Hok : forall l, Vb l -> ok l = fits l.
Hypothesis Hfit : forall l, Vb l -> fits l = true -> Vs l.
Hypothesis HH : @hom tb ts pib pis Vb kb ks fb fs fits.
Lemma hom_mult a b : poly_in Vb a -> lin_comb Vb b ->
  exists r r', prod ts pis ks fs (put (keep ok) a) (put (keep ok) b) = Ok r /\ prod tb pib kb fb a b = Ok r' /\ peq r (put (keep ok) r').
Proof.
  intros Ha Hb. destruct (api_prod SB a b Ha Hb) as (r' & Er' & Pr' & Lr'). apply lin_comb_iff in Lr'. apply poly_in_iff in Ha. apply lin_comb_iff in Hb.
  assert (Ka : peq (put (keep ok) a) (psubst (dv (rD fits)) a)) by (apply (keep_rD Vb); auto). assert (Kb : peq (put (keep ok) b) (psubst (dv (rD fits)) b)) by (apply (keep_rD Vb); auto; apply sys_lq_vp; auto).
  assert (Ha' : supp (polym Vs) (put (keep ok) a)) by (eapply supp_peq; [symmetry; exact Ka|]; apply (vp_rho fits Hfit); auto).
  assert (Hb' : supp (linm Vs (eq VQ)) (put (keep ok) b)) by (eapply supp_peq; [symmetry; exact Kb|]; apply (lqs_rho fits Hfit); auto).
  destruct (api_prod SS (put (keep ok) a) (put (keep ok) b)) as (r & Er & Pr & _); [apply poly_in_iff; auto|apply lin_comb_iff; auto|].
  exists r, r'. split; auto. split; auto. rewrite (keep_rD Vb ok fits r' Hok) by (apply sys_lq_vp; auto). rewrite Pr, (psubst_proper _ _ _ Pr'), (HH a b Ha Hb). apply M_peq; auto.
Qed.
Lemma hom_toS a : fits [] = true -> poly_in Vb a ->
  exists r r', prod ts pis ks fs (put (keep ok) a) (pS []) = Ok r /\ prod tb pib kb fb a (pS []) = Ok r' /\ peq r (put (keep ok) r').
Proof.
  intros Hn Ha. assert (Hb : lin_comb Vb (pS [])) by (apply lin_comb_iff, (sys_lq_one SB)). destruct (api_prod SB a (pS []) Ha Hb) as (r' & Er' & Pr' & Lr'). apply lin_comb_iff in Lr'. apply poly_in_iff in Ha.
  assert (Ka : peq (put (keep ok) a) (psubst (dv (rD fits)) a)) by (apply (keep_rD Vb); auto).
  assert (Ha' : supp (polym Vs) (put (keep ok) a)) by (eapply supp_peq; [symmetry; exact Ka|]; apply (vp_rho fits Hfit); auto).
  destruct (api_prod SS (put (keep ok) a) (pS [])) as (r & Er & Pr & _); [apply poly_in_iff; auto|apply lin_comb_iff, (sys_lq_one SS)|].
  exists r, r'. split; auto. split; auto. rewrite (keep_rD Vb ok fits r' Hok) by (apply sys_lq_vp; auto). rewrite Pr, (psubst_proper _ _ _ Pr'), (HH a (pS []) Ha (sys_lq_one SB)). apply M_peq; auto.
  rewrite rho_S. unfold rD. rewrite Hn. reflexivity.
Qed.
Lemma hom_api a b : fits [] = true -> poly_in Vb a -> lin_comb Vb b ->
  (exists r r', prod ts pis ks fs (put (keep ok) a) (put (keep ok) b) = Ok r /\ prod tb pib kb fb a b = Ok r' /\ peq r (put (keep ok) r')) /\
  (exists r r', prod ts pis ks fs (put (keep ok) a) (pS []) = Ok r /\ prod tb pib kb fb a (pS []) = Ok r' /\ peq r (put (keep ok) r')).
Proof. intros Hn Ha Hb. split; [apply hom_mult|apply hom_toS]; auto. Qed.
End Api.

(** the map does not change what fits *)
Lemma rho_fix (V : list Z -> Prop) fits a : (forall l, V l -> fits l = true) -> supp (polym V) a -> peq (psubst (dv (rD fits)) a) a.
Proof.
  intros HV Ha. apply supp_rawnorm in Ha. transitivity (psubst (dv (rD fits)) (pnorm a)); [apply psubst_proper; symmetry; apply pnorm_peq|].
  transitivity (psubst pvar (pnorm a)); [|rewrite psubst_pvar_id; apply pnorm_peq]. apply psubst_ext. intros m c v Hin Hv. specialize (Ha m c Hin). unfold polym in Ha. rewrite Forall_forall in Ha.
  destruct (Ha v Hv) as [->|(l & Hl & ->)]; [reflexivity|]. change (dv (rD fits) (vS l)) with (rD fits l). unfold rD. rewrite (HV l Hl). reflexivity.
Qed.
(** several steps *)
Section Chain.
Variables (t : gtype) (pi : nat -> Z -> list Z -> res poly) (V : nat -> list Z -> Prop) (I : nat -> Z -> Prop) (k : Z) (mu : nat -> list Z -> nat) (f : nat -> nat) (fits : nat -> list Z -> bool).
Hypothesis H : forall j, pieri_sys t (pi j) (V j) (I j) k (mu j) (f j).
Hypothesis HF : forall j l, V j l -> fits j l = true.
Hypothesis HV : forall j l, V (S j) l -> fits j l = true -> V j l.
Hypothesis Hm : forall j l, fits O l = true -> fits j l = true.
Hypothesis H1 : forall j, @hom t t (pi (S j)) (pi j) (V (S j)) k k (f (S j)) (f j) (fits j).
Lemma hom_chain j : @hom t t (pi j) (pi O) (V j) k k (f j) (f O) (fits O).
Proof.
  induction j as [|j IH]; intros a b Ha Hb.
  - assert (Hp : supp (polym (V O)) b) by (apply (@sys_lq_vp (V O)); auto). rewrite (rho_fix (V O) (fits O) _ (HF O)) by (apply (@sys_lq_vp (V O)), (sys_lin (H O)); auto).
    apply M_peq; symmetry; apply (rho_fix (V O)); auto.
  - rewrite <- (rho_rho (fits O) (fits j) (M t (pi (S j)) k (f (S j)) a b) (Hm j)). rewrite (psubst_proper _ _ _ (H1 j a b Ha Hb)).
    rewrite (IH (psubst (dv (rD (fits j))) a) (psubst (dv (rD (fits j))) b)); [|apply (vp_rho (fits j) (HV j)); auto|apply (lqs_rho (fits j) (HV j)); auto].
    apply M_peq; apply rho_rho; apply Hm.
Qed.
Lemma V_chain j l : V j l -> fits O l = true -> V O l.
Proof. induction j as [|j IH]; intros Hl F; auto. Qed.
End Chain.

(** ** one step *)
Lemma homC k n (Hk : 0 <= k <= n) : @hom TC TC (piC k (n + 1) false) (piC k n false) (kstrict_in k (n + 1 - k) (n + 1 + k)) k k (giam_fuel (gC k (n + 1))) (giam_fuel (gC k n)) (IGQuant.fits k n).
Proof.
  intros a b Ha Hb. pose proof (sysC k n Hk false) as SS. assert (Hk' : 0 <= k <= n + 1) by lia. pose proof (sysC k (n + 1) Hk' false) as SB.
  apply (r_poly SB SS (IGQuant.fits k n) (fit_Vs k n Hk)); auto. intros l c Hl Hc.
  apply (r_main SB SS (IGQuant.fits k n) (fun i => i <=? n + k) (s_nil k n Hk) (fit_Vs k n Hk) (s_I k n) (s_in k n Hk) (s_out k n Hk) c Hc (S (muM (n + 1 + k) l)) l); auto.
Qed.
Lemma homD k n (Hk : 1 <= k <= n) : @hom TD TD (piD k (n + 1) false) (piD k n false) (typed_in k (n + 1 + 1 - k) (n + 1 + k)) k k (giam_fuel (gD k (n + 1))) (giam_fuel (gD k n)) (fitD k n).
Proof.
  intros a b Ha Hb. pose proof (sysD k n false (StabD.okS k n Hk)) as SS. pose proof (sysD k (n + 1) false (StabD.okB k n Hk)) as SB.
  apply (r_poly SB SS (fitD k n) (fit_VsD k n Hk)); auto. intros l c Hl Hc.
  apply (r_main SB SS (fitD k n) (fun i => i <=? n + k) (s_nilD k n Hk) (fit_VsD k n Hk) (s_ID k n) (s_inD k n Hk) (s_outD k n Hk) c Hc (S (muM (n + 1 + k) l)) l); auto.
Qed.
Section OGodd.
Variables k n : Z.
Hypothesis Hks : 0 <= k <= n.
Context {tb ts : gtype} {pib pis : Z -> list Z -> res poly} {mub mus : list Z -> nat} {fb fs : nat}.
Notation Vs := (kstrict_in k (n - k) (n + k)).
Notation Vb := (kstrict_in k (n + 1 - k) (n + 1 + k)).
Notation t := (n + k + 1).
Hypothesis SB : pieri_sys tb pib Vb (IC k (n + 1)) k mub fb.
Hypothesis SS : pieri_sys ts pis Vs (IC k n) k mus fs.
Hypothesis CB : forall p l, 1 <= p -> Vb l -> exists r W, pib p l = Ok r /\ lincl r W /\ forall mu, coef_OG k (n + 1) p l mu (W mu).
Hypothesis CS : forall p l, 1 <= p -> Vs l -> exists r W, pis p l = Ok r /\ lincl r W /\ forall mu, coef_OG k n p l mu (W mu).
Notation fit := (IGQuant.fits k n).
Notation rho := (psubst (dv (rD fit))).
Lemma coefB p l mu c c' : coef_OG k n p l mu c -> coef_OG k (n + 1) p l mu c' -> c = if fit mu then c' else 0%Qc.
Proof.
  intros Hc Hc'. assert (Ht : pieri_term k n p l mu <-> pieri_term k (n + 1) p l mu /\ fit mu = true).
  { split.
    - intros (A & B & C). split; [split; [apply small_big; auto|auto]|]. apply IGQuant.fits_Vs; auto.
    - intros [(A & B & C) Hx]. split; auto. apply fit_Vs; auto. }
  destruct (fit mu).
  - destruct Hc as [(H1 & N & H2 & _ & ->)|(H1 & ->)], Hc' as [(H3 & N' & H4 & _ & ->)|(H3 & ->)]; try tauto. rewrite (component_count_unique _ _ _ _ H2 H4). reflexivity.
  - destruct Hc as [(H1 & _)|(_ & ->)]; auto. apply Ht in H1. destruct H1. discriminate.
Qed.
Lemma s_inB i l : IC k (n + 1) i -> (i <=? n + k) = true -> Vb l -> fit l = true -> peq (rho (P pib i l)) (P pis i l).
Proof.
  intros [Hi _] _ Hl Fl. destruct (CB i l Hi Hl) as (b & Wb & Eb & Hb & HWb). destruct (CS i l Hi (fit_Vs k n Hks l Hl Fl)) as (a & Wa & Ea & Ha & HWa). unfold P. rewrite Ea, Eb.
  pose proof (lincl_rD fit b Wb Hb) as HH. intros m. rewrite (Ha m), (HH m). unfold wval. destruct m as [|[[x|u w]| | |] [|v m]]; auto. symmetry. apply (coefB i l x); auto.
Qed.
Lemma s_outB i l : IC k (n + 1) i -> Vb l -> (i <=? n + k) = false \/ fit l = false -> peq (rho (P pib i l)) pzero.
Proof.
  intros [Hi Hi2] Hl F. destruct (CB i l Hi Hl) as (b & Wb & Eb & Hb & HWb). unfold P. rewrite Eb.
  pose proof (lincl_rD fit b Wb Hb) as HH. intros m. rewrite (HH m). change (coef pzero m) with 0%Qc. unfold wval. destruct m as [|[[x|u w]| | |] [|v m]]; auto.
  destruct (fit x) eqn:Fx; [|reflexivity]. destruct (Qc_eq_dec (Wb x) 0%Qc) as [->|Hc]; [reflexivity|]. exfalso. pose proof (coef_OG_supp _ _ _ _ _ _ (HWb x) Hc) as HT. destruct F as [F|F].
  - apply Z.leb_gt in F. assert (E : i = t) by lia. rewrite E in HT. destruct HT as (((A1 & A2 & A3) & A4) & B & C). rewrite (top_shape 0 k t l x) in Fx by (auto; try lia; apply Hl).
    unfold IGQuant.fits, part in Fx. cbn [nth] in Fx. apply andb_prop in Fx. lia.
  - rewrite (nofit k n Hks i l x Hl F HT) in Fx. discriminate.
Qed.
Lemma homB : @hom tb ts pib pis Vb k k fb fs fit.
Proof.
  intros a b Ha Hb. apply (r_poly SB SS fit (fit_Vs k n Hks)); auto. intros l c Hl Hc.
  apply (r_main SB SS fit (fun i => i <=? n + k) (s_nil k n Hks) (fit_Vs k n Hks) (s_I k n) s_inB s_outB c Hc (S (mub l)) l); auto.
Qed.
End OGodd.

(** ** the interface *)
Definition hom_res (g g' : gr) ok a b : Prop :=
  (exists r r', mult g (put (keep ok) a) (put (keep ok) b) = Ok r /\ mult g' a b = Ok r' /\ peq r (put (keep ok) r')) /\
  (exists r r', toS g (put (keep ok) a) = Ok r /\ toS g' a = Ok r' /\ peq r (put (keep ok) r')).
Lemma fits_mono k n j l : 0 <= j -> IGQuant.fits k n l = true -> IGQuant.fits k (n + j) l = true.
Proof. intros Hj F. unfold IGQuant.fits in *. apply andb_prop in F. destruct F as [F1 F2]. apply Nat.leb_le in F2. apply andb_true_intro. split; [lia|apply Nat.leb_le; lia]. Qed.
Lemma fitD_mono k n j l : 0 <= j -> fitD k n l = true -> fitD k (n + j) l = true.
Proof. intros Hj F. unfold fitD in *. apply andb_prop in F. destruct F as [F1 F2]. apply Nat.leb_le in F2. apply andb_true_intro. split; [lia|apply Nat.leb_le; lia]. Qed.
Section Iter.
Variables (t : gtype) (pi : Z -> Z -> list Z -> res poly) (V : Z -> list Z -> Prop) (I : Z -> Z -> Prop) (k n : Z) (mu : Z -> list Z -> nat) (f : Z -> nat) (fits : Z -> list Z -> bool).
Hypothesis H : forall x, n <= x -> pieri_sys t (pi x) (V x) (I x) k (mu x) (f x).
Hypothesis HF : forall x l, n <= x -> V x l -> fits x l = true.
Hypothesis HV : forall x l, n <= x -> V (x + 1) l -> fits x l = true -> V x l.
Hypothesis Hm : forall x l, n <= x -> fits n l = true -> fits x l = true.
Hypothesis H1 : forall x, n <= x -> @hom t t (pi (x + 1)) (pi x) (V (x + 1)) k k (f (x + 1)) (f x) (fits x).
Hypothesis Hn : fits n [] = true.
Lemma iter_api j ok a b : 0 <= j -> (forall l, V (n + j) l -> ok l = fits n l) -> poly_in (V (n + j)) a -> lin_comb (V (n + j)) b ->
  (exists r r', prod t (pi n) k (f n) (put (keep ok) a) (put (keep ok) b) = Ok r /\ prod t (pi (n + j)) k (f (n + j)) a b = Ok r' /\ peq r (put (keep ok) r')) /\
  (exists r r', prod t (pi n) k (f n) (put (keep ok) a) (pS []) = Ok r /\ prod t (pi (n + j)) k (f (n + j)) a (pS []) = Ok r' /\ peq r (put (keep ok) r')).
Proof.
  intros Hj Hok Ha Hb.
  assert (ES : forall i, n + Z.of_nat (S i) = n + Z.of_nat i + 1) by (intros; lia).
  assert (E0 : n + Z.of_nat 0 = n) by lia. assert (Ej : n + Z.of_nat (Z.to_nat j) = n + j) by lia.
  assert (SYS : forall i, pieri_sys t (pi (n + Z.of_nat i)) (V (n + Z.of_nat i)) (I (n + Z.of_nat i)) k (mu (n + Z.of_nat i)) (f (n + Z.of_nat i))) by (intros i; apply H; lia).
  assert (A2 : forall i l, V (n + Z.of_nat (S i)) l -> fits (n + Z.of_nat i) l = true -> V (n + Z.of_nat i) l) by (intros i l; rewrite ES; apply HV; lia).
  pose proof (hom_chain t (fun i => pi (n + Z.of_nat i)) (fun i => V (n + Z.of_nat i)) (fun i => I (n + Z.of_nat i)) k (fun i => mu (n + Z.of_nat i)) (fun i => f (n + Z.of_nat i)) (fun i => fits (n + Z.of_nat i)) SYS) as HC.
  pose proof (V_chain (fun i => V (n + Z.of_nat i)) (fun i => fits (n + Z.of_nat i)) A2) as HVc. cbv beta in HC, HVc. rewrite E0 in HC, HVc.
  assert (A4 : forall i l, V (n + Z.of_nat i) l -> fits (n + Z.of_nat i) l = true) by (intros i l; apply HF; lia). assert (A5 : forall i l, fits n l = true -> fits (n + Z.of_nat i) l = true) by (intros i l; apply Hm; lia).
  specialize (HC A4 A2 A5).
  assert (A3 : forall i, @hom t t (pi (n + Z.of_nat (S i))) (pi (n + Z.of_nat i)) (V (n + Z.of_nat (S i))) k k (f (n + Z.of_nat (S i))) (f (n + Z.of_nat i)) (fits (n + Z.of_nat i))) by (intros i; rewrite ES; apply H1; lia).
  specialize (HC A3 (Z.to_nat j)). specialize (HVc A5 (Z.to_nat j)). rewrite Ej in HC, HVc.
  apply (hom_api (H (n + j) ltac:(lia)) (H n ltac:(lia)) (fits n) ok Hok); auto.
Qed.
End Iter.

Lemma c110_IG m N j g g' a b : 0 <= j -> IsotropicGrassmannian m N = Ok g -> IsotropicGrassmannian (m + j) (N + 2 * j) = Ok g' ->
  poly_in (class_IG (m + j) (N + 2 * j)) a -> lin_comb (class_IG (m + j) (N + 2 * j)) b -> hom_res g g' (fits_box m (N - m)) a b.
Proof.
  intros Hj Hg Hg' Ha Hb. destruct (ig_inv _ _ _ Hg) as (n & EN & En & Hmn & Eg). destruct (dataj m N j g g' Hg Hg') as (k & n0 & Hk & Eg0 & EV & Eg' & EV').
  assert (E1 : n - m = k /\ n = n0) by (rewrite Eg in Eg0; injection Eg0; auto). destruct E1 as [E1 <-]. rewrite EV' in Ha, Hb. rewrite Eg0, Eg'.
  apply (iter_api TC (fun x => piC k x false) (fun x => kstrict_in k (x - k) (x + k)) (fun x => IC k x) k n (fun x => muM (x + k)) (fun x => giam_fuel (gC k x)) (fun x => IGQuant.fits k x)); auto.
  - intros x Hx. apply sysC. lia.
  - intros x l Hx. apply IGQuant.fits_Vs.
  - intros x l Hx. apply fit_Vs. lia.
  - intros x l Hx F. replace x with (n + (x - n)) by lia. apply fits_mono; [lia|exact F].
  - intros x Hx. apply homC. lia.
  - apply s_nil. lia.
  - intros l _. rewrite fits_nat by lia. unfold IGQuant.fits. replace (N - m) with (n + k) by lia. replace (Z.to_nat m) with (Z.to_nat (n - k)) by lia. reflexivity.
Qed.
Lemma c110_odd m n j h h' a b : 1 <= m <= n -> 0 <= j -> OrthogonalGrassmannian m (2 * n + 1) = Ok h -> OrthogonalGrassmannian (m + j) (2 * n + 1 + 2 * j) = Ok h' ->
  poly_in (class_OG (m + j) (2 * n + 1 + 2 * j)) a -> lin_comb (class_OG (m + j) (2 * n + 1 + 2 * j)) b -> hom_res h h' (fits_box m (2 * n - m)) a b.
Proof.
  intros Hm Hj Hh Hh' Ha Hb. destruct (odd_data m n h Hm Hh) as (-> & _). replace (2 * n + 1 + 2 * j) with (2 * (n + j) + 1) in * by lia. destruct (odd_data (m + j) (n + j) h' ltac:(lia) Hh') as (-> & EV). rewrite EV in Ha, Hb.
  replace (n + j - (m + j)) with (n - m) in * by lia. set (k := n - m) in *. replace (2 * n - m) with (n + k) by (unfold k; lia). assert (Hk : 0 <= k <= n) by lia. assert (Hn : 1 <= n) by lia.
  assert (HO : forall x, n <= x -> CommB.okB false k x) by (intros i Hi; split; [lia|]; split; [lia|discriminate]).
  apply (iter_api TB (fun x => piB k x false) (fun x => kstrict_in k (x - k) (x + k)) (fun x => IC k x) k n (fun x => muM (x + k)) (fun x => giam_fuel (gB k x)) (fun x => IGQuant.fits k x)); auto.
  - intros x Hx. apply sysB. auto.
  - intros x l Hx. apply IGQuant.fits_Vs.
  - intros x l Hx. apply fit_Vs. lia.
  - intros x l Hx F. replace x with (n + (x - n)) by lia. apply fits_mono; [lia|exact F].
  - intros x Hx. apply (homB k x ltac:(lia) (sysB k (x + 1) false (HO (x + 1) ltac:(lia))) (sysB k x false (HO x Hx))).
    + intros p l _ Hl. apply (pieriB_lincl k (x + 1) l p ltac:(lia) Hl).
    + intros p l _ Hl. apply (pieriB_lincl k x l p ltac:(lia) Hl).
  - apply s_nil. lia.
  - intros l _. rewrite fits_nat by lia. unfold IGQuant.fits. replace (Z.to_nat m) with (Z.to_nat (n - k)) by lia. reflexivity.
Qed.
Lemma c110_even m n j h h' a b : 1 <= m <= n + 1 -> 1 <= n -> 0 <= j -> OrthogonalGrassmannian m (2 * n + 2) = Ok h -> OrthogonalGrassmannian (m + j) (2 * n + 2 + 2 * j) = Ok h' ->
  poly_in (class_OG (m + j) (2 * n + 2 + 2 * j)) a -> lin_comb (class_OG (m + j) (2 * n + 2 + 2 * j)) b -> hom_res h h' (fun l => fits_box m (2 * n + 1 - m) (shape l)) a b.
Proof.
  intros Hm Hn Hj Hh Hh' Ha Hb. destruct (even_data m n h Hm Hh) as (-> & _). replace (2 * n + 2 + 2 * j) with (2 * (n + j) + 2) in * by lia. destruct (even_data (m + j) (n + j) h' ltac:(lia) Hh') as (-> & EV). rewrite EV in Ha, Hb.
  replace (n + j + 1 - (m + j)) with (n + 1 - m) in * by lia. set (k := n + 1 - m) in *. replace (2 * n + 1 - m) with (n + k) by (unfold k; lia).
  destruct (Z.eq_dec k 0) as [K0|K0].
  - assert (TE : forall l, typed_in k (n + j + 1 - k) (n + j + k) l <-> kstrict_in 0 (n + j - 0) (n + j + 0) l) by (intros l; rewrite K0; rewrite <- (typed0 (n + j) ltac:(lia) l); replace (n + j + 1 - 0) with (n + j + 1) by lia; rewrite Z.add_0_r; reflexivity).
    assert (Ha' : poly_in (kstrict_in 0 (n + j - 0) (n + j + 0)) a).
    { apply poly_in_iff in Ha. apply poly_in_iff. eapply supp_impl; [|exact Ha]. intros mo. unfold polym. apply Forall_impl. intros v [->|(l & Hl & ->)]; [left; reflexivity|right; exists l; split; [apply TE; exact Hl|reflexivity]]. }
    assert (Hb' : lin_comb (kstrict_in 0 (n + j - 0) (n + j + 0)) b).
    { apply lin_comb_iff in Hb. apply lin_comb_iff. eapply supp_impl; [|exact Hb]. intros mo (l & qm & Hl & Hp & Hq). exists l, qm. split; [apply TE; exact Hl|auto]. }
    clear Ha Hb. rewrite K0 in *.
    apply (iter_api TD (fun x => piD 0 x false) (fun x => kstrict_in 0 (x - 0) (x + 0)) (fun x => IC 0 x) 0 n (fun x => muM (x + 0)) (fun x => giam_fuel (gD 0 x)) (fun x => IGQuant.fits 0 x)); auto.
    + intros x Hx. apply sysD0. lia.
    + intros x l Hx. apply IGQuant.fits_Vs.
    + intros x l Hx. apply fit_Vs. lia.
    + intros x l Hx F. replace x with (n + (x - n)) by lia. apply fits_mono; [lia|exact F].
    + intros x Hx. apply (homB 0 x ltac:(lia) (sysD0 (x + 1) false ltac:(lia)) (sysD0 x false ltac:(lia))).
      * intros p l Hp Hl. apply CD0; auto; lia.
      * intros p l Hp Hl. apply CD0; auto; lia.
    + apply s_nil. lia.
    + intros l Hl. destruct Hl as ((P1 & P2 & P3) & P4). rewrite (shape_partition l P1). rewrite fits_nat by lia. unfold IGQuant.fits. destruct (Z.leb_spec (part l 0) (n + 0)) as [L|L]; [|reflexivity]. cbn [andb].
      destruct (Nat.leb_spec (length l) (Z.to_nat m)) as [L1|L1], (Nat.leb_spec (length l) (Z.to_nat (n - 0))) as [L2|L2]; auto; [|lia]. exfalso.
      assert (T : typed_in 0 (n + 1) n l) by (left; split; auto; split; auto; lia). apply (typed0 n ltac:(lia)) in T. destruct T as ((_ & T & _) & _). lia.
  - assert (Hk : 1 <= k <= n) by lia.
    apply (iter_api TD (fun x => piD k x false) (fun x => typed_in k (x + 1 - k) (x + k)) (fun x => ID k x) k n (fun x => muM (x + k)) (fun x => giam_fuel (gD k x)) (fun x => fitD k x)); auto.
    + intros x Hx. apply sysD. apply (StabD.okS k x). lia.
    + intros x l Hx. apply Vs_fitD. lia.
    + intros x l Hx. apply (fit_VsD k x). lia.
    + intros x l Hx F. replace x with (n + (x - n)) by lia. apply fitD_mono; [lia|exact F].
    + intros x Hx. apply homD. lia.
    + apply s_nilD. lia.
    + intros l _. rewrite fits_nat by lia. unfold fitD. replace (Z.to_nat m) with (Z.to_nat (n + 1 - k)) by lia. reflexivity.
Qed.
Lemma c110_A m n i j g g' a b : 1 <= m -> 0 <= i -> 0 <= j -> Grassmannian m n = Ok g -> Grassmannian (m + i) (n + i + j) = Ok g' ->
  poly_in (in_box (m + i) (n - m + j)) a -> lin_comb (in_box (m + i) (n - m + j)) b -> hom_res g g' (fits_box m (n - m)) a b.
Proof.
  intros Hm Hi Hj Hg Hg' Ha Hb. apply FactsA.gr_inv in Hg. destruct Hg as (_ & Hk & ->). apply FactsA.gr_inv in Hg'. destruct Hg' as (_ & _ & ->).
  replace (n + i + j - (m + i)) with (n - m + j) by lia. set (k := n - m) in *. replace n with (m + k) by (unfold k; lia). replace (m + k + i + j) with (m + i + (k + j)) by lia.
  assert (Hm' : 1 <= m + i) by lia. assert (Hk' : 0 <= k + j) by lia. pose proof (RingA.sysA (m + i) (k + j) Hm' Hk' false) as SB. pose proof (RingA.sysA m k Hm Hk false) as SS.
  assert (HFv : forall l, in_box (m + i) (k + j) l -> StabA.fitA m k l = true -> in_box m k l) by exact (StabA.fit_VsA m k i j Hm).
  apply (hom_api SB SS (StabA.fitA m k) (fits_box m k)); auto.
  - intros l _. apply fits_nat. lia.
  - intros x y Hx Hy. apply (r_poly SB SS (StabA.fitA m k) HFv); auto. intros l c Hl Hc.
    apply (r_main SB SS (StabA.fitA m k) (fun z => z <=? k) (StabA.s_nilA m k Hm Hk) HFv (StabA.s_IA k j) (StabA.s_inA m k i j Hm Hk Hi Hj) (StabA.s_outA m k i j Hm Hk Hi Hj) c Hc (S (RingA.muA (k + j) l)) l); auto.
  - apply (StabA.s_nilA m k Hm Hk).
Qed.
