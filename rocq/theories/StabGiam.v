(** The Giambelli polynomials of OG(m,N) from those of OG(m+1,N+2), and of Gr(m,n) from those of Gr(m+i,n+i+1). *)

From Coq Require Import ZArith List Lia Bool Permutation QArith Qcanon Setoid Morphisms.
From Verif Require Import Py OrderFacts PyFacts ModelPart ModelQcalc ModelPoly ModelStr ModelGr Spec SpecPieri SpecRing SpecAct SpecWeight SpecQG SpecDet SpecRows
  PolyFacts SuppFacts ExprFacts OpTheory GrInv WSum Sys Sys2 SysApi SysRing FillFacts PartFacts ConjFacts PieriCoef PieriD QPieriD RecBCD CommC CommB RingC RingB RingD RingD0 RingData ApiRing ApiRingD Conv TopClass CompsFacts CompsBound
  DetFacts QGiamC GiamDet PresIdeal2 DualSys ApiGr Check Restrict StabC StabD GiamStab.
From Verif Require IGQuant RingA FactsA.
Import ListNotations.
Open Scope Z_scope.

(** from classes to polynomials in the classes *)
Lemma lift (f1 f2 : schur -> res poly) (V : list Z -> Prop) s a : peq (s VQ) (pvar VQ) ->
  (forall l, V l -> exists E E', f1 (SP l) = Ok E /\ f2 (SP l) = Ok E' /\ peq E (psubst s E')) -> poly_in V a ->
  exists e e', apply_lc f1 a = Ok e /\ apply_lc f2 a = Ok e' /\ peq e (put s e').
Proof.
  intros Hs Hl Ha. apply poly_in_iff in Ha. pose proof Ha as Ha'. apply supp_rawnorm in Ha'.
  assert (HH : forall f mo c v, (f = f1 \/ f = f2) -> In (mo, c) (pnorm a) -> In v mo -> exists x, image f v = Ok x /\ peq x (val f v)).
  { intros f mo c v Hf Hin Hv. specialize (Ha' mo c Hin). rewrite Forall_forall in Ha'. destruct (Ha' v Hv) as [->|(l & HVl & ->)].
    - eexists. split; reflexivity.
    - destruct (Hl l HVl) as (E & E' & H1 & H2 & _). unfold val, vS. cbn [image]. destruct Hf as [->| ->]; [rewrite H1|rewrite H2]; eexists; split; reflexivity. }
  destruct (apply_lc_ok f1 (val f1) a) as (e & Ee & Pe); [intros; eapply HH; eauto|].
  destruct (apply_lc_ok f2 (val f2) a) as (e' & Ee' & Pe'); [intros; eapply HH; eauto|].
  exists e, e'. split; [exact Ee|]. split; [exact Ee'|]. rewrite put_eq. rewrite Pe, (psubst_proper _ _ _ Pe'), psubst_comp.
  transitivity (psubst (val f1) (pnorm a)); [apply psubst_proper; symmetry; apply pnorm_peq|].
  transitivity (psubst (fun v => psubst s (val f2 v)) (pnorm a)); [|apply psubst_proper; apply pnorm_peq].
  apply psubst_ext. intros mo c v Hin Hv. specialize (Ha' mo c Hin). rewrite Forall_forall in Ha'. destruct (Ha' v Hv) as [->|(l & HVl & ->)].
  - unfold val. cbn [image]. rewrite psubst_pvar, Hs. reflexivity.
  - destruct (Hl l HVl) as (E & E' & H1 & H2 & H3). unfold val, vS. cbn [image]. rewrite H1, H2. exact H3.
Qed.
Lemma row_other t h i : i <> t -> peq (row_becomes t h (sv i)) (pvar (sv i)).
Proof.
  intros Hi. unfold sv, num2spec. destruct (0 <? i); [|reflexivity]. unfold row_becomes, vS. destruct (Z.eqb_spec i t); [congruence|reflexivity].
Qed.
Lemma row_top t h : 0 < t -> peq (row_becomes t h (sv t)) h.
Proof. intros Ht. unfold sv, num2spec. destruct (Z.ltb_spec 0 t); [|lia]. unfold row_becomes, vS. rewrite Z.eqb_refl. reflexivity. Qed.
Lemma lincl_supp (V : list Z -> Prop) p W : lincl p W -> (forall l, W l <> 0%Qc -> V l) -> supp (linm V (eq VQ)) p.
Proof.
  intros H HV. intros m Hc. destruct (lincl_inv _ _ _ H Hc) as (l & -> & Hl). exists l, []. split; [apply HV; exact Hl|]. split; [reflexivity|constructor].
Qed.
Lemma lincl_one p W l : lincl p W -> W l = 1%Qc -> (forall x, x <> l -> W x = 0%Qc) -> peq p (pS l).
Proof.
  intros H H1 H0 m. rewrite (H m), coef_pS. unfold wval. destruct m as [|[[x|u w]| | |] [|v m]]; auto. destruct (l_dec l x) as [<-|N]; [exact H1|]. apply H0. congruence.
Qed.

Section OGodd.
Variables k n : Z.
Hypothesis Hks : 0 <= k <= n.
Hypothesis Hn1 : 1 <= n.
Context {tb ts : gtype} {pib pis : Z -> list Z -> res poly} {mub mus : list Z -> nat} {fb fs : nat}.
Notation Vs := (kstrict_in k (n - k) (n + k)).
Notation Vb := (kstrict_in k (n + 1 - k) (n + 1 + k)).
Notation t := (n + k + 1).
Hypothesis SB : pieri_sys tb pib Vb (IC k (n + 1)) k mub fb.
Hypothesis SS : pieri_sys ts pis Vs (IC k n) k mus fs.
Hypothesis CB : forall p l, 1 <= p -> Vb l -> exists r W, pib p l = Ok r /\ lincl r W /\ forall mu, coef_OG k (n + 1) p l mu (W mu).
Hypothesis CS : forall p l, 1 <= p -> Vs l -> exists r W, pis p l = Ok r /\ lincl r W /\ forall mu, coef_OG k n p l mu (W mu).
Notation fit := (IGQuant.fits k n).
Notation rho := (psubst (dv (rD fit))).
Definition TopB (l : list Z) : Prop := exists r, l = t :: r /\ Vs r.
Lemma fit_VsB l : Vb l -> fit l = true -> Vs l.
Proof. apply fit_Vs. exact Hks. Qed.
Lemma TopB_Vb r : Vs r -> Vb (t :: r).
Proof. intros Hr. assert (Hx : Z.of_nat (length r) < n + 1 - k /\ part r 0 < t) by (destruct Hr as ((_ & A & B) & _); lia). apply TopClass.kstrict_cons; auto; [apply small_big; auto|lia|lia]. Qed.
Lemma topB l : TopB l -> Vb l /\ fit l = false /\ exists p r, l <> [] /\ gsel k l = Ok (p, r) /\ IC k (n + 1) p /\ peq (row_becomes t pzero (sv p)) pzero /\ peq (P pib p r) (pS l).
Proof.
  intros (r & -> & Hr). pose proof (TopB_Vb r Hr) as HV. split; auto. split; [unfold IGQuant.fits, part; cbn [nth]; apply andb_false_intro1; lia|].
  exists t, r. split; [discriminate|]. split; [apply gsel_part; apply HV|]. split; [unfold IC; lia|]. split; [apply row_top; lia|].
  destruct (CB t r ltac:(lia) (small_big k n r Hr)) as (b & W & E & HL & HW). unfold P. rewrite E. apply (lincl_one b W); auto.
  - apply (coef_OG_tl k (n + 1) t r); auto; lia.
  - intros x Nx. destruct (Qc_eq_dec (W x) 0%Qc) as [->|Hc]; [reflexivity|]. exfalso. apply Nx. destruct (coef_OG_supp _ _ _ _ _ _ (HW x) Hc) as (A & B & C).
    apply (top_shape 0 k); auto; [apply Hr|apply A|lia|]. destruct A as ((_ & _ & A) & _). lia.
Qed.
Lemma coef_smB p l0 mu c c' : Vs (p :: l0) -> coef_OG k n p l0 mu c -> coef_OG k (n + 1) p l0 mu c' -> c = if fit mu then c' else 0%Qc.
Proof.
  intros Hl Hc Hc'. assert (Ht : pieri_term k n p l0 mu <-> pieri_term k (n + 1) p l0 mu /\ fit mu = true).
  { split.
    - intros (A & B & C). split; [split; [apply small_big; auto|auto]|]. apply IGQuant.fits_Vs; auto.
    - intros [(A & B & C) Hx]. split; auto. apply fit_VsB; auto. }
  destruct (fit mu).
  - destruct Hc as [(H1 & N & H2 & _ & ->)|(H1 & ->)], Hc' as [(H3 & N' & H4 & _ & ->)|(H3 & ->)]; try tauto. rewrite (component_count_unique _ _ _ _ H2 H4). reflexivity.
  - destruct Hc as [(H1 & _)|(_ & ->)]; auto. apply Ht in H1. destruct H1. discriminate.
Qed.
Lemma inB l p r : Vs l -> l <> [] -> gsel k l = Ok (p, r) -> IC k n p -> Vs r -> peq (rho (P pib p r)) (P pis p r) /\ supp (linm (fun x => Vs x \/ TopB x) (eq VQ)) (P pib p r).
Proof.
  intros Hl Hne Es [Ip _] Hr. destruct l as [|p' r']; [congruence|]. rewrite gsel_part in Es by apply Hl. injection Es as -> ->.
  destruct (CB p r Ip (small_big k n r Hr)) as (b & Wb & Eb & Hb & HWb). destruct (CS p r Ip Hr) as (a & Wa & Ea & Ha & HWa). unfold P. rewrite Ea, Eb. split.
  - pose proof (lincl_rD fit b Wb Hb) as HH. intros m. rewrite (Ha m), (HH m). unfold wval. destruct m as [|[[x|u w]| | |] [|v m]]; auto. symmetry. apply (coef_smB p r x); auto.
  - apply (lincl_supp _ b Wb Hb). intros x Hx. destruct (big_terms k n Hks p r x Hl (coef_OG_supp _ _ _ _ _ _ (HWb x) Hx)) as [[_ A]|A]; [left; exact A|right; exact A].
Qed.
Lemma gsB l : Vs l -> exists E E', giambelli_rec_inner fs pis k l = Ok E /\ giambelli_rec_inner fb pib k l = Ok E' /\ peq E (psubst (row_becomes t pzero) E').
Proof.
  intros Hl. exists (Gl pis k fs l), (Gl pib k fb l). split; [apply (gl_ok SS); auto|]. split; [apply (gl_ok SB), small_big; auto|].
  apply (gs_main SB SS fit TopB (row_becomes t pzero)); auto.
  - reflexivity.
  - intros p [Hp1 Hp2]. apply row_other. lia.
  - apply small_big.
  - intros i. unfold IC. lia.
  - apply IGQuant.fits_Vs.
  - apply topB.
  - apply inB.
Qed.
End OGodd.

Section OGeven.
Variables k n : Z.
Hypothesis Hks : 1 <= k <= n.
Notation Vs := (typed_in k (n + 1 - k) (n + k)).
Notation Vb := (typed_in k (n + 1 + 1 - k) (n + 1 + k)).
Notation t := (n + k + 1).
Notation SS := (sysD k n false (StabD.okS k n Hks)).
Notation SB := (sysD k (n + 1) false (StabD.okB k n Hks)).
Notation pis := (piD k n false).
Notation pib := (piD k (n + 1) false).
Notation fit := (fitD k n).
Notation rho := (psubst (dv (rD fit))).
Definition TopD (l : list Z) : Prop := Vb l /\ part (shape l) 0 = t.
Lemma CD j p l : 0 <= j -> ID k (n + j) p -> typed_in k (n + j + 1 - k) (n + j + k) l -> exists r W, piD k (n + j) false p l = Ok r /\ lincl r W /\ forall mu, coef_D k (n + j) p l mu (W mu).
Proof. intros Hj Hp Hl. destruct (pieriD_lincl k (n + j) p l) as (r & W & E & H); auto; try (unfold ID in Hp; lia). exists r, W. split; [exact E|exact H]. Qed.
Lemma topD l : TopD l -> Vb l /\ fit l = false /\ exists p r, l <> [] /\ gsel k l = Ok (p, r) /\ ID k (n + 1) p /\ peq (row_becomes t pzero (sv p)) pzero /\ peq (P pib p r) (pS l).
Proof.
  intros (HV & Ht). split; auto. split; [unfold fitD; apply andb_false_intro1; lia|].
  assert (Hne : l <> []) by (intros ->; unfold part in Ht; cbn in Ht; lia).
  destruct (gselD k (n + 1) false (StabD.okB k n Hks) l HV Hne) as (p & r & Es & Ip & Hr & Hh). pose proof Hh as (Hsh & Hneg & _). rewrite Hsh in Ht. unfold part in Ht. cbn [nth] in Ht.
  assert (Ep : p = t) by lia. rewrite Ep in *. exists t, r. split; auto. split; auto. split; auto. split; [apply row_top; lia|].
  destruct (CD 1 t r ltac:(lia) Ip Hr) as (b & W & E & HL & HW). unfold P. rewrite E.
  pose proof (fun nu => coef_D_head k (n + 1) false (StabD.okB k n Hks) l t r nu _ HV Hr Hh (HW nu)) as HH. apply (lincl_one b W); auto.
  - apply HH. reflexivity.
  - intros x Nx. destruct (Qc_eq_dec (W x) 0%Qc) as [->|Hc]; [reflexivity|]. exfalso. destruct (HH x) as (_ & G). destruct (G Hc Nx) as (G1 & _ & G2).
    assert (E1 : part l 0 = t).
    { destruct (typed_shape _ _ _ _ HV) as (_ & [Q|(Q & _ & _)]); rewrite Q, Hsh; exact Ht. }
    assert (E2 : part x 0 <= n + 1 + k).
    { destruct (typed_shape _ _ _ _ G1) as (((_ & _ & A) & _) & [Q|(Q & _ & Kin)]); [rewrite Q; exact A|]. rewrite Q. destruct (shape x); [destruct Kin|exact A]. }
    lia.
Qed.
Lemma arrow_lenD lam mu : is_partition lam -> is_partition mu -> pieri_arrow k 1 lam mu -> (length mu <= S (length lam))%nat.
Proof.
  intros Hl [Hm _] ((nu & Hnu & Hr & Hs) & _). destruct (Nat.le_gt_cases (length mu) (S (length lam))) as [|G]; auto. exfalso.
  specialize (Hm (S (length lam)) G). destruct (Hs (length lam)) as [S1 _]. destruct (Hr (length lam)) as [R1 _].
  assert (E : part lam (length lam) = 0) by (unfold part; apply nth_overflow; lia). lia.
Qed.
Lemma inD l p r : Vs l -> l <> [] -> gsel k l = Ok (p, r) -> ID k n p -> Vs r -> peq (rho (P pib p r)) (P pis p r) /\ supp (linm (fun x => Vs x \/ TopD x) (eq VQ)) (P pib p r).
Proof.
  intros Hl Hne Es Ip Hr. assert (Hr' : Vb r) by (apply Vs_Vb; auto; lia). assert (Ip' : ID k (n + 1) p) by (unfold ID in *; lia).
  assert (Ei : (p <=? n + k) = true) by (unfold ID in Ip; lia). split; [apply (s_inD k n Hks p r); auto; apply Vs_fitD; auto|].
  destruct (CD 1 p r ltac:(lia) Ip' Hr') as (b & W & E & HL & HW). unfold P. rewrite E. apply (lincl_supp _ b W HL). intros x Hx.
  destruct (coef_D_supp _ _ _ _ _ _ (HW x) Hx) as (Hm & _ & Ha & _). destruct (Z.eq_dec (part (shape x) 0) t) as [Et|Nt]; [right; split; auto|]. left. apply fit_VsD; auto.
  unfold fitD. destruct (typed_shape _ _ _ _ Hm) as (((M1 & M2 & M3) & M4) & _). destruct (typed_shape _ _ _ _ Hr) as (((R1 & _) & _) & _).
  destruct (gselD k n false (StabD.okS k n Hks) l Hl Hne) as (p' & r' & Es' & _ & _ & (Hsh & _)). rewrite Es in Es'. injection Es' as <- <-.
  pose proof (arrow_lenD _ _ R1 M1 Ha) as HA. destruct (typed_shape _ _ _ _ Hl) as (((_ & L2 & _) & _) & _). rewrite Hsh in L2. cbn [length] in L2.
  apply andb_true_intro. split; [apply Z.leb_le; lia|apply Nat.leb_le; lia].
Qed.
Lemma gsD l : Vs l -> exists E E', giambelli_rec_inner (giam_fuel (gD k n)) pis k l = Ok E /\ giambelli_rec_inner (giam_fuel (gD k (n + 1))) pib k l = Ok E' /\ peq E (psubst (row_becomes t pzero) E').
Proof.
  intros Hl. exists (Gl pis k (giam_fuel (gD k n)) l), (Gl pib k (giam_fuel (gD k (n + 1))) l). split; [apply (gl_ok SS); auto|]. split; [apply (gl_ok SB), Vs_Vb; auto; lia|].
  apply (gs_main SB SS fit TopD (row_becomes t pzero)); auto.
  - reflexivity.
  - intros p Hp. apply row_other. unfold ID in Hp. lia.
  - intros x. apply Vs_Vb; lia.
  - intros i. unfold ID. lia.
  - intros x. apply Vs_fitD; auto.
  - apply topD.
  - apply inD.
Qed.
End OGeven.

(** ** the interface *)
Lemma odd_data m n h : 1 <= m <= n -> OrthogonalGrassmannian m (2 * n + 1) = Ok h -> h = mkGr TB (n - m) n /\ class_OG m (2 * n + 1) = kstrict_in (n - m) (n - (n - m)) (n + (n - m)).
Proof.
  intros Hm Hh. assert (En1 : (2 * n + 1) / 2 = n) by (symmetry; apply (Z.div_unique _ 2 n 1); lia).
  assert (Eo : Z.odd (2 * n + 1) = true) by (rewrite Z.odd_add, Z.odd_mul; reflexivity). assert (Ev : Z.even (2 * n + 1) = false) by (rewrite <- Z.negb_odd, Eo; reflexivity). split.
  - destruct (og_inv _ _ _ Hh ltac:(lia)) as [(n0 & EN & En' & Ev' & Hm' & ->)|(n0 & EN & En' & Ev' & Hm' & ->)]; [f_equal; lia|congruence].
  - unfold class_OG. rewrite Ev, En1. change (kstrict_in (n - m) m (2 * n + 1 - 1 - m) = kstrict_in (n - m) (n - (n - m)) (n + (n - m))). f_equal; lia.
Qed.
Lemma two_steps (f1 f2 : nat) pi1 pi2 k l E E' s : giambelli_rec_inner f1 pi1 k l = Ok E -> giambelli_rec_inner f2 pi2 k l = Ok E' -> peq E (psubst s E') -> peq (Gl pi1 k f1 l) (psubst s (Gl pi2 k f2 l)).
Proof. intros E1 E2 H. unfold Gl. rewrite E1, E2. exact H. Qed.
Lemma c109_odd m n j h h' a : 1 <= m <= n -> 0 <= j -> OrthogonalGrassmannian m (2 * n + 1) = Ok h -> OrthogonalGrassmannian (m + j) (2 * n + 1 + 2 * j) = Ok h' ->
  poly_in (class_OG m (2 * n + 1)) a ->
  exists e e', giambelli h a = Ok e /\ giambelli h' a = Ok e' /\ peq e (put (rows_above (2 * n - m)) e').
Proof.
  intros Hm Hj Hh Hh' Ha. destruct (odd_data m n h Hm Hh) as (-> & EV). rewrite EV in Ha. replace (2 * n + 1 + 2 * j) with (2 * (n + j) + 1) in Hh' by lia. destruct (odd_data (m + j) (n + j) h' ltac:(lia) Hh') as (-> & _).
  replace (n + j - (m + j)) with (n - m) by lia. set (k := n - m) in *. replace (2 * n - m) with (n + k) by (unfold k; lia). assert (Hk : 0 <= k <= n) by lia. assert (Hn : 1 <= n) by lia.
  assert (HO : forall i, 0 <= i -> CommB.okB false k (n + i)) by (intros i Hi; split; [lia|]; split; [lia|discriminate]). pose proof (HO 0 ltac:(lia)) as HO0. replace (n + 0) with n in HO0 by lia.
  set (F := fun i => Gl (piB k (n + Z.of_nat i) false) k (giam_fuel (gB k (n + Z.of_nat i)))).
  assert (HC : forall i l, kstrict_in k (n - k) (n + k) l -> peq (F O l) (psubst (rows_above (n + k)) (F i l))).
  { apply chain.
    - intros l Hl. unfold F. replace (n + Z.of_nat 0) with n by lia. apply (gl_fix (sysB k n false HO0)); auto; [reflexivity|]. intros i [_ Hi]. apply above_other. exact Hi.
    - intros i l Hl. apply (V_up k n (Z.of_nat i)) in Hl; [|lia]. pose proof (HO (Z.of_nat i) ltac:(lia)) as O1. pose proof (HO (Z.of_nat (S i)) ltac:(lia)) as O2. unfold F. replace (n + Z.of_nat (S i)) with (n + Z.of_nat i + 1) in * by lia. replace (n + k + Z.of_nat i + 1) with (n + Z.of_nat i + k + 1) by lia. set (n' := n + Z.of_nat i) in *.
      destruct (gsB k n' ltac:(lia) ltac:(lia) (sysB k (n' + 1) false O2) (sysB k n' false O1)) with (l := l) as (E & E' & E1 & E2 & E3); auto.
      + intros p x _ Hx. apply (pieriB_lincl k (n' + 1) x p ltac:(lia) Hx).
      + intros p x _ Hx. apply (pieriB_lincl k n' x p ltac:(lia) Hx).
      + apply (two_steps _ _ _ _ _ _ _ _ _ E1 E2 E3). }
  apply (lift _ _ (kstrict_in k (n - k) (n + k))); [reflexivity| |exact Ha]. intros l Hl. specialize (HC (Z.to_nat j) l Hl). unfold F in HC. rewrite Z2Nat.id in HC by lia. replace (n + Z.of_nat 0) with n in HC by lia.
  eexists _, _. split; [apply (gl_ok (sysB k n false HO0) l Hl)|]. split; [apply (gl_ok (sysB k (n + j) false (HO j Hj)) l (V_up k n j l Hj Hl))|exact HC].
Qed.
Lemma c109_IG m N j g g' a : 0 <= j -> IsotropicGrassmannian m N = Ok g -> IsotropicGrassmannian (m + j) (N + 2 * j) = Ok g' ->
  poly_in (class_IG m N) a ->
  exists e e', giambelli g a = Ok e /\ giambelli g' a = Ok e' /\ peq e (put (rows_above (N - m)) e').
Proof.
  intros Hj Hg Hg' Ha. destruct (ig_inv _ _ _ Hg) as (n & EN & En & Hmn & Eg). destruct (dataj m N j g g' Hg Hg') as (k & n0 & Hk & Eg0 & EV & Eg' & _). assert (E1 : n - m = k /\ n = n0) by (rewrite Eg in Eg0; injection Eg0; auto). destruct E1 as [E1 <-]. rewrite Eg0, Eg'. rewrite EV in Ha. replace (N - m) with (n + k) by lia.
  set (F := fun i => Gl (piC k (n + Z.of_nat i) false) k (giam_fuel (gC k (n + Z.of_nat i)))).
  assert (HC : forall i l, kstrict_in k (n - k) (n + k) l -> peq (F O l) (psubst (rows_above (n + k)) (F i l))).
  { apply chain.
    - intros l Hl. unfold F. replace (n + Z.of_nat 0) with n by lia. apply (gl_fix (sysC k n Hk false)); auto; [reflexivity|]. intros i [_ Hi]. apply above_other. exact Hi.
    - intros i l Hl. apply (V_up k n (Z.of_nat i)) in Hl; [|lia]. unfold F. replace (n + Z.of_nat (S i)) with (n + Z.of_nat i + 1) in * by lia. replace (n + k + Z.of_nat i + 1) with (n + Z.of_nat i + k + 1) by lia. assert (Hk' : 0 <= k <= n + Z.of_nat i) by lia. set (n' := n + Z.of_nat i) in *.
      assert (Hk2 : 0 <= k <= n' + 1) by lia. pose proof (fuelBC k n' Hk' TC l Hl) as F1. pose proof (fuelBC k (n' + 1) Hk2 TC l (small_big k n' l Hl)) as F2.
      destruct (giam_f k n' l (giam_fuel (gC k n')) Hk' Hl false F1) as (E & HE). destruct (giam_f k (n' + 1) l (giam_fuel (gC k (n' + 1))) Hk2 (small_big k n' l Hl) false F2) as (E' & HE').
      apply (two_steps _ _ _ _ _ _ _ _ _ HE HE'). apply (giam_small k n' false Hk' (S (muM (n' + 1 + k) l)) l (giam_fuel (gC k n')) (giam_fuel (gC k (n' + 1))) E E'); auto. }
  apply (lift _ _ (kstrict_in k (n - k) (n + k))); [reflexivity| |exact Ha]. intros l Hl. specialize (HC (Z.to_nat j) l Hl). unfold F in HC. rewrite Z2Nat.id in HC by lia. replace (n + Z.of_nat 0) with n in HC by lia.
  eexists _, _. split; [apply (gl_ok (sysC k n Hk false) l Hl)|]. split; [apply (gl_ok (sysC k (n + j) ltac:(lia) false) l (V_up k n j l Hj Hl))|exact HC].
Qed.
Lemma CD0 n p l : 1 <= n -> 1 <= p -> kstrict_in 0 (n - 0) (n + 0) l -> exists r W, piD 0 n false p l = Ok r /\ lincl r W /\ forall mu, coef_OG 0 n p l mu (W mu).
Proof.
  intros Hn Hp Hl. apply typed0 in Hl; [|lia]. destruct (pieriD_lincl 0 n p l) as (r & W & E & HL & HW); try lia; [replace (n + 1 - 0) with (n + 1) by lia; rewrite Z.add_0_r; auto|].
  exists r, W. split; [exact E|]. split; auto. intros mu. apply (coef0 n); auto; lia.
Qed.
Lemma c109_even m n j h h' a : 1 <= m <= n + 1 -> 1 <= n -> 0 <= j -> OrthogonalGrassmannian m (2 * n + 2) = Ok h -> OrthogonalGrassmannian (m + j) (2 * n + 2 + 2 * j) = Ok h' ->
  poly_in (class_OG m (2 * n + 2)) a ->
  exists e e', giambelli h a = Ok e /\ giambelli h' a = Ok e' /\ peq e (put (rows_above (2 * n + 1 - m)) e').
Proof.
  intros Hm Hn Hj Hh Hh' Ha. destruct (even_data m n h Hm Hh) as (-> & EV). rewrite EV in Ha. replace (2 * n + 2 + 2 * j) with (2 * (n + j) + 2) in Hh' by lia. destruct (even_data (m + j) (n + j) h' ltac:(lia) Hh') as (-> & _).
  replace (n + j + 1 - (m + j)) with (n + 1 - m) by lia. set (k := n + 1 - m) in *. replace (2 * n + 1 - m) with (n + k) by (unfold k; lia).
  apply (lift _ _ (typed_in k (n + 1 - k) (n + k))); [reflexivity| |exact Ha].
  destruct (Z.eq_dec k 0) as [K0|K0].
  - intros l Hl0. rewrite K0 in *. set (F := fun i => Gl (piD 0 (n + Z.of_nat i) false) 0 (giam_fuel (gD 0 (n + Z.of_nat i)))). assert (Hl : kstrict_in 0 (n - 0) (n + 0) l) by (apply typed0; [lia|]; replace (n + 1 - 0) with (n + 1) in Hl0 by lia; rewrite Z.add_0_r in Hl0; exact Hl0).
    assert (HC : forall i l, kstrict_in 0 (n - 0) (n + 0) l -> peq (F O l) (psubst (rows_above (n + 0)) (F i l))).
    { clear l Hl Hl0. apply chain.
      - intros l Hl. unfold F. replace (n + Z.of_nat 0) with n by lia. apply (gl_fix (sysD0 n false Hn)); auto; [reflexivity|]. intros i [_ Hi]. apply above_other. exact Hi.
      - intros i l Hl. apply (V_up 0 n (Z.of_nat i)) in Hl; [|lia]. unfold F. replace (n + Z.of_nat (S i)) with (n + Z.of_nat i + 1) in * by lia. replace (n + 0 + Z.of_nat i + 1) with (n + Z.of_nat i + 0 + 1) by lia. assert (Hn' : 1 <= n + Z.of_nat i) by lia. set (n' := n + Z.of_nat i) in *.
        destruct (gsB 0 n' ltac:(lia) ltac:(lia) (sysD0 (n' + 1) false ltac:(lia)) (sysD0 n' false Hn')) with (l := l) as (E & E' & E1 & E2 & E3); auto.
        + intros p x Hp Hx. apply CD0; auto; lia.
        + intros p x Hp Hx. apply CD0; auto.
        + apply (two_steps _ _ _ _ _ _ _ _ _ E1 E2 E3). }
    specialize (HC (Z.to_nat j) l Hl). unfold F in HC. rewrite Z2Nat.id in HC by lia. replace (n + Z.of_nat 0) with n in HC by lia.
    eexists _, _. split; [apply (gl_ok (sysD0 n false Hn) l Hl)|]. split; [apply (gl_ok (sysD0 (n + j) false ltac:(lia)) l (V_up 0 n j l Hj Hl))|exact HC].
  - set (F := fun i => Gl (piD k (n + Z.of_nat i) false) k (giam_fuel (gD k (n + Z.of_nat i)))). assert (Hk : 1 <= k <= n) by lia. assert (HC : forall i l, typed_in k (n + 1 - k) (n + k) l -> peq (F O l) (psubst (rows_above (n + k)) (F i l))).
    { apply chain.
      - intros l Hl. unfold F. replace (n + Z.of_nat 0) with n by lia. apply (gl_fix (sysD k n false (StabD.okS k n Hk))); auto; [reflexivity|]. intros i Hi. apply above_other. unfold ID in Hi. lia.
      - intros i l Hl. apply (V_upD k n (Z.of_nat i)) in Hl; [|lia]. unfold F. replace (n + Z.of_nat (S i)) with (n + Z.of_nat i + 1) in * by lia. replace (n + k + Z.of_nat i + 1) with (n + Z.of_nat i + k + 1) by lia. assert (Hn' : 1 <= k <= n + Z.of_nat i) by lia. set (n' := n + Z.of_nat i) in *.
        destruct (gsD k n' Hn' l Hl) as (E & E' & E1 & E2 & E3). apply (two_steps _ _ _ _ _ _ _ _ _ E1 E2 E3). }
    intros l Hl. specialize (HC (Z.to_nat j) l Hl). unfold F in HC. rewrite Z2Nat.id in HC by lia. replace (n + Z.of_nat 0) with n in HC by lia.
    eexists _, _. split; [apply (gl_ok (sysD k n false (StabD.okS k n Hk)) l Hl)|]. split; [apply (gl_ok (sysD k (n + j) false (StabD.okS k (n + j) ltac:(lia))) l (V_upD k n j l Hj Hl))|exact HC].
Qed.

(** ** type A *)
Lemma subst_psumf {A} s (f : A -> poly) l : peq (psubst s (psumf f l)) (psumf (fun x => psubst s (f x)) l).
Proof. induction l as [|x l IH]; [reflexivity|]. cbn [psumf fold_right]. rewrite psubst_padd. apply padd_proper; [reflexivity|exact IH]. Qed.
Lemma psumf_ext {A} (f g : A -> poly) l : (forall x, peq (f x) (g x)) -> peq (psumf f l) (psumf g l).
Proof. intros H. induction l as [|x l IH]; [reflexivity|]. cbn [psumf fold_right]. apply padd_proper; [apply H|exact IH]. Qed.
Lemma subst_det s d : forall M M', (forall i j, peq (psubst s (M i j)) (M' i j)) -> peq (psubst s (det d M)) (det d M').
Proof.
  induction d as [|d IH]; intros M M' H; [reflexivity|]. cbn [det]. rewrite subst_psumf. apply psumf_ext. intros i. rewrite psubst_pscale, psubst_pmul. apply pscale_proper, pmul_proper; [apply H|]. apply IH. intros r c. apply H.
Qed.
Lemma hclass_put k j z : 0 <= k -> 0 <= j -> peq (psubst (rows_above k) (hclass (k + j) z)) (hclass k z).
Proof.
  intros Hk Hj. unfold hclass. destruct (Z.eqb_spec z 0); [reflexivity|]. destruct (Z.ltb_spec 0 z); [|reflexivity]. cbn [andb].
  destruct (Z.leb_spec z (k + j)), (Z.leb_spec z k); try lia; [| |reflexivity].
  - unfold pS. rewrite psubst_pvar. unfold rows_above, vS. destruct (Z.ltb_spec k z); [lia|reflexivity].
  - unfold pS. rewrite psubst_pvar. unfold rows_above, vS. destruct (Z.ltb_spec k z); [reflexivity|lia].
Qed.
Lemma c109_A m n i j g g' a : 1 <= m -> 0 <= i -> 0 <= j -> Grassmannian m n = Ok g -> Grassmannian (m + i) (n + i + j) = Ok g' -> poly_in (in_box m (n - m)) a ->
  (exists e e', giambelli g a = Ok e /\ giambelli g' a = Ok e' /\ peq e (put (rows_above (n - m)) e')) /\
  (exists e e', qgiambelli g a = Ok e /\ qgiambelli g' a = Ok e' /\ peq e (put (rows_above (n - m)) e')).
Proof.
  intros Hm Hi Hj Hg Hg' Ha. apply FactsA.gr_inv in Hg. destruct Hg as (_ & Hk & ->). apply FactsA.gr_inv in Hg'. destruct Hg' as (_ & _ & ->).
  replace (n + i + j - (m + i)) with (n - m + j) by lia. set (k := n - m) in *. replace n with (m + k) by (unfold k; lia). replace (m + k + i + j) with (m + i + (k + j)) by lia.
  assert (HG : forall qq, exists e e', apply_lc (on_part (giambelli_rec_inner (giam_fuel (RingA.gA m k)) (RingA.piA m k qq) k)) a = Ok e /\
     apply_lc (on_part (giambelli_rec_inner (giam_fuel (RingA.gA (m + i) (k + j))) (RingA.piA (m + i) (k + j) qq) (k + j))) a = Ok e' /\ peq e (put (rows_above k) e')).
  { intros qq. apply (lift _ _ (in_box m k)); [reflexivity| |exact Ha]. intros l Hl. assert (Hl' : in_box (m + i) (k + j) l) by (destruct Hl as (A & B & C); split; auto; split; lia).
    destruct (giam_jt m k Hm Hk qq l Hl) as (E & E1 & E2). destruct (giam_jt (m + i) (k + j) ltac:(lia) ltac:(lia) qq l Hl') as (E' & E1' & E2').
    exists E, E'. split; [exact E1|]. split; [exact E1'|]. rewrite E2, (psubst_proper _ _ _ E2'). symmetry. apply subst_det. intros r c. apply hclass_put; lia. }
  split; [apply (HG false)|apply (HG true)].
Qed.
