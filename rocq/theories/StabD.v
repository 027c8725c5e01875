(** The classical products of OG(m,N) with N even are those of the larger spaces, restricted to the smaller set of classes. *)

From Coq Require Import ZArith List Lia Bool Permutation QArith Qcanon Setoid Morphisms.
From Verif Require Import Py OrderFacts PyFacts ModelPart ModelQcalc ModelPoly ModelStr ModelGr Spec SpecPieri SpecRing SpecAct SpecQG
  PolyFacts SuppFacts OpTheory GrInv WSum Sys Sys2 SysApi SysRing FillFacts PartFacts ConjFacts PieriCoef PieriD QPieriD RecBCD CommC RingC RingD RingD0 RingData ApiRing ApiRingD TopClass CompsFacts CompsBound
  DetFacts QGiamC GiamDet PresIdeal2 DualSys ApiGr Check Restrict SwapRing StabC.
Import ListNotations.
Open Scope Z_scope.

(** putting some classes to 0 *)
Lemma lincl_rD fit p X : lincl p X -> lincl (psubst (dv (rD fit)) p) (fun l => if fit l then X l else 0%Qc).
Proof.
  intros Hp. destruct (lincl_wl p X Hp) as (ls & Hnd & E & HW). intros m. rewrite (psubst_proper _ _ _ E m). rewrite (psubst_wl (dv (rD fit)) ls X m).
  assert (HH : wval (fun l => if fit l then X l else 0%Qc) m = wval (fun l => if fit l then coef (wl ls X) [vS l] else 0%Qc) m).
  { unfold wval. destruct m as [|[[l|a b]| | |] [|v m]]; auto. change (VS (SP l)) with (vS l). rewrite <- (E [vS l]), (lincl_coef p X l Hp). reflexivity. }
  rewrite HH. clear HH HW E Hp Hnd. induction ls as [|l ls IH].
  - cbn. unfold wval. destruct m as [|[[l|a b]| | |] [|v m]]; auto. destruct (fit l); reflexivity.
  - cbn [fold_right]. rewrite coef_padd, IH. change (wl (l :: ls) X) with (([vS l], X l) :: wl ls X). rewrite coef_pscale. change (dv (rD fit) (vS l)) with (rD fit l). unfold rD at 1.
    assert (Ec : forall x, coef (([vS l], X l) :: wl ls X) [vS x] = ((if l_dec l x then X l else 0) + coef (wl ls X) [vS x])%Qc).
    { intros x. change (([vS l], X l) :: wl ls X) with (wl (l :: ls) X). transitivity (coef (padd (pscale (X l) (pS l)) (wl ls X)) [vS x]).
      - apply poly_cons.
      - rewrite coef_padd, coef_pscale, coef_pS. unfold wval, vS. destruct (l_dec l x); ring. }
    destruct (fit l) eqn:El.
    + rewrite coef_pS. unfold wval. destruct m as [|[[x|a b]| | |] [|v m]]; try ring.
      change (VS (SP x)) with (vS x). rewrite Ec. destruct (l_dec l x) as [<-|]; [rewrite El; ring|]. destruct (fit x); ring.
    + change (coef pzero m) with 0%Qc. unfold wval. destruct m as [|[[x|a b]| | |] [|v m]]; try ring. change (VS (SP x)) with (vS x). rewrite Ec.
      destruct (l_dec l x) as [<-|]; [rewrite El; ring|]. destruct (fit x); ring.
Qed.
Definition fitD (k n : Z) (l : list Z) : bool := (part (shape l) 0 <=? n + k) && (length (shape l) <=? Z.to_nat (n + 1 - k))%nat.
Lemma fitD_typed k n r c l : typed_in k r c l -> 0 <= k <= n + 1 -> (fitD k n l = true <-> typed_in k (n + 1 - k) (n + k) l).
Proof.
  intros Hl Hk. unfold fitD. rewrite andb_true_iff, Z.leb_le, Nat.leb_le. split.
  - intros [F1 F2]. destruct (typed_shape _ _ _ _ Hl) as (((A & B & C) & D) & E). assert (HS : kstrict_in k (n + 1 - k) (n + k) (shape l)) by (split; auto; split; auto; split; lia).
    destruct E as [E|(E & K0 & Kin)]; [left; rewrite E; exact HS|]. right. exists (shape l). auto.
  - intros H. destruct (typed_shape _ _ _ _ H) as (((A & B & C) & D) & _). split; lia.
Qed.

Section L.
Variables k n : Z.
Hypothesis Hks : 1 <= k <= n.
Notation Vs := (typed_in k (n + 1 - k) (n + k)).
Notation Vb := (typed_in k (n + 1 + 1 - k) (n + 1 + k)).
Notation t := (n + k + 1).
Lemma okS : okD false k n. Proof. split; [lia|discriminate]. Qed.
Lemma okB : okD false k (n + 1). Proof. split; [lia|discriminate]. Qed.
Let SS := sysD k n false okS.
Let SB := sysD k (n + 1) false okB.
Notation pis := (piD k n false).
Notation pib := (piD k (n + 1) false).
Notation fit := (fitD k n).
Notation rho := (psubst (dv (rD fit))).
Lemma Vs_Vb l : Vs l -> Vb l.
Proof. apply typed_mono; lia. Qed.
Lemma fit_VsD l : Vb l -> fit l = true -> Vs l.
Proof. intros H F. apply (fitD_typed k n _ _ l H); [lia|exact F]. Qed.
Lemma Vs_fitD l : Vs l -> fit l = true.
Proof. intros H. apply (fitD_typed k n _ _ l H); [lia|exact H]. Qed.
Lemma nofitD p l mu : Vb l -> fit l = false -> pieri_term_D k (n + 1) p l mu -> fit mu = false.
Proof.
  intros Hl F (Hm & _ & ((nu & Hnu & Hv & Hh) & _ & Hless) & _). destruct (typed_shape _ _ _ _ Hl) as (((L1 & L2 & L3) & L4) & _). destruct (typed_shape _ _ _ _ Hm) as (((M1 & M2 & M3) & M4) & _).
  unfold fitD in F |- *. set (sl := shape l) in *. set (sm := shape mu) in *. apply andb_false_iff in F.
  destruct (Z.leb_spec (part sm 0) (n + k)) as [P0|P0]; [|reflexivity]. destruct (Nat.leb_spec (length sm) (Z.to_nat (n + 1 - k))) as [PL|PL]; [|reflexivity]. exfalso. destruct F as [F|F].
  - apply Z.leb_gt in F. destruct (Hv 0%nat) as [V1 V2]. pose proof (Hh 0%nat) as H1. destruct (Z.lt_ge_cases (part nu 0) (part sl 0)) as [C|C]; [specialize (V2 C)|]; lia.
  - apply Nat.leb_gt in F. pose proof (count_1 sl L1) as C1. pose proof (count_1 sm M1) as C2. unfold zlen in C1, C2. destruct (Hless 1 ltac:(lia) ltac:(lia)) as (row & HR). destruct (HR (n + 2 - k) ltac:(lia)) as ((rx, cx) & _ & ((X1 & X2) & _) & X3 & _).
    unfold related in X3. cbn [fst snd] in *. assert (Hj : (Z.to_nat (rx - 1) < length sm)%nat).
    { destruct (Nat.lt_ge_cases (Z.to_nat (rx - 1)) (length sm)) as [C|C]; [exact C|]. unfold part in X2. rewrite nth_overflow in X2 by exact C. lia. }
    destruct (Z.le_gt_cases cx k) as [C|C]; [lia|]. pose proof (strict_down k sm (Z.to_nat (rx - 1)) M4 M1 ltac:(lia)). lia.
Qed.
Lemma topfitD l mu : Vb l -> pieri_term_D k (n + 1) t l mu -> fit mu = false.
Proof.
  intros Hl (Hm & Hs & Ha & _). destruct (typed_shape _ _ _ _ Hl) as (((L1 & L2 & L3) & L4) & _). destruct (typed_shape _ _ _ _ Hm) as (((M1 & M2 & M3) & M4) & _).
  rewrite <- (size_shape _ _ _ _ Hl), <- (size_shape _ _ _ _ Hm) in Hs. unfold fitD. rewrite (top_shape 1 k t (shape l) (shape mu)) by (auto; lia). apply andb_false_intro1. unfold part. cbn [nth]. lia.
Qed.
Lemma coef_smD p l mu c c' : Vs l -> coef_D k n p l mu c -> coef_D k (n + 1) p l mu c' -> c = if fit mu then c' else 0%Qc.
Proof.
  intros H0 Hc Hc'. assert (Ht : pieri_term_D k n p l mu <-> pieri_term_D k (n + 1) p l mu /\ fit mu = true).
  { split.
    - intros (A & B & C). split; [split; [apply Vs_Vb; auto|auto]|]. apply Vs_fitD; auto.
    - intros [(A & B & C) Hx]. split; [apply fit_VsD; auto|auto]. }
  destruct (fit mu).
  - destruct Hc as [(H1 & N & H2 & _ & ->)|(H1 & ->)], Hc' as [(H3 & N' & H4 & _ & ->)|(H3 & ->)]; try tauto. rewrite (component_count_unique _ _ _ _ H2 H4). reflexivity.
  - destruct Hc as [(H1 & _)|(_ & ->)]; auto. apply Ht in H1. destruct H1. discriminate.
Qed.
Lemma s_inD i l : ID k (n + 1) i -> (i <=? n + k) = true -> Vb l -> fit l = true -> peq (rho (P pib i l)) (P pis i l).
Proof.
  intros Hi _ Hl Fl. pose proof (fit_VsD l Hl Fl) as H0. destruct (pieriD_lincl k n i l) as (a & Wa & Ea & Ha & HWa); try lia; auto.
  destruct (pieriD_lincl k (n + 1) i l) as (b & Wb & Eb & Hb & HWb); try lia; auto. assert (Eya : pis i l = Ok a) by exact Ea. assert (Eyb : pib i l = Ok b) by exact Eb. unfold P. rewrite Eya, Eyb.
  pose proof (lincl_rD fit b Wb Hb) as HH. intros m. rewrite (Ha m), (HH m). unfold wval. destruct m as [|[[x|u w]| | |] [|v m]]; auto. symmetry. apply (coef_smD i l x); auto.
Qed.
Lemma s_outD i l : ID k (n + 1) i -> Vb l -> (i <=? n + k) = false \/ fit l = false -> peq (rho (P pib i l)) pzero.
Proof.
  intros Hi Hl F. destruct (pieriD_lincl k (n + 1) i l) as (b & Wb & Eb & Hb & HWb); try lia; auto. assert (Eyb : pib i l = Ok b) by exact Eb. unfold P. rewrite Eyb.
  pose proof (lincl_rD fit b Wb Hb) as HH. intros m. rewrite (HH m). change (coef pzero m) with 0%Qc. unfold wval. destruct m as [|[[x|u w]| | |] [|v m]]; auto.
  destruct (fit x) eqn:Fx; [|reflexivity]. destruct (Qc_eq_dec (Wb x) 0%Qc) as [->|Hc]; [reflexivity|]. exfalso. pose proof (coef_D_supp _ _ _ _ _ _ (HWb x) Hc) as HT. destruct F as [F|F].
  - apply Z.leb_gt in F. assert (E : i = t) by (unfold ID in Hi; lia). rewrite E in HT. rewrite (topfitD l x Hl HT) in Fx. discriminate.
  - rewrite (nofitD i l x Hl F HT) in Fx. discriminate.
Qed.
Lemma s_nilD : fit [] = true.
Proof. apply Vs_fitD. left. apply RingC.kstrict_nil; lia. Qed.
Lemma s_ID i : ID k (n + 1) i -> (i <=? n + k) = true -> ID k n i.
Proof. unfold ID. lia. Qed.
Definition step_coefD a b nu d Ha Hb := r_coef SB SS fit (fun i => i <=? n + k) s_nilD fit_VsD s_ID s_inD s_outD a b nu d Ha Hb.
Definition step_idealD a b nu d Ha Hb := r_ideal SB SS fit (fun i => i <=? n + k) s_nilD fit_VsD s_ID s_inD s_outD a b nu d Ha Hb.
End L.

Notation MD k n := (M TD (piD k n false) k (giam_fuel (gD k n))).
Notation VD k n := (typed_in k (n + 1 - k) (n + k)).
Lemma V_upD k n j l : 0 <= j -> VD k n l -> VD k (n + j) l.
Proof. intros Hj. apply typed_mono; lia. Qed.
Lemma stabD k n (j : nat) a b nu : 1 <= k <= n -> VD k n a -> VD k n b -> VD k n nu ->
  coef (MD k (n + Z.of_nat j) (pS a) (pS b)) (qS 0 nu) = coef (MD k n (pS a) (pS b)) (qS 0 nu).
Proof.
  intros Hk Ha Hb Hn. induction j as [|j IH]; [replace (n + Z.of_nat 0) with n by lia; reflexivity|].
  rewrite <- IH. replace (n + Z.of_nat (S j)) with (n + Z.of_nat j + 1) by lia. pose proof (V_upD k n (Z.of_nat j) a ltac:(lia) Ha) as A. pose proof (V_upD k n (Z.of_nat j) b ltac:(lia) Hb) as B. pose proof (V_upD k n (Z.of_nat j) nu ltac:(lia) Hn) as C.
  set (n' := n + Z.of_nat j) in *. assert (Hk' : 1 <= k <= n') by lia. apply (step_coefD k n' Hk'); try (apply Vs_Vb; auto); apply Vs_fitD; auto.
Qed.
Lemma idealD k n (j : nat) : 1 <= k <= n -> forall a b nu, VD k (n + Z.of_nat j) a -> VD k (n + Z.of_nat j) b ->
  ~ VD k n a -> VD k n nu -> coef (MD k (n + Z.of_nat j) (pS a) (pS b)) (qS 0 nu) = 0%Qc.
Proof.
  intros Hk. induction j as [|j IH]; intros a b nu Ha Hb Hna Hnu; [exfalso; apply Hna; replace (n + Z.of_nat 0) with n in Ha by lia; exact Ha|].
  replace (n + Z.of_nat (S j)) with (n + Z.of_nat j + 1) in * by lia. pose proof (V_upD k n (Z.of_nat j) nu ltac:(lia) Hnu) as C. set (n' := n + Z.of_nat j) in *. assert (Hk' : 1 <= k <= n') by lia.
  pose proof (Vs_fitD k n' Hk' nu C) as FC. destruct (fitD k n' a) eqn:Fa; [|apply (step_idealD k n' Hk'); auto]. destruct (fitD k n' b) eqn:Fb.
  - rewrite (step_coefD k n' Hk') by auto. apply IH; auto; apply fit_VsD; auto.
  - rewrite (sys_comm (sysD k (n' + 1) false (okB k n' Hk')) (pS a) (pS b) (sys_lq_pS (V := VD k (n' + 1)) a Ha) (sys_lq_pS (V := VD k (n' + 1)) b Hb) (qS 0 nu)).
    apply (step_idealD k n' Hk'); auto.
Qed.
Lemma prodD k n x y : 1 <= k <= n -> VD k n x -> VD k n y -> exists r, mult (mkGr TD k n) (pS x) (pS y) = Ok r /\ peq r (MD k n (pS x) (pS y)).
Proof.
  intros Hk Hx Hy. destruct (api_prod (sysD k n false (okS k n Hk)) (pS x) (pS y)) as (r & E & Pr & _); [apply lin_comb_poly_in, lin_comb_iff, sys_lq_pS; auto|apply lin_comb_iff, sys_lq_pS; auto|]. exists r. split; auto.
Qed.

(** ** the interface *)
Lemma even_data m n h : 1 <= m <= n + 1 -> OrthogonalGrassmannian m (2 * n + 2) = Ok h -> h = mkGr TD (n + 1 - m) n /\ class_OG m (2 * n + 2) = VD (n + 1 - m) n.
Proof.
  intros Hm Hh. assert (E2 : (2 * n + 2) / 2 = n + 1) by (symmetry; apply (Z.div_unique _ 2 (n + 1) 0); lia). assert (Ev : Z.even (2 * n + 2) = true) by (rewrite Z.even_add, Z.even_mul; reflexivity).
  split; [|apply class_even; auto].
  destruct (og_inv _ _ _ Hh ltac:(lia)) as [(n0 & EN & En & Ev' & Hmn & Eg)|(n0 & EN & En & Ev' & Hmn & Eg)]; [congruence|]. rewrite Eg. f_equal; lia.
Qed.
Lemma odd_ok n : 1 <= n -> exists g, OrthogonalGrassmannian n (2 * n + 1) = Ok g.
Proof.
  intros H. unfold OrthogonalGrassmannian. assert (E1 : (n <? 0) || (2 * n + 1 <? 0) = false) by lia. rewrite E1.
  assert (E3 : (2 * n + 1) / 2 = n) by (symmetry; apply (Z.div_unique _ 2 n 1); lia). rewrite ?E3.
  repeat match goal with |- context [if ?b then _ else _] => destruct b eqn:?; try lia end; eauto.
Qed.
Lemma c108_OGeven m n j h h' : 1 <= m <= n + 1 -> 1 <= n -> 0 <= j -> OrthogonalGrassmannian m (2 * n + 2) = Ok h -> OrthogonalGrassmannian (m + j) (2 * n + 2 + 2 * j) = Ok h' ->
  (forall a, class_OG m (2 * n + 2) a -> class_OG (m + j) (2 * n + 2 + 2 * j) a) /\
  (forall a b, class_OG m (2 * n + 2) a -> class_OG m (2 * n + 2) b -> exists s r, mult h (pS a) (pS b) = Ok s /\ mult h' (pS a) (pS b) = Ok r /\
     forall nu, class_OG m (2 * n + 2) nu -> coef r (qS 0 nu) = coef s (qS 0 nu)) /\
  (forall a b, class_OG (m + j) (2 * n + 2 + 2 * j) a -> ~ class_OG m (2 * n + 2) a -> class_OG (m + j) (2 * n + 2 + 2 * j) b ->
     exists r, mult h' (pS a) (pS b) = Ok r /\ forall nu, class_OG m (2 * n + 2) nu -> coef r (qS 0 nu) = 0%Qc).
Proof.
  intros Hm Hn Hj Hh Hh'. destruct (Z.eq_dec m (n + 1)) as [Em|Nm].
  - rewrite Em in *. destruct (odd_ok n ltac:(lia)) as (g & Hg). destruct (odd_ok (n + j) ltac:(lia)) as (g' & Hg').
    replace (n + 1 + j) with (n + j + 1) in * by lia. replace (2 * n + 2 + 2 * j) with (2 * (n + j) + 2) in * by lia.
    destruct (c59 n g h ltac:(lia) Hg Hh) as [V1 P1]. destruct (c59 (n + j) g' h' ltac:(lia) Hg' Hh') as [V2 P2].
    assert (LC : forall (V : list Z -> Prop) x, V x -> lin_comb V (pS x)) by (intros V x Hx; apply lin_comb_iff, sys_lq_pS; exact Hx).
    replace (2 * (n + j) + 1) with (2 * n + 1 + 2 * j) in Hg', V2, P2 by lia. destruct (c108_OG n n j g g' ltac:(lia) Hj Hg Hg') as (Q1 & Q2 & Q3).
    split; [intros a Ha; apply V2, Q1, V1; auto|]. split.
    + intros a b Ha Hb. apply V1 in Ha, Hb. destruct (Q2 a b Ha Hb) as (s & r & E1 & E2 & E3). destruct (P1 (pS a) (pS b) (LC _ a Ha) (LC _ b Hb)) as [(s1 & s' & F1 & F2 & F3) _].
      destruct (P2 (pS a) (pS b) (LC _ a (Q1 a Ha)) (LC _ b (Q1 b Hb))) as [(r1 & r' & G1 & G2 & G3) _]. assert (s1 = s) by congruence. assert (r1 = r) by congruence. subst s1 r1.
      exists s', r'. split; auto. split; auto. intros nu Hnu. rewrite <- (F3 _), <- (G3 _). apply E3, V1; auto.
    + intros a b Ha Hna Hb. apply V2 in Ha, Hb. assert (Hna' : ~ class_OG n (2 * n + 1) a) by (intros X; apply Hna, V1; auto). destruct (Q3 a b Ha Hna' Hb) as (r & E2 & E3).
      destruct (P2 (pS a) (pS b) (LC _ a Ha) (LC _ b Hb)) as [(r1 & r' & G1 & G2 & G3) _]. assert (r1 = r) by congruence. subst r1. exists r'. split; auto. intros nu Hnu. rewrite <- (G3 _). apply E3, V1; auto.
  - destruct (even_data m n h Hm Hh) as (Eg & EV). replace (2 * n + 2 + 2 * j) with (2 * (n + j) + 2) in * by lia. destruct (even_data (m + j) (n + j) h' ltac:(lia) Hh') as (Eg' & EV').
    replace (n + j + 1 - (m + j)) with (n + 1 - m) in * by lia. rewrite EV, EV', Eg, Eg'. set (k := n + 1 - m) in *. assert (Hk : 1 <= k <= n) by lia. assert (Hk' : 1 <= k <= n + j) by lia.
    split; [intros a; apply V_upD; auto|]. split.
    + intros a b Ha Hb. destruct (prodD k n a b Hk Ha Hb) as (s & Es & Qs). destruct (prodD k (n + j) a b Hk' (V_upD k n j a Hj Ha) (V_upD k n j b Hj Hb)) as (r & Er & Qr).
      exists s, r. split; [exact Es|]. split; [exact Er|]. intros nu Hnu. rewrite (Qs _), (Qr _). pose proof (stabD k n (Z.to_nat j) a b nu Hk Ha Hb Hnu) as H. rewrite Z2Nat.id in H by lia. exact H.
    + intros a b Ha Hna Hb. destruct (prodD k (n + j) a b Hk' Ha Hb) as (r & Er & Qr). exists r. split; [exact Er|]. intros nu Hnu. rewrite (Qr _).
      pose proof (idealD k n (Z.to_nat j) Hk a b nu) as H. rewrite Z2Nat.id in H by lia. auto.
Qed.
