(** The classical products of IG(m,N) and OG(m,N) with N odd are those of the larger spaces, restricted to the smaller set of
    classes. *)

From Coq Require Import ZArith List Lia Bool Permutation QArith Qcanon Setoid Morphisms.
From Verif Require Import Py OrderFacts PyFacts ModelPart ModelQcalc ModelPoly ModelStr ModelGr Spec SpecPieri SpecRing SpecAct SpecQG
  PolyFacts SuppFacts OpTheory GrInv WSum Sys Sys2 SysApi SysRing FillFacts PartFacts ConjFacts PieriCoef RecBCD CommC RingC RingData ApiRing TopClass CompsFacts CompsBound PieriD
  DetFacts QGiamC GiamDet PresIdeal2 DualSys ApiGr Check LGQuant IGQuant Restrict PowTwo.
Import ListNotations.
Open Scope Z_scope.

Section L.
Variables k n : Z.
Hypothesis Hks : 0 <= k <= n.
Notation Vs := (kstrict_in k (n - k) (n + k)).
Notation Vb := (kstrict_in k (n + 1 - k) (n + 1 + k)).
Notation t := (n + k + 1).
Notation mm := (Z.to_nat (n - k)).
Notation pis := (piC k n false).
Notation pib := (piC k (n + 1) false).
Let SS := sysC k n Hks false.
Let SB := sysC k (n + 1) (Hkb k n Hks) false.
Notation fit := (fits k n).
Notation D := (rD fit).
Notation rho := (psubst (dv D)).

Lemma fit_Vs l : Vb l -> fit l = true -> Vs l.
Proof.
  intros ((A & B & C) & E) F. unfold fits in F. apply andb_prop in F. destruct F as [F1 F2]. apply Nat.leb_le in F2. split; auto. split; auto. split; lia.
Qed.
Lemma strict_down mu j : kstrict k mu -> is_partition mu -> k < part mu j -> part mu j + Z.of_nat j <= part mu 0.
Proof.
  intros HK HP. induction j as [|j IH]; intros H; [lia|]. pose proof (proj2 HP j) as Hm. assert (k < part mu j) by lia. specialize (IH ltac:(lia)). pose proof (HK j ltac:(lia)). lia.
Qed.
(** no Pieri product leads back to the classes of the smaller space *)
Lemma nofit p l mu : Vb l -> fit l = false -> pieri_term k (n + 1) p l mu -> fit mu = false.
Proof.
  intros ((L1 & L2 & L3) & L4) F (((M1 & M2 & M3) & M4) & Hs & ((nu & Hnu & Hv & Hh) & _ & Hless)). unfold fits in F |- *. apply andb_false_iff in F.
  destruct (Z.leb_spec (part mu 0) (n + k)) as [P0|P0]; [|reflexivity]. destruct (Nat.leb_spec (length mu) mm) as [PL|PL]; [|reflexivity]. exfalso. destruct F as [F|F].
  - apply Z.leb_gt in F. destruct (Hv 0%nat) as [V1 V2]. pose proof (Hh 0%nat) as H1. destruct (Z.lt_ge_cases (part nu 0) (part l 0)) as [C|C]; [specialize (V2 C)|]; lia.
  - apply Nat.leb_gt in F. pose proof (count_1 l L1) as C1. pose proof (count_1 mu M1) as C2. unfold zlen in C1, C2. destruct (Hless 1 ltac:(lia) ltac:(lia)) as (row & HR). destruct (HR (n + 1 - k) ltac:(lia)) as ((rx, cx) & _ & ((X1 & X2) & _) & X3 & _).
    unfold related in X3. cbn [fst snd] in *. assert (Hj : (Z.to_nat (rx - 1) < length mu)%nat).
    { destruct (Nat.lt_ge_cases (Z.to_nat (rx - 1)) (length mu)) as [C|C]; [exact C|]. unfold part in X2. rewrite nth_overflow in X2 by exact C. lia. }
    destruct (Z.le_gt_cases cx (k + 1)) as [C|C]; [lia|]. pose proof (strict_down mu (Z.to_nat (rx - 1)) M4 M1 ltac:(lia)). lia.
Qed.
Lemma rho_kp p X : lincl p X -> peq (rho p) (psubst (kpv k n) p).
Proof.
  intros Hp. rewrite (subst_split (dv D) (kpv k n) (dv D) pzero p X Hp); [ring|]. intros l _. change (dv D (vS l)) with (D l). rewrite kpv_S. unfold rD. destruct (fit l); ring.
Qed.
Lemma s_in i l : IC k (n + 1) i -> (i <=? n + k) = true -> Vb l -> fit l = true -> peq (rho (P pib i l)) (P pis i l).
Proof.
  intros Hi _ Hl Fl. pose proof (fit_Vs l Hl Fl) as H0. destruct (pieriC_lincl k n l i Hks H0) as (a & Wa & Ea & Ha & HWa).
  destruct (pieriC_lincl k (n + 1) l i (Hkb k n Hks) Hl) as (b & Wb & Eb & Hb & HWb). assert (Eya : pis i l = Ok a) by exact Ea. assert (Eyb : pib i l = Ok b) by exact Eb. unfold P. rewrite Eya, Eyb.
  rewrite (rho_kp b Wb Hb). pose proof (lincl_kp k n b Wb Hb) as HH. intros m. rewrite (Ha m), (HH m). unfold wval. destruct m as [|[[x|u w]| | |] [|v m]]; auto. symmetry. apply (coef_sm k n Hks i l x); auto.
Qed.
Lemma s_out i l : IC k (n + 1) i -> Vb l -> (i <=? n + k) = false \/ fit l = false -> peq (rho (P pib i l)) pzero.
Proof.
  intros Hi Hl [F|F].
  - apply Z.leb_gt in F. assert (E : i = t) by (unfold IC in Hi; lia). rewrite E. destruct (fit l) eqn:Fl.
    + pose proof (fit_Vs l Hl Fl) as H0. rewrite (psubst_proper _ _ _ (top_small k n Hks l H0)), rho_S. unfold rD.
      assert (Ek : fit (t :: l) = false) by (unfold fits, part; cbn [nth]; apply andb_false_intro1; lia). rewrite Ek. reflexivity.
    + rewrite (psubst_proper _ _ _ (top_none k n Hks l Hl ltac:(intros A; apply (fits_Vs k n) in A; congruence))). reflexivity.
  - destruct (pieriC_lincl k (n + 1) l i (Hkb k n Hks) Hl) as (b & Wb & Eb & Hb & HWb). assert (Eyb : pib i l = Ok b) by exact Eb. unfold P. rewrite Eyb.
    rewrite (rho_kp b Wb Hb). pose proof (lincl_kp k n b Wb Hb) as HH. intros m. rewrite (HH m). change (coef pzero m) with 0%Qc. unfold wval. destruct m as [|[[x|u w]| | |] [|v m]]; auto.
    destruct (fit x) eqn:Fx; [|reflexivity]. destruct (Qc_eq_dec (Wb x) 0%Qc) as [->|Hc]; [reflexivity|]. exfalso. rewrite (nofit i l x Hl F (coef_IG_supp _ _ _ _ _ _ _ (HWb x) Hc)) in Fx. discriminate.
Qed.
Lemma s_nil : fit [] = true.
Proof. apply fits_Vs, RingC.kstrict_nil; lia. Qed.
Lemma s_I i : IC k (n + 1) i -> (i <=? n + k) = true -> IC k n i.
Proof. unfold IC. lia. Qed.
Definition step_coef a b nu d Ha Hb := r_coef SB SS fit (fun i => i <=? n + k) s_nil fit_Vs s_I s_in s_out a b nu d Ha Hb.
Definition step_ideal a b nu d Ha Hb := r_ideal SB SS fit (fun i => i <=? n + k) s_nil fit_Vs s_I s_in s_out a b nu d Ha Hb.
End L.

Notation MC k n := (M TC (piC k n false) k (giam_fuel (gC k n))).
Lemma V_up k n j l : 0 <= j -> kstrict_in k (n - k) (n + k) l -> kstrict_in k (n + j - k) (n + j + k) l.
Proof. intros Hj ((A & B & C) & E). split; auto. split; auto. split; lia. Qed.
Lemma stab k n (j : nat) a b nu : 0 <= k <= n -> kstrict_in k (n - k) (n + k) a -> kstrict_in k (n - k) (n + k) b -> kstrict_in k (n - k) (n + k) nu ->
  coef (MC k (n + Z.of_nat j) (pS a) (pS b)) (qS 0 nu) = coef (MC k n (pS a) (pS b)) (qS 0 nu).
Proof.
  intros Hk Ha Hb Hn. induction j as [|j IH]; [replace (n + Z.of_nat 0) with n by lia; reflexivity|].
  rewrite <- IH. replace (n + Z.of_nat (S j)) with (n + Z.of_nat j + 1) by lia. pose proof (V_up k n (Z.of_nat j) a ltac:(lia) Ha) as A. pose proof (V_up k n (Z.of_nat j) b ltac:(lia) Hb) as B. pose proof (V_up k n (Z.of_nat j) nu ltac:(lia) Hn) as C.
  set (n' := n + Z.of_nat j) in *. assert (Hk' : 0 <= k <= n') by lia. apply (step_coef k n' Hk'); try (apply small_big; auto); apply fits_Vs; auto.
Qed.
Lemma kdec k n l n' : kstrict_in k (n' - k) (n' + k) l -> 0 <= k <= n -> {kstrict_in k (n - k) (n + k) l} + {~ kstrict_in k (n - k) (n + k) l}.
Proof.
  intros Hl Hk. destruct (fits k n l) eqn:E; [left|right; intros A; apply (fits_Vs k n) in A; congruence].
  destruct Hl as ((A & B & C) & F). unfold fits in E. apply andb_prop in E. destruct E as [E1 E2]. apply Nat.leb_le in E2. split; auto. split; auto. split; lia.
Qed.
Lemma ideal k n (j : nat) : 0 <= k <= n -> forall a b nu, kstrict_in k (n + Z.of_nat j - k) (n + Z.of_nat j + k) a -> kstrict_in k (n + Z.of_nat j - k) (n + Z.of_nat j + k) b ->
  ~ kstrict_in k (n - k) (n + k) a -> kstrict_in k (n - k) (n + k) nu -> coef (MC k (n + Z.of_nat j) (pS a) (pS b)) (qS 0 nu) = 0%Qc.
Proof.
  intros Hk. induction j as [|j IH]; intros a b nu Ha Hb Hna Hnu; [exfalso; apply Hna; replace (n + Z.of_nat 0) with n in Ha by lia; exact Ha|].
  replace (n + Z.of_nat (S j)) with (n + Z.of_nat j + 1) in * by lia. pose proof (V_up k n (Z.of_nat j) nu ltac:(lia) Hnu) as C. set (n' := n + Z.of_nat j) in *. assert (Hk' : 0 <= k <= n') by lia.
  pose proof (fits_Vs k n' nu C) as FC. destruct (fits k n' a) eqn:Fa; [|apply (step_ideal k n' Hk'); auto]. destruct (fits k n' b) eqn:Fb.
  - rewrite (step_coef k n' Hk') by auto. apply IH; auto; apply fit_Vs; auto.
  - rewrite (sys_comm (sysC k (n' + 1) (Hkb k n' Hk') false) (pS a) (pS b) (sys_lq_pS (V := kstrict_in k (n' + 1 - k) (n' + 1 + k)) a Ha) (sys_lq_pS (V := kstrict_in k (n' + 1 - k) (n' + 1 + k)) b Hb) (qS 0 nu)).
    apply (step_ideal k n' Hk'); auto.
Qed.

(** ** the interface *)
Section Api.
Variables (m N j : Z) (g g' : gr).
Hypothesis Hj : 0 <= j.
Hypothesis Hg : IsotropicGrassmannian m N = Ok g.
Hypothesis Hg' : IsotropicGrassmannian (m + j) (N + 2 * j) = Ok g'.
Lemma dataj : exists k n, 0 <= k <= n /\ g = mkGr TC k n /\ class_IG m N = kstrict_in k (n - k) (n + k) /\
  g' = mkGr TC k (n + j) /\ class_IG (m + j) (N + 2 * j) = kstrict_in k (n + j - k) (n + j + k).
Proof.
  destruct (ig_inv _ _ _ Hg) as (n & EN & En & Hmn & Eg). destruct (ig_inv _ _ _ Hg') as (n' & EN' & En' & Hmn' & Eg'). assert (E1 : n' = n + j) by lia. rewrite E1 in En', Eg'.
  exists (n - m), n. split; [lia|]. split; [exact Eg|].
  split; [change (class_IG m N) with (kstrict_in (N / 2 - m) m (N - m)); rewrite En; f_equal; lia|]. split; [rewrite Eg'; f_equal; lia|].
  change (class_IG (m + j) (N + 2 * j)) with (kstrict_in ((N + 2 * j) / 2 - (m + j)) (m + j) (N + 2 * j - (m + j))). rewrite En'. f_equal; lia.
Qed.
Lemma prodC k n x y : 0 <= k <= n -> kstrict_in k (n - k) (n + k) x -> kstrict_in k (n - k) (n + k) y -> exists r, mult (mkGr TC k n) (pS x) (pS y) = Ok r /\ peq r (MC k n (pS x) (pS y)).
Proof.
  intros Hk Hx Hy. destruct (api_prod (sysC k n Hk false) (pS x) (pS y)) as (r & E & Pr & _); [apply lin_comb_poly_in, lin_comb_iff, sys_lq_pS; auto|apply lin_comb_iff, sys_lq_pS; auto|]. exists r. split; auto.
Qed.
Lemma c108_IG :
  (forall a, class_IG m N a -> class_IG (m + j) (N + 2 * j) a) /\
  (forall a b, class_IG m N a -> class_IG m N b -> exists s r, mult g (pS a) (pS b) = Ok s /\ mult g' (pS a) (pS b) = Ok r /\
     forall nu, class_IG m N nu -> coef r (qS 0 nu) = coef s (qS 0 nu)) /\
  (forall a b, class_IG (m + j) (N + 2 * j) a -> ~ class_IG m N a -> class_IG (m + j) (N + 2 * j) b -> exists r, mult g' (pS a) (pS b) = Ok r /\
     forall nu, class_IG m N nu -> coef r (qS 0 nu) = 0%Qc).
Proof.
  destruct dataj as (k & n & Hk & Eg & EV & Eg' & EV'). rewrite EV, EV', Eg, Eg'. assert (Hk' : 0 <= k <= n + j) by lia. split; [intros a; apply V_up; auto|]. split.
  - intros a b Ha Hb. destruct (prodC k n a b Hk Ha Hb) as (s & Es & Qs). destruct (prodC k (n + j) a b Hk' (V_up k n j a Hj Ha) (V_up k n j b Hj Hb)) as (r & Er & Qr).
    exists s, r. split; [exact Es|]. split; [exact Er|]. intros nu Hnu. rewrite (Qs _), (Qr _). pose proof (stab k n (Z.to_nat j) a b nu Hk Ha Hb Hnu) as H. rewrite Z2Nat.id in H by lia. exact H.
  - intros a b Ha Hna Hb. destruct (prodC k (n + j) a b Hk' Ha Hb) as (r & Er & Qr). exists r. split; [exact Er|]. intros nu Hnu. rewrite (Qr _).
    pose proof (ideal k n (Z.to_nat j) Hk a b nu) as H. rewrite Z2Nat.id in H by lia. auto.
Qed.
End Api.

Lemma ig_ok m n : 0 <= m <= n -> exists g, IsotropicGrassmannian m (2 * n) = Ok g.
Proof.
  intros H. unfold IsotropicGrassmannian. assert (E1 : (m <? 0) || (2 * n <? 0) = false) by lia. rewrite E1. assert (E2 : (2 * n) mod 2 = 0) by (rewrite Z.mul_comm; apply Z.mod_mul; lia). rewrite E2.
  assert (E3 : 2 * n / 2 = n) by (rewrite Z.mul_comm; apply Z.div_mul; lia). rewrite E3. cbn [Z.eqb]. assert (E4 : (n <? m) = false) by lia. rewrite E4. eauto.
Qed.
Lemma mul_reg (a b c : Qc) : c <> 0%Qc -> (c * a = c * b)%Qc -> a = b.
Proof. intros Hc E. transitivity (/ c * (c * a))%Qc; [rewrite Qcmult_assoc, Qcmult_inv_l by auto; ring|]. rewrite E, Qcmult_assoc, Qcmult_inv_l by auto. ring. Qed.
Lemma c108_OG m n j h h' : 1 <= m <= n -> 0 <= j -> OrthogonalGrassmannian m (2 * n + 1) = Ok h -> OrthogonalGrassmannian (m + j) (2 * n + 1 + 2 * j) = Ok h' ->
  (forall a, class_OG m (2 * n + 1) a -> class_OG (m + j) (2 * n + 1 + 2 * j) a) /\
  (forall a b, class_OG m (2 * n + 1) a -> class_OG m (2 * n + 1) b -> exists s r, mult h (pS a) (pS b) = Ok s /\ mult h' (pS a) (pS b) = Ok r /\
     forall nu, class_OG m (2 * n + 1) nu -> coef r (qS 0 nu) = coef s (qS 0 nu)) /\
  (forall a b, class_OG (m + j) (2 * n + 1 + 2 * j) a -> ~ class_OG m (2 * n + 1) a -> class_OG (m + j) (2 * n + 1 + 2 * j) b -> exists r, mult h' (pS a) (pS b) = Ok r /\
     forall nu, class_OG m (2 * n + 1) nu -> coef r (qS 0 nu) = 0%Qc).
Proof.
  intros [Hm Hmn] Hj Hh Hh'.
  assert (Hg : exists g, IsotropicGrassmannian m (2 * n) = Ok g) by (apply ig_ok; lia). assert (Hg' : exists g', IsotropicGrassmannian (m + j) (2 * (n + j)) = Ok g') by (apply ig_ok; lia).
  destruct Hg as (g & Hg). destruct Hg' as (g' & Hg'). replace (2 * n + 1 + 2 * j) with (2 * (n + j) + 1) in * by lia.
  destruct (c60 m n g h Hm Hg Hh) as [V1 P1]. destruct (c60 (m + j) (n + j) g' h' ltac:(lia) Hg' Hh') as [V2 P2].
  pose proof Hg' as Hg2. replace (2 * (n + j)) with (2 * n + 2 * j) in Hg2, V2, P2 |- * by lia. destruct (c108_IG m (2 * n) j g g' Hj Hg Hg2) as (Q1 & Q2 & Q3).
  replace (n + j - (m + j) + 1) with (n - m + 1) in P2 by lia. split; [intros a Ha; apply V2, Q1, V1; auto|]. split.
  - intros a b Ha Hb. apply V1 in Ha, Hb. destruct (Q2 a b Ha Hb) as (r & r' & E1 & E2 & E3). destruct (P1 a b Ha Hb) as (r0 & s & F1 & F2 & F3). destruct (P2 a b (Q1 a Ha) (Q1 b Hb)) as (r1 & s' & G1 & G2 & G3).
    assert (r0 = r) by congruence. assert (r1 = r') by congruence. subst r0 r1. exists s, s'. split; auto. split; auto. intros nu Hnu. apply V1 in Hnu. specialize (E3 nu Hnu). change (qS 0 nu) with [vS nu] in *. specialize (F3 nu). specialize (G3 nu). rewrite E3 in G3.
    apply (mul_reg _ _ (two_to (count_ge a (n - m + 1) + count_ge b (n - m + 1)))); [apply two_to_nz; pose proof (count_ge_nonneg a (n - m + 1)); pose proof (count_ge_nonneg b (n - m + 1)); lia|]. congruence.
  - intros a b Ha Hna Hb. apply V2 in Ha, Hb. assert (Hna' : ~ class_IG m (2 * n) a) by (intros X; apply Hna, V1; auto). destruct (Q3 a b Ha Hna' Hb) as (r' & E2 & E3). destruct (P2 a b Ha Hb) as (r1 & s' & G1 & G2 & G3).
    assert (r1 = r') by congruence. subst r1. exists s'. split; auto. intros nu Hnu. apply V1 in Hnu. specialize (E3 nu Hnu). change (qS 0 nu) with [vS nu] in *. specialize (G3 nu). rewrite E3 in G3.
    apply (mul_reg _ _ (two_to (count_ge a (n - m + 1) + count_ge b (n - m + 1)))); [apply two_to_nz; pose proof (count_ge_nonneg a (n - m + 1)); pose proof (count_ge_nonneg b (n - m + 1)); lia|]. rewrite <- G3. ring.
Qed.
