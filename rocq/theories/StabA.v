(** The classical products of Gr(m,n) are those of Gr(m+i,n+i+j), restricted to the smaller box. *)

From Coq Require Import ZArith List Lia Bool Permutation QArith Qcanon Setoid Morphisms.
From Verif Require Import Py OrderFacts PyFacts ModelPart ModelQcalc ModelPoly ModelStr ModelGr Spec SpecRing
  PolyFacts SuppFacts OpTheory WSum Sys Sys2 SysApi SysRing FillFacts PartFacts ConjFacts RecBCD DetFacts GiamDet DualSys RingA FactsA ApiA ApiGr Restrict StabD.
Import ListNotations.
Open Scope Z_scope.

Definition RA (m k i : Z) (l mu : list Z) : Prop := in_box m k mu /\ adds_horizontal_strip l mu /\ size mu = size l + i.
Lemma P_sum m k i l : 1 <= m -> 0 <= k -> in_box m k l -> 0 <= i -> is_sum_of (P (piA m k false) i l) (fun d mu => d = O /\ RA m k i l mu).
Proof.
  intros Hm Hk Hl Hi. destruct (on_class (piA m k false i) l (P (piA m k false) i l)) as (p & Ep & Pp).
  { destruct (piA_enum m k Hm Hk false i l Hl Hi) as (x & Ex & _). unfold P. rewrite Ex. auto. }
  destruct (pieriA_sum m k Hm Hk i l Hl Hi) as (p' & E' & S'). change (pieri (gA m k) i (pS l)) with (apply_lc (on_part (piA m k false i)) (pS l)) in E'.
  rewrite Ep in E'. inversion E'; subst p'. eapply is_sum_peq; [exact Pp|]. eapply is_sum_iff; [|exact S']. intros d mu. unfold RA. tauto.
Qed.
Lemma sum_lincl p R : is_sum_of p (fun d mu => d = O /\ R mu) -> lincl p (fun l => coef p [vS l]).
Proof.
  intros [_ H] mo. unfold wval. destruct (Qc_eq_dec (coef p mo) 0%Qc) as [E|E].
  - destruct mo as [|[[x|u w]| | |] [|v mo]]; auto.
  - destruct (H mo E) as (d & mu & (-> & _) & HP). cbn [qS repeat] in HP. apply Permutation_sym, Permutation_length_1_inv in HP. rewrite HP. reflexivity.
Qed.
Lemma sum_coef p R mu : is_sum_of p (fun d mu => d = O /\ R mu) -> (R mu -> coef p [vS mu] = 1%Qc) /\ (coef p [vS mu] <> 0%Qc -> R mu).
Proof.
  intros [H1 H2]. split.
  - intros H. apply (H1 0%nat mu). auto.
  - intros H. destruct (H2 _ H) as (d & x & (-> & Hx) & HP). cbn [qS repeat] in HP. apply Permutation_length_1_inv in HP. injection HP as ->. exact Hx.
Qed.
Lemma strip_top l mu : is_partition l -> is_partition mu -> adds_horizontal_strip l mu -> size mu <= size l + part mu 0.
Proof.
  intros Hl Hm Hs. destruct mu as [|x t]; [pose proof (RingC.size_nonneg l Hl); change (size [] <= size l + part [] 0); rewrite part_nil; change (size []) with 0; lia|].
  destruct (partition_tl x t Hm) as (Ht & _). change (size (x :: t)) with (x + size t). change (part (x :: t) 0) with x.
  destruct (size_le t l) as [A _]; [|lia]. intros j. split; [apply is_partition_nonneg; auto|]. apply (Hs j).
Qed.

Section L.
Variables m k a b : Z.
Hypothesis Hm : 1 <= m.
Hypothesis Hk : 0 <= k.
Hypothesis Ha : 0 <= a.
Hypothesis Hb : 0 <= b.
Notation Vs := (in_box m k).
Notation Vb := (in_box (m + a) (k + b)).
Lemma Hma : 1 <= m + a. Proof. lia. Qed.
Lemma Hkb' : 0 <= k + b. Proof. lia. Qed.
Let SS := sysA m k Hm Hk false.
Let SB := sysA (m + a) (k + b) Hma Hkb' false.
Notation pis := (piA m k false).
Notation pib := (piA (m + a) (k + b) false).
Definition fitA (l : list Z) : bool := (part l 0 <=? k) && (length l <=? Z.to_nat m)%nat.
Notation rho := (psubst (dv (rD fitA))).
Lemma Vs_VbA l : Vs l -> Vb l.
Proof. intros (A & B & C). split; auto. split; lia. Qed.
Lemma fit_VsA l : Vb l -> fitA l = true -> Vs l.
Proof. intros (A & B & C) F. unfold fitA in F. apply andb_prop in F. destruct F as [F1 F2]. apply Nat.leb_le in F2. split; auto. split; lia. Qed.
Lemma Vs_fitA l : Vs l -> fitA l = true.
Proof. intros (A & B & C). unfold fitA. apply andb_true_intro. split; [lia|apply Nat.leb_le; lia]. Qed.
Lemma nofitA i l mu : Vb l -> fitA l = false -> RA (m + a) (k + b) i l mu -> fitA mu = false.
Proof.
  intros (A & B & C) F (D & Hs & _). unfold fitA in *. apply andb_false_iff in F. destruct F as [F|F].
  - apply andb_false_intro1. pose proof (Hs 0%nat). lia.
  - apply andb_false_intro2. apply Nat.leb_gt. apply Nat.leb_gt in F. destruct (Nat.lt_ge_cases (Z.to_nat m) (length mu)) as [L|L]; auto. exfalso.
    pose proof (Hs (Z.to_nat m)) as H. pose proof (proj1 A (Z.to_nat m) F). assert (part mu (Z.to_nat m) = 0) by (unfold part; apply nth_overflow; lia). lia.
Qed.
Lemma bigfitA i l mu : Vb l -> k < i -> RA (m + a) (k + b) i l mu -> fitA mu = false.
Proof. intros (A & B & C) Hi ((D & _) & Hs & E). pose proof (strip_top l mu A D Hs). apply andb_false_intro1. lia. Qed.
Lemma s_inA i l : IA (k + b) i -> (i <=? k) = true -> Vb l -> fitA l = true -> peq (rho (P pib i l)) (P pis i l).
Proof.
  intros [Hi _] _ Hl Fl. pose proof (fit_VsA l Hl Fl) as H0. pose proof (P_sum m k i l Hm Hk H0 ltac:(lia)) as Es. pose proof (P_sum (m + a) (k + b) i l Hma Hkb' Hl ltac:(lia)) as Eb.
  pose proof (lincl_rD fitA _ _ (sum_lincl _ _ Eb)) as HH. pose proof (sum_lincl _ _ Es) as HS. intros mo. rewrite (HS mo), (HH mo). unfold wval. destruct mo as [|[[x|u w]| | |] [|v mo]]; auto.
  destruct (sum_coef _ _ x Es) as [A1 A2]. destruct (sum_coef _ _ x Eb) as [B1 B2].
  assert (Q : RA m k i l x <-> RA (m + a) (k + b) i l x /\ fitA x = true).
  { unfold RA. split; [intros (X & Y); split; [split; [apply Vs_VbA; auto|auto]|apply Vs_fitA; auto]|intros ((X & Y) & F); split; [apply fit_VsA; auto|auto]]. }
  destruct (Qc_eq_dec (coef (P pis i l) [vS x]) 0%Qc) as [Z|Z].
  - rewrite Z. destruct (fitA x); [|reflexivity]. destruct (Qc_eq_dec (coef (P pib i l) [vS x]) 0%Qc) as [Z'|Z']; [exact Z'|]. specialize (B2 Z'). assert (RA m k i l x) by tauto. rewrite A1 in Z by auto. discriminate.
  - specialize (A2 Z). rewrite (A1 A2). apply Q in A2. destruct A2 as [A2 ->]. apply B1; auto.
Qed.
Lemma s_outA i l : IA (k + b) i -> Vb l -> (i <=? k) = false \/ fitA l = false -> peq (rho (P pib i l)) pzero.
Proof.
  intros [Hi _] Hl F. pose proof (P_sum (m + a) (k + b) i l Hma Hkb' Hl ltac:(lia)) as Eb. pose proof (lincl_rD fitA _ _ (sum_lincl _ _ Eb)) as HH. intros mo. rewrite (HH mo). change (coef pzero mo) with 0%Qc.
  unfold wval. destruct mo as [|[[x|u w]| | |] [|v mo]]; auto. destruct (fitA x) eqn:Fx; [|reflexivity]. destruct (Qc_eq_dec (coef (P pib i l) [vS x]) 0%Qc) as [Z|Z]; [exact Z|]. exfalso. apply (sum_coef _ _ x Eb) in Z.
  destruct F as [F|F]; [apply Z.leb_gt in F; rewrite (bigfitA i l x Hl F Z) in Fx|rewrite (nofitA i l x Hl F Z) in Fx]; discriminate.
Qed.
Lemma s_nilA : fitA [] = true.
Proof. apply Vs_fitA. apply in_box_nil; lia. Qed.
Lemma s_IA i : IA (k + b) i -> (i <=? k) = true -> IA k i.
Proof. unfold IA. lia. Qed.
Definition stepA x y nu d Hx Hy := r_coef SB SS fitA (fun i => i <=? k) s_nilA fit_VsA s_IA s_inA s_outA x y nu d Hx Hy.
Definition idealA x y nu d Hx Hy := r_ideal SB SS fitA (fun i => i <=? k) s_nilA fit_VsA s_IA s_inA s_outA x y nu d Hx Hy.
End L.

Lemma prodA m k x y : 1 <= m -> 0 <= k -> in_box m k x -> in_box m k y -> exists r, mult (gA m k) (pS x) (pS y) = Ok r /\ peq r (M TA (piA m k false) k (giam_fuel (gA m k)) (pS x) (pS y)).
Proof.
  intros Hm Hk Hx Hy. destruct (api_prod (sysA m k Hm Hk false) (pS x) (pS y)) as (r & E & Pr & _); [apply lin_comb_poly_in, lin_comb_iff, sys_lq_pS; auto|apply lin_comb_iff, sys_lq_pS; auto|]. exists r. split; auto.
Qed.
Lemma c108_Gr m n i j g g' : 1 <= m -> 0 <= i -> 0 <= j -> Grassmannian m n = Ok g -> Grassmannian (m + i) (n + i + j) = Ok g' ->
  (forall a, in_box m (n - m) a -> in_box (m + i) (n - m + j) a) /\
  (forall a b, in_box m (n - m) a -> in_box m (n - m) b -> exists s r, mult g (pS a) (pS b) = Ok s /\ mult g' (pS a) (pS b) = Ok r /\
     forall nu, in_box m (n - m) nu -> coef r (qS 0 nu) = coef s (qS 0 nu)) /\
  (forall a b, in_box (m + i) (n - m + j) a -> ~ in_box m (n - m) a -> in_box (m + i) (n - m + j) b -> exists r, mult g' (pS a) (pS b) = Ok r /\
     forall nu, in_box m (n - m) nu -> coef r (qS 0 nu) = 0%Qc).
Proof.
  intros Hm Hi Hj Hg Hg'. apply gr_inv in Hg, Hg'. destruct Hg as (_ & Hk & ->). destruct Hg' as (_ & Hk' & ->). replace (n + i + j - (m + i)) with (n - m + j) in * by lia. set (k := n - m) in *.
  split; [intros a; apply Vs_VbA; auto|]. split.
  - intros x y Hx Hy. destruct (prodA m k x y Hm Hk Hx Hy) as (s & Es & Qs). assert (Bx : in_box (m + i) (k + j) x) by (apply Vs_VbA; auto). assert (By : in_box (m + i) (k + j) y) by (apply Vs_VbA; auto).
    destruct (prodA (m + i) (k + j) x y ltac:(lia) Hk' Bx By) as (r & Er & Qr). exists s, r. split; auto. split; auto. intros nu Hnu. rewrite (Qs _), (Qr _). apply (stepA m k i j Hm Hk Hi Hj); auto; apply Vs_fitA; auto.
  - intros x y Hx Hnx Hy. destruct (prodA (m + i) (k + j) x y ltac:(lia) Hk' Hx Hy) as (r & Er & Qr). exists r. split; auto. intros nu Hnu. rewrite (Qr _). apply (idealA m k i j Hm Hk Hi Hj); auto; [|apply Vs_fitA; auto].
    destruct (fitA m k x) eqn:F; auto. exfalso. apply Hnx. apply (fit_VsA m k i j) with (l := x); auto.
Qed.
