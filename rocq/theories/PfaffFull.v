(** C103: the Pfaffian formula, from the expansion along the first row. *)

From Coq Require Import ZArith List Lia Bool QArith Qcanon Setoid Morphisms Permutation.
From Coq Require Sorting.Sorted.
From Verif Require SeidelP.
From Verif Require Import Py PyFacts OrderFacts ModelPart ModelQcalc ModelPoly ModelStr ModelGr Spec PolyFacts SuppFacts OpTheory Sys Sys2 SysApi
  FillFacts Enum PartFacts FactsA GrInv ApiGr SpecRing SpecPieri SpecDet DetFacts SpecPfaff Word Transfer CoefSys CommC CommB ApiRingD RingC RingB RingD0 SwapRing PfaffWords PfaffWords2 Pfaff Pfaff2 Pfaff3.
Import ListNotations.
Open Scope Z_scope.

Lemma pf_fuel m : forall m' l, (length l <= m)%nat -> (length l <= m')%nat -> pfaffian_rec m l = pfaffian_rec m' l.
Proof.
  induction m as [|m IH]; intros m' l H1 H2; [destruct l; [destruct m'; reflexivity|cbn in H1; lia]|].
  destruct l as [|a l]; [destruct m'; reflexivity|]. destruct m' as [|m']; [cbn in H2; lia|]. cbn [length] in H1, H2. cbn [pfaffian_rec]. f_equal; [|destruct (Nat.even _); auto; f_equal; apply IH; lia].
  assert (G : forall q, In q (take_row l) -> pfaffian_rec m (snd q) = pfaffian_rec m' (snd q)) by (intros q Hq; apply take_row_in in Hq; apply IH; lia). revert G.
  induction (take_row l) as [|q L IHL]; intros G; [reflexivity|]. cbn [fold_right]. rewrite G by (left; auto). rewrite IHL; [reflexivity|]. intros; apply G; right; auto.
Qed.

Section S.
Context {t : gtype} {pi : Z -> list Z -> res poly} {V : list Z -> Prop} {I : Z -> Prop} {k : Z} {mu : list Z -> nat} {fuel : nat}.
Hypothesis H : pieri_sys t pi V I k mu fuel.
Notation MM := (M t pi k fuel).
Notation lq := (supp (linm V (eq VQ))).
Notation vp := (supp (polym V)).
Variable n : Z.
Hypothesis Hn : 1 <= n.
Hypothesis HVw : forall l, V l <-> exists x, In x (bw (Z.to_nat n)) /\ wp 0 x = l.
Hypothesis RE : row_expansions V (pr (t := t) (pi := pi) (k := k) (fuel := fuel)).

Lemma rows_cl a l : V (a :: l) -> V [a] /\ V l /\ forall q, In q (take_row l) -> V [a; snd (fst q)] /\ V (snd q).
Proof.
  intros Hal. destruct (V_inv n Hn HVw _ Hal) as [S R]. apply Sorting.Sorted.StronglySorted_inv in S. destruct S as [S1 S2]. rewrite Forall_forall in S2.
  assert (Hl : V l) by (apply (V_sorted n Hn HVw); auto; intros j Hj; apply R; right; auto). assert (Ra := R a ltac:(left; auto)).
  split; [apply (V_sorted n Hn HVw); [repeat constructor|intros j [<-|[]]; lia]|]. split; auto. intros q Hq.
  destruct (take_row_in _ _ Hq) as [_ Hi]. pose proof (S2 _ Hi). pose proof (R _ (or_intror Hi)). split; [apply (V_sorted n Hn HVw); [repeat constructor; lia|intros j [<-|[<-|[]]]; lia]|].
  apply HVw in Hl. destruct Hl as (x & Hx & <-). apply (rows_V n HVw x Hx q Hq).
Qed.
Lemma vp_pS l : V l -> vp (pS l).
Proof. intros Hl. apply (sys_lq_vp (V := V)), sys_lq_pS; auto. Qed.
Lemma pr_MM a b : V a -> V b -> exists s, pr (t := t) (pi := pi) (k := k) (fuel := fuel) (pS a) (pS b) = Ok s /\ peq s (MM (pS a) (pS b)).
Proof. intros Ha Hb. apply (sys_prod H); [apply vp_pS|apply sys_lq_pS]; auto. Qed.
Lemma expands_MM first l r : (forall q, In q (take_row l) -> V (first (snd (fst q))) /\ V (snd q)) -> expands (pr (t := t) (pi := pi) (k := k) (fuel := fuel)) first l r ->
  peq r (psumf (fun q => pscale (fst (fst q)) (MM (pS (first (snd (fst q)))) (pS (snd q)))) (take_row l)).
Proof.
  intros HV (rs & F & E). rewrite E. clear E r. induction F as [|q s L rs Hq F IH]; [reflexivity|]. cbn [combine fold_right fst snd]. rewrite psumf_cons, IH by (intros; apply HV; right; auto).
  destruct (HV q ltac:(left; auto)) as [V1 V2]. destruct (pr_MM _ _ V1 V2) as (s' & E1 & E2). assert (s = s') by congruence. subst s'. rewrite E2. reflexivity.
Qed.
Lemma pf_ok m : forall l, length l = m -> V l -> vp (pfaffian_rec m l) /\ peq (MM (pfaffian_rec m l) (pS [])) (pS l).
Proof.
  assert (V0 : V []) by apply H. assert (L0 : lq (pS [])) by (apply (sys_lq_one H)).
  induction m as [m IH] using lt_wf_ind. intros l El Hl. destruct l as [|a l].
  - cbn in El. subst m. cbn [pfaffian_rec]. assert (Hv : vp pone) by (apply supp_pmono; [apply polym_inv|constructor]). split; auto.
    transitivity (MM (pmul pone (pS [])) (pS [])); [|transitivity (MM (pS []) (pS [])); [apply M_peq; [apply pmul_1_l|reflexivity]|apply (sys_one H); auto]].
    symmetry. rewrite (sys_pmul H) by (auto using vp_pS). apply M_peq; [reflexivity|]. apply (sys_one H); auto.
  - cbn [length] in El. subst m. cbn [pfaffian_rec]. destruct (rows_cl a l Hl) as (Va & Vl & Vq).
    assert (IHq : forall q, In q (take_row l) -> vp (pfaffian_rec (length l) (snd q)) /\ peq (MM (pfaffian_rec (length l) (snd q)) (pS [])) (pS (snd q))).
    { intros q Hq. destruct (take_row_in _ _ Hq) as [Hlen _]. 
      assert (Ef : pfaffian_rec (length l) (snd q) = pfaffian_rec (length (snd q)) (snd q)) by (apply pf_fuel; lia). rewrite Ef. apply IH; auto; [lia|]. apply Vq; auto. }
    assert (IHl := IH (length l) ltac:(lia) l eq_refl Vl). destruct IHl as [IHl1 IHl2].
    set (S1 := fold_right (fun q acc => padd (pscale (fst (fst q)) (pmul (pS [a; snd (fst q)]) (pfaffian_rec (length l) (snd q)))) acc) pzero (take_row l)).
    assert (HS : vp S1 /\ peq (MM S1 (pS [])) (psumf (fun q => pscale (fst (fst q)) (MM (pS [a; snd (fst q)]) (pS (snd q)))) (take_row l))).
    { unfold S1. clear S1. revert Vq IHq. induction (take_row l) as [|q L IHL]; intros Vq IHq; [split; [apply supp_zero|reflexivity]|]. cbn [fold_right]. rewrite psumf_cons.
      destruct (IHL ltac:(intros; apply Vq; right; auto) ltac:(intros; apply IHq; right; auto)) as [A1 A2]. destruct (Vq q ltac:(left; auto)) as [B1 B2]. destruct (IHq q ltac:(left; auto)) as [C1 C2].
      assert (D1 : vp (pmul (pS [a; snd (fst q)]) (pfaffian_rec (length l) (snd q)))) by (apply vpoly_pmul; auto using vp_pS).
      split; [apply supp_padd; auto; apply supp_pscale; auto|]. rewrite (sys_add_l H) by (auto; apply supp_pscale; auto). rewrite (sys_scale_l H) by auto. rewrite (sys_pmul H) by (auto using vp_pS). rewrite C2, A2. reflexivity. }
    destruct HS as [HS1 HS2]. destruct RE as (_ & R2 & R3). rewrite (sys_add_l H); auto; destruct (Nat.even (length l)) eqn:Ev.
    + assert (D1 : vp (pmul (pS [a]) (pfaffian_rec (length l) l))) by (apply vpoly_pmul; auto using vp_pS). split; [apply supp_padd; auto|].
      rewrite (sys_pmul H) by (auto using vp_pS). rewrite HS2, IHl2. destruct (R3 a l Hl Ev) as (s & Es & X). destruct (pr_MM [a] l Va Vl) as (s' & E1 & E2). assert (s = s') by congruence. subst s'.
      rewrite <- (expands_MM (fun b => [a; b]) l _ Vq X), E2. ring.
    + split; [apply supp_padd; auto; apply supp_zero|]. rewrite HS2. rewrite <- (expands_MM (fun b => [a; b]) l _ Vq (R2 a l Hl ltac:(rewrite <- Nat.negb_even, Ev; reflexivity))).
      transitivity (padd (pS (a :: l)) pzero); [apply padd_proper; [reflexivity|]|ring]. reflexivity.
    + apply vpoly_pmul; auto using vp_pS.
    + apply supp_zero.
Qed.
Lemma pf_formula : pfaffian_formula V (pr (t := t) (pi := pi) (k := k) (fuel := fuel)).
Proof.
  intros l Hl. destruct (pf_ok (length l) l eq_refl Hl) as [A B]. destruct (sys_prod H (pfaffian l) (pS []) A (sys_lq_one H)) as (r & E & Er). exists r. split; auto. rewrite Er. exact B.
Qed.
End S.

Lemma c103_LG n g : 1 <= n -> IsotropicGrassmannian n (2 * n) = Ok g -> pfaffian_formula (class_IG n (2 * n)) (mult g) /\ pfaffian_formula (class_IG n (2 * n)) (qmult g).
Proof.
  intros Hn Hg. pose proof (c102_LG n g Hn Hg) as R. revert R. destruct (ig_inv _ _ _ Hg) as (n0 & EN & En & Hmn & Eg). assert (E0 : n0 = n) by lia. rewrite Eg, E0. replace (n - n) with 0 by lia.
  assert (EV : class_IG n (2 * n) = kstrict_in 0 (n - 0) (n + 0)) by (change (class_IG n (2 * n)) with (kstrict_in (2 * n / 2 - n) n (2 * n - n)); rewrite En; f_equal; lia). rewrite EV.
  intros [R1 R2]. assert (Hk : 0 <= 0 <= n) by lia.
  split; [exact (pf_formula (sysC 0 n Hk false) n Hn (V_bw n ltac:(lia)) R1)|exact (pf_formula (sysC 0 n Hk true) n Hn (V_bw n ltac:(lia)) R2)].
Qed.
Lemma c103_odd n g : 1 <= n -> OrthogonalGrassmannian n (2 * n + 1) = Ok g -> pfaffian_formula (class_OG n (2 * n + 1)) (mult g) /\ pfaffian_formula (class_OG n (2 * n + 1)) (qmult g).
Proof.
  intros Hn Hg. pose proof (c102_odd n g Hn Hg) as R. revert R. pose proof (odd_div n). destruct (og_inv _ _ _ Hg ltac:(lia)) as [(n0 & EN & En & Ev & Hm & Eg)|(n0 & EN & En & Ev & Hm & Eg)]; [|lia].
  assert (E0 : n0 = n) by lia. rewrite Eg, E0. replace (n - n) with 0 by lia. rewrite OG_V. intros [R1 R2].
  assert (Hok : forall qq, okB qq 0 n) by (intros qq; unfold okB; lia).
  split; [exact (pf_formula (sysB 0 n false (Hok false)) n Hn (V_bw n ltac:(lia)) R1)|exact (pf_formula (sysB 0 n true (Hok true)) n Hn (V_bw n ltac:(lia)) R2)].
Qed.
Lemma c103_even n g : 1 <= n -> OrthogonalGrassmannian (n + 1) (2 * n + 2) = Ok g ->
  pfaffian_formula (class_OG (n + 1) (2 * n + 2)) (mult g) /\ pfaffian_formula (class_OG (n + 1) (2 * n + 2)) (qmult g).
Proof.
  intros Hn Hg. destruct (c102_even n g Hn Hg) as [R1 R2]. pose proof (even_div n) as E2.
  destruct (half_even (n + 1) (2 * n + 2) g Hg (N_even n) ltac:(lia) ltac:(lia)) as (mu & D).
  assert (HVw : forall l, class_OG (n + 1) (2 * n + 2) l <-> exists x, In x (bw (Z.to_nat n)) /\ wp 0 x = l).
  { intros l. rewrite <- (same_classes n Hn l), (OG_V n). apply V_bw. lia. }
  split; [exact (pf_formula (hf_sys _ _ _ _ _ (D false ltac:(lia))) n Hn HVw R1)|exact (pf_formula (hf_sys _ _ _ _ _ (D true ltac:(lia))) n Hn HVw R2)].
Qed.
