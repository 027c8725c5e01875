(** Products on projective spaces and quadrics: the lemmas behind PropsProj.v. *)

From Coq Require Import ZArith List Lia Bool Permutation QArith Qcanon Setoid Morphisms.
From Verif Require Import Py OrderFacts PyFacts ModelPart ModelQcalc ModelPoly ModelStr ModelGr Spec SpecRel SpecRing SpecPieri SpecProj
  PolyFacts SuppFacts OpTheory ConjFacts PieriCoef GrInv WSum Sys Sys2 CoefSys CompsBound TwoRows TwoRows2 RelBC ApiRing ApiPieriQ TopClass ApiA PresA RingC ProjFacts.
Import ListNotations.
Open Scope Z_scope.

Lemma term1 y W e l c p : qcoefs y W -> (forall d mu, W d mu = if (d =? e)%nat && eqbl mu l then c else 0%Qc) -> peq p (pscale c (pmono (qS e l))) -> peq y p.
Proof.
  intros HY HW Hp. apply (qcoefs_eq _ _ W HY). eapply qcoefs_ext; [|apply (qcoefs_single e l c); exact Hp]. intros d mu. symmetry. apply HW.
Qed.
Lemma term2 y W e l e' l' p p' : qcoefs y W -> (e, l) <> (e', l') ->
  (forall d mu, W d mu = if ((d =? e)%nat && eqbl mu l) || ((d =? e')%nat && eqbl mu l') then 1%Qc else 0%Qc) ->
  peq p (pmono (qS e l)) -> peq p' (pmono (qS e' l')) -> peq y (padd p p').
Proof.
  intros HY HN HW Hp Hp'. assert (G : qcoefs (padd p p') (fun d mu => ((if (d =? e)%nat && eqbl mu l then 1 else 0) + (if (d =? e')%nat && eqbl mu l' then 1 else 0))%Qc)).
  { assert (G1 := qcoefs_single e l 1%Qc p ltac:(rewrite Hp, pscale_pmul; change (pconst 1%Qc) with pone; ring)).
    assert (G2 := qcoefs_single e' l' 1%Qc p' ltac:(rewrite Hp', pscale_pmul; change (pconst 1%Qc) with pone; ring)).
    destruct G1 as [A1 A2], G2 as [B1 B2]. split.
    - intros d mu. rewrite coef_padd, A1, B1. reflexivity.
    - intros mo Hm. rewrite coef_padd in Hm. destruct (Qc_eq_dec (coef p mo) 0%Qc) as [E|E]; [|apply A2; auto]. apply B2. intros E'. apply Hm. rewrite E, E'. ring. }
  apply (qcoefs_eq _ _ W HY). eapply qcoefs_ext; [|exact G]. intros d mu. cbv beta. rewrite HW.
  destruct (Nat.eqb_spec d e) as [N1|N1], (eqbl mu l) eqn:E1, (Nat.eqb_spec d e') as [N2|N2], (eqbl mu l') eqn:E2; cbn [andb orb]; try ring.
  apply eqbl_iff in E1, E2. congruence.
Qed.
Lemma pS_qS0 l : peq (pS l) (pscale 1%Qc (pmono (qS 0 l))).
Proof. unfold qS. cbn [repeat]. rewrite pscale_pmul. change (pmono [vS l]) with (pS l). change (pconst 1%Qc) with pone. ring. Qed.
Lemma pS2_qS0 l c : peq (pscale c (pS l)) (pscale c (pmono (qS 0 l))).
Proof. reflexivity. Qed.
Lemma q2_qS1 l c : peq (pmul (pvar VQ) (pscale c (pS l))) (pscale c (pmono (qS 1 l))).
Proof. assert (E : peq (pmono (qS 1 l)) (pmul (pvar VQ) (pS l))) by (rewrite pmono_q1, pscale_pmul; change (pconst 1%Qc) with pone; ring). rewrite !pscale_pmul, E. ring. Qed.

Lemma expands_q p c : expands0 p c -> qcoefs p (fun d l => match d with O => c l | _ => 0%Qc end).
Proof. apply expands0_qcoefs. Qed.
Ltac bb2 := repeat (progress (cbn [andb orb]; rewrite ?andb_false_r, ?orb_false_r, ?andb_true_r)); try reflexivity.

(** ** IG(1,N) *)
Lemma proj_le N g a b : IsotropicGrassmannian 1 N = Ok g -> 1 <= b <= a -> a < N ->
  exists x y, mult g (pS (row b)) (pS (row a)) = Ok x /\ qmult g (pS (row b)) (pS (row a)) = Ok y /\ projective_products N a b x y.
Proof.
  intros Hg Hb Ha. replace (row a) with [a] by (unfold row; destruct (Z.eqb_spec a 0); [lia|reflexivity]). replace (row b) with [b] by (unfold row; destruct (Z.eqb_spec b 0); [lia|reflexivity]).
  destruct (ig_inv _ _ _ Hg) as (n & EN & En & Hm & _). assert (Ek : exists k, n = k + 1 /\ 0 <= k) by (exists (n - 1); lia). destruct Ek as (k & -> & Hk).
  assert (HL : class_IG 1 N [a]) by (unfold class_IG; rewrite En; apply kstrict_row1; lia).
  destruct (c45_IG 1 N g b (pS [a]) Hg ltac:(lia) ltac:(lia) (lin_comb_pS1 _ [a] HL)) as [(x & x' & Ex & Ex' & Px) (y & y' & Ey & Ey' & Py)].
  destruct (c44_IG 1 N g b [a] Hg HL) as (x0 & c & E0 & X0 & HC & _). rewrite Ex' in E0. inversion E0; subst x0. clear E0.
  destruct (c44_qIG 1 N g b [a] Hg HL ltac:(lia)) as (y0 & W & E0 & Y0 & HW & _). rewrite Ey' in E0. inversion E0; subst y0. clear E0.
  rewrite En in *. replace (k + 1 - 1) with k in * by lia.
  exists x, y. split; auto. split; auto. apply expands0_qcoefs in X0. destruct HW as (W0 & W1 & W2).
  assert (GX : forall mu, c mu = if eqbl mu [a + b] && (a + b <=? 2 * k + 1) then 1%Qc else 0%Qc) by (intros mu; apply (projC0 k a b); auto; lia).
  assert (GY0 : forall mu, W 0%nat mu = if eqbl mu [a + b] && (a + b <=? 2 * k + 1) then 1%Qc else 0%Qc) by (intros mu; apply (projC0 k a b); auto; lia).
  assert (GY1 : forall mu, W 1%nat mu = if eqbl mu (row (a + b - (2 * k + 2))) && (2 * k + 2 <=? a + b) then 1%Qc else 0%Qc) by (intros mu; apply (projC1 k a b); auto; lia).
  split; intros HS.
  - assert (ER : row (a + b) = [a + b]) by (unfold row; destruct (Z.eqb_spec (a + b) 0); [lia|reflexivity]). rewrite ER. split.
    + rewrite Px. apply (term1 _ _ 0 [a + b] 1%Qc _ X0); [|apply pS_qS0]. intros [|d] mu; cbn [Nat.eqb andb]; auto. rewrite GX. replace (a + b <=? 2 * k + 1) with true by lia. bb2.
    + rewrite Py. apply (term1 _ _ 0 [a + b] 1%Qc _ Y0); [|apply pS_qS0]. intros [|[|d]] mu; cbn [Nat.eqb andb].
      * rewrite GY0. replace (a + b <=? 2 * k + 1) with true by lia. bb2.
      * rewrite GY1. replace (2 * k + 2 <=? a + b) with false by lia. bb2.
      * apply W2. lia.
  - replace (a + b - N) with (a + b - (2 * k + 2)) by lia. split.
    + rewrite Px. apply (qcoefs_eq _ _ _ X0). apply qcoefs_zero. intros [|d] mu; auto. rewrite GX. replace (a + b <=? 2 * k + 1) with false by lia. bb2.
    + rewrite Py. eapply (term1 _ _ 1 _ 1%Qc _ Y0); [|apply pmono_q1]. intros [|[|d]] mu; cbn [Nat.eqb andb].
      * rewrite GY0. replace (a + b <=? 2 * k + 1) with false by lia. bb2.
      * rewrite GY1. replace (2 * k + 2 <=? a + b) with true by lia. bb2.
      * apply W2. lia.
Qed.

Lemma projective_peq N a b x y x' y' : projective_products N a b x y -> peq x x' -> peq y y' -> projective_products N b a x' y'.
Proof.
  intros [H1 H2] Ex Ey. unfold projective_products. replace (b + a) with (a + b) by lia. split; intros H; [specialize (H1 H)|specialize (H2 H)];
    rewrite <- Ex, <- Ey; auto.
Qed.

Lemma class_row_IG N n a : N = 2 * n -> 1 <= n -> 0 <= a < N -> class_IG 1 N (row a).
Proof.
  intros EN Hn Ha. unfold class_IG. assert (N / 2 = n) by (subst; rewrite Z.mul_comm; apply Z.div_mul; lia). unfold row. destruct (Z.eqb_spec a 0).
  - apply kstrict_nil; lia.
  - apply kstrict_row1; lia.
Qed.
Lemma c72_IG N g a b : IsotropicGrassmannian 1 N = Ok g -> 0 <= a < N -> 0 <= b < N ->
  exists x y, mult g (pS (row a)) (pS (row b)) = Ok x /\ qmult g (pS (row a)) (pS (row b)) = Ok y /\ projective_products N a b x y.
Proof.
  intros Hg Ha Hb. destruct (ig_inv _ _ _ Hg) as (n & EN & En & Hm & _).
  assert (La : lin_comb (class_IG 1 N) (pS (row a))) by (apply lin_comb_pS1; apply (class_row_IG N n); lia).
  assert (Lb : lin_comb (class_IG 1 N) (pS (row b))) by (apply lin_comb_pS1; apply (class_row_IG N n); lia).
  destruct (c27_IG 1 N g Hg) as [L1 L2]. 
  destruct (Z.eq_dec a 0) as [->|Na]; [|destruct (Z.eq_dec b 0) as [->|Nb]].
  - destruct (pl_unit _ _ L1 _ Lb) as (x & _ & Ex & _ & Px & _). destruct (pl_unit _ _ L2 _ Lb) as (y & _ & Ey & _ & Py & _).
    exists x, y. split; auto. split; auto. split; intros; [|lia]. replace (0 + b) with b by lia. split; auto.
  - destruct (pl_unit _ _ L1 _ La) as (_ & x & _ & Ex & _ & Px). destruct (pl_unit _ _ L2 _ La) as (_ & y & _ & Ey & _ & Py).
    exists x, y. split; auto. split; auto. split; intros; [|lia]. replace (a + 0) with a by lia. split; auto.
  - destruct (Z.le_gt_cases b a) as [L|L].
    + destruct (proj_le N g a b Hg ltac:(lia) ltac:(lia)) as (x & y & Ex & Ey & HP).
      destruct (pl_commutative _ _ L1 _ _ La Lb) as (x1 & x2 & E1 & E2 & Q1). destruct (pl_commutative _ _ L2 _ _ La Lb) as (y1 & y2 & F1 & F2 & Q2).
      rewrite Ex in E2. inversion E2; subst x2. rewrite Ey in F2. inversion F2; subst y2. exists x1, y1. split; auto. split; auto.
      apply (projective_peq N b a x1 y1); [|reflexivity|reflexivity]. apply (projective_peq N a b x y); auto; symmetry; auto.
    + destruct (proj_le N g b a Hg ltac:(lia) ltac:(lia)) as (x & y & Ex & Ey & HP). exists x, y. split; auto. split; auto.
      apply (projective_peq N b a x y); auto; reflexivity.
Qed.

(** ** Gr(1,N) *)
Lemma in_box_row N a : 1 <= N -> 0 <= a < N -> in_box 1 (N - 1) (row a).
Proof.
  intros HN Ha. unfold row. destruct (Z.eqb_spec a 0).
  - split; [split; [intros j Hj; cbn in Hj; lia|intros [|j]; unfold part; cbn; lia]|]. unfold part. cbn. lia.
  - split; [apply one_partition; lia|]. unfold part. cbn. lia.
Qed.
Lemma in_box_inv N mu s : in_box 1 (N - 1) mu -> size mu = s -> mu = row s /\ 0 <= s <= N - 1.
Proof.
  intros (HP & HL & HC) Hs. destruct mu as [|x [|y t]]; [unfold size in Hs; cbn in Hs; subst s; unfold part in HC; cbn in HC; split; [reflexivity|lia]| |cbn in HL; lia].
  unfold size in Hs. cbn in Hs. destruct HP as [HP _]. specialize (HP 0%nat ltac:(cbn; lia)). unfold part in HP, HC. cbn in HP, HC.
  unfold row. destruct (Z.eqb_spec s 0); [lia|]. split; [f_equal; lia|lia].
Qed.
Lemma size_row a : size (row a) = a.
Proof. unfold row. destruct (Z.eqb_spec a 0); [subst; reflexivity|apply size_one]. Qed.
Lemma part_row a j : part (row a) j = match j with O => a | _ => 0 end.
Proof. unfold row. destruct (Z.eqb_spec a 0) as [->|]; destruct j as [|[|j]]; reflexivity. Qed.
Lemma c72_A N g a b : Grassmannian 1 N = Ok g -> 0 <= a < N -> 0 <= b < N ->
  exists x y, mult g (pS (row a)) (pS (row b)) = Ok x /\ qmult g (pS (row a)) (pS (row b)) = Ok y /\ projective_products N a b x y.
Proof.
  intros Hg Ha Hb. assert (Lb : lin_comb (in_box 1 (N - 1)) (pS (row b))) by (apply lin_comb_pS1; apply in_box_row; lia).
  destruct (Z.eq_dec a 0) as [->|Na].
  - destruct (c07_unit 1 N g (pS (row b)) Hg Lb) as [(x & _ & Ex & _ & Px & _) (y & _ & Ey & _ & Py & _)].
    exists x, y. split; auto. split; auto. split; intros; [|lia]. replace (0 + b) with b by lia. split; auto.
  - replace (row a) with [a] by (unfold row; destruct (Z.eqb_spec a 0); [lia|reflexivity]).
    destruct (c43_api 1 N g a (pS (row b)) Hg ltac:(lia) ltac:(lia) Lb) as [(x & x' & Ex & Ex' & Px) (y & y' & Ey & Ey' & Py)].
    exists x, y. split; auto. split; auto. pose proof (in_box_row N b ltac:(lia) Hb) as HB.
    destruct (c01 1 N g a (row b) Hg ltac:(lia) HB ltac:(lia)) as (x0 & E0 & SX). rewrite Ex' in E0. inversion E0; subst x0. clear E0.
    destruct (c02 1 N g a (row b) Hg ltac:(lia) HB ltac:(lia)) as (y0 & E0 & SY). rewrite Ey' in E0. inversion E0; subst y0. clear E0.
    assert (HH : forall mu, in_box 1 (N - 1) mu /\ adds_horizontal_strip (row b) mu /\ size mu = size (row b) + a <-> a + b < N /\ mu = row (a + b)).
    { intros mu. rewrite size_row. split.
      - intros (B & _ & S). destruct (in_box_inv N mu (b + a) B S) as [-> H]. split; [lia|f_equal; lia].
      - intros [H ->]. split; [apply in_box_row; lia|]. split; [|rewrite size_row; lia]. intros [|j]; rewrite !part_row; lia. }
    assert (HQ : forall mu, in_box 1 (N - 1) mu /\ bertram 1 (row b) mu /\ size mu = size (row b) + a - N <-> N <= a + b /\ mu = row (a + b - N)).
    { intros mu. rewrite size_row. split.
      - intros (B & _ & S). destruct (in_box_inv N mu (b + a - N) B S) as [-> H]. split; [lia|f_equal; lia].
      - intros [H ->]. split; [apply in_box_row; lia|]. split; [|rewrite size_row; lia]. split; intros [|j] Hj; try lia. rewrite !part_row. lia. }
    split; intros H; rewrite Px, Py; split.
    + apply (is_sum_unique _ _ _ SX). apply (is_sum_iff _ _ _ (fun d mu => iff_refl _)). eapply is_sum_iff; [|apply is_sum_pS]. intros d mu. specialize (HH mu). cbv beta. clear HQ. intuition auto.
    + apply (is_sum_unique _ _ _ SY). eapply is_sum_iff; [|apply is_sum_pS]. intros d mu. specialize (HH mu). specialize (HQ mu). cbv beta. split.
      * intros [-> ->]. split; [apply HH; auto|]. left. destruct HH as [_ HH]. destruct (HH (conj H eq_refl)) as (_ & ? & ?). auto.
      * intros (B & [(-> & S1 & S2)|(-> & S1 & S2)]); [destruct (proj1 HH) as [_ ->]; auto|destruct (proj1 HQ) as [? _]; auto; lia].
    + apply (is_sum_unique _ _ _ SX). apply is_sum_zero. intros d mu (_ & S). destruct (proj1 (HH mu) S). lia.
    + apply (is_sum_unique _ _ _ SY). eapply is_sum_iff; [|apply is_sum_q]. intros d mu. specialize (HH mu). specialize (HQ mu). cbv beta. split.
      * intros [-> ->]. split; [apply HQ; auto|]. right. destruct HQ as [_ HQ]. destruct (HQ (conj H eq_refl)) as (_ & ? & ?). auto.
      * intros (B & [(-> & S1 & S2)|(-> & S1 & S2)]); [destruct (proj1 HH) as [? _]; auto; lia|destruct (proj1 HQ) as [_ ->]; auto].
Qed.

(** ** OG(1,N), N odd *)
(** the products on an odd-dimensional quadric, D = 2 k + 1 *)
Definition odd_quadric_products (k a b : Z) (x y : poly) : Prop :=
  let D := 2 * k + 1 in
  (a + b <= D -> peq x (if (Z.max a b <=? k) && (k <? a + b) then pscale (1 + 1)%Qc (pS [a + b]) else pS [a + b])) /\
  (D < a + b -> peq x pzero) /\
  (a + b < D -> peq y x) /\
  (a + b = D -> peq y (padd (pS [D]) (pmul (pvar VQ) (pS [])))) /\
  (D < a + b -> Z.max a b < D ->
     peq y (pmul (pvar VQ) (if (Z.min a b <=? k) || (k <? a + b - D) then pscale (1 + 1)%Qc (pS [a + b - D]) else pS [a + b - D]))) /\
  (Z.max a b = D -> Z.min a b < D -> peq y (pmul (pvar VQ) (pS [Z.min a b]))) /\
  (Z.min a b = D -> peq y (pmul (pvar VQ) (pmul (pvar VQ) (pS [])))).
Lemma quad_le N g k a b : OrthogonalGrassmannian 1 N = Ok g -> N = 2 * k + 3 -> 1 <= k -> 1 <= b <= a -> a <= 2 * k + 1 ->
  exists x y x' y', mult g (pS [a]) (pS [b]) = Ok x /\ qmult g (pS [a]) (pS [b]) = Ok y /\
    mult g (pS [b]) (pS [a]) = Ok x' /\ qmult g (pS [b]) (pS [a]) = Ok y' /\ peq x x' /\ peq y y' /\ odd_quadric_products k a b x y.
Proof.
  intros Hg EN Hk Hb Ha. assert (HN : Z.odd N = true) by (rewrite EN; replace (2 * k + 3) with (1 + 2 * (k + 1)) by lia; rewrite Z.odd_add_mul_2; reflexivity).
  assert (En : N / 2 = k + 1) by (symmetry; apply (Z.div_unique N 2 (k + 1) 1); lia). assert (Hm : 1 <= 1 <= N / 2) by lia.
  assert (HV : forall i, 1 <= i <= 2 * k + 1 -> class_OG 1 N [i]) by (intros i Hi; unfold class_OG; rewrite <- Z.negb_odd, HN; cbn [negb]; apply kstrict_row1; lia).
  pose proof (lin_comb_pS1 _ _ (HV a ltac:(lia))) as La. pose proof (lin_comb_pS1 _ _ (HV b ltac:(lia))) as Lb.
  destruct (c27_OGodd 1 N g Hg HN Hm) as [L1 L2].
  destruct (pl_commutative _ _ L1 _ _ La Lb) as (x & x' & Ex & Ex' & Px). destruct (pl_commutative _ _ L2 _ _ La Lb) as (y & y' & Ey & Ey' & Py).
  exists x, y, x', y'. do 6 (split; auto). unfold odd_quadric_products. cbv zeta. rewrite Z.max_l, Z.min_r by lia.
  destruct (c45_OGodd 1 N g Hg HN Hm b (pS [a]) ltac:(lia) La) as [(x1 & x2 & E1 & E2 & P1) _]. rewrite Ex' in E1. inversion E1; subst x1. clear E1.
  destruct (c44_OG 1 N g b [a] Hg ltac:(lia) ltac:(lia) (HV a ltac:(lia))) as (x3 & c & E3 & X0 & HC & _). rewrite E2 in E3. inversion E3; subst x3. clear E3.
  rewrite En, <- Z.negb_odd, HN in HC. cbn [negb] in HC. replace (k + 1 - 1) with k in HC by lia. apply expands0_qcoefs in X0.
  assert (GX : forall mu, c mu = if eqbl mu [a + b] && (a + b <=? 2 * k + 1) then (if (a <=? k) && (k <? a + b) then 1 + 1 else 1)%Qc else 0%Qc) by (intros mu; apply (quadB0 k a b); auto; lia).
  split; [|split].
  - intros H. rewrite Px, P1. eapply (term1 _ _ 0 [a + b] _ _ X0).
    + intros [|d] mu; cbn [Nat.eqb andb]; [|reflexivity]. rewrite GX. replace (a + b <=? 2 * k + 1) with true by lia. rewrite andb_true_r. reflexivity.
    + destruct ((a <=? k) && (k <? a + b)); [apply pS2_qS0|apply pS_qS0].
  - intros H. rewrite Px, P1. apply (qcoefs_eq _ _ _ X0). apply qcoefs_zero. intros [|d] mu; auto. rewrite GX. replace (a + b <=? 2 * k + 1) with false by lia. bb2.
  - destruct (Z.eq_dec a (2 * k + 1)) as [Ea|Na].
    + destruct (c68_odd 1 N g [b] Hg HN Hm (HV b ltac:(lia))) as (x4 & y4 & E4 & F4 & _ & A2 & A3). replace (N - 1 - 1) with a in * by lia.
      rewrite Ey in F4. inversion F4; subst y4. clear F4. change (part [b] 0) with b in *. change (Z.of_nat (length [b])) with 1 in *.
      split; [lia|]. split; [lia|]. split; [lia|]. split; intros; [apply A2; lia|]. destruct A3 as [_ A3]; [lia|]. destruct (Z.eqb_spec 1 (N / 2)); [lia|]. exact A3.
    + destruct (c45_OGodd 1 N g Hg HN Hm b (pS [a]) ltac:(lia) La) as [_ (y1 & y2 & F1 & F2 & Q1)]. rewrite Ey' in F1. inversion F1; subst y1. clear F1.
      destruct (c44_qOG_odd 1 N g b [a] Hg HN Hm (HV a ltac:(lia))) as (y3 & W & F3 & Y0 & HW & _). rewrite F2 in F3. inversion F3; subst y3. clear F3.
      destruct (Z.eqb_spec 1 (N / 2)); [lia|]. rewrite En in HW. replace (k + 1 - 1) with k in HW by lia. destruct HW as (W0 & W1 & W2 & W3).
      assert (GY0 : forall mu, W 0%nat mu = c mu) by (intros mu; rewrite GX; apply (quadB0 k a b); auto; lia).
      assert (GY1 : forall mu, W 1%nat mu = if eqbl mu (row (a + b - (2 * k + 1))) && (2 * k + 1 <=? a + b)
                      then (if (2 * k + 1 <? a + b) && ((b <=? k) || (k <? a + b - (2 * k + 1))) then 1 + 1 else 1)%Qc else 0%Qc).
      { intros mu. specialize (W1 mu). change (Z.of_nat (length [a])) with 1 in W1. replace (1 =? k + 1 - k) with true in W1 by lia. cbn [andb] in W1.
        destruct (Z.leb_spec (Z.of_nat (length mu)) (k + 1 - k)); [apply (quadB1 k a b) in W1; auto; lia|]. rewrite W1.
        destruct (eqbl mu _) eqn:E; auto. apply eqbl_iff in E. exfalso. subst mu. unfold row in H. destruct (_ =? 0); cbn in H; lia. }
      assert (GY2 : forall mu, W 2%nat mu = 0%Qc).
      { intros mu. specialize (W2 mu). change (part [a] 0) with a in W2. replace (a =? k + 1 + k) with false in W2 by lia. exact W2. }
      split; [|split; [|split; [|split; intros; lia]]].
      * intros H. rewrite Py, Q1, Px, P1. apply (qcoefs_eq _ _ _ Y0). eapply qcoefs_ext; [|exact X0]. intros [|[|[|d]]] mu; cbv beta iota; symmetry; auto.
        -- rewrite GY1. replace (2 * k + 1 <=? a + b) with false by lia. bb2.
        -- apply W3. lia.
      * intros H. rewrite Py, Q1. eapply (term2 _ _ 0 [2 * k + 1] 1 [] _ _ Y0); [discriminate| | |].
        -- intros [|[|[|d]]] mu; cbn [Nat.eqb andb orb]; rewrite ?orb_false_r; auto.
           ++ rewrite GY0, GX, H. replace (2 * k + 1 <=? 2 * k + 1) with true by lia. replace (a <=? k) with false by lia. bb2.
           ++ rewrite GY1, H. replace (2 * k + 1 - (2 * k + 1)) with 0 by lia. replace (2 * k + 1 <=? 2 * k + 1) with true by lia.
              replace (2 * k + 1 <? 2 * k + 1) with false by lia. cbn [row Z.eqb andb]. bb2.
           ++ apply W3. lia.
        -- rewrite (pS_qS0 [2 * k + 1]), pscale_pmul. change (pconst 1%Qc) with pone. ring.
        -- rewrite (pmono_q1 []), pscale_pmul. change (pconst 1%Qc) with pone. ring.
      * intros H _. rewrite Py, Q1.
        assert (ER : row (a + b - (2 * k + 1)) = [a + b - (2 * k + 1)]) by (unfold row; destruct (Z.eqb_spec (a + b - (2 * k + 1)) 0); [lia|reflexivity]). rewrite ER in GY1.
        eapply (term1 _ _ 1 [a + b - (2 * k + 1)] _ _ Y0).
        -- intros [|[|[|d]]] mu; cbn [Nat.eqb andb orb]; auto.
           ++ rewrite GY0, GX. replace (a + b <=? 2 * k + 1) with false by lia. bb2.
           ++ rewrite GY1. replace (2 * k + 1 <=? a + b) with true by lia. replace (2 * k + 1 <? a + b) with true by lia. rewrite andb_true_r. reflexivity.
           ++ apply W3. lia.
        -- cbn [andb]. destruct ((b <=? k) || (k <? a + b - (2 * k + 1))); [apply q2_qS1|apply pmono_q1].
Qed.
Lemma quadric_peq k a b x y x' y' : odd_quadric_products k a b x y -> peq x x' -> peq y y' -> odd_quadric_products k b a x' y'.
Proof.
  unfold odd_quadric_products. cbv zeta. intros (H1 & H2 & H3 & H4 & H5 & H6 & H7) Ex Ey. rewrite (Z.max_comm b a), (Z.min_comm b a). replace (b + a) with (a + b) by lia.
  repeat split; intros; rewrite <- ?Ex, <- ?Ey; auto.
Qed.
Lemma c72_odd N g a b : OrthogonalGrassmannian 1 N = Ok g -> Z.odd N = true -> 5 <= N -> 1 <= a <= N - 2 -> 1 <= b <= N - 2 ->
  exists x y, mult g (pS [a]) (pS [b]) = Ok x /\ qmult g (pS [a]) (pS [b]) = Ok y /\ odd_quadric_products (N / 2 - 1) a b x y.
Proof.
  intros Hg HN H5 Ha Hb. destruct (Z.odd_spec N) as [HO _]. destruct (HO HN) as (n & En). assert (E2 : N / 2 = n) by (symmetry; apply (Z.div_unique N 2 n 1); lia). rewrite E2.
  destruct (Z.le_gt_cases b a) as [L|L].
  - destruct (quad_le N g (n - 1) a b Hg ltac:(lia) ltac:(lia) ltac:(lia) ltac:(lia)) as (x & y & _ & _ & Ex & Ey & _ & _ & _ & _ & H). eauto.
  - destruct (quad_le N g (n - 1) b a Hg ltac:(lia) ltac:(lia) ltac:(lia) ltac:(lia)) as (x & y & x' & y' & _ & _ & Ex & Ey & Px & Py & H). exists x', y'. split; auto. split; auto.
    apply (quadric_peq (n - 1) b a x y); auto.
Qed.
Lemma level_row D c : 1 <= c -> 2 * c <> D -> level D c = pS [c].
Proof. intros H N. unfold level, row. destruct (Z.eqb_spec (2 * c) D); [lia|]. destruct (Z.eqb_spec c 0); [lia|reflexivity]. Qed.
Lemma c72_odd' N g a b : OrthogonalGrassmannian 1 N = Ok g -> Z.odd N = true -> 5 <= N -> 1 <= a <= N - 2 -> 1 <= b <= N - 2 ->
  exists x y, mult g (pS [a]) (pS [b]) = Ok x /\ qmult g (pS [a]) (pS [b]) = Ok y /\ quadric_products (N - 2) a b x y.
Proof.
  intros Hg HN H5 Ha Hb. destruct (c72_odd N g a b Hg HN H5 Ha Hb) as (x & y & Ex & Ey & H1 & H2 & H3 & H4 & H5' & H6 & H7). exists x, y. split; auto. split; auto.
  destruct (Z.odd_spec N) as [HO _]. destruct (HO HN) as (n & En). assert (E2 : N / 2 = n) by (symmetry; apply (Z.div_unique N 2 n 1); lia). rewrite E2 in *.
  replace (N - 2) with (2 * (n - 1) + 1) by lia. set (k := n - 1) in *. unfold quadric_products. rewrite level_row by lia.
  assert (B1 : (2 * Z.max a b <? 2 * k + 1) && (2 * k + 1 <? 2 * (a + b)) = (Z.max a b <=? k) && (k <? a + b)) by (f_equal; apply eq_true_iff_eq; rewrite ?Z.ltb_lt, ?Z.leb_le; lia).
  assert (B2 : (2 * Z.min a b <? 2 * k + 1) || (2 * k + 1 <? 2 * (a + b - (2 * k + 1))) = (Z.min a b <=? k) || (k <? a + b - (2 * k + 1))) by (f_equal; apply eq_true_iff_eq; rewrite ?Z.ltb_lt, ?Z.leb_le; lia).
  rewrite B1, B2. split; [exact H1|]. split; [exact H2|]. split; [exact H3|]. split; [exact H4|]. split; [|split; [exact H6|exact H7]].
  intros L1 L2. rewrite level_row by lia. auto.
Qed.
