(** Products on even-dimensional quadrics: the lemmas behind PropsProj.v. *)

From Coq Require Import ZArith List Lia Bool Permutation QArith Qcanon Setoid Morphisms.
From Verif Require Import Py OrderFacts PyFacts ModelPart ModelQcalc ModelPoly ModelStr ModelGr Spec SpecRel SpecRing SpecPieri SpecProj
  PolyFacts SuppFacts OpTheory ConjFacts PieriCoef PieriD GrInv WSum Sys Sys2 CoefSys CompsBound TwoRows TwoRows2 RelBC ApiRing ApiRingD ApiPieriQ TopClass ProjFacts QuadFacts ApiProj.
Import ListNotations.
Open Scope Z_scope.

Lemma ps0 p : peq (pscale 0%Qc p) pzero.
Proof. intros mo. rewrite coef_pscale. change (coef pzero mo) with 0%Qc. ring. Qed.
Lemma ps1 p : peq (pscale 1%Qc p) p.
Proof. intros mo. rewrite coef_pscale. ring. Qed.

Section E.
Variables (N k : Z) (g : gr).
Hypothesis Hg : OrthogonalGrassmannian 1 N = Ok g.
Hypothesis EN : N = 2 * k + 2.
Hypothesis Hk : 2 <= k.
Let HE : Z.even N = true. Proof. rewrite EN. replace (2 * k + 2) with (0 + 2 * (k + 1)) by lia. rewrite Z.even_add_mul_2. reflexivity. Qed.
Let En : N / 2 = k + 1. Proof. symmetry. apply (Z.div_unique N 2 (k + 1) 0); lia. Qed.
Let H4 : 4 <= N. Proof. lia. Qed.
Let Hm : 1 <= 1 <= N / 2. Proof. rewrite En. lia. Qed.
Let Hm1 : 1 <> N / 2 - 1. Proof. rewrite En. lia. Qed.

Lemma classE l : class_OG 1 N l <-> typed_in k 1 (2 * k) l.
Proof. unfold class_OG. rewrite HE, En. replace (k + 1 - 1) with k by lia. replace (N - 1 - 1) with (2 * k) by lia. reflexivity. Qed.
Lemma class_row_E i : 1 <= i <= 2 * k -> class_OG 1 N [i].
Proof. intros Hi. apply classE. left. apply kstrict_row1; lia. Qed.
Lemma class_mid s : class_OG 1 N (middle k s).
Proof. destruct s; [|apply class_row_E; lia]. apply classE. right. exists [k]. split; [reflexivity|]. split; [lia|]. split; [left; reflexivity|apply kstrict_row1; lia]. Qed.

Lemma pscale_level (e : bool) c w : (if e then 0 <= c else True) ->
  qcoefs (if e then pmul (pvar VQ) (pscale w (level (2 * k) c)) else pscale w (level (2 * k) c))
    (fun d mu => if (d =? (if e then 1 else 0))%nat && at_level k c mu then w else 0%Qc).
Proof.
  intros _.
  assert (G : forall l, qcoefs (if e then pmul (pvar VQ) (pscale w (pS l)) else pscale w (pS l)) (fun d mu => if (d =? (if e then 1 else 0))%nat && eqbl mu l then w else 0%Qc)).
  { intros l. apply qcoefs_single. destruct e; [apply q2_qS1|apply pS2_qS0]. }
  unfold level, at_level. destruct (Z.eqb_spec (2 * c) (2 * k)) as [E|E].
  - assert (c = k) by lia. subst c. assert (ER : row k = [k]) by (unfold row; destruct (Z.eqb_spec k 0); [lia|reflexivity]). rewrite ER, Z.eqb_refl.
    assert (S := qcoefs_padd _ _ _ _ (G [k]) (G [k; 0])). cbv beta in S.
    eapply qcoefs_peq; [|eapply qcoefs_ext; [|exact S]].
    + destruct e; rewrite !pscale_pmul; ring.
    + intros d mu. cbv beta. cbn [andb]. destruct (d =? _)%nat; cbn [andb]; [|ring].
      destruct (eqbl mu [k]) eqn:E1; [apply eqbl_iff in E1; subst mu|cbn [orb]; ring].
      assert (E2 : eqbl [k] [k; 0] = false) by (destruct (eqbl [k] [k; 0]) eqn:E2; auto; apply eqbl_iff in E2; discriminate). rewrite E2. cbn [orb]. ring.
  - replace (c =? k) with false by lia. eapply qcoefs_ext; [|apply G]. intros d mu. cbn [andb]. rewrite orb_false_r. reflexivity.
Qed.

Lemma even_le lam a b p : class_OG 1 N lam -> shape lam = [a] -> size lam = a -> 1 <= b <= a -> a <= 2 * k - 1 -> Z.abs p = b -> index_even 1 N p ->
  exists x y x' y', mult g (pS (special_class p)) (pS lam) = Ok x /\ qmult g (pS (special_class p)) (pS lam) = Ok y /\
    mult g (pS lam) (pS (special_class p)) = Ok x' /\ qmult g (pS lam) (pS (special_class p)) = Ok y' /\ peq x x' /\ peq y y' /\
    let v0 := if a + b <=? 2 * k then w0 k lam a b p else 0%Qc in
    let v1 := if 2 * k <=? a + b then w1 k lam a b p else 0%Qc in
    peq x (pscale v0 (level (2 * k) (a + b))) /\
    peq y (padd (pscale v0 (level (2 * k) (a + b))) (pmul (pvar VQ) (pscale v1 (level (2 * k) (a + b - 2 * k))))).
Proof.
  intros HL Hsh HS Hb Ha Hp HI. assert (HV := proj1 (classE lam) HL).
  assert (HP : class_OG 1 N (special_class p)).
  { unfold index_even in HI. rewrite En in HI. unfold special_class. destruct (Z.ltb_spec 0 p); [apply class_row_E; lia|]. replace (- p) with k by lia. apply (class_mid true). }
  pose proof (lin_comb_pS1 _ _ HL) as L1. pose proof (lin_comb_pS1 _ _ HP) as L2.
  destruct (c27_OGeven 1 N g Hg HE H4 Hm) as [C1 C2]. specialize (C2 Hm1).
  destruct (pl_commutative _ _ C1 _ _ L2 L1) as (x & x' & Ex & Ex' & Px). destruct (pl_commutative _ _ C2 _ _ L2 L1) as (y & y' & Ey & Ey' & Py).
  exists x, y, x', y'. do 6 (split; auto). cbv zeta.
  assert (Htl : type_of k lam <= 2 /\ (a <> k -> type_of k lam = 0) /\ (a = k -> 1 <= type_of k lam)).
  { destruct (quad_classes k _ _ HV) as [->|[(z & -> & Hz)|(-> & _)]]; [discriminate| |].
    - rewrite size_one in HS. subst z. rewrite type_row. destruct (Z.eqb_spec a k), (Z.eqb_spec a 0); lia.
    - rewrite type_k0 by lia. unfold size in HS. cbn [fold_right] in HS. lia. }
  destruct (c45_OGeven 1 N g Hg HE H4 Hm p (pS lam) HI L1) as [(x1 & x2 & E1 & E2 & P1) HQ]. destruct (HQ Hm1) as (y1 & y2 & F1 & F2 & Q1). clear HQ.
  rewrite Ex in E1. inversion E1; subst x1. clear E1. rewrite Ey in F1. inversion F1; subst y1. clear F1.
  destruct (c44_OG 1 N g p lam Hg (proj2 Hm) ltac:(lia) HL) as (x3 & c & E3 & X0 & HC & _). rewrite E2 in E3. inversion E3; subst x3. clear E3.
  destruct (c44_qOG_even 1 N g p lam Hg HE H4 Hm Hm1 HL) as (y3 & W & F3 & Y0 & HW & _). rewrite F2 in F3. inversion F3; subst y3; clear F3.
  rewrite HE, En in HC. rewrite En in HW. replace (k + 1 - 1) with k in * by lia. apply expands0_qcoefs in X0. replace (1 =? k + 1) with false in HW by lia.
  destruct HW as (W0 & W1 & W2 & W3). rewrite Hsh in W1. change (Z.of_nat (length [a])) with 1 in W1. assert (E11 : (1 =? k + 1 - k) = true) by (apply Z.eqb_eq; lia). rewrite E11 in W1.
  replace (k + 2 - k) with 2 in W1 by lia. replace (k + 1 - k) with 1 in * by lia. replace (k + k) with (2 * k) in * by lia.
  assert (Hpart : part lam 0 = a).
  { destruct (quad_classes k _ _ HV) as [->|[(z & -> & Hz)|(-> & _)]]; [discriminate|rewrite size_one in HS; exact HS|]. unfold size in HS. cbn [fold_right] in HS. unfold part. cbn. lia. }
  rewrite Hpart in W2. replace (a =? 2 * k) with false in W2 by lia.
  assert (GX : forall mu, c mu = if (a + b <=? 2 * k) && at_level k (a + b) mu then w0 k lam a b p else 0%Qc) by (intros mu; apply (quadD0 k Hk lam a b p); auto).
  assert (GY0 : forall mu, W 0%nat mu = if (a + b <=? 2 * k) && at_level k (a + b) mu then w0 k lam a b p else 0%Qc) by (intros mu; apply (quadD0 k Hk lam a b p); auto).
  assert (GY1 : forall mu, W 1%nat mu = if (2 * k <=? a + b) && at_level k (a + b - 2 * k) mu then w1 k lam a b p else 0%Qc).
  { intros mu. destruct (Qc_eq_dec (W 1%nat mu) 0%Qc) as [Z0|NZ].
    - destruct ((2 * k <=? a + b) && at_level k (a + b - 2 * k) mu) eqn:E; auto. assert (E' := E). rewrite andb_true_iff, Z.leb_le in E. destruct E as [Ea Eb].
      destruct (class_level k Hk lam a b Htl (a + b - 2 * k) mu ltac:(lia) Eb) as [HM _]. rewrite (quadD1 k Hk lam a b p Hsh HS Hb Ha Hp Htl mu _ HM (W1 mu HM)). rewrite E'. reflexivity.
    - apply (quadD1 k Hk lam a b p); auto; [apply (W3 1%nat); auto|apply W1; apply (W3 1%nat); auto]. }
  split.
  - rewrite P1. apply (qcoefs_eq _ _ _ X0). eapply qcoefs_ext; [|exact (pscale_level false (a + b) _ I)].
    intros [|d] mu; cbn [Nat.eqb andb]; [|reflexivity]. rewrite GX. destruct (a + b <=? 2 * k); cbn [andb]; [reflexivity|]. destruct (at_level k (a + b) mu); reflexivity.
  - rewrite Q1. apply (qcoefs_eq _ _ _ Y0).
    destruct (Z.leb_spec (2 * k) (a + b)) as [L|L].
    + eapply qcoefs_ext; [|apply qcoefs_padd; [exact (pscale_level false (a + b) _ I)|refine (pscale_level true (a + b - 2 * k) _ _); lia]].
      intros [|[|d]] mu; cbn [Nat.eqb andb].
      * rewrite GY0. destruct (a + b <=? 2 * k); cbn [andb]; destruct (at_level k (a + b) mu); ring.
      * rewrite GY1. cbn [andb]. destruct (at_level k (a + b - 2 * k) mu); ring.
      * destruct (Qc_eq_dec (W (S (S d)) mu) 0%Qc) as [Z0|NZ]; [rewrite Z0; ring|]. destruct (W3 _ _ NZ) as [D _]. destruct d; [|lia]. rewrite W2. ring.
    + eapply qcoefs_peq; [|eapply qcoefs_ext; [|exact (pscale_level false (a + b) (if a + b <=? 2 * k then w0 k lam a b p else 0%Qc) I)]].
      * rewrite ps0. ring.
      * intros [|[|d]] mu; cbn [Nat.eqb andb].
        -- rewrite GY0. destruct (a + b <=? 2 * k); cbn [andb]; destruct (at_level k (a + b) mu); ring.
        -- rewrite GY1. reflexivity.
        -- destruct (Qc_eq_dec (W (S (S d)) mu) 0%Qc) as [Z0|NZ]; [rewrite Z0; ring|]. destruct (W3 _ _ NZ) as [D _]. destruct d; [|lia]. rewrite W2. reflexivity.
Qed.

Lemma level_1 c : 1 <= c -> c <> k -> level (2 * k) c = pS [c].
Proof. intros. apply level_row; lia. Qed.
Lemma level_0 : level (2 * k) 0 = pS [].
Proof. unfold level. replace (2 * 0 =? 2 * k) with false by lia. reflexivity. Qed.
Lemma index_row i : 1 <= i <= 2 * k -> index_even 1 N i.
Proof. intros H. left. lia. Qed.
Lemma index_mid : index_even 1 N (- k).
Proof. right. rewrite En. lia. Qed.
Lemma spec_row i : 1 <= i -> special_class i = [i].
Proof. intros H. unfold special_class. destruct (Z.ltb_spec 0 i); [reflexivity|lia]. Qed.
Lemma spec_mid : special_class (- k) = [k; 0].
Proof. unfold special_class. destruct (Z.ltb_spec 0 (- k)); [lia|]. rewrite Z.opp_involutive. reflexivity. Qed.
Lemma shape_1 a : 1 <= a -> shape [a] = [a] /\ size [a] = a.
Proof. intros H. split; [apply shape_row; lia|apply size_one]. Qed.
Lemma type_away a : a <> k -> type_of k [a] = 0.
Proof. intros H. rewrite type_row. destruct (Z.eqb_spec a k); [lia|reflexivity]. Qed.

Lemma quad_even_le a b : 1 <= b <= a -> a <= 2 * k -> a <> k -> b <> k ->
  exists x y x' y', mult g (pS [a]) (pS [b]) = Ok x /\ qmult g (pS [a]) (pS [b]) = Ok y /\
    mult g (pS [b]) (pS [a]) = Ok x' /\ qmult g (pS [b]) (pS [a]) = Ok y' /\ peq x x' /\ peq y y' /\ quadric_products (2 * k) a b x y.
Proof.
  intros Hb Ha Na Nb. unfold quadric_products. rewrite Z.max_l, Z.min_r by lia. destruct (Z.eq_dec a (2 * k)) as [Ea|Ea].
  - destruct (c27_OGeven 1 N g Hg HE H4 Hm) as [C1 C2]. specialize (C2 Hm1).
    pose proof (lin_comb_pS1 _ _ (class_row_E a ltac:(lia))) as L1. pose proof (lin_comb_pS1 _ _ (class_row_E b ltac:(lia))) as L2.
    destruct (pl_commutative _ _ C1 _ _ L1 L2) as (x & x' & Ex & Ex' & Px). destruct (pl_commutative _ _ C2 _ _ L1 L2) as (y & y' & Ey & Ey' & Py).
    exists x, y, x', y'. do 6 (split; auto).
    destruct (c68_even 1 N g [b] Hg HE H4 Hm (class_row_E b ltac:(lia))) as (x1 & E1 & _ & A2 & A3 & A4). destruct (A4 Hm1) as (y1 & F1 & _ & B2 & B3). clear A4.
    replace (N - 1 - 1) with a in * by lia. rewrite Ex in E1. inversion E1; subst x1; clear E1. rewrite Ey in F1. inversion F1; subst y1; clear F1.
    destruct (shape_1 b ltac:(lia)) as [Es _]. rewrite Es in *. change (part [b] 0) with b in *. change (Z.of_nat (length [b])) with 1 in *. rewrite <- Ea.
    split; [lia|]. split; [intros _; destruct (Z.eq_dec b a); [apply A3; auto|apply A2; lia]|].
    split; [lia|]. split; [lia|]. split; [lia|]. split; intros.
    + rewrite B2 by lia. unfold swap_type. rewrite En. cbn [existsb]. replace (k + 1 - 1 =? b) with false by lia. reflexivity.
    + rewrite B3 by lia. rewrite En. replace (1 =? k + 1) with false by lia. reflexivity.
  - destruct (shape_1 a ltac:(lia)) as [S1 S2].
    destruct (even_le [a] a b b (class_row_E a ltac:(lia)) S1 S2 Hb ltac:(lia) ltac:(lia) (index_row b ltac:(lia))) as (x & y & x' & y' & Ex & Ey & Ex' & Ey' & Px & Py & H).
    rewrite spec_row in * by lia. exists x', y', x, y. do 4 (split; auto). split; [symmetry; exact Px|]. split; [symmetry; exact Py|]. cbv zeta in H. destruct H as [H1 H2]. rewrite Px in H1. rewrite Py in H2.
    unfold w0, w1 in *. rewrite (type_away a Na) in *. replace (b <? 0) with false in * by lia.
    assert (B1 : (2 * a <? 2 * k) && (2 * k <? 2 * (a + b)) = (a <? k) && (k <? a + b)) by (f_equal; apply eq_true_iff_eq; rewrite !Z.ltb_lt; lia).
    assert (B2 : (2 * b <? 2 * k) || (2 * k <? 2 * (a + b - 2 * k)) = (b <? k) || (k <? a + b - 2 * k)) by (f_equal; apply eq_true_iff_eq; rewrite !Z.ltb_lt; lia).
    rewrite B1, B2. clear B1 B2. split; [|split; [|split; [|split; [|split; [|lia]]]]].
    + intros L. rewrite H1. replace (a + b <=? 2 * k) with true by lia. replace (b <? k) with true by lia. destruct ((a <? k) && (k <? a + b)); [reflexivity|apply ps1].
    + intros L. rewrite H1. replace (a + b <=? 2 * k) with false by lia. apply ps0.
    + intros L. rewrite H2, H1. replace (2 * k <=? a + b) with false by lia. rewrite (ps0 (level _ (a + b - _))). ring.
    + intros L. rewrite H2. replace (a + b <=? 2 * k) with true by lia. replace (2 * k <=? a + b) with true by lia. replace (b <? k) with true by lia. replace (a <? k) with false by lia. cbn [andb].
      replace (a + b =? 2 * k) with true by lia. rewrite !ps1. replace (a + b - 2 * k) with 0 by lia. rewrite level_0, level_1, L by lia. reflexivity.
    + intros L _. rewrite H2. replace (a + b <=? 2 * k) with false by lia. replace (2 * k <=? a + b) with true by lia. replace (a + b =? 2 * k) with false by lia. rewrite ps0.
      destruct ((b <? k) || (k <? a + b - 2 * k)); [ring|rewrite ps1; ring].
Qed.

Lemma mid_row b s : 1 <= b <= 2 * k -> b <> k ->
  exists x y x' y', mult g (pS (middle k s)) (pS [b]) = Ok x /\ qmult g (pS (middle k s)) (pS [b]) = Ok y /\
    mult g (pS [b]) (pS (middle k s)) = Ok x' /\ qmult g (pS [b]) (pS (middle k s)) = Ok y' /\
    middle_products k b s x y /\ peq x x' /\ peq y y'.
Proof.
  intros Hb Nb. assert (EM : special_class (if s then - k else k) = middle k s) by (destruct s; [apply spec_mid|apply spec_row; lia]).
  assert (SM : shape (middle k s) = [k] /\ size (middle k s) = k).
  { destruct s; [|apply shape_1; lia]. split; [apply shape_k0; lia|unfold size; cbn; lia]. }
  destruct SM as [SM1 SM2].
  destruct (Z.eq_dec b (2 * k)) as [Eb|Eb]; [|destruct (Z.ltb_spec b k) as [L|L]].
  - destruct (c27_OGeven 1 N g Hg HE H4 Hm) as [C1 C2]. specialize (C2 Hm1).
    pose proof (lin_comb_pS1 _ _ (class_row_E b ltac:(lia))) as L1. pose proof (lin_comb_pS1 _ _ (class_mid s)) as L2.
    destruct (pl_commutative _ _ C1 _ _ L2 L1) as (x & x' & Ex & Ex' & Px). destruct (pl_commutative _ _ C2 _ _ L2 L1) as (y & y' & Ey & Ey' & Py).
    exists x, y, x', y'. do 4 (split; auto). split; [|auto].
    destruct (c68_even 1 N g (middle k s) Hg HE H4 Hm (class_mid s)) as (x1 & E1 & _ & A2 & A3 & A4). destruct (A4 Hm1) as (y1 & F1 & _ & B2 & B3). clear A4.
    replace (N - 1 - 1) with b in * by lia. rewrite Ex' in E1. inversion E1; subst x1; clear E1. rewrite Ey' in F1. inversion F1; subst y1; clear F1.
    rewrite SM1 in *. assert (PM : part (middle k s) 0 = k) by (destruct s; reflexivity). rewrite PM in *. change (Z.of_nat (length [k])) with 1 in *.
    split; [lia|]. split; [intros _; rewrite Px; apply A2; lia|]. split; [lia|]. intros _. rewrite Py, B2 by lia. rewrite En. replace (k + 1 - 1) with k by lia.
    replace (swap_type k (middle k s)) with (middle k (negb s)); [reflexivity|]. unfold swap_type, middle.
    destruct s; cbn [negb existsb last removelast]; rewrite Z.eqb_refl; cbn [orb]; [reflexivity|]. replace (k =? 0) with false by lia. reflexivity.
  - destruct (even_le (middle k s) k b b (class_mid s) SM1 SM2 ltac:(lia) ltac:(lia) ltac:(lia) (index_row b ltac:(lia))) as (x & y & x' & y' & Ex & Ey & Ex' & Ey' & Px & Py & H).
    rewrite spec_row in * by lia. exists x', y', x, y. do 4 (split; auto). split; [|split; symmetry; auto]. cbv zeta in H. destruct H as [H1 H2]. rewrite Px in H1. rewrite Py in H2.
    unfold w0, w1 in *. replace (k + b <=? 2 * k) with true in * by lia. replace (2 * k <=? k + b) with false in * by lia. replace (b <? k) with true in * by lia.
    replace (k <? k) with false in * by lia. cbn [andb] in *. rewrite ps1, level_1 in H1 by lia. rewrite ps0, ps1, level_1 in H2 by lia.
    split; [intros _; split; [exact H1|rewrite H2; ring]|]. split; [lia|]. split; lia.
  - destruct (shape_1 b ltac:(lia)) as [S1 S2]. assert (HI : index_even 1 N (if s then - k else k)) by (destruct s; [apply index_mid|apply index_row; lia]).
    destruct (even_le [b] b k (if s then - k else k) (class_row_E b ltac:(lia)) S1 S2 ltac:(lia) ltac:(lia) ltac:(destruct s; lia) HI) as (x & y & x' & y' & Ex & Ey & Ex' & Ey' & Px & Py & H).
    rewrite EM in *. exists x, y, x', y'. do 4 (split; auto). split; [|auto]. cbv zeta in H. destruct H as [H1 H2].
    unfold w0, w1 in *. replace (b + k <=? 2 * k) with false in * by lia. replace (2 * k <=? b + k) with true in * by lia. replace (b + k =? 2 * k) with false in * by lia.
    replace (k <? k) with false in * by lia. replace (k <? b + k - 2 * k) with false in * by lia. cbn [orb] in *. rewrite ps0 in H1. rewrite ps0, ps1 in H2. rewrite (level_1 (b + k - 2 * k)) in H2 by lia.
    split; [lia|]. split; [auto|]. split; [intros _|lia]. rewrite H2. replace (b + k - 2 * k) with (b - k) by lia. ring.
Qed.

Lemma mid_mid s s' : exists x y, mult g (pS (middle k s)) (pS (middle k s')) = Ok x /\ qmult g (pS (middle k s)) (pS (middle k s')) = Ok y /\ middle_pair k s s' x y.
Proof.
  assert (EM : special_class (if s then - k else k) = middle k s) by (destruct s; [apply spec_mid|apply spec_row; lia]).
  assert (SM : shape (middle k s') = [k] /\ size (middle k s') = k).
  { destruct s'; [|apply shape_1; lia]. split; [apply shape_k0; lia|unfold size; cbn; lia]. }
  destruct SM as [SM1 SM2]. assert (HI : index_even 1 N (if s then - k else k)) by (destruct s; [apply index_mid|apply index_row; lia]).
  destruct (even_le (middle k s') k k (if s then - k else k) (class_mid s') SM1 SM2 ltac:(lia) ltac:(lia) ltac:(destruct s; lia) HI) as (x & y & x' & y' & Ex & Ey & _ & _ & _ & _ & H).
  rewrite EM in *. exists x, y. do 2 (split; auto). cbv zeta in H. destruct H as [H1 H2]. unfold w0, w1 in *.
  replace (k + k <=? 2 * k) with true in * by lia. replace (2 * k <=? k + k) with true in * by lia. replace (k <? k) with false in * by lia. replace (k + k =? 2 * k) with true in * by lia.
  replace (k + k) with (2 * k) in * by lia. replace (2 * k - 2 * k) with 0 in * by lia. rewrite level_0, level_1 in * by lia.
  assert (ET : type_of k (middle k s') = if s' then 2 else 1) by (destruct s'; [apply type_k0|unfold middle; rewrite type_row, Z.eqb_refl; replace (k =? 0) with false by lia; reflexivity]). rewrite ET in *.
  unfold middle_pair. rewrite !Z.odd_add, Z.odd_sub in *. rewrite <- (Z.negb_odd k).
  assert (NS : ((if s then - k else k) <? 0) = s) by (destruct s; lia). rewrite NS in *. clear NS.
  destruct s, s', (Z.odd k); cbn [Bool.eqb negb Z.odd xorb] in *; rewrite ?ps0, ?ps1 in H1, H2; split; rewrite ?H1, ?H2; try reflexivity; ring.
Qed.
End E.

Lemma quadric_peq' D a b x y x' y' : quadric_products D a b x y -> peq x x' -> peq y y' -> quadric_products D b a x' y'.
Proof.
  unfold quadric_products. intros (H1 & H2 & H3 & H4 & H5 & H6 & H7) Ex Ey. rewrite (Z.max_comm b a), (Z.min_comm b a). replace (b + a) with (a + b) by lia.
  repeat split; intros; rewrite <- ?Ex, <- ?Ey; auto.
Qed.
Lemma even_form N : Z.even N = true -> 6 <= N -> exists k, N = 2 * k + 2 /\ N / 2 - 1 = k /\ 2 <= k.
Proof.
  intros HN H6. apply Z.even_spec in HN. destruct HN as (n & En). exists (n - 1). assert (E2 : N / 2 = n) by (symmetry; apply (Z.div_unique N 2 n 0); lia). lia.
Qed.
Lemma c72_quadric N g a b : OrthogonalGrassmannian 1 N = Ok g -> 5 <= N -> 1 <= a <= N - 2 -> 1 <= b <= N - 2 -> 2 * a <> N - 2 -> 2 * b <> N - 2 ->
  exists x y, mult g (pS [a]) (pS [b]) = Ok x /\ qmult g (pS [a]) (pS [b]) = Ok y /\ quadric_products (N - 2) a b x y.
Proof.
  intros Hg H5 Ha Hb Na Nb. destruct (Z.odd N) eqn:EO; [apply c72_odd'; auto|].
  assert (EE : Z.even N = true) by (rewrite <- Z.negb_odd, EO; reflexivity). assert (N <> 5) by (intros ->; discriminate).
  destruct (even_form N EE ltac:(lia)) as (k & EN & _ & Hk). replace (N - 2) with (2 * k) by lia.
  destruct (Z.le_gt_cases b a) as [L|L].
  - destruct (quad_even_le N k g Hg EN Hk a b ltac:(lia) ltac:(lia) ltac:(lia) ltac:(lia)) as (x & y & _ & _ & Ex & Ey & _ & _ & _ & _ & H0). eauto.
  - destruct (quad_even_le N k g Hg EN Hk b a ltac:(lia) ltac:(lia) ltac:(lia) ltac:(lia)) as (x & y & x' & y' & _ & _ & Ex & Ey & Px & Py & H0). exists x', y'. split; auto. split; auto.
    apply (quadric_peq' (2 * k) b a x y); auto.
Qed.
Lemma c72_middle N g b s : OrthogonalGrassmannian 1 N = Ok g -> Z.even N = true -> 6 <= N -> 1 <= b <= N - 2 -> b <> N / 2 - 1 ->
  exists x y x' y', mult g (pS (middle (N / 2 - 1) s)) (pS [b]) = Ok x /\ qmult g (pS (middle (N / 2 - 1) s)) (pS [b]) = Ok y /\
    mult g (pS [b]) (pS (middle (N / 2 - 1) s)) = Ok x' /\ qmult g (pS [b]) (pS (middle (N / 2 - 1) s)) = Ok y' /\
    middle_products (N / 2 - 1) b s x y /\ peq x x' /\ peq y y'.
Proof.
  intros Hg HE H6 Hb Nb. destruct (even_form N HE H6) as (k & EN & Ek & Hk). rewrite Ek in *. apply (mid_row N k g Hg EN Hk); lia.
Qed.
Lemma c72_pair N g s s' : OrthogonalGrassmannian 1 N = Ok g -> Z.even N = true -> 6 <= N ->
  exists x y, mult g (pS (middle (N / 2 - 1) s)) (pS (middle (N / 2 - 1) s')) = Ok x /\
    qmult g (pS (middle (N / 2 - 1) s)) (pS (middle (N / 2 - 1) s')) = Ok y /\ middle_pair (N / 2 - 1) s s' x y.
Proof.
  intros Hg HE H6. destruct (even_form N HE H6) as (k & EN & Ek & Hk). rewrite Ek in *. apply (mid_mid N k g Hg EN Hk).
Qed.
