(** Products on projective spaces and odd-dimensional quadrics: coefficients. *)

From Coq Require Import ZArith List Lia Bool Permutation QArith Qcanon Setoid Morphisms.
From Verif Require Import Py OrderFacts PyFacts ModelPart ModelQcalc ModelPoly ModelStr ModelGr Spec SpecRel
  SpecPieri PolyFacts SuppFacts OpTheory ConjFacts PieriCoef GrInv WSum CoefSys CompsBound TwoRows TwoRows2 RelBC ApiRing.
Import ListNotations.
Open Scope Z_scope.

Lemma row_or_nil k c s mu : kstrict_in k 1 c mu -> size mu = s -> mu = row s /\ 0 <= s <= c.
Proof.
  intros ((HP & HL & HC) & _) Hs. destruct mu as [|x [|y t]]; [unfold size in Hs; cbn in Hs; subst s; unfold part in HC; cbn in HC; split; [reflexivity|lia]| |cbn in HL; lia].
  unfold size in Hs. cbn in Hs. destruct HP as [HP _]. specialize (HP 0%nat ltac:(cbn; lia)). unfold part in HP, HC. cbn in HP, HC.
  unfold row. destruct (Z.eqb_spec s 0); [lia|]. split; [f_equal; lia|lia].
Qed.
Lemma row2_row x : row2 x 0 = [x]. Proof. reflexivity. Qed.
Lemma cons_row x y : x :: row y = row2 x y. Proof. unfold row, row2. destruct (y =? 0); reflexivity. Qed.
Lemma kstrict_row2 k r c x y : 0 <= k -> 2 <= r -> k < x <= c -> 0 <= y < x -> kstrict_in k r c (row2 x y).
Proof.
  intros Hk Hr Hx Hy. split; [split; [apply row2_partition; lia|split; [rewrite length_row2; destruct (y =? 0); lia|rewrite part_row2_0; lia]]|].
  intros [|[|j]]; rewrite ?part_row2_0, ?part_row2_1, ?part_row2_2; lia.
Qed.
Lemma size_one a : size [a] = a. Proof. unfold size. cbn [fold_right]. lia. Qed.


Section C.
Variables k a b : Z.
Hypothesis Hk : 0 <= k.
Hypothesis Hb : 1 <= b <= a.
Hypothesis Ha : a <= 2 * k + 1.
Lemma projC0 mu c : coef_IG k (k + 1) b 0 [a] mu c -> c = if eqbl mu [a + b] && (a + b <=? 2 * k + 1) then 1%Qc else 0%Qc.
Proof.
  intros [((HV & Hs & Har) & N & HN & _ & ->)|(HT & ->)].
  - replace (k + 1 - k) with 1 in HV by lia. rewrite size_one in Hs. destruct (row_or_nil _ _ _ _ HV Hs) as [E H].
    unfold row in E. destruct (Z.eqb_spec (a + b) 0); [lia|]. subst mu. rewrite (proj2 (eqbl_iff _ _) eq_refl). replace (a + b <=? 2 * k + 1) with true by lia.
    rewrite <- (row2_row (a + b)) in HN.
    assert (HC := comp_short_C k a ltac:(lia) ltac:(lia)). specialize (HC (a + b) 0 ltac:(lia) ltac:(lia) ltac:(lia)).
    rewrite (component_count_unique _ _ _ _ HN HC). apply Qc_is_canon. reflexivity.
  - destruct (eqbl mu [a + b]) eqn:E; auto. destruct (Z.leb_spec (a + b) (2 * k + 1)); auto. exfalso. apply HT. apply eqbl_iff in E. subst mu.
    split; [apply kstrict_row1; lia|]. split; [rewrite !size_one; lia|]. rewrite <- (row2_row (a + b)). apply arrow_two'; lia.
Qed.
Lemma projC1 mu c : coef_IG k (k + 1 + 1) b 1 [a] (k + 1 + k + 1 :: mu) c ->
  c = if eqbl mu (row (a + b - (2 * k + 2))) && (2 * k + 2 <=? a + b) then 1%Qc else 0%Qc.
Proof.
  intros [((HV & Hs & Har) & N & HN & _ & ->)|(HT & ->)].
  - assert (HV' : kstrict_in k 1 (k + 1 + 1 + k) mu) by (pose proof (kstrict_tl _ _ _ _ HV) as ((P1 & P2 & P3) & P4); cbn [tl] in *; destruct HV as ((_ & L & _) & _); cbn [length] in L; split; [split; [exact P1|split; [lia|exact P3]]|exact P4]).
    rewrite size_one in Hs. change (size (k + 1 + k + 1 :: mu)) with (k + 1 + k + 1 + size mu) in Hs.
    destruct (row_or_nil _ _ (a + b - (2 * k + 2)) _ HV' ltac:(lia)) as [E H]. subst mu. rewrite (proj2 (eqbl_iff _ _) eq_refl). replace (2 * k + 2 <=? a + b) with true by lia.
    rewrite cons_row in HN. 
    pose proof (comp_two_C k a (k + 1 + k + 1) (a + b - (2 * k + 2)) ltac:(lia) ltac:(lia) ltac:(lia) ltac:(lia) ltac:(lia) ltac:(lia)) as HC.
    rewrite (component_count_unique _ _ _ _ HN HC). destruct (Z.ltb_spec a (k + 1 + k + 1)); [|lia]. apply Qc_is_canon. reflexivity.
  - destruct (eqbl mu _) eqn:E; auto. destruct (Z.leb_spec (2 * k + 2) (a + b)); auto. exfalso. apply HT. apply eqbl_iff in E. subst mu. rewrite cons_row.
    split; [apply kstrict_row2; lia|]. split; [rewrite size_row2, size_one; lia|]. apply arrow_two; lia.
Qed.
End C.

Section B.
Variables k a b : Z.
Hypothesis Hk : 0 <= k.
Hypothesis Hb : 1 <= b <= a.
Hypothesis Ha : a <= 2 * k + 1.
Lemma quadB0 mu c : coef_OG k (k + 1) b [a] mu c ->
  c = if eqbl mu [a + b] && (a + b <=? 2 * k + 1) then (if (a <=? k) && (k <? a + b) then 1 + 1 else 1)%Qc else 0%Qc.
Proof.
  intros [((HV & Hs & Har) & N & HN & HsN & ->)|(HT & ->)].
  - replace (k + 1 - k) with 1 in HV by lia. rewrite size_one in Hs. destruct (row_or_nil _ _ _ _ HV Hs) as [E H].
    unfold row in E. destruct (Z.eqb_spec (a + b) 0); [lia|]. subst mu. rewrite (proj2 (eqbl_iff _ _) eq_refl). replace (a + b <=? 2 * k + 1) with true by lia.
    rewrite <- (row2_row (a + b)) in HN.
    assert (HC := comp_short_B k a ltac:(lia) ltac:(lia)). specialize (HC (a + b) 0 ltac:(lia) ltac:(lia) ltac:(lia)).
    pose proof (component_count_unique _ _ _ _ HN HC) as EN. subst N. replace (b <=? k) with true by lia.
    cbn [andb]. destruct ((a <=? k) && (k <? a + b)); apply Qc_is_canon; reflexivity.
  - destruct (eqbl mu [a + b]) eqn:E; auto. destruct (Z.leb_spec (a + b) (2 * k + 1)); auto. exfalso. apply HT. apply eqbl_iff in E. subst mu.
    split; [apply kstrict_row1; lia|]. split; [rewrite !size_one; lia|]. rewrite <- (row2_row (a + b)). apply arrow_two'; lia.
Qed.
Hypothesis Hk1 : 1 <= k.
Hypothesis Ha2 : a <= 2 * k.
Lemma quadB1 mu c : (length mu <= 1)%nat -> coef_OG k (k + 1 + 1) b [a] (with_row_and_ones (2 * k) (k + 1 + 1 - k) mu) c ->
  c = if eqbl mu (row (a + b - (2 * k + 1))) && (2 * k + 1 <=? a + b)
      then (if (2 * k + 1 <? a + b) && ((b <=? k) || (k <? a + b - (2 * k + 1))) then 1 + 1 else 1)%Qc else 0%Qc.
Proof.
  intros HL HC0. assert (EW : with_row_and_ones (2 * k) (k + 1 + 1 - k) mu = match mu with [] => row2 (2 * k) 1 | x :: _ => [2 * k + 1; x] end).
  { unfold with_row_and_ones. replace (k + 1 + 1 - k) with 2 by lia. destruct mu as [|x [|y t]]; [cbn; rewrite Z.add_0_r; reflexivity|reflexivity|cbn in HL; lia]. }
  rewrite EW in HC0. clear EW. destruct mu as [|x t].
  - destruct HC0 as [((HV & Hs & Har) & N & HN & HsN & ->)|(HT & ->)].
    + rewrite size_row2, size_one in Hs. replace (a + b - (2 * k + 1)) with 0 by lia. replace (2 * k + 1 <=? a + b) with true by lia. cbn [row Z.eqb eqbl andb].
      assert (HC := comp_short_B k a ltac:(lia) ltac:(lia)). specialize (HC (2 * k) 1 ltac:(lia) ltac:(lia) ltac:(lia)).
      pose proof (component_count_unique _ _ _ _ HN HC) as EN. subst N. replace (a <=? k) with false in * by lia. cbn [andb] in *.
      replace (b <=? k) with true by lia. replace (2 * k + 1 <? a + b) with false by lia. apply Qc_is_canon. reflexivity.
    + destruct (eqbl [] _) eqn:E; auto. destruct (Z.leb_spec (2 * k + 1) (a + b)); auto. exfalso. apply HT. apply eqbl_iff in E. unfold row in E.
      destruct (Z.eqb_spec (a + b - (2 * k + 1)) 0); [|discriminate].
      split; [|split; [rewrite size_row2, size_one; lia|apply arrow_two'; lia]].
      split; [split; [apply row2_partition; lia|split; [rewrite length_row2; cbn [Z.eqb]; lia|rewrite part_row2_0; lia]]|].
      intros [|[|j]]; rewrite ?part_row2_0, ?part_row2_1, ?part_row2_2; lia.
  - destruct t as [|? ?]; [|cbn in HL; lia]. destruct HC0 as [((HV & Hs & Har) & N & HN & HsN & ->)|(HT & ->)].
    + assert (Hx : 0 < x) by (destruct HV as (((HP & _) & _) & _); specialize (HP 1%nat ltac:(cbn; lia)); unfold part in HP; cbn in HP; lia).
      rewrite size_one in Hs. change (size [2 * k + 1; x]) with (2 * k + 1 + (x + 0)) in Hs.
      replace (a + b - (2 * k + 1)) with x by lia. replace (2 * k + 1 <=? a + b) with true by lia. replace (2 * k + 1 <? a + b) with true by lia.
      unfold row. destruct (Z.eqb_spec x 0); [lia|]. rewrite (proj2 (eqbl_iff _ _) eq_refl). cbn [andb].
      assert (ER : [2 * k + 1; x] = row2 (2 * k + 1) x) by (unfold row2; destruct (Z.eqb_spec x 0); [lia|reflexivity]). rewrite ER in HN.
      pose proof (comp_two_B k a (2 * k + 1) x ltac:(lia) ltac:(lia) ltac:(lia) ltac:(lia) ltac:(lia) ltac:(lia)) as HC.
      pose proof (component_count_unique _ _ _ _ HN HC) as EN. subst N. clear HN HC.
      destruct (Z.ltb_spec a (2 * k + 1)), (Z.ltb_spec k x), (Z.leb_spec b k); cbn [orb]; try lia; apply Qc_is_canon; reflexivity.
    + destruct (eqbl [x] _) eqn:E; auto. destruct (Z.leb_spec (2 * k + 1) (a + b)); auto. exfalso. apply HT. apply eqbl_iff in E. unfold row in E.
      destruct (Z.eqb_spec (a + b - (2 * k + 1)) 0); [discriminate|]. assert (Ex : x = a + b - (2 * k + 1)) by congruence.
      assert (ER : [2 * k + 1; x] = row2 (2 * k + 1) x) by (unfold row2; destruct (Z.eqb_spec x 0); [lia|reflexivity]). rewrite ER. clear E.
      split; [apply kstrict_row2; lia|]. split; [rewrite size_row2, size_one; lia|]. apply arrow_two; lia.
Qed.
End B.
