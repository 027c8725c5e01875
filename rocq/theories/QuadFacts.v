(** Products on even-dimensional quadrics: coefficients. *)

From Coq Require Import ZArith List Lia Bool Permutation QArith Qcanon Setoid Morphisms.
From Verif Require Import Py OrderFacts PyFacts ModelPart ModelQcalc ModelPoly ModelStr ModelGr Spec SpecPieri SpecRel
  PolyFacts SuppFacts OpTheory WSum CoefSys ConjFacts PieriCoef PieriD QPieriD RingD CompsBound TwoRows TwoRows2 RelBC TwoRowsD GiamTwoD RelD ApiRing ProjFacts.
Import ListNotations.
Open Scope Z_scope.

Section Q.
Variable k : Z.
Hypothesis Hk : 2 <= k.
(** the classes of the quadric *)
Lemma quad_classes n mu : typed_in k 1 n mu -> mu = [] \/ (exists z, mu = [z] /\ 1 <= z <= n) \/ (mu = [k; 0] /\ k <= n).
Proof.
  intros HV. destruct (typed_shape _ _ _ _ HV) as (Hs & Hc). destruct (row_or_nil _ _ _ _ Hs eq_refl) as [E Hz].
  remember (size (shape mu)) as z. unfold row in E. rewrite E in Hc.
  destruct (Z.eqb_spec z 0) as [|N0]; destruct Hc as [->|(-> & _ & Hin)]; auto.
  - destruct Hin.
  - right. left. exists z. split; [reflexivity|]. lia.
  - right. right. destruct Hin as [Hin|[]]. rewrite Hin. split; [reflexivity|]. lia.
Qed.
Lemma shape_row z : 1 <= z -> shape [z] = [z].
Proof. intros H. unfold shape. cbn [filter]. replace (0 <? z) with true by lia. reflexivity. Qed.
Lemma shape_k0 : shape [k; 0] = [k].
Proof. unfold shape. cbn [filter]. replace (0 <? k) with true by lia. reflexivity. Qed.
Lemma type_row z : type_of k [z] = if z =? k then (if z =? 0 then 2 else 1) else 0.
Proof. unfold type_of. cbn [existsb last]. rewrite (Z.eqb_sym k z). destruct (z =? k); reflexivity. Qed.
Lemma type_k0 : type_of k [k; 0] = 2.
Proof. unfold type_of. cbn [existsb last]. rewrite Z.eqb_refl. reflexivity. Qed.

(** one coefficient; as [coef_val], for both types *)
Lemma coef_val2 n lam a b p mu v : k <= n -> shape lam = [a] -> size lam = a -> 1 <= b <= a -> Z.abs p = b -> coef_D k n p lam mu v ->
  (forall x y, typed_in k (n + 1 - k) (n + k) mu -> shape mu = row2 x y -> x + y = a + b -> 0 <= y <= x -> v = if a <=? x then KD k a b p lam (type_of k mu) x y else 0%Qc) /\
  (v <> 0%Qc -> typed_in k (n + 1 - k) (n + k) mu /\ size mu = a + b).
Proof.
  intros Hn Hsh HS Hb Hp HC. split.
  - intros x y HV Es Hxy Hy. destruct HC as [((H1 & H2 & H3 & H4) & N & HN & _ & ->)|(HT & ->)].
    + pose proof (typed_shape _ _ _ _ H1) as (((HP & _) & _) & _). rewrite Hsh in *. rewrite HS, Hp in H2. rewrite <- (size_shape _ _ _ _ H1) in H2.
      destruct (arrow_row_inv_D k a ltac:(lia) (shape mu) HP ltac:(lia) H3) as (_ & A & _). rewrite Es, part_row2_0 in A.
      destruct (Z.leb_spec a x); [|lia]. rewrite Es in HN.
      pose proof (comp_D k a ltac:(lia) ltac:(lia) x y ltac:(lia) ltac:(lia) ltac:(lia) ltac:(lia)) as HC. pose proof (component_count_unique _ _ _ _ HN HC) as EN. subst N.
      unfold mult_D, KD. rewrite Hp. destruct (Z.eqb_spec (type_of k lam + type_of k mu) 3); [lia|]. destruct (Z.ltb_spec b k); auto.
      destruct (Z.ltb_spec 0 (compsD k a x y)) as [L|L]; auto.
      assert (y <= k) by (unfold compsD in L; destruct (k <? a), ((a <? x) && (2 * k <? x + y)), ((a <? k) && (k <? x)), (Z.ltb_spec k y); lia).
      rewrite Es, Hsh, not_gaining_two by lia. reflexivity.
    + destruct (Z.leb_spec a x); auto. unfold KD. destruct (Z.eqb_spec (type_of k lam + type_of k mu) 3); auto. exfalso. apply HT. split; auto.
      split; [rewrite HS, Hp, <- (size_shape _ _ _ _ HV), Es, size_row2; lia|]. split; auto. rewrite Hsh, Es. apply arrow_two_D; lia.
  - intros Hv. destruct (coef_D_supp _ _ _ _ _ _ HC Hv) as (H1 & H2 & H3 & H4). rewrite HS, Hp in H2. auto.
Qed.

Variables (lam : list Z) (a b p : Z).
Hypothesis Hsh : shape lam = [a].
Hypothesis HS : size lam = a.
Hypothesis Hb : 1 <= b <= a.
Hypothesis Ha : a <= 2 * k - 1.
Hypothesis Hp : Z.abs p = b.
Hypothesis Htl : type_of k lam <= 2 /\ (a <> k -> type_of k lam = 0) /\ (a = k -> 1 <= type_of k lam).
Notation neg := (if p <? 0 then 1 else 0).

(** the classes of codimension [c] *)
Definition at_level (c : Z) (mu : list Z) : bool := eqbl mu (row c) || ((c =? k) && eqbl mu [k; 0]).
Definition w0 : Qc :=
  if b <? k then (if (a <? k) && (k <? a + b) then 1 + 1 else 1)%Qc else if Z.odd (k + type_of k lam + neg) then 1%Qc else 0%Qc.
Definition w1 : Qc :=
  if a + b =? 2 * k then (if b <? k then 1%Qc else if Z.odd (k - 1 + type_of k lam + neg) then 1%Qc else 0%Qc)
  else if (b <? k) || (k <? a + b - 2 * k) then (1 + 1)%Qc else 1%Qc.

Lemma level_class n mu : typed_in k 1 n mu -> at_level (size mu) mu = true.
Proof.
  intros HV. unfold at_level. destruct (quad_classes n mu HV) as [->|[(z & -> & Hz)|(-> & _)]]; [reflexivity| |].
  - rewrite size_one. unfold row. destruct (Z.eqb_spec z 0); [lia|]. rewrite (proj2 (eqbl_iff _ _) eq_refl). reflexivity.
  - replace (size [k; 0]) with k by (unfold size; cbn [fold_right]; lia). rewrite Z.eqb_refl, (proj2 (eqbl_iff [k; 0] _) eq_refl). apply orb_true_r.
Qed.
Lemma class_level c mu : 0 <= c <= 2 * k -> at_level c mu = true -> typed_in k 1 (2 * k) mu /\ size mu = c.
Proof.
  intros Hc. unfold at_level. rewrite orb_true_iff, andb_true_iff, !eqbl_iff, Z.eqb_eq. intros [->|(-> & ->)].
  - unfold row. destruct (Z.eqb_spec c 0) as [->|N0]; [split; [left; apply RingC.kstrict_nil; lia|reflexivity]|]. split; [left; apply kstrict_row1; lia|apply size_one].
  - split; [right; exists [k]; split; [reflexivity|]; split; [lia|]; split; [left; reflexivity|apply kstrict_row1; lia]|unfold size; cbn [fold_right]; lia].
Qed.
Lemma quadD0 mu c : coef_D k k p lam mu c -> c = if (a + b <=? 2 * k) && at_level (a + b) mu then w0 else 0%Qc.
Proof.
  intros HC. destruct (coef_val2 k lam a b p mu c ltac:(lia) Hsh HS Hb Hp HC) as [H1 H2]. replace (k + 1 - k) with 1 in * by lia. replace (k + k) with (2 * k) in * by lia.
  destruct ((a + b <=? 2 * k) && at_level (a + b) mu) eqn:E.
  - rewrite andb_true_iff, Z.leb_le in E. destruct E as [E1 E2]. destruct (class_level (a + b) mu ltac:(lia) E2) as [HV Hs].
    destruct (quad_classes _ _ HV) as [->|[(z & -> & Hz)|(-> & _)]].
    + unfold size in Hs. cbn in Hs. lia.
    + rewrite size_one in Hs. subst z. rewrite (H1 (a + b) 0 HV ltac:(apply shape_row; lia) ltac:(lia) ltac:(lia)). replace (a <=? a + b) with true by lia.
      unfold KD, w0, compsD. rewrite type_row. replace (2 * k <? a + b + 0) with false by lia. rewrite andb_false_r. replace (k <? 0) with false by lia.
      destruct (Z.eqb_spec (a + b) 0); [lia|]. rewrite Z.add_0_r, Z.sub_0_r.
      destruct (Z.eqb_spec (a + b) k) as [Ek|Nk].
      * replace (type_of k lam) with 0 by (symmetry; apply Htl; lia). replace (b <? k) with true by lia. replace (k <? a) with false by lia. replace (k <? a + b) with false by lia. rewrite andb_false_r. apply Qc_is_canon. reflexivity.
      * replace (type_of k lam + 0 =? 3) with false by lia. destruct (Z.ltb_spec b k).
        -- destruct (Z.ltb_spec k a); [replace (a <? k) with false by lia; apply Qc_is_canon; reflexivity|].
           destruct ((a <? k) && (k <? a + b)); apply Qc_is_canon; reflexivity.
        -- replace (k <? a) with false by lia. replace (a <? k) with false by lia. cbn [andb]. change (0 <? 0) with false. cbv iota.
           replace (Z.max (type_of k lam) 0) with (type_of k lam) by lia. reflexivity.
    + replace (size [k; 0]) with k in Hs by (unfold size; cbn [fold_right]; lia).
      rewrite (H1 (a + b) 0 HV ltac:(rewrite shape_k0, row2_row; f_equal; lia) ltac:(lia) ltac:(lia)). replace (a <=? a + b) with true by lia.
      unfold KD, w0, compsD. rewrite type_k0. replace (type_of k lam) with 0 by (symmetry; apply Htl; lia). replace (b <? k) with true by lia. replace (k <? a) with false by lia. replace (k <? a + b) with false by lia.
      rewrite andb_false_r. replace (k <? 0) with false by lia. apply Qc_is_canon. reflexivity.
  - destruct (Qc_eq_dec c 0%Qc) as [|Ne]; auto. exfalso. destruct (H2 Ne) as [HV Hs].
    pose proof (level_class _ _ HV) as HL. rewrite Hs in HL. rewrite HL, andb_true_r in E.
    destruct (quad_classes _ _ HV) as [->|[(z & -> & Hz)|(-> & _)]]; [unfold size in Hs; cbn in Hs; lia|rewrite size_one in Hs; lia|].
    replace (size [k; 0]) with k in Hs by (unfold size; cbn [fold_right]; lia). lia.
Qed.

Lemma nu_cases mu : typed_in k 1 (2 * k) mu ->
  with_row_and_ones_D (2 * k - 1) 2 (swap_type k mu) =
    match mu with [] => [2 * k - 1; 1] | [z] => if z =? k then [2 * k; k; 0] else [2 * k; z] | _ => [2 * k; k] end.
Proof.
  intros HV. destruct (quad_classes _ _ HV) as [->|[(z & -> & Hz)|(-> & _)]].
  - unfold with_row_and_ones_D, swap_type, with_row_and_ones. cbn [existsb last]. change (1 =? 0) with false. cbv iota. cbn [length app Nat.sub repeat Z.to_nat Pos.to_nat Pos.iter_op Nat.add]. f_equal. lia.
  - unfold swap_type. cbn [existsb last]. rewrite (Z.eqb_sym k z). destruct (Z.eqb_spec z k) as [->|Nz]; cbn [orb].
    + replace (k =? 0) with false by lia. cbn [app]. unfold with_row_and_ones_D. cbn [last]. change (0 =? 0) with true. cbv iota. cbn [removelast]. unfold with_row_and_ones. cbn [length app Nat.sub repeat Z.to_nat Pos.to_nat Pos.iter_op Nat.add].
      f_equal. lia.
    + unfold with_row_and_ones_D. cbn [last]. replace (z =? 0) with false by lia. unfold with_row_and_ones. cbn [length app Nat.sub repeat Z.to_nat Pos.to_nat Pos.iter_op Nat.add]. f_equal. lia.
  - unfold swap_type. cbn [existsb last]. rewrite Z.eqb_refl. cbn [orb]. change (0 =? 0) with true. cbv iota. cbn [removelast].
    unfold with_row_and_ones_D. cbn [last]. replace (k =? 0) with false by lia. unfold with_row_and_ones. cbn [length app Nat.sub repeat Z.to_nat Pos.to_nat Pos.iter_op Nat.add]. f_equal. lia.
Qed.
Lemma typed2 x y : k < x <= 2 * k + 1 -> 1 <= y < x -> typed_in k 2 (2 * k + 1) [x; y] /\ (y = k -> typed_in k 2 (2 * k + 1) [x; y; 0]).
Proof.
  intros Hx Hy. assert (H : kstrict_in k 2 (2 * k + 1) [x; y]).
  { replace [x; y] with (row2 x y) by (unfold row2; destruct (Z.eqb_spec y 0); [lia|reflexivity]). apply kstrict_row2; lia. }
  split; [left; exact H|]. intros ->. right. exists [x; k]. split; [reflexivity|]. split; [lia|]. split; [right; left; reflexivity|exact H].
Qed.
Lemma shape2 x y : 1 <= x -> 1 <= y -> shape [x; y] = row2 x y /\ shape [x; y; 0] = row2 x y.
Proof.
  intros Hx Hy. unfold shape, row2. cbn [filter]. replace (0 <? x) with true by lia. replace (0 <? y) with true by lia. replace (y =? 0) with false by lia. auto.
Qed.
Lemma quadD1 mu c : typed_in k 1 (2 * k) mu -> coef_D k (k + 1) p lam (with_row_and_ones_D (2 * k - 1) 2 (swap_type k mu)) c ->
  c = if (2 * k <=? a + b) && at_level (a + b - 2 * k) mu then w1 else 0%Qc.
Proof.
  intros HV HC. rewrite (nu_cases mu HV) in HC.
  destruct (coef_val2 (k + 1) lam a b p _ c ltac:(lia) Hsh HS Hb Hp HC) as [H1 H2]. replace (k + 1 + 1 - k) with 2 in * by lia. replace (k + 1 + k) with (2 * k + 1) in * by lia.
  destruct ((2 * k <=? a + b) && at_level (a + b - 2 * k) mu) eqn:E.
  - rewrite andb_true_iff, Z.leb_le in E. destruct E as [E1 E2]. destruct (class_level (a + b - 2 * k) mu ltac:(lia) E2) as [_ Hs].
    destruct (quad_classes _ _ HV) as [->|[(z & -> & Hz)|(-> & _)]].
    + unfold size in Hs. cbn [fold_right] in Hs. rewrite (H1 (2 * k - 1) 1) by (try (apply typed2; lia); try (apply shape2; lia); lia).
      replace (a <=? 2 * k - 1) with true by lia. assert (ET : type_of k [2 * k - 1; 1] = 0) by (unfold type_of; cbn [existsb]; replace (k =? 2 * k - 1) with false by lia; replace (k =? 1) with false by lia; reflexivity).
      rewrite ET. unfold KD, w1, compsD. replace (a + b =? 2 * k) with true by lia. replace (type_of k lam + 0 =? 3) with false by lia.
      replace (2 * k <? 2 * k - 1 + 1) with false by lia. rewrite andb_false_r. replace (k <? 1) with false by lia.
      assert (EK : (if k <? a then 0 else if (a <? k) && (k <? 2 * k - 1) then 1 else 0) = 0) by (destruct (Z.ltb_spec k a); auto; destruct (Z.ltb_spec a k); [lia|reflexivity]).
      rewrite EK. change (0 + 0) with 0. change (0 <? 0) with false. cbv iota. destruct (b <? k); [apply Qc_is_canon; reflexivity|].
      replace (Z.max (type_of k lam) 0) with (type_of k lam) by lia. reflexivity.
    + rewrite size_one in Hs. assert (EV : c = if a <=? 2 * k then KD k a b p lam (if z =? k then 2 else 0) (2 * k) z else 0%Qc).
      { destruct (Z.eqb_spec z k) as [Ez|Nz].
        - rewrite Ez. rewrite (H1 (2 * k) k) by (try (apply typed2; lia); try (apply shape2; lia); lia).
          assert (ET : type_of k [2 * k; k; 0] = 2) by (unfold type_of; cbn [existsb last]; rewrite Z.eqb_refl, orb_true_r; reflexivity). rewrite ET. reflexivity.
        - rewrite (H1 (2 * k) z) by (try (apply typed2; lia); try (apply shape2; lia); lia).
          assert (ET : type_of k [2 * k; z] = 0) by (unfold type_of; cbn [existsb last]; replace (k =? 2 * k) with false by lia; replace (k =? z) with false by lia; reflexivity). rewrite ET. reflexivity. }
      rewrite EV. replace (a <=? 2 * k) with true by lia. unfold KD, w1, compsD. replace (type_of k lam) with 0 by (symmetry; apply Htl; lia).
      replace (k <? a) with true by lia. replace (a <? 2 * k) with true by lia. replace (2 * k <? 2 * k + z) with true by lia. cbn [andb].
      replace (a + b =? 2 * k) with false by lia. replace (a + b - 2 * k) with z by lia.
      replace (0 + (if z =? k then 2 else 0) =? 3) with false by (destruct (z =? k); reflexivity).
      destruct (Z.ltb_spec b k), (Z.ltb_spec k z); cbn [orb]; try lia; apply Qc_is_canon; reflexivity.
    + replace (size [k; 0]) with k in Hs by (unfold size; cbn [fold_right]; lia).
      rewrite (H1 (2 * k) k) by (try (apply typed2; lia); try (apply shape2; lia); lia).
      assert (ET : type_of k [2 * k; k] = 1) by (unfold type_of; cbn [existsb last]; rewrite Z.eqb_refl, orb_true_r; replace (k =? 0) with false by lia; reflexivity). rewrite ET.
      replace (a <=? 2 * k) with true by lia. unfold KD, w1, compsD. replace (type_of k lam) with 0 by (symmetry; apply Htl; lia).
      replace (k <? a) with true by lia. replace (a <? 2 * k) with true by lia. replace (2 * k <? 2 * k + k) with true by lia. cbn [andb].
      replace (a + b =? 2 * k) with false by lia. replace (a + b - 2 * k) with k by lia. change (0 + 1 =? 3) with false. cbv iota.
      replace (k <? k) with false by lia. replace (b <? k) with false by lia. apply Qc_is_canon. reflexivity.
  - destruct (Qc_eq_dec c 0%Qc) as [|Ne]; auto. exfalso. destruct (H2 Ne) as [_ Hs].
    assert (Hsz : size mu = a + b - 2 * k).
    { destruct (quad_classes _ _ HV) as [->|[(z & -> & Hz)|(-> & _)]].
      - unfold size in *. cbn [fold_right] in *. lia.
      - rewrite size_one. destruct (Z.eqb_spec z k); unfold size in Hs; cbn [fold_right] in Hs; lia.
      - unfold size in *. cbn [fold_right] in *. lia. }
    pose proof (level_class _ _ HV) as HL. rewrite Hsz in HL. rewrite HL, andb_true_r in E.
    assert (0 <= size mu) by (destruct (quad_classes _ _ HV) as [->|[(z & -> & Hz)|(-> & _)]]; unfold size; cbn [fold_right]; lia). lia.
Qed.
End Q.
