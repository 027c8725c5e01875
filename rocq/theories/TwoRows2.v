(** The Pieri rule of IG(n-k,2n) and OG(n-k,2n+1) for a single row of any length. *)

From Coq Require Import ZArith List Lia Bool.
From Verif Require Import Py Spec SpecPieri ConjFacts CompsBound TwoRows.
Import ListNotations.
Open Scope Z_scope.

Lemma one_partition a : 1 <= a -> is_partition [a].
Proof. intros Ha. split; [intros [|j] Hj; cbn in *; lia|]. intros [|j]; rewrite ?part_one; [unfold part; cbn|]; lia. Qed.

Section Short.
Variables k a : Z.
Hypothesis Hk : 0 <= k.
Hypothesis Ha : 1 <= a.

Lemma arrow_row_inv' mu : is_partition mu -> a <= size mu -> pieri_arrow k 0 [a] mu ->
  mu = row2 (part mu 0) (part mu 1) /\ a <= part mu 0 /\ 0 <= part mu 1 <= a.
Proof.
  intros Hmu Hsz Har. destruct (Z.lt_ge_cases k a) as [L|L]; [apply (arrow_row_inv k a); auto; lia|].
  destruct Har as ((nu & Hnu & Hr & Hs) & _ & H2).
  destruct (Hr 0%nat) as [A1 A2]. change (part [a] 0) with a in *.
  destruct (Hr 1%nat) as [B1 _]. rewrite part_one in B1.
  pose proof (Hs 0%nat) as C0. pose proof (Hs 1%nat) as C1. pose proof (Hs 2%nat) as C2.
  assert (N2 : forall j, 0 <= part mu j).
  { intros j. destruct (Nat.lt_ge_cases j (length mu)) as [L'|L']; [destruct Hmu as [H _]; specialize (H j L'); lia|].
    unfold part. rewrite nth_overflow by auto. lia. }
  pose proof (N2 1%nat). pose proof (N2 2%nat).
  destruct (Z.le_gt_cases (part mu 0) 0) as [L0|L0].
  { exfalso. destruct mu as [|x t]; [cbn in Hsz; lia|]. destruct Hmu as [H1 _]. specialize (H1 0%nat ltac:(cbn; lia)). lia. }
  destruct (two_rows mu Hmu ltac:(lia) ltac:(lia)) as [E E']. split; [exact E|].
  destruct (Z.le_gt_cases a (part mu 0)) as [|G]; [lia|]. exfalso.
  set (x := part mu 0) in *. set (y := part mu 1) in *. clearbody x y. subst mu.
  destruct (H2 a Ha) as (row & Hrow).
  { rewrite count_row2, count_one by lia. destruct (Z.leb_spec a x), (Z.leb_spec a y), (Z.leb_spec a a); lia. }
  destruct (Hrow 1) as ((r, c) & _ & [Hz _] & R & _).
  { rewrite count_row2, count_one by lia. destruct (Z.leb_spec a x), (Z.leb_spec a y), (Z.leb_spec a a); lia. }
  unfold related, in_diagram in *. cbn [fst snd] in *.
  destruct (Z.eq_dec r 1) as [->|N1]; [change (Z.to_nat (1 - 1)) with 0%nat in Hz; rewrite part_row2_0 in Hz; lia|].
  destruct (Z.eq_dec r 2) as [->|N2']; [change (Z.to_nat (2 - 1)) with 1%nat in Hz; rewrite part_row2_1 in Hz; lia|].
  replace (Z.to_nat (r - 1)) with (S (S (Z.to_nat (r - 3)))) in Hz by lia. rewrite part_row2_2 in Hz. lia.
Qed.

Variables x y : Z.
Hypothesis Hx : a <= x.
Hypothesis Hy : 0 <= y <= a.
Notation mu := (row2 x y).
Notation lam := [a].
Lemma added_two' z : added lam mu z <-> (fst z = 1 /\ a < snd z <= x) \/ (fst z = 2 /\ 1 <= snd z <= y).
Proof.
  destruct z as [r c]. unfold added, in_diagram. cbn [fst snd].
  destruct (Z.le_gt_cases r 0) as [Hr|Hr]; [lia|]. destruct (Z.eq_dec r 1) as [->|N1].
  - change (Z.to_nat (1 - 1)) with 0%nat. rewrite part_row2_0. change (part [a] 0) with a. lia.
  - destruct (Z.eq_dec r 2) as [->|N2].
    + change (Z.to_nat (2 - 1)) with 1%nat. rewrite part_row2_1, part_one. lia.
    + replace (Z.to_nat (r - 1)) with (S (S (Z.to_nat (r - 3)))) by lia. rewrite part_row2_2, part_one. lia.
Qed.
Lemma arrow_two' : pieri_arrow k 0 lam mu.
Proof.
  destruct (Z.lt_ge_cases k a) as [L|L]; [apply arrow_two; auto; lia|]. split; [|split].
  - exists lam. split; [apply one_partition; auto|]. split; [intros j; lia|].
    intros [|[|j]]; [rewrite part_row2_0, part_row2_1; change (part [a] 0) with a|rewrite part_row2_1, part_row2_2, part_one|rewrite !part_row2_2, part_one]; lia.
  - intros c Hc E z z' Hz Hz' R R'. rewrite count_row2, count_one in E by lia. unfold bottom_box, related in *. cbn [fst snd] in *.
    rewrite count_row2 in R, R' by lia. apply added_two' in Hz. apply added_two' in Hz'. destruct z as [r1 c1], z' as [r2 c2]. cbn [fst snd] in *.
    destruct (Z.leb_spec c x), (Z.leb_spec c a), (Z.leb_spec c y); try lia; f_equal; lia.
  - intros c Hc E. exfalso. rewrite count_row2, count_one in E by lia.
    destruct (Z.leb_spec c x), (Z.leb_spec c a), (Z.leb_spec c y); lia.
Qed.
Hypothesis Hxy : x + y <= 2 * k + 1.
Lemma free_short z : free_box k 0 lam mu z <-> fst z = 1 /\ a <= k < snd z /\ snd z <= x /\ snd z <= 2 * k + 1 - a.
Proof.
  unfold free_box. rewrite added_two'. destruct z as [r c]. cbn [fst snd]. split.
  - intros ([(-> & Hc)|(-> & Hc)] & Hck & Hm); [|lia]. split; auto.
    destruct (Z.le_gt_cases c (2 * k + 1 - a)) as [|G]; [lia|]. exfalso. apply Hm.
    exists (2 * k + 2 - c), 1. rewrite count_row2, count_one by lia. unfold related. cbn [fst snd].
    destruct (Z.leb_spec (2 * k + 2 - c) x), (Z.leb_spec (2 * k + 2 - c) y), (Z.leb_spec (2 * k + 2 - c) a); lia.
  - intros (-> & Hak & Hc). split; [left; lia|]. split; [lia|]. intros (c' & r' & C1 & C2 & C3). rewrite count_row2, count_one in C2 by lia.
    unfold related in C3. cbn [fst snd] in C3. destruct (Z.leb_spec c' x), (Z.leb_spec c' y), (Z.leb_spec c' a); lia.
Qed.
Notation A := (free_box k 0 lam mu).
Lemma con_short c c' : k < c -> c <= c' <= x -> c' <= 2 * k + 1 - a -> a <= k -> connected A (1, c) (1, c').
Proof.
  intros Hc Hc' Hc2 Hak. assert (G : forall n : nat, c + Z.of_nat n <= c' -> connected A (1, c) (1, c + Z.of_nat n)).
  { induction n as [|n IH]; intros Hn.
    - rewrite Z.add_0_r. constructor. apply free_short. cbn [fst snd]. lia.
    - apply con_step with (1, c + Z.of_nat n); [apply IH; lia|apply free_short; cbn [fst snd]; lia|]. split; cbn [fst snd]; lia. }
  specialize (G (Z.to_nat (c' - c)) ltac:(lia)). replace (c + Z.of_nat (Z.to_nat (c' - c))) with c' in G by lia. exact G.
Qed.
Lemma comp_short_C : component_count A (fun z => snd z <> k + 1) 0.
Proof.
  exists []. split; [reflexivity|]. split; [constructor|]. split; [intros z []|]. split; [intros z w []|].
  intros [r c] [Hz Hp]. exfalso. pose proof Hz as Hz'. apply free_short in Hz'. cbn [fst snd] in Hz'. destruct Hz' as (-> & Hak & Hc).
  apply (Hp (1, k + 1)); [|reflexivity]. apply cn_sym. apply con_short; lia.
Qed.
Lemma comp_short_B : component_count A (fun _ => True) (if (a <=? k) && (k <? x) then 1 else 0).
Proof.
  destruct (Z.leb_spec a k) as [L|L]; [destruct (Z.ltb_spec k x) as [L'|L']|]; cbn [andb].
  - exists [(1, k + 1)]. split; [reflexivity|]. split; [repeat constructor; auto|]. split; [|split].
    + intros z [<-|[]]. split; auto. apply free_short. cbn [fst snd]. lia.
    + intros z w [<-|[]] [<-|[]] _. reflexivity.
    + intros [r c] [Hz _]. exists (1, k + 1). split; [left; auto|]. apply free_short in Hz. cbn [fst snd] in Hz. destruct Hz as (-> & Hak & Hc). apply con_short; lia.
  - exists []. split; [reflexivity|]. split; [constructor|]. split; [intros z []|]. split; [intros z w []|].
    intros [r c] [Hz _]. apply free_short in Hz. cbn [fst snd] in Hz. lia.
  - exists []. split; [reflexivity|]. split; [constructor|]. split; [intros z []|]. split; [intros z w []|].
    intros [r c] [Hz _]. apply free_short in Hz. cbn [fst snd] in Hz. lia.
Qed.
End Short.
