(** The Pieri rule of IG(n-k,2n) and OG(n-k,2n+1) for a single row longer than k:
    the shapes have at most two rows. *)

From Coq Require Import ZArith List Lia Bool.
From Verif Require Import Py Spec SpecPieri ConjFacts CompsBound.
Import ListNotations.
Open Scope Z_scope.

Definition row2 (x y : Z) : list Z := if y =? 0 then [x] else [x; y].
Lemma part_row2_0 x y : part (row2 x y) 0 = x.
Proof. unfold row2. destruct (y =? 0); reflexivity. Qed.
Lemma part_row2_1 x y : part (row2 x y) 1 = y.
Proof. unfold row2. destruct (Z.eqb_spec y 0); [subst|]; reflexivity. Qed.
Lemma part_row2_2 x y j : part (row2 x y) (S (S j)) = 0.
Proof. unfold row2. destruct (y =? 0); destruct j; reflexivity. Qed.
Lemma size_row2 x y : size (row2 x y) = x + y.
Proof. unfold row2, size. destruct (Z.eqb_spec y 0); cbn; lia. Qed.
Lemma count_row2 x y c : 1 <= c -> 0 <= y -> count_ge (row2 x y) c = (if c <=? x then 1 else 0) + (if c <=? y then 1 else 0).
Proof.
  intros Hc Hy. unfold row2. destruct (Z.eqb_spec y 0) as [->|]; rewrite !count_ge_cons; unfold count_ge; cbn [filter length].
  - destruct (Z.leb_spec c 0); lia.
  - lia.
Qed.
Lemma row2_partition x y : 0 < x -> 0 <= y <= x -> is_partition (row2 x y).
Proof.
  intros Hx Hy. split.
  - intros j Hj. destruct j as [|[|j]]; [rewrite part_row2_0; lia|rewrite part_row2_1|exfalso]; unfold row2 in Hj; destruct (Z.eqb_spec y 0); cbn in Hj; lia.
  - intros [|[|j]]; [rewrite part_row2_0, part_row2_1|rewrite part_row2_1, part_row2_2|rewrite !part_row2_2]; lia.
Qed.
Lemma length_row2 x y : Z.of_nat (length (row2 x y)) = if y =? 0 then 1 else 2.
Proof. unfold row2. destruct (y =? 0); reflexivity. Qed.
Lemma two_rows mu : is_partition mu -> 0 < part mu 0 -> part mu 2 = 0 -> mu = row2 (part mu 0) (part mu 1) /\ 0 <= part mu 1 <= part mu 0.
Proof.
  intros [H1 H2] H0 H3. pose proof (H2 0%nat). pose proof (H2 1%nat). split; [|lia]. unfold row2.
  destruct mu as [|x [|y [|z t]]].
  - cbn in H0. lia.
  - reflexivity.
  - change (part [x; y] 1) with y. specialize (H1 1%nat ltac:(cbn; lia)). change (part [x; y] 1) with y in H1.
    destruct (Z.eqb_spec y 0); [lia|]. reflexivity.
  - exfalso. specialize (H1 2%nat ltac:(cbn; lia)). lia.
Qed.

Lemma part_one a j : part [a] (S j) = 0.
Proof. destruct j; reflexivity. Qed.
Lemma count_one a c : count_ge [a] c = if c <=? a then 1 else 0.
Proof. rewrite count_ge_cons. unfold count_ge. cbn [filter length]. lia. Qed.

Lemma arrow_row_inv k a mu : k < a -> 0 < a -> is_partition mu -> pieri_arrow k 0 [a] mu ->
  mu = row2 (part mu 0) (part mu 1) /\ a <= part mu 0 /\ 0 <= part mu 1 <= a.
Proof.
  intros Hk Ha Hmu ((nu & Hnu & Hr & Hs) & _).
  destruct (Hr 0%nat) as [A1 A2]. change (part [a] 0) with a in *. assert (E0 : part nu 0 = a) by lia.
  destruct (Hr 1%nat) as [B1 _]. rewrite part_one in B1. assert (E1 : part nu 1 <= 0) by lia.
  pose proof (Hs 0%nat) as C0. pose proof (Hs 1%nat) as C1. pose proof (Hs 2%nat) as C2.
  assert (N2 : 0 <= part mu 2).
  { destruct (Nat.lt_ge_cases 2 (length mu)) as [L|L]; [destruct Hmu as [H _]; specialize (H 2%nat L); lia|].
    unfold part. rewrite nth_overflow by auto. lia. }
  assert (N1 : 0 <= part mu 1) by (destruct Hmu as [_ H]; specialize (H 1%nat); lia).
  destruct (two_rows mu Hmu ltac:(lia) ltac:(lia)) as [E _]. split; [exact E|lia].
Qed.

Section Two.
Variables k a x y : Z.
Hypothesis Hk : 0 <= k.
Hypothesis Ha : k < a.
Hypothesis Hx : a <= x.
Hypothesis Hy : 0 <= y <= a.
Notation mu := (row2 x y).
Notation lam := [a].

Lemma added_two z : added lam mu z <-> (fst z = 1 /\ a < snd z <= x) \/ (fst z = 2 /\ 1 <= snd z <= y).
Proof.
  destruct z as [r c]. unfold added, in_diagram. cbn [fst snd].
  destruct (Z.le_gt_cases r 0) as [Hr|Hr]; [lia|]. destruct (Z.eq_dec r 1) as [->|N1].
  - change (Z.to_nat (1 - 1)) with 0%nat. rewrite part_row2_0. change (part [a] 0) with a. lia.
  - destruct (Z.eq_dec r 2) as [->|N2].
    + change (Z.to_nat (2 - 1)) with 1%nat. rewrite part_row2_1, part_one. lia.
    + replace (Z.to_nat (r - 1)) with (S (S (Z.to_nat (r - 3)))) by lia. rewrite part_row2_2, part_one. lia.
Qed.
Lemma arrow_two : pieri_arrow k 0 lam mu.
Proof.
  split; [|split].
  - exists lam. split; [|split].
    + split; [intros [|j] Hj; cbn in *; lia|]. intros [|j]; rewrite ?part_one; [unfold part; cbn|]; lia.
    + intros j. lia.
    + intros [|[|j]]; [rewrite part_row2_0, part_row2_1; change (part [a] 0) with a|rewrite part_row2_1, part_row2_2, part_one|rewrite !part_row2_2, part_one]; lia.
  - intros c Hc E z z' Hz Hz' R R'. rewrite count_row2, count_one in E by lia. unfold bottom_box, related in *. cbn [fst snd] in *.
    rewrite count_row2 in R, R' by lia. apply added_two in Hz. apply added_two in Hz'. destruct z as [r1 c1], z' as [r2 c2]. cbn [fst snd] in *.
    destruct (Z.leb_spec c x); [|lia]. destruct (Z.leb_spec c a); [|lia]. destruct (Z.leb_spec c y); [lia|].
    f_equal; lia.
  - intros c Hc E. exfalso. rewrite count_row2, count_one in E by lia.
    destruct (Z.leb_spec c x), (Z.leb_spec c a), (Z.leb_spec c y); lia.
Qed.
Definition lo : Z := Z.max (a + 1) (2 * k + 2 - y).
Lemma free_two z : free_box k 0 lam mu z <-> (fst z = 1 /\ lo <= snd z <= x) \/ (fst z = 2 /\ k < snd z <= y).
Proof.
  unfold free_box. rewrite added_two. destruct z as [r c]. cbn [fst snd]. unfold lo. split.
  - intros ([(-> & Hc)|(-> & Hc)] & Hck & Hm).
    + left. split; auto. destruct (Z.le_gt_cases (2 * k + 2 - y) c) as [|G]; [lia|]. exfalso. apply Hm.
      exists (2 * k + 2 - c), 1. rewrite count_row2, count_one by lia. unfold related. cbn [fst snd].
      destruct (Z.leb_spec (2 * k + 2 - c) x); [|lia]. destruct (Z.leb_spec (2 * k + 2 - c) y); [lia|]. destruct (Z.leb_spec (2 * k + 2 - c) a); lia.
    + right. lia.
  - intros [(-> & Hc)|(-> & Hc)].
    + split; [left; lia|]. split; [lia|]. intros (c' & r' & C1 & C2 & C3). rewrite count_row2, count_one in C2 by lia.
      unfold related in C3. cbn [fst snd] in C3. destruct (Z.leb_spec c' x); [|lia]. destruct (Z.leb_spec c' y), (Z.leb_spec c' a); lia.
    + split; [right; lia|]. split; [lia|]. intros (c' & r' & C1 & C2 & C3). rewrite count_row2, count_one in C2 by lia.
      unfold related in C3. cbn [fst snd] in C3. destruct (Z.leb_spec c' x); [|lia]. destruct (Z.leb_spec c' y), (Z.leb_spec c' a); lia.
Qed.

Notation A := (free_box k 0 lam mu).
Hypothesis Hs : a < x -> y < a.
Hypothesis Hxy : 2 * k + 2 <= x + y.

Lemma con_row z w : connected A z w -> fst w = fst z.
Proof.
  induction 1 as [z Hz|z w u H IH Hu Ht]; [reflexivity|]. apply cn_in in H. destruct H as [_ Hw].
  apply free_two in Hw. apply free_two in Hu. destruct Ht as [_ Ht]. unfold lo in *. lia.
Qed.
Lemma con_left r c c' : (forall e, c <= e <= c' -> A (r, e)) -> c <= c' -> connected A (r, c) (r, c').
Proof.
  intros HA Hc. assert (G : forall n : nat, c + Z.of_nat n <= c' -> connected A (r, c) (r, c + Z.of_nat n)).
  { induction n as [|n IH]; intros Hn.
    - rewrite Z.add_0_r. constructor. apply HA. lia.
    - apply con_step with (r, c + Z.of_nat n); [apply IH; lia|apply HA; lia|]. split; cbn [fst snd]; lia. }
  specialize (G (Z.to_nat (c' - c)) ltac:(lia)). replace (c + Z.of_nat (Z.to_nat (c' - c))) with c' in G by lia. exact G.
Qed.
Lemma con_1 c : lo <= c <= x -> connected A (1, x) (1, c).
Proof. intros Hc. apply cn_sym. apply con_left; [|lia]. intros e He. apply free_two. cbn. lia. Qed.
Lemma con_2 c : k < c <= y -> connected A (2, k + 1) (2, c).
Proof. intros Hc. apply con_left; [|lia]. intros e He. apply free_two. cbn. lia. Qed.

Lemma comp_two_C : component_count A (fun z => snd z <> k + 1) (if a <? x then 1 else 0).
Proof.
  assert (G2 : forall z, A z -> (forall w, connected A z w -> snd w <> k + 1) -> fst z = 1 /\ lo <= snd z <= x).
  { intros [r c] Hz Hp. pose proof Hz as Hz'. apply free_two in Hz'. destruct Hz' as [Hz'|(E & Hz')]; auto. cbn [fst snd] in *. subst r.
    exfalso. apply (Hp (2, k + 1)); [apply cn_sym; apply con_2; auto|reflexivity]. }
  destruct (Z.ltb_spec a x) as [HL|HL].
  - exists [(1, x)]. split; [reflexivity|]. split; [repeat constructor; auto|]. split; [|split].
    + intros z [<-|[]]. split; [apply free_two; cbn; unfold lo; lia|]. intros w Hw. pose proof (con_row _ _ Hw) as Hr.
      apply cn_in in Hw. destruct Hw as [_ Hw]. apply free_two in Hw. unfold lo in Hw. cbn [fst] in Hr. lia.
    + intros z w [<-|[]] [<-|[]] _. reflexivity.
    + intros z [Hz Hp]. destruct (G2 z Hz Hp) as [E Hc]. exists (1, x). split; [left; reflexivity|]. destruct z as [r c]. cbn [fst snd] in *. subst r.
      apply con_1. exact Hc.
  - exists []. split; [reflexivity|]. split; [constructor|]. split; [intros z []|]. split; [intros z w []|].
    intros z [Hz Hp]. destruct (G2 z Hz Hp) as [_ Hc]. unfold lo in Hc. lia.
Qed.
Lemma comp_two_B : component_count A (fun _ => True) ((if a <? x then 1 else 0) + (if k <? y then 1 else 0)).
Proof.
  exists ((if a <? x then [(1, x)] else []) ++ (if k <? y then [(2, k + 1)] else [])).
  split; [destruct (a <? x), (k <? y); reflexivity|].
  split; [destruct (a <? x), (k <? y); repeat constructor; auto; intros [E|[]]; discriminate E|].
  assert (HI : forall z, In z ((if a <? x then [(1, x)] else []) ++ (if k <? y then [(2, k + 1)] else [])) -> (z = (1, x) /\ a < x) \/ (z = (2, k + 1) /\ k < y)).
  { intros z Hz. apply in_app_iff in Hz. destruct Hz as [Hz|Hz]; [left; destruct (Z.ltb_spec a x)|right; destruct (Z.ltb_spec k y)]; [destruct Hz as [<-|[]]; auto|destruct Hz|destruct Hz as [<-|[]]; auto|destruct Hz]. }
  split; [|split].
  - intros z Hz. split; auto. apply free_two. destruct (HI z Hz) as [(-> & H)|(-> & H)]; cbn; unfold lo; lia.
  - intros z w Hz Hw HC. apply con_row in HC. destruct (HI z Hz) as [(-> & H)|(-> & H)], (HI w Hw) as [(-> & H')|(-> & H')]; auto; cbn in HC; lia.
  - intros [r c] [Hz _]. apply free_two in Hz. cbn [fst snd] in Hz. destruct Hz as [(-> & Hz)|(-> & Hz)].
    + exists (1, x). split; [|apply con_1; auto]. apply in_app_iff. left. unfold lo in Hz. destruct (Z.ltb_spec a x); [left; auto|lia].
    + exists (2, k + 1). split; [|apply con_2; auto]. apply in_app_iff. right. destruct (Z.ltb_spec k y); [left; auto|lia].
Qed.
End Two.
