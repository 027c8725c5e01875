(** The Pieri rule of OG(n+1-k,2n+2) for a single row. *)

From Coq Require Import ZArith List Lia Bool QArith Qcanon.
From Verif Require Import Py Spec SpecPieri ConjFacts CompsBound PieriCoef PieriD QPieriD TwoRows TwoRows2.
Import ListNotations.
Open Scope Z_scope.

(** ** components of a set of boxes in two rows *)
Section Int.
Variables (A : box -> Prop) (l1 u1 l2 u2 : Z).
Hypothesis HA : forall z, A z <-> (fst z = 1 /\ l1 < snd z <= u1) \/ (fst z = 2 /\ l2 < snd z <= u2).
Hypothesis Hsep : u2 < l1 \/ u1 <= l1 \/ u2 <= l2.
Lemma int_row z w : connected A z w -> fst w = fst z.
Proof.
  induction 1 as [z Hz|z w u H IH Hu Ht]; [reflexivity|]. apply cn_in in H. destruct H as [_ Hw].
  apply HA in Hw. apply HA in Hu. destruct Ht as [_ Ht]. lia.
Qed.
Lemma int_left r c c' : (forall e, c <= e <= c' -> A (r, e)) -> c <= c' -> connected A (r, c) (r, c').
Proof.
  clear HA Hsep. intros HA Hc. assert (G : forall n : nat, c + Z.of_nat n <= c' -> connected A (r, c) (r, c + Z.of_nat n)).
  { induction n as [|n IH]; intros Hn.
    - rewrite Z.add_0_r. constructor. apply HA. lia.
    - apply con_step with (r, c + Z.of_nat n); [apply IH; lia|apply HA; lia|]. split; cbn [fst snd]; lia. }
  specialize (G (Z.to_nat (c' - c)) ltac:(lia)). replace (c + Z.of_nat (Z.to_nat (c' - c))) with c' in G by lia. exact G.
Qed.
Lemma int_1 c : l1 < c <= u1 -> connected A (1, l1 + 1) (1, c).
Proof. intros Hc. apply int_left; [|lia]. intros e He. apply HA. cbn. lia. Qed.
Lemma int_2 c : l2 < c <= u2 -> connected A (2, l2 + 1) (2, c).
Proof. intros Hc. apply int_left; [|lia]. intros e He. apply HA. cbn. lia. Qed.
Lemma comp_int : component_count A (fun _ => True) ((if l1 <? u1 then 1 else 0) + (if l2 <? u2 then 1 else 0)).
Proof.
  exists ((if l1 <? u1 then [(1, l1 + 1)] else []) ++ (if l2 <? u2 then [(2, l2 + 1)] else [])).
  split; [destruct (l1 <? u1), (l2 <? u2); reflexivity|].
  split; [destruct (l1 <? u1), (l2 <? u2); repeat constructor; auto; intros [E|[]]; discriminate E|].
  assert (HI : forall z, In z ((if l1 <? u1 then [(1, l1 + 1)] else []) ++ (if l2 <? u2 then [(2, l2 + 1)] else [])) -> (z = (1, l1 + 1) /\ l1 < u1) \/ (z = (2, l2 + 1) /\ l2 < u2)).
  { intros z Hz. apply in_app_iff in Hz. destruct Hz as [Hz|Hz]; [left; destruct (Z.ltb_spec l1 u1)|right; destruct (Z.ltb_spec l2 u2)]; [destruct Hz as [<-|[]]; auto|destruct Hz|destruct Hz as [<-|[]]; auto|destruct Hz]. }
  split; [|split].
  - intros z Hz. split; auto. apply HA. destruct (HI z Hz) as [(-> & H)|(-> & H)]; cbn; lia.
  - intros z w Hz Hw HC. apply int_row in HC. destruct (HI z Hz) as [(-> & H)|(-> & H)], (HI w Hw) as [(-> & H')|(-> & H')]; auto; cbn in HC; lia.
  - intros [r c] [Hz _]. apply HA in Hz. cbn [fst snd] in Hz. destruct Hz as [(-> & Hz)|(-> & Hz)].
    + exists (1, l1 + 1). split; [|apply int_1; auto]. apply in_app_iff. left. destruct (Z.ltb_spec l1 u1); [left; auto|lia].
    + exists (2, l2 + 1). split; [|apply int_2; auto]. apply in_app_iff. right. destruct (Z.ltb_spec l2 u2); [left; auto|lia].
Qed.
End Int.

Section Row.
Variables k a : Z.
Hypothesis Hk : 1 <= k.
Hypothesis Ha : 1 <= a.

Lemma arrow_row_inv_D mu : is_partition mu -> a <= size mu -> pieri_arrow k 1 [a] mu ->
  mu = row2 (part mu 0) (part mu 1) /\ a <= part mu 0 /\ 0 <= part mu 1 <= a.
Proof.
  intros Hmu Hsz Har. destruct Har as ((nu & Hnu & Hr & Hs) & _ & H2).
  destruct (Hr 0%nat) as [A1 A2]. change (part [a] 0) with a in *.
  destruct (Hr 1%nat) as [B1 _]. rewrite part_one in B1.
  pose proof (Hs 0%nat) as C0. pose proof (Hs 1%nat) as C1. pose proof (Hs 2%nat) as C2.
  assert (N2 : forall j, 0 <= part mu j).
  { intros j. destruct (Nat.lt_ge_cases j (length mu)) as [L'|L']; [destruct Hmu as [H _]; specialize (H j L'); lia|].
    unfold part. rewrite nth_overflow by auto. lia. }
  pose proof (N2 1%nat). pose proof (N2 2%nat).
  destruct (Z.le_gt_cases (part mu 0) 0) as [L0|L0].
  { exfalso. destruct mu as [|x t]; [cbn in Hsz; lia|]. destruct Hmu as [H1 _]. specialize (H1 0%nat ltac:(cbn; lia)). lia. }
  destruct (two_rows mu Hmu ltac:(lia) ltac:(lia)) as [E E']. split; [exact E|].
  destruct (Z.le_gt_cases a (part mu 0)) as [|G]; [lia|]. exfalso.
  set (x := part mu 0) in *. set (y := part mu 1) in *. clearbody x y. subst mu.
  destruct (H2 a Ha) as (row & Hrow).
  { rewrite count_row2, count_one by lia. destruct (Z.leb_spec a x), (Z.leb_spec a y), (Z.leb_spec a a); lia. }
  destruct (Hrow 1) as ((r, c) & _ & [Hz _] & R & _).
  { rewrite count_row2, count_one by lia. destruct (Z.leb_spec a x), (Z.leb_spec a y), (Z.leb_spec a a); lia. }
  unfold related, in_diagram in *. cbn [fst snd] in *.
  destruct (Z.eq_dec r 1) as [->|N1]; [change (Z.to_nat (1 - 1)) with 0%nat in Hz; rewrite part_row2_0 in Hz; lia|].
  destruct (Z.eq_dec r 2) as [->|N2']; [change (Z.to_nat (2 - 1)) with 1%nat in Hz; rewrite part_row2_1 in Hz; lia|].
  replace (Z.to_nat (r - 1)) with (S (S (Z.to_nat (r - 3)))) in Hz by lia. rewrite part_row2_2 in Hz. lia.
Qed.

Variables x y : Z.
Hypothesis Hx : a <= x.
Hypothesis Hy : 0 <= y <= a.
Notation mu := (row2 x y).
Notation lam := [a].
Lemma arrow_two_D : pieri_arrow k 1 lam mu.
Proof.
  split; [|split].
  - exists lam. split; [apply one_partition; auto|]. split; [intros j; lia|].
    intros [|[|j]]; [rewrite part_row2_0, part_row2_1; change (part [a] 0) with a|rewrite part_row2_1, part_row2_2, part_one|rewrite !part_row2_2, part_one]; lia.
  - intros c Hc E z z' Hz Hz' R R'. rewrite count_row2, count_one in E by lia. unfold bottom_box, related in *. cbn [fst snd] in *.
    rewrite count_row2 in R, R' by lia. apply (added_two' a) in Hz; auto. apply (added_two' a) in Hz'; auto. destruct z as [r1 c1], z' as [r2 c2]. cbn [fst snd] in *.
    destruct (Z.leb_spec c x), (Z.leb_spec c a), (Z.leb_spec c y); try lia; f_equal; lia.
  - intros c Hc E. exfalso. rewrite count_row2, count_one in E by lia.
    destruct (Z.leb_spec c x), (Z.leb_spec c a), (Z.leb_spec c y); lia.
Qed.
Lemma free_D z : free_box k 1 lam mu z <->
  (fst z = 1 /\ a < snd z <= x /\ k < snd z /\ (snd z <= 2 * k - a \/ 2 * k - y < snd z)) \/ (fst z = 2 /\ k < snd z <= y).
Proof.
  unfold free_box. rewrite (added_two' a) by auto. destruct z as [r c]. cbn [fst snd]. split.
  - intros ([(-> & Hc)|(-> & Hc)] & Hck & Hm); [|lia]. left. split; auto. split; [lia|]. split; [lia|].
    destruct (Z.le_gt_cases c (2 * k - a)) as [|G]; [lia|]. destruct (Z.lt_ge_cases (2 * k - y) c) as [|G']; [lia|]. exfalso. apply Hm.
    exists (2 * k + 1 - c), 1. rewrite count_row2, count_one by lia. unfold related. cbn [fst snd].
    destruct (Z.leb_spec (2 * k + 1 - c) x), (Z.leb_spec (2 * k + 1 - c) y), (Z.leb_spec (2 * k + 1 - c) a); lia.
  - intros [(-> & Hc)|(-> & Hc)].
    + split; [left; lia|]. split; [lia|]. intros (c' & r' & C1 & C2 & C3). rewrite count_row2, count_one in C2 by lia.
      unfold related in C3. cbn [fst snd] in C3. destruct (Z.leb_spec c' x), (Z.leb_spec c' y), (Z.leb_spec c' a); lia.
    + split; [right; lia|]. split; [lia|]. intros (c' & r' & C1 & C2 & C3). rewrite count_row2, count_one in C2 by lia.
      unfold related in C3. cbn [fst snd] in C3. destruct (Z.leb_spec c' x), (Z.leb_spec c' y), (Z.leb_spec c' a); lia.
Qed.
(** the number of components *)
Definition compsD : Z :=
  (if k <? a then (if (a <? x) && (2 * k <? x + y) then 1 else 0) else (if (a <? k) && (k <? x) then 1 else 0)) + (if k <? y then 1 else 0).
Hypothesis Hs : k < a -> a < x -> y < a.
Hypothesis Hxy : a <= k -> x + y <= 2 * k.
Lemma comp_D : component_count (free_box k 1 lam mu) (fun _ => True) compsD.
Proof.
  unfold compsD. destruct (Z.ltb_spec k a) as [L|L].
  - replace ((a <? x) && (2 * k <? x + y)) with (Z.max a (2 * k - y) <? x) by lia. apply comp_int; [|lia].
    intros z. rewrite free_D. lia.
  - replace ((a <? k) && (k <? x)) with (k <? Z.min x (2 * k - a)) by lia. apply comp_int; [|lia].
    intros z. rewrite free_D. lia.
Qed.
End Row.

Lemma filter_above y k : 0 <= y <= k -> Z.of_nat (length (filter (fun c => y <? c) (map Z.of_nat (seq 1 (Z.to_nat k))))) = k - y.
Proof.
  intros H. assert (G : forall m : nat, y <= Z.of_nat m -> Z.of_nat (length (filter (fun c => y <? c) (map Z.of_nat (seq 1 m)))) = Z.of_nat m - y).
  { induction m as [|m IH]; intros Hm; [cbn in *; lia|]. rewrite seq_S, map_app, filter_app, app_length. cbn [map filter].
    destruct (Z.eq_dec y (Z.of_nat (S m))) as [E|E].
    - assert (B : (y <? Z.of_nat (1 + m)) = false) by (apply Z.ltb_ge; lia). rewrite B. cbn [length]. rewrite Nat.add_0_r.
      assert (G0 : forall l, (forall c, In c l -> c <= y) -> filter (fun c => y <? c) l = []).
      { induction l as [|c l IHl]; intros Hc; [reflexivity|]. cbn [filter]. pose proof (Hc c (or_introl eq_refl)). replace (y <? c) with false by lia. apply IHl. intros; apply Hc; right; auto. }
      rewrite G0; [cbn [length]; lia|]. intros c Hc. apply in_map_iff in Hc. destruct Hc as (j & <- & Hj). apply in_seq in Hj. lia.
    - assert (B : (y <? Z.of_nat (1 + m)) = true) by (apply Z.ltb_lt; lia). rewrite B. cbn [length]. rewrite Nat2Z.inj_add, IH by lia. lia. }
  rewrite G; lia.
Qed.
Lemma not_gaining_two k a x y : 0 <= y <= k -> k <= a -> a <= x -> not_gaining k [a] (row2 x y) = k - y.
Proof.
  intros Hy Ha Hx. unfold not_gaining. rewrite <- (filter_above y k Hy). f_equal. f_equal. apply filter_ext_in. intros c Hc.
  apply in_map_iff in Hc. destruct Hc as (j & <- & Hj). apply in_seq in Hj. rewrite count_row2, count_one by lia.
  destruct (Z.leb_spec (Z.of_nat j) x), (Z.leb_spec (Z.of_nat j) y), (Z.leb_spec (Z.of_nat j) a), (Z.ltb_spec y (Z.of_nat j)); lia.
Qed.
