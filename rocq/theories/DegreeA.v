(** Degrees of Gr(m,n): Frobenius' formula. *)

From Coq Require Import ZArith List Lia Bool Permutation QArith Qcanon Setoid Morphisms.
From Verif Require Import Py OrderFacts PyFacts ModelPart ModelQcalc ModelPoly ModelStr ModelGr Spec SpecPieri SpecProd SpecDegree
  PolyFacts SuppFacts OpTheory ExprFacts Transfer PartialFrac DegreeAlg Sys Sys2 SysApi DualSys PartFacts ConjFacts GrInv RingA ApiA FactsA Outside Degree DegreeLow.
Import ListNotations.
Open Scope Z_scope.

Lemma P_pieri g p l r : pieri g p (pS l) = Ok r -> (exists a, pieri_fun g p l = Ok a) -> peq r (P (pieri_fun g) p l).
Proof. intros E (a & Ea). destruct (pieri_of_fun g p l a Ea) as (r' & E' & Pr). rewrite E in E'. injection E' as <-. unfold P. rewrite Ea. exact Pr. Qed.

Lemma size_pos l : is_partition l -> 0 <= size l /\ (size l = 0 -> l = []).
Proof.
  intros H. destruct l as [|x t]; [split; [reflexivity|auto]|]. assert (G : Forall (fun x => 0 < x) (x :: t)).
  { apply Forall_forall. intros y Hy. apply (In_nth _ _ 0) in Hy. destruct Hy as (j & Hj & <-). apply (proj1 H j Hj). }
  assert (S0 : forall l, Forall (fun x => 0 < x) l -> 0 <= size l) by (clear; induction 1 as [|x l H _ IH]; simpl; lia).
  inversion_clear G as [|? ? G1 G2]. specialize (S0 _ G2). simpl. split; [lia|]. intros E. lia.
Qed.

(** *** the staircase *)
Lemma stair_len m l : length (stair m l) = Z.to_nat m.
Proof. unfold stair. rewrite map_length, seq_length. auto. Qed.
Lemma nth_stair m l j : (j < Z.to_nat m)%nat -> nth j (stair m l) 0 = part l j + (m - 1 - Z.of_nat j).
Proof.
  intros H. unfold stair. set (h := fun j => _). rewrite (nth_indep _ 0 (h 0%nat)) by (rewrite map_length, seq_length; auto).
  rewrite map_nth, seq_nth by auto. reflexivity.
Qed.
Lemma stair_nodup m l : is_partition l -> NoDup (stair m l).
Proof.
  intros H. assert (G : forall i j, (i < j)%nat -> part l j + (m - 1 - Z.of_nat j) < part l i + (m - 1 - Z.of_nat i)).
  { intros i j Hij. induction Hij as [|j Hij IH]; pose proof (proj2 H i); [lia|]. pose proof (proj2 H j). lia. }
  apply (NoDup_nth _ 0). intros i j Hi Hj E. rewrite stair_len in *. rewrite !nth_stair in E by auto.
  destruct (Nat.lt_trichotomy i j) as [Hl|[->|Hl]]; auto; pose proof (G _ _ Hl); lia.
Qed.
Lemma zsum_map_add {A} (f h : A -> Z) l : zsum (map (fun x => f x + h x) l) = zsum (map f l) + zsum (map h l).
Proof. induction l as [|x l IH]; [reflexivity|]. cbn [map]. change (f x + h x + zsum (map (fun x => f x + h x) l) = f x + zsum (map f l) + (h x + zsum (map h l))). lia. Qed.
Lemma zsum_parts l n : (length l <= n)%nat -> zsum (map (part l) (seq 0 n)) = zsum l.
Proof.
  revert n. induction l as [|x l IH]; intros n H.
  - clear H. assert (G : forall s, zsum (map (part []) s) = 0); [|apply G]. induction s as [|j s IHs]; [reflexivity|]. cbn [map]. rewrite part_nil. change (0 + zsum (map (part []) s) = 0). lia.
  - destruct n; [simpl in H; lia|]. cbn [seq map]. rewrite <- seq_shift, map_map.
    change (x + zsum (map (part l) (seq 0 n)) = x + zsum l). rewrite IH by (simpl in H; lia). reflexivity.
Qed.
Lemma zsum_down n : zsum (map (fun j => Z.of_nat n - 1 - Z.of_nat j) (seq 0 n)) = tri n.
Proof.
  induction n as [|n IH]; [reflexivity|]. rewrite tri_S. cbn [seq map]. rewrite <- seq_shift, map_map.
  rewrite (map_ext _ (fun j => Z.of_nat n - 1 - Z.of_nat j)) by (intros; lia).
  match goal with |- zsum (?a :: ?t) = _ => change (a + zsum t = tri n + Z.of_nat n) end. rewrite IH. lia.
Qed.
Lemma zsum_stair m l : zlen l <= m -> zsum' (stair m l) = size l + tri (Z.to_nat m).
Proof.
  intros H. change (zsum' (stair m l)) with (zsum (stair m l)). unfold stair. rewrite zsum_map_add, zsum_parts by (unfold zlen in H; lia). rewrite (size_zsum l : size l = zsum l). apply f_equal2; [reflexivity|].
  rewrite <- zsum_down. f_equal. apply map_ext. intros j. unfold zlen in H. lia.
Qed.
Lemma list_nth_eq (a b : list Z) : length a = length b -> (forall j, (j < length a)%nat -> nth j a 0 = nth j b 0) -> a = b.
Proof. intros H1 H2. apply (nth_ext a b 0 0); auto. Qed.
Lemma stair_low m i nu : zlen nu <= m -> (i < Z.to_nat m)%nat -> stair m (low m i nu) = dec i (stair m nu).
Proof.
  intros HM Hi. apply list_nth_eq; [rewrite dec_length, !stair_len; auto|]. intros j Hj. rewrite stair_len in Hj.
  rewrite nth_dec by (rewrite stair_len; auto). rewrite !nth_stair, part_low by auto. lia.
Qed.
(** S[] *)
Lemma product_range n : product (map (Z.sub (Z.of_nat n)) (map (fun j => Z.of_nat n - 1 - Z.of_nat j) (seq 0 n))) = factorial (Z.of_nat n).
Proof.
  rewrite map_map. unfold factorial. rewrite Nat2Z.id. unfold product. f_equal. rewrite <- seq_shift, map_map. apply map_ext. intros. lia.
Qed.
Lemma stair_S n : stair (Z.of_nat (S n)) [] = Z.of_nat n :: stair (Z.of_nat n) [].
Proof.
  unfold stair. rewrite !Nat2Z.id. cbn [seq map]. f_equal; [rewrite part_nil; lia|]. rewrite <- seq_shift, map_map. apply map_ext. intros j. rewrite !part_nil. lia.
Qed.
Lemma FA_nil m : 0 <= m -> FA 0 (stair m []) = 1%Qc.
Proof.
  intros Hm. unfold FA. change (factorial 0) with 1. rewrite zq_1.
  assert (E : Kp hA (stair m []) = facts (stair m [])).
  { unfold hA, facts. rewrite Kp_zq. f_equal. rewrite <- (Z2Nat.id m) by auto. induction (Z.to_nat m) as [|n IH]; [reflexivity|].
    rewrite stair_S. cbn [over_pairs map]. rewrite IH. change (product (factorial (Z.of_nat n) :: ?t)) with (factorial (Z.of_nat n) * product t). f_equal.
    transitivity (product (map (Z.sub (Z.of_nat n)) (map (fun j => Z.of_nat n - 1 - Z.of_nat j) (seq 0 n)))); [|apply product_range].
    f_equal. f_equal. unfold stair. rewrite Nat2Z.id. apply map_ext. intros j. rewrite part_nil. lia. }
  rewrite E. field. apply facts_ne.
Qed.

Section A.
Variables (m k : Z).
Hypothesis Hm : 1 <= m.
Hypothesis Hk : 1 <= k.
Let Hk0 : 0 <= k. Proof. lia. Qed.
Notation g := (gA m k).
Notation V := (in_box m k).
Notation pi := (pieri_fun g).
Definition wA (l nu : list Z) : Qc := coef (P pi 1 l) [vS nu].

Lemma wA_sum l : V l -> is_sum_of (P pi 1 l) (fun d mu => d = O /\ V mu /\ adds_horizontal_strip l mu /\ size mu = size l + 1).
Proof.
  intros Hl. destruct (pieriA_sum m k Hm Hk0 1 l Hl ltac:(lia)) as (p & E & HS).
  assert (Ep : peq p (P pi 1 l)).
  { apply P_pieri; auto. pose proof (sysA m k Hm Hk0 false) as SYS. exists (P pi 1 l). apply (ps_ok _ _ _ _ _ _ _ SYS); auto. unfold IA. lia. }
  destruct HS as (H1 & H2). split.
  - intros d mu Hd. rewrite <- (Ep _). auto.
  - intros mo Hmo. rewrite <- (Ep mo) in Hmo. auto.
Qed.
Lemma wA_val l nu : V l -> V nu -> (adds_horizontal_strip l nu /\ size nu = size l + 1 -> wA l nu = 1%Qc) /\ (wA l nu <> 0%Qc -> adds_horizontal_strip l nu /\ size nu = size l + 1).
Proof.
  intros Hl Hn. destruct (wA_sum l Hl) as (H1 & H2). split.
  - intros H. apply (H1 0%nat nu). tauto.
  - intros H. destruct (H2 _ H) as (d & mu & (-> & _ & A & B) & HP). change (qS 0 mu) with [vS mu] in HP. apply Permutation_length_1 in HP. injection HP as ->. auto.
Qed.

Lemma recA nu c : V nu -> 1 <= size nu -> (forall l, V l -> In l (lows m nu) -> c l = FA (size nu - 1) (stair m l)) -> (forall l, ~ V l -> c l = 0%Qc) ->
  qsum (fun l => c l * wA l nu)%Qc (lows m nu) = FA (size nu) (stair m nu).
Proof.
  intros Hn HS H1 H2. pose proof Hn as (Hp & Hl & Hb).
  rewrite <- (FA_sum (size nu) (stair m nu)) by (auto using stair_nodup; rewrite stair_len; apply zsum_stair; auto).
  rewrite stair_len. unfold lows. rewrite qsum_map. apply qsum_ext. intros i Hi. apply in_seq in Hi. assert (Hi' : (i < Z.to_nat m)%nat) by lia.
  assert (HL : zlen nu <= m) by auto.
  pose proof (proj2 Hp i) as Hd. destruct (Z_lt_le_dec (part nu (S i)) (part nu i)) as [Hv|Hv].
  - assert (HV : V (low m i nu)).
    { split; [apply low_partition; auto|]. split; [pose proof (low_length m i nu); unfold zlen in *; lia|]. rewrite part_low by auto. destruct (Nat.eqb 0 i); lia. }
    assert (Hin : In (low m i nu) (lows m nu)) by (apply in_map_iff; exists i; split; auto; apply in_seq; lia).
    rewrite H1, stair_low by auto. rewrite FA_term; auto; [|apply stair_nodup; auto|rewrite stair_len; auto|rewrite nth_stair by auto; pose proof (is_partition_nonneg nu (S i) Hp); lia].
    rewrite (proj1 (wA_val (low m i nu) nu HV Hn)); [ring|]. split.
    + intros j. rewrite part_low by auto. pose proof (proj2 Hp j). destruct (Nat.eqb_spec j i); subst; lia.
    + rewrite size_low by auto. lia.
  - rewrite H2.
    + rewrite nth_stair by auto. destruct (Nat.eq_dec (S i) (Z.to_nat m)) as [Es|Es].
      * assert (E0 : part nu i = 0) by (pose proof (is_partition_nonneg nu i Hp); rewrite (part_high nu (S i)) in Hv by (unfold zlen in HL; lia); lia).
        rewrite E0. replace (0 + (m - 1 - Z.of_nat i)) with 0 by lia. rewrite zq_0. ring.
      * rewrite FA_zero; [ring|]. replace (part nu i + (m - 1 - Z.of_nat i) - 1) with (nth (S i) (stair m nu) 0) by (rewrite nth_stair by lia; lia).
        apply nth_In. rewrite stair_len. lia.
    + intros ((_ & G) & _). specialize (G i). rewrite !part_low, Nat.eqb_refl in G by auto. replace (Nat.eqb (S i) i) with false in G by (symmetry; apply Nat.eqb_neq; lia). lia.
Qed.
Lemma V1 : V [1].
Proof.
  split; [|split; [simpl; lia|unfold part; simpl; lia]]. split.
  - intros [|j] Hj; [unfold part; simpl; lia|simpl in Hj; lia].
  - intros [|[|j]]; unfold part; simpl; lia.
Qed.
Lemma degA N : exists r, toS g (power_of_S1 N) = Ok r /\ lin_comb0 V r /\
  forall nu, V nu -> exists c, coef r [vS nu] = zq c /\ (size nu <> Z.of_nat N -> c = 0) /\ (size nu = Z.of_nat N -> zq c = FA (Z.of_nat N) (stair m nu)).
Proof.
  assert (SYS : pieri_sys (g_type g) (pieri_fun g) V (IA k) (g_k g) (muA k) (giam_fuel g)) by apply (sysA m k Hm Hk0 false).
  apply (power_toS SYS) with (w := wA) (f := fun N l => FA N (stair m l)) (L := lows m).
  - unfold IA. lia.
  - apply V1.
  - apply (special_P m k Hm Hk0 false). lia.
  - intros l Hl. split; [reflexivity|]. intros mo Hmo. destruct (proj2 (wA_sum l Hl) mo Hmo) as (d & mu & (-> & Hmu & _) & HP).
    change (qS 0 mu) with [vS mu] in HP. apply Permutation_sym, Permutation_length_1_inv in HP. eauto.
  - intros nu Hn. apply size_pos. apply Hn.
  - apply FA_nil. lia.
  - intros nu Hn. apply lows_nodup. apply Hn.
  - intros nu l Hn Hl Hw. destruct (proj2 (wA_val l nu Hl Hn) Hw) as (A & B). apply lows_cover; auto; [apply Hn|apply Hl|apply Hn|intros j; apply A].
  - intros nu l Hn Hi _. apply lows_in in Hi. destruct Hi as (i & Hi & ->). rewrite size_low; auto; [lia|apply Hn].
  - intros nu c Hn. apply recA. auto.
  - intros l nu Hl Hn. destruct (Qc_eq_dec (wA l nu) 0%Qc) as [->|Hw]; [exists 0; rewrite zq_0; auto|]. exists 1. rewrite zq_1.
    apply wA_val in Hw as H'; auto. apply wA_val; auto.
Qed.
End A.

Lemma frob m N nu c : zq c = FA (Z.of_nat N) (stair m nu) -> frobenius m N nu c.
Proof.
  intros E. unfold frobenius. apply zq_inj. rewrite !zq_mul, E. unfold FA. fold (facts (stair m nu)). unfold hA. rewrite Kp_zq. field. apply facts_ne.
Qed.
Lemma c96_A m n g : Grassmannian m n = Ok g -> 1 <= m -> 1 <= n - m -> power_law (in_box m (n - m)) (toS g) (frobenius m).
Proof.
  intros Hg Hm Hk N. apply gr_inv in Hg. destruct Hg as (_ & _ & ->). destruct (degA m (n - m) Hm Hk N) as (r & E & L0 & H).
  exists r. split; [exact E|]. split; [exact L0|]. intros nu Hn. destruct (H nu Hn) as (c & E1 & E2 & E3). exists c. split; [exact E1|]. split; [exact E2|].
  intros ES. apply frob. auto.
Qed.
