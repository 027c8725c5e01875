(** Conjugation of partitions is an isomorphism from the quantum ring of Gr(m,n)
    to that of Gr(n-m,n). *)

From Coq Require Import ZArith List Lia Bool Permutation QArith Qcanon Setoid Morphisms.
From Verif Require Import Py OrderFacts PyFacts ModelPart ModelQcalc ModelPoly ModelStr ModelGr Spec SpecMisc
  PolyFacts SuppFacts OpTheory Enum FillFacts PartFacts PieriA QPieriA CylA WSum Sys Sys2 SysMap RingA FactsA
  SysApi ApiA ConjFacts VertA.
Import ListNotations.
Open Scope Z_scope.


Lemma conj_lt l i j : is_partition l -> (Z.of_nat i < part l j <-> Z.of_nat j < part (part_conj l) i).
Proof.
  intros Hl. rewrite (proj2 (part_conj_conjugate l Hl)). rewrite count_iff by (auto; lia). lia.
Qed.
Ltac clt H := match type of H with
  | _ < part (part_conj ?l) _ => apply (proj2 (conj_lt l _ _ ltac:(assumption))) in H
  | _ < part ?l _ => apply (proj1 (conj_lt l _ _ ltac:(assumption))) in H end.
Ltac cgt := match goal with
  | |- _ < part (part_conj ?l) _ => apply (proj1 (conj_lt l _ _ ltac:(assumption)))
  | |- _ < part ?l _ => apply (proj2 (conj_lt l _ _ ltac:(assumption))) end.
Lemma conj_part l : is_partition l -> is_partition (part_conj l).
Proof. intros H. apply (part_conj_conjugate l H). Qed.
Lemma lt_le (x y : Z) : 0 <= y -> (forall i : nat, Z.of_nat i < x -> Z.of_nat i < y) -> x <= y.
Proof. intros Hy H. destruct (Z.le_gt_cases x y); auto. specialize (H (Z.to_nat y)). lia. Qed.
Lemma box_conj m k l : 0 <= m -> 0 <= k -> in_box m k l -> in_box k m (part_conj l).
Proof.
  intros Hm Hk (Hp & HL & H0). pose proof (conj_part l Hp) as Hp'. split; auto.
  assert (G : forall j, (length l <= j)%nat -> part l j = 0) by (intros; unfold part; apply nth_overflow; auto).
  assert (A : part (part_conj l) (Z.to_nat k) <= 0).
  { apply lt_le; [lia|]. intros i Hi. clt Hi. pose proof (part_le_first' l i Hp). lia. }
  split.
  - destruct (Z.le_gt_cases (Z.of_nat (length (part_conj l))) k); auto. destruct Hp' as [Hp' _]. specialize (Hp' (Z.to_nat k) ltac:(lia)). lia.
  - apply lt_le; auto. intros i Hi. clt Hi. destruct (Z.lt_ge_cases (Z.of_nat i) m); auto. rewrite G in Hi; lia.
Qed.
Lemma strip_conj a b : is_partition a -> is_partition b ->
  (adds_horizontal_strip a b <-> adds_vertical_strip (part_conj a) (part_conj b)).
Proof.
  intros Ha Hb. pose proof (conj_part a Ha) as Ca. pose proof (conj_part b Hb) as Cb. split; intros H j.
  - split.
    + apply lt_le; [apply is_partition_nonneg; auto|]. intros i Hi. cgt. clt Hi. specialize (H i). lia.
    + apply lt_le; [pose proof (is_partition_nonneg _ j Ca); lia|]. intros i Hi. destruct i as [|i]; [pose proof (is_partition_nonneg _ j Ca); lia|].
      clt Hi. assert (Z.of_nat i < part (part_conj a) j); [|lia]. cgt. specialize (H i). lia.
  - split.
    + apply lt_le; [apply is_partition_nonneg; auto|]. intros i Hi. cgt. clt Hi. specialize (H i). lia.
    + apply lt_le; [apply is_partition_nonneg; auto|]. intros i Hi. cgt. clt Hi. specialize (H i). lia.
Qed.
Lemma bertram_conj m k a b : 1 <= m -> in_box m k a -> in_box m k b ->
  (bertram m a b <-> bertram_columns m (part_conj a) (part_conj b)).
Proof.
  intros Hm (Ha & La & Ba) (Hb & Lb & Bb). pose proof (conj_part a Ha) as Ca. pose proof (conj_part b Hb) as Cb.
  assert (Ga : forall j, m <= Z.of_nat j -> part a j = 0) by (intros; unfold part; apply nth_overflow; lia).
  assert (Gb : forall j, m <= Z.of_nat j -> part b j = 0) by (intros; unfold part; apply nth_overflow; lia).
  assert (Up : part (part_conj a) 0 <= m).
  { apply lt_le; [lia|]. intros i Hi. clt Hi. destruct (Z.lt_ge_cases (Z.of_nat i) m); auto. rewrite Ga in Hi; lia. }
  split.
  - intros [H1 H2]. split.
    + assert (Z.of_nat (Z.to_nat (m - 1)) < part (part_conj a) 0); [|lia]. cgt.
      specialize (H1 (Z.to_nat (m - 1)) ltac:(lia)). pose proof (is_partition_nonneg b (Z.to_nat (m - 1)) Hb). lia.
    + intros j. pose proof (is_partition_nonneg _ j Cb). pose proof (is_partition_nonneg _ (S j) Ca). split.
      * assert (part (part_conj a) (S j) <= part (part_conj b) j + 1); [|lia]. apply lt_le; [lia|]. intros [|i] Hi; [lia|].
        clt Hi. assert (Z.of_nat i < part (part_conj b) j); [|lia]. cgt.
        destruct (Z.lt_ge_cases (Z.of_nat i + 1) m); [specialize (H2 i); lia|rewrite Ga in Hi; lia].
      * apply lt_le; auto. intros i Hi. cgt. clt Hi.
        destruct (Z.lt_ge_cases (Z.of_nat i) m); [specialize (H1 i); lia|rewrite Gb in Hi; lia].
  - intros [H0 H]. split; intros j Hj.
    + assert (Hpos : Z.of_nat 0 < part a j) by (cgt; lia).
      destruct (Z.le_gt_cases (part b j) 0); [lia|].
      assert (Hi : Z.of_nat (S (Z.to_nat (part b j - 1))) < part a j); [|lia]. cgt.
      assert (Hi : Z.of_nat j < part (part_conj b) (Z.to_nat (part b j - 1))) by (cgt; lia). specialize (H (Z.to_nat (part b j - 1))). lia.
    + destruct (Z.le_gt_cases (part a (S j)) 1); [pose proof (is_partition_nonneg b j Hb); lia|].
      assert (Hi : Z.of_nat (Z.to_nat (part a (S j) - 2)) < part b j); [|lia]. cgt.
      assert (Hi : Z.of_nat (S j) < part (part_conj a) (S (Z.to_nat (part a (S j) - 2)))) by (cgt; lia).
      specialize (H (Z.to_nat (part a (S j) - 2))). lia.
Qed.

Section C.
Variables m k : Z.
Hypothesis Hm : 1 <= m.
Hypothesis Hk : 1 <= k.
Let Hk0 : 0 <= k. lia. Qed.
Let Hm0 : 0 <= m. lia. Qed.
Notation w := (psubst (fmap part_conj)).

Lemma P_sum i l : in_box m k l -> 1 <= i <= k ->
  is_sum_of (P (piA m k true) i l) (fun d mu => in_box m k mu /\
      ((d = 0%nat /\ adds_horizontal_strip l mu /\ size mu = size l + i) \/
       (d = 1%nat /\ bertram m l mu /\ size mu + (m + k) = size l + i))).
Proof.
  intros Hl Hi. destruct (qpieriA_sum m k Hm Hk0 i l Hl Hi) as (p & E & Sp).
  destruct (piA_enum m k Hm Hk0 true i l Hl Hi) as (x & Hx & _).
  destruct (on_class (qpieri_fun (gA m k) i) l x Hx) as (p' & E' & Ep). unfold qpieri in E. rewrite E' in E. inversion E; subst p'.
  eapply is_sum_peq; [|exact Sp]. rewrite Ep. unfold P. rewrite Hx. reflexivity.
Qed.
Lemma conj_P i l : 1 <= i <= k -> in_box m k l -> peq (w (P (piA m k true) i l)) (MA k m true (pS (col i)) (pS (part_conj l))).
Proof.
  intros Hi Hl. pose proof (P_sum i l Hl Hi) as [S1 S2].
  pose proof (box_conj m k l Hm0 Hk0 Hl) as Hl'.
  assert (LP : supp (linm (in_box m k) (eq VQ)) (P (piA m k true) i l)) by (apply (sysA m k Hm Hk0 true); auto).
  etransitivity; [|apply (sys_comm (sysA k m Hk Hm0 true)); apply sys_lq_pS; auto; apply col_box; lia].
  pose proof (vertical k m Hk Hm (part_conj l) i Hl' Hi) as SV. eapply is_sum_unique; [|exact SV]. clear SV.
  assert (INV : forall x, in_box m k x -> part_conj (part_conj x) = x) by (intros x Hx; apply part_conj_involutive, Hx).
  assert (INV' : forall x, in_box k m x -> part_conj (part_conj x) = x) by (intros x Hx; apply part_conj_involutive, Hx).
  assert (EQ : forall d mu, in_box m k mu ->
     (((d = 0%nat /\ adds_horizontal_strip l mu /\ size mu = size l + i) \/
       (d = 1%nat /\ bertram m l mu /\ size mu + (m + k) = size l + i)) <-> vterm k m (part_conj l) i d (part_conj mu))).
  { intros d mu Hmu. unfold vterm. rewrite !part_conj_size by (apply Hl || apply Hmu). rewrite (strip_conj l mu) by (apply Hl || apply Hmu).
    rewrite (bertram_conj m k l mu) by auto. pose proof (box_conj m k mu Hm0 Hk0 Hmu).
    split.
    - intros [(A & B & C)|(A & B & C)]; (split; [auto|]); [left|right]; (split; [auto|]); (split; [auto|]); lia.
    - intros [_ [(A & B & C)|(A & B & C)]]; [left|right]; (split; [auto|]); (split; [auto|]); lia. }
  split.
  - intros d nu Hv. assert (Hn : in_box k m nu) by apply Hv. pose proof (box_conj k m nu Hk0 Hm0 Hn) as Hn'.
    rewrite (fmap_coef (in_box m k) (in_box k m) part_conj part_conj) by (auto using box_conj).
    apply S1. split; auto. apply EQ; auto. rewrite INV' by auto. auto.
  - intros mo Hmo. assert (LW : supp (linm (in_box k m) (eq VQ)) (w (P (piA m k true) i l))).
    { apply (w_lq (V1 := in_box m k)); auto. intros; apply box_conj; auto. }
    destruct (LW _ Hmo) as (nu & qm & Hn & HP & Hq). rewrite (allQ qm Hq) in HP. set (d := length qm) in HP. change (vS nu :: repeat VQ d) with (qS d nu) in HP. exists d, nu. split; auto.
    rewrite (coef_perm _ _ _ HP) in Hmo. rewrite (fmap_coef (in_box m k) (in_box k m) part_conj part_conj) in Hmo by (auto using box_conj).
    destruct (S2 _ Hmo) as (d' & mu & [Hmu R] & HP'). apply Sys.qS_inj in HP'. destruct HP' as [<- E]. subst mu.
    apply EQ in R; auto. rewrite INV' in R by auto. auto.
Qed.

Theorem conj_ring a b : supp (linm (in_box m k) (eq VQ)) a -> supp (linm (in_box m k) (eq VQ)) b ->
  peq (w (MA m k true a b)) (MA k m true (w a) (w b)).
Proof.
  apply (sys_map (sysA m k Hm Hk0 true) (sysA k m Hk Hm0 true) part_conj (fun i => pS (col i))).
  - intros; apply box_conj; auto.
  - reflexivity.
  - intros i Hi. apply sys_lq_pS. unfold IA in Hi. apply col_box; lia.
  - intros i l Hi Hl. apply conj_P; auto.
Qed.

Theorem conj_coef lam mu d nu : in_box m k lam -> in_box m k mu -> in_box m k nu ->
  coef (MA k m true (pS (part_conj lam)) (pS (part_conj mu))) (qS d (part_conj nu)) = coef (MA m k true (pS lam) (pS mu)) (qS d nu).
Proof.
  intros Hl Hmu Hn.
  assert (INV : forall x, in_box m k x -> part_conj (part_conj x) = x) by (intros x Hx; apply part_conj_involutive, Hx).
  assert (INV' : forall x, in_box k m x -> part_conj (part_conj x) = x) by (intros x Hx; apply part_conj_involutive, Hx).
  assert (E : peq (w (MA m k true (pS lam) (pS mu))) (MA k m true (pS (part_conj lam)) (pS (part_conj mu)))).
  { rewrite conj_ring by (apply sys_lq_pS; auto). apply M_peq; apply w_pS. }
  rewrite <- (E _). rewrite (fmap_coef (in_box m k) (in_box k m) part_conj part_conj); auto using box_conj.
  - rewrite INV; auto.
  - apply (sys_lin (sysA m k Hm Hk0 true)); [apply sys_lq_vp|]; apply sys_lq_pS; auto.
Qed.
End C.
