(** The set enumerated by [pieri_set] is the Buch-Kresch-Tamvakis relation. *)

From Coq Require Import ZArith List Lia Bool.
From Verif Require Import Py PyFacts ModelPart ModelQcalc Spec SpecPieri Enum FillFacts PartFacts ConjFacts
  PairFacts BetwFacts PieriSet.
Import ListNotations.
Open Scope Z_scope.

Section BKT.
Variables (k n d : Z) (lam : list Z).
Hypothesis Hk : 0 <= k.
Hypothesis Hn : 0 <= n.
Hypothesis Hd : d = 0 \/ d = 1.
Hypothesis Hrc : k <= n + d.
Hypothesis HL : kstrict_in k (n + d - k) (n + k) lam.
Variable mu : list Z.
Hypothesis HM : kstrict_in k (n + d - k) (n + k) mu.

Notation t := (tc lam).
Notation u := (tc mu).
Notation bl := (bt k lam).
Notation bm := (bt k mu).
Notation T := (TT k d lam).
Notation b := (bI k d lam).
Notation L := (lb k lam).
Let pl : is_partition lam := proj1 (proj1 HL).
Let pm : is_partition mu := proj1 (proj1 HM).

Lemma tcI l i r : is_partition l -> 0 <= i -> 0 <= r -> (r < tc l i <-> i < part l (Z.to_nat r)).
Proof. apply (tc_iff k n d). Qed.
Lemma b_range i : 0 <= b i <= L.
Proof. apply (bI_range k n). Qed.
Lemma b_at i r : b i <= r < L -> bl r + r <= T i.
Proof. apply (bI_at k n d lam Hk HL). Qed.
Lemma b_below i r : 0 <= r < b i -> T i < bl r + r.
Proof. apply (bI_below k n). Qed.
Lemma bm_dec r : 0 <= r -> 0 < bm r -> bm (r + 1) < bm r.
Proof. intros. apply (bt_dec k n d); auto. apply HM. Qed.
Lemma bl_zero r : L <= r -> bl r = 0.
Proof. apply (lb_zero k n d); auto. Qed.
Lemma bl_mono r s : 0 <= r <= s -> s <= L -> bl s + s <= bl r + r.
Proof. apply (beta_mono k n d lam Hk HL). Qed.

(** shapes *)
Definition shapeAB : Prop :=
  (forall i, 0 <= i < k -> t (i + 1) <= u i <= t i + 1) /\
  (forall r, 0 <= r -> bl r <= bm r /\ bm (r + 1) <= bl r).

Lemma part_nn l j : is_partition l -> 0 <= part l j.
Proof. apply is_partition_nonneg. Qed.

Lemma strips_shape : (exists nu, is_partition nu /\ removes_vertical_strip k lam nu /\ adds_horizontal_strip nu mu) <-> shapeAB.
Proof.
  split.
  - intros (nu & Hnu & Hv & Hh). split.
    + intros i Hi. split.
      * destruct (Z.le_gt_cases (t (i + 1)) (u i)) as [|Hgt]; auto. exfalso.
        pose proof (tc_nonneg mu i). assert (H1 : u i < t (i + 1)) by lia.
        apply (tcI lam (i + 1) (u i)) in H1; auto; [|lia].
        pose proof (tcI mu i (u i) pm ltac:(lia) ltac:(lia)) as H2.
        specialize (Hv (Z.to_nat (u i))). specialize (Hh (Z.to_nat (u i))). lia.
      * destruct (Z.le_gt_cases (u i) (t i + 1)) as [|Hgt]; auto. exfalso.
        pose proof (tc_nonneg lam i). assert (H1 : t i + 1 < u i) by lia.
        apply (tcI mu i (t i + 1)) in H1; auto; [|lia|lia].
        pose proof (tcI lam i (t i) pl ltac:(lia) ltac:(lia)) as H2.
        specialize (Hv (Z.to_nat (t i))). specialize (Hh (Z.to_nat (t i))).
        replace (Z.to_nat (t i + 1)) with (S (Z.to_nat (t i))) in H1 by lia. lia.
    + intros r Hr. unfold bt. replace (Z.to_nat (r + 1)) with (S (Z.to_nat r)) by lia.
      specialize (Hv (Z.to_nat r)). specialize (Hh (Z.to_nat r)). lia.
  - intros [HA HB].
    assert (H1 : forall j, part lam j - 1 <= part mu j /\ (k < part lam j -> part lam j <= part mu j)).
    { intros j. pose proof (part_nn lam j pl). pose proof (part_nn mu j pm).
      specialize (HB (Z.of_nat j) ltac:(lia)). unfold bt in HB. rewrite Nat2Z.id in HB. split; [|lia].
      destruct (Z.lt_ge_cases k (part lam j)); [lia|]. destruct (Z.le_gt_cases (part lam j) 1); [lia|].
      specialize (HA (part lam j - 2) ltac:(lia)).
      assert (H3 : Z.of_nat j < t (part lam j - 2 + 1)) by (apply tcI; auto; rewrite ?Nat2Z.id; lia).
      assert (H4 : Z.of_nat j < u (part lam j - 2)) by lia. apply tcI in H4; auto; try lia.
      rewrite Nat2Z.id in H4. lia. }
    assert (H2 : forall j, part mu (S j) <= part lam j).
    { intros j. pose proof (part_nn lam j pl). pose proof (part_nn mu (S j) pm).
      specialize (HB (Z.of_nat j) ltac:(lia)). unfold bt in HB.
      replace (Z.to_nat (Z.of_nat j + 1)) with (S j) in HB by lia. rewrite Nat2Z.id in HB.
      destruct (Z.lt_ge_cases k (part mu (S j))); [lia|]. destruct (Z.eq_dec (part mu (S j)) 0); [lia|].
      specialize (HA (part mu (S j) - 1) ltac:(lia)).
      assert (H3 : Z.of_nat j + 1 < u (part mu (S j) - 1)).
      { apply tcI; auto; try lia. replace (Z.to_nat (Z.of_nat j + 1)) with (S j) by lia. lia. }
      assert (H4 : Z.of_nat j < t (part mu (S j) - 1)) by lia. apply tcI in H4; auto; try lia.
      rewrite Nat2Z.id in H4. lia. }
    set (f := fun j => Z.min (part lam (Z.to_nat j)) (part mu (Z.to_nat j))).
    set (w := map f (zrange 0 (zlen lam))). exists (part_clip w).
    assert (Ew : forall j, part (part_clip w) j = Z.min (part lam j) (part mu j)).
    { intros j. rewrite part_clip_part. destruct (Nat.lt_ge_cases j (length lam)) as [Hj|Hj].
      - unfold w. rewrite part_map_zrange by (unfold zlen; lia). unfold f. rewrite Nat2Z.id. auto.
      - rewrite part_over by (unfold w; rewrite map_length, length_zrange; unfold zlen; lia).
        rewrite (part_over lam) by auto. pose proof (part_nn mu j pm). lia. }
    split; [|split].
    + apply (decp_is_partition (part lam 0)); [apply part_nn; auto|].
      apply decp_part; [apply part_nn; auto|].
      assert (Ew' : forall j, part w j = Z.min (part lam j) (part mu j)) by (intros; rewrite <- part_clip_part; auto).
      split; [|split].
      * intros j _. rewrite Ew'. pose proof (part_nn lam j pl). pose proof (part_nn mu j pm). lia.
      * intros j. left. rewrite !Ew'. destruct pl as [_ D1]. destruct pm as [_ D2]. specialize (D1 j). specialize (D2 j). lia.
      * rewrite Ew'. lia.
    + intros j. rewrite Ew. specialize (H1 j). lia.
    + intros j. rewrite Ew. destruct pm as [_ D2]. specialize (D2 j). specialize (H2 j). lia.
Qed.

(** the rows of the added boxes related to a box of diagonal [s] *)
Definition hits (s rho : Z) : Prop := 0 <= rho /\ bl rho + rho <= s < bm rho + rho.

Section Shape.
Hypothesis HAB : shapeAB.

(** a box [(r, i+1)] in the first [k] columns, between the old and the new bottom *)
Definition lowbox (i r : Z) : Prop :=
  0 <= i < k /\ ((u i = t i /\ r = t i) \/ (u i < t i /\ u i <= r <= t i)).

Lemma added_iff x : added lam mu x <-> 1 <= fst x /\ 1 <= snd x /\
  part lam (Z.to_nat (fst x - 1)) < snd x <= part mu (Z.to_nat (fst x - 1)).
Proof. unfold added, in_diagram. lia. Qed.

Lemma added_hits i r x : lowbox i r -> added lam mu x -> related k d (r, i + 1) x ->
  hits (r + k - (i + 1) - d) (fst x - 1) /\ snd x = k + (r + k - (i + 1) - d) + 1 - (fst x - 1).
Proof.
  intros [Hi Hlow] Hx Hr. apply added_iff in Hx. destruct x as [x1 x2]. cbn [fst snd] in *.
  unfold related in Hr. cbn [fst snd] in Hr. destruct HAB as [HA HB].
  destruct (Z.le_gt_cases x2 k) as [Hc|Hc].
  - (* no related box in the first k columns *)
    exfalso. set (i' := x2 - 1). assert (Hi' : 0 <= i' < k) by lia.
    assert (A1 : x1 - 1 < u i') by (apply tcI; auto; lia).
    assert (A2 : ~ x1 - 1 < t i') by (intros A; apply tcI in A; auto; lia).
    pose proof (HA i' Hi') as HAi. assert (E : x1 = t i' + 1 /\ u i' = t i' + 1) by lia.
    assert (Hrel : r - i = x1 - i') by lia.
    destruct (Z.lt_trichotomy i i') as [H|[H|H]].
    + pose proof (tc_mono 0 0 0 mu i i' ltac:(lia)). lia.
    + rewrite <- H in E. lia.
    + pose proof (tc_mono 0 0 0 lam i' i ltac:(lia)). lia.
  - unfold hits, bt. split; [split; [lia|]|]; lia.
Qed.
Lemma hits_added i r rho : 0 <= i < k -> hits (r + k - (i + 1) - d) rho ->
  let x := (rho + 1, k + (r + k - (i + 1) - d) + 1 - rho) in added lam mu x /\ related k d (r, i + 1) x.
Proof.
  intros Hi (H0 & H1 & H2) x. unfold bt in *. split.
  - apply added_iff. unfold x. cbn [fst snd]. replace (rho + 1 - 1) with rho by lia. lia.
  - unfold related, x. cbn [fst snd]. lia.
Qed.

(** consequences of the shapes *)
Lemma bm_zero r : L < r -> bm r = 0.
Proof.
  intros Hr. pose proof (lb_nonneg k lam) as HL0. pose proof (bt_nonneg k 0 0 mu r).
  destruct (Z.eq_dec (bm r) 0) as [|Hne]; auto. exfalso.
  destruct HAB as [_ HB]. specialize (HB (r - 1) ltac:(lia)). replace (r - 1 + 1) with r in HB by lia.
  rewrite bl_zero in HB by lia. lia.
Qed.
Lemma step_back i rho : 0 <= i < k -> b i < rho -> T i < bm rho + rho -> 0 < bm rho -> hits (T i) (rho - 1) /\ bm rho + rho = T i + 1.
Proof.
  intros Hi Hb Hlt Hpos. pose proof (b_range i) as Hbi.
  assert (Hr : rho <= L) by (destruct (Z.le_gt_cases rho L) as [|Hgt]; auto; rewrite (bm_zero rho) in Hpos by lia; lia).
  pose proof (b_at i (rho - 1)) as Hat.
  destruct HAB as [_ HB]. specialize (HB (rho - 1) ltac:(lia)). replace (rho - 1 + 1) with rho in HB by lia.
  pose proof (bm_dec (rho - 1) ltac:(lia)) as Hdec. replace (rho - 1 + 1) with rho in Hdec by lia.
  unfold hits. lia.
Qed.

Lemma prel_rules : rule_same k d lam mu /\ rule_less k d lam mu <-> prel k d lam mu.
Proof.
  pose proof HAB as [HA HB].
  assert (Hhit0 : forall s rho, hits s rho -> 0 < bm rho).
  { intros s rho (H1 & H2 & H3). pose proof (bt_nonneg k 0 0 lam rho). lia. }
  assert (Hblow : forall i rho, hits (T i) rho -> b i <= rho).
  { intros i rho (H1 & H2 & H3). destruct (Z.le_gt_cases (b i) rho) as [|Hgt]; auto.
    pose proof (b_below i rho ltac:(lia)). lia. }
  assert (Hlen : forall rho, 0 < bm rho -> rho <= L).
  { intros rho Hp. destruct (Z.le_gt_cases rho L) as [|Hgt]; auto. rewrite (bm_zero rho) in Hp by lia. lia. }
  split.
  - intros [RS RL].
    (* columns that lose boxes *)
    assert (Hless : forall i, 0 <= i < k -> u i < t i ->
      bl (b i) + b i <= u i + k - (i + 1) - d /\ T i < bm (b i) + b i /\
      forall rho, b i < rho -> 0 < bm rho -> bm rho + rho <= u i + k - (i + 1) - d).
    { intros i Hi Hlt. destruct (RL (i + 1) ltac:(lia)) as (row & Hrow); [exact Hlt|].
      assert (Hlb : forall r, u i <= r <= t i -> lowbox i r) by (intros r Hr; split; auto).
      assert (HZ : forall r, u i <= r <= t i -> hits (r + k - (i + 1) - d) (row - 1) /\
         forall rho, hits (r + k - (i + 1) - d) rho -> rho = row - 1).
      { intros r Hr. destruct (Hrow r Hr) as (x & Hx1 & Hx2 & Hx3 & Hx4).
        destruct (added_hits i r x (Hlb r Hr) Hx2 Hx3) as [Hh _]. rewrite Hx1 in Hh. split; auto.
        intros rho Hrho. destruct (hits_added i r rho Hi Hrho) as [Y1 Y2].
        specialize (Hx4 _ Y1 Y2). rewrite <- Hx1, <- Hx4. cbn [fst]. lia. }
      destruct (HZ (t i) ltac:(lia)) as [Z1 Z2]. destruct (HZ (u i) ltac:(lia)) as [Z3 Z4].
      change (t i + k - (i + 1) - d) with (T i) in *. pose proof (Hblow i _ Z1) as Hb1.
      assert (Eb : row - 1 = b i).
      { destruct (Z.eq_dec (row - 1) (b i)) as [|Hne]; auto. exfalso. pose proof Z1 as (z1 & z2 & z3).
        destruct (step_back i (row - 1) Hi ltac:(lia) ltac:(lia) (Hhit0 _ _ Z1)) as [S1 _].
        specialize (Z2 _ S1). lia. }
      rewrite Eb in *. destruct Z1 as (z1 & z2 & z3). destruct Z3 as (z4 & z5 & z6).
      split; auto. split; auto. intros rho Hr Hp. destruct (Z.le_gt_cases (bm rho + rho) (u i + k - (i + 1) - d)) as [|Hgt]; auto.
      exfalso. assert (rho = b i); [|lia]. apply Z4. pose proof (b_range i). split; [lia|].
      pose proof (bl_mono (b i) rho ltac:(lia) (Hlen rho Hp)). lia. }
    split; [|split; [|split]].
    + intros i Hi. split; [|apply HA; auto]. destruct (Z.lt_ge_cases (u i) (t i)) as [Hlt|Hge].
      * apply (low_spec k n); auto. destruct (Hless i Hi Hlt) as (H1 & H2 & H3).
        split; [apply HA; auto|]. split; [|auto]. intros Hb. pose proof (bt_nonneg k 0 0 lam (b i)). unfold TT in *. lia.
      * pose proof (low_le k n d lam Hk HL i Hi). lia.
    + auto.
    + intros i rho Hi Hb Hp. destruct (Z.lt_trichotomy (u i) (t i)) as [Hlt|[He|Hgt]].
      * apply (Hless i Hi Hlt); auto.
      * destruct (Z.le_gt_cases (bm rho + rho) (u i + k - (i + 1) - d)) as [|Hgt]; auto. exfalso.
        assert (Hgt' : T i < bm rho + rho) by (unfold TT; lia).
        destruct (step_back i rho Hi Hb Hgt' Hp) as [S1 S2].
        assert (S3 : hits (T i) rho).
        { pose proof (b_range i). split; [lia|]. pose proof (bl_mono (rho - 1) rho ltac:(lia) (Hlen rho Hp)).
          pose proof (b_at i (rho - 1)). pose proof (Hlen rho Hp). lia. }
        destruct (hits_added i (t i) rho Hi S3) as [X1 X2]. destruct (hits_added i (t i) (rho - 1) Hi S1) as [Y1 Y2].
        cbv zeta in *. specialize (RS (i + 1) ltac:(lia) He _ _ X1 Y1).
        unfold bottom_box in RS. change (count_ge mu (i + 1)) with (u i) in RS. rewrite He in RS.
        specialize (RS X2 Y2). injection RS. lia.
      * pose proof (b_range i). pose proof (b_at i (rho - 1)). pose proof (Hlen rho Hp).
        specialize (HB (rho - 1) ltac:(lia)). replace (rho - 1 + 1) with rho in HB by lia.
        specialize (HA i Hi). unfold TT in *. lia.
    + intros i Hi Hlt. destruct (Hless i Hi Hlt) as (_ & H2 & _). lia.
  - intros (P1 & _ & P3 & P4).
    assert (Huniq : forall i r rho, lowbox i r -> hits (r + k - (i + 1) - d) rho -> rho = b i).
    { intros i r rho [Hi Hlow] Hh. pose proof (Hhit0 _ _ Hh) as Hp. destruct Hh as (h1 & h2 & h3).
      destruct (Z.lt_trichotomy rho (b i)) as [H|[H|H]]; auto; exfalso.
      - pose proof (b_below i rho ltac:(lia)). unfold TT in *. lia.
      - specialize (P3 i rho Hi H Hp). lia. }
    split.
    + intros c Hc He x y Hx Hy Rx Ry. set (i := c - 1) in *. assert (Hi : 0 <= i < k) by lia.
      replace c with (i + 1) in * by lia. unfold bottom_box in *.
      change (count_ge mu (i + 1)) with (u i) in *. change (count_ge lam (i + 1)) with (t i) in *.
      assert (Hlow : lowbox i (u i)) by (split; auto).
      destruct (added_hits i (u i) x Hlow Hx Rx) as [X1 X2]. destruct (added_hits i (u i) y Hlow Hy Ry) as [Y1 Y2].
      apply (Huniq i (u i)) in X1; auto. apply (Huniq i (u i)) in Y1; auto.
      destruct x, y. cbn [fst snd] in *. f_equal; lia.
    + intros c Hc Hlt. set (i := c - 1) in *. replace c with (i + 1) in * by lia.
      change (count_ge mu (i + 1)) with (u i) in *. change (count_ge lam (i + 1)) with (t i) in *.
      assert (Hi : 0 <= i < k).
      { split; [lia|]. destruct (Z.lt_ge_cases i k) as [|Hge]; auto. exfalso.
        pose proof (tc_nonneg mu i). assert (H1 : u i < t i) by lia. apply (tcI lam i (u i)) in H1; auto; [|lia].
        pose proof (tcI mu i (u i) pm ltac:(lia) ltac:(lia)). specialize (HB (u i) ltac:(lia)). unfold bt in HB. lia. }
      exists (b i + 1). intros r Hr. assert (Hlow : lowbox i r) by (split; auto).
      specialize (P1 i Hi). specialize (P4 i Hi Hlt). destruct P1 as [P1 _]. apply (low_spec k n) in P1; auto.
      destruct P1 as (_ & Q1 & Q2). pose proof (b_range i).
      assert (Hh : hits (r + k - (i + 1) - d) (b i)).
      { split; [lia|]. unfold TT in *. lia. }
      destruct (hits_added i r (b i) Hi Hh) as [X1 X2]. eexists. split; [|split; [exact X1|split; [exact X2|]]]; auto.
      intros y Y1 Y2. destruct (added_hits i r y Hlow Y1 Y2) as [Z1 Z2]. apply (Huniq i r) in Z1; auto.
      destruct y as [y1 y2]. cbn [fst snd] in *. f_equal; lia.
Qed.
End Shape.

Theorem arrow_prel : pieri_arrow k d lam mu <-> prel k d lam mu.
Proof.
  unfold pieri_arrow. rewrite strips_shape. split.
  - intros (HS & HR). apply prel_rules; auto.
  - intros HP. assert (HS : shapeAB).
    { destruct HP as (P1 & P2 & _). split; auto. intros i Hi. specialize (P1 i Hi). destruct P1 as [P1 P3].
      apply (low_spec k n) in P1; auto. lia. }
    split; auto. apply prel_rules; auto.
Qed.

End BKT.
