(** The relation of the Pieri rules of isotropic Grassmannians, read bond by bond.

    A k-strict partition is seen through two counting functions of the bonds
    [c = 0..n]: [RL c], the number of rows reaching beyond column [k + c], and
    [EL c], the number of the first [k] columns whose foot lies on a diagonal at or
    beyond [c + RL c].  The relation between two partitions holds exactly when the
    differences of the two pairs of functions avoid a few values. *)

From Coq Require Import ZArith List Lia Bool.
From Verif Require Import Py PyFacts ModelPart ModelQcalc Spec SpecPieri Enum FillFacts PartFacts ConjFacts
  PairFacts BetwFacts PieriSet PieriBKT CompsFacts.
Import ListNotations.
Open Scope Z_scope.

(** [RL], [EL] describe the partition [lam] *)
Definition bonds (k n d : Z) (lam : list Z) (RL EL : Z -> Z) : Prop :=
  (forall c r, 0 <= c <= n -> 0 <= r -> (c < bt k lam r <-> r < RL c)) /\
  (forall c i, 0 <= c <= n -> 0 <= i < k -> (c + RL c <= TT k d lam i <-> i < EL c)) /\
  (forall c, 0 <= c <= n -> 0 <= RL c /\ 0 <= EL c <= k) /\
  (forall c, 0 < c <= n -> 0 <= RL (c - 1) - RL c /\ 0 <= EL (c - 1) - EL c /\
     (RL (c - 1) - RL c) + (EL (c - 1) - EL c) <= 1) /\
  RL n = 0 /\ EL n = 0.

Section WA.
Variables (k n d : Z) (lam : list Z).
Hypothesis Hk : 0 <= k.
Hypothesis Hn : 0 <= n.
Hypothesis Hd : d = 0 \/ d = 1.
Hypothesis Hrc : k <= n + d.
Hypothesis HL : kstrict_in k (n + d - k) (n + k) lam.
Variable mu : list Z.
Hypothesis HM : kstrict_in k (n + d - k) (n + k) mu.
Variables RL EL RM EM : Z -> Z.
Hypothesis BL : bonds k n d lam RL EL.
Hypothesis BM : bonds k n d mu RM EM.

Notation t := (tc lam).
Notation u := (tc mu).
Notation bl := (bt k lam).
Notation bm := (bt k mu).
Notation T := (TT k d lam).
Notation UU := (TT k d mu).
Notation hits := (hits k lam mu).
Let pl : is_partition lam := proj1 (proj1 HL).
Let pm : is_partition mu := proj1 (proj1 HM).

Definition dR (c : Z) := RM c - RL c.
Definition dE (c : Z) := EM c - EL c.

Definition wvalid : Prop :=
  (forall c, 0 <= c <= n -> (dR c = 0 /\ dE c = 0) \/ (dR c = 1 /\ dE c = -1) \/ (dR c = 0 /\ dE c = 1) \/ (dR c = 1 /\ dE c = 0)) /\
  (forall c, 0 < c <= n -> dR c = 1 -> dE c = -1 -> dR (c - 1) = 1 -> dE (c - 1) = -1 -> RL (c - 1) = RL c) /\
  (forall c, 0 < c <= n -> dR c = 0 -> dE c = 1 -> dR (c - 1) = 0 -> dE (c - 1) = 1 -> RL (c - 1) = RL c -> EL (c - 1) = EL c -> False).

(** the two rules through the diagonals of the feet of the columns *)
Definition rules_hits : Prop :=
  (forall i r1 r2, 0 <= i < k -> u i = t i -> hits (T i) r1 -> hits (T i) r2 -> r1 = r2) /\
  (forall i, 0 <= i < k -> u i < t i -> exists r, forall s, UU i <= s <= T i -> hits s r /\ forall r', hits s r' -> r' = r).

Lemma rules_iff : shapeAB k lam mu -> (rule_same k d lam mu /\ rule_less k d lam mu <-> rules_hits).
Proof.
  intros HAB. pose proof HAB as [HA HB]. split.
  - intros [RS RLs]. split.
    + intros i r1 r2 Hi He H1 H2.
      destruct (hits_added k d lam Hd mu i (t i) r1 Hi H1) as [X1 X2].
      destruct (hits_added k d lam Hd mu i (t i) r2 Hi H2) as [Y1 Y2]. cbv zeta in *.
      specialize (RS (i + 1) ltac:(lia) He _ _ X1 Y1). unfold bottom_box in RS.
      change (count_ge mu (i + 1)) with (u i) in RS. rewrite He in RS. specialize (RS X2 Y2).
      apply (f_equal fst) in RS. cbn [fst] in RS. lia.
    + intros i Hi Hlt. destruct (RLs (i + 1) ltac:(lia)) as (row & Hrow); [exact Hlt|].
      change (count_ge mu (i + 1)) with (u i) in Hrow. change (count_ge lam (i + 1)) with (t i) in Hrow.
      exists (row - 1). intros s Hs. set (r := s - k + (i + 1) + d). assert (Es : s = r + k - (i + 1) - d) by (unfold r; lia).
      assert (Hr : u i <= r <= t i) by (unfold r, TT in *; lia).
      destruct (Hrow r Hr) as (x & Hx1 & Hx2 & Hx3 & Hx4).
      assert (Hlow : lowbox k lam mu i r) by (split; auto).
      destruct (added_hits k n d lam Hd HL mu HM HAB i r x Hlow Hx2 Hx3) as [Hh _]. rewrite Hx1, <- Es in Hh. split; auto.
      intros r' Hr'. rewrite Es in Hr'. destruct (hits_added k d lam Hd mu i r r' Hi Hr') as [Y1 Y2]. cbv zeta in *.
      specialize (Hx4 _ Y1 Y2). apply (f_equal fst) in Hx4. cbn [fst] in Hx4. lia.
  - intros [RS RLs]. split.
    + intros c Hc He x y Hx Hy Rx Ry. set (i := c - 1) in *. assert (Hi : 0 <= i < k) by lia.
      replace c with (i + 1) in * by lia. unfold bottom_box in *.
      change (count_ge mu (i + 1)) with (u i) in *. change (count_ge lam (i + 1)) with (t i) in *.
      assert (Hlow : lowbox k lam mu i (u i)) by (split; auto).
      destruct (added_hits k n d lam Hd HL mu HM HAB i (u i) x Hlow Hx Rx) as [X1 X2].
      destruct (added_hits k n d lam Hd HL mu HM HAB i (u i) y Hlow Hy Ry) as [Y1 Y2].
      rewrite He in *. change (t i + k - (i + 1) - d) with (T i) in *.
      specialize (RS i _ _ Hi He X1 Y1). destruct x, y. cbn [fst snd] in *. f_equal; lia.
    + intros c Hc Hlt. set (i := c - 1) in *. replace c with (i + 1) in * by lia.
      change (count_ge mu (i + 1)) with (u i) in *. change (count_ge lam (i + 1)) with (t i) in *.
      assert (Hi : 0 <= i < k).
      { split; [lia|]. destruct (Z.lt_ge_cases i k) as [|Hge]; auto. exfalso.
        pose proof (tc_nonneg mu i). assert (H1 : u i < t i) by lia. apply (tcI k n d lam i (u i)) in H1; auto; [|lia].
        pose proof (tcI k n d mu i (u i) pm ltac:(lia) ltac:(lia)). specialize (HB (u i) ltac:(lia)). unfold bt in HB. lia. }
      destruct (RLs i Hi Hlt) as (rho & Hrho). exists (rho + 1). intros r Hr.
      assert (Hlow : lowbox k lam mu i r) by (split; auto).
      destruct (Hrho (r + k - (i + 1) - d)) as [Hh Hu]; [unfold TT; lia|].
      destruct (hits_added k d lam Hd mu i r rho Hi Hh) as [X1 X2]. eexists. split; [|split; [exact X1|split; [exact X2|]]]; auto.
      intros y Y1 Y2. destruct (added_hits k n d lam Hd HL mu HM HAB i r y Hlow Y1 Y2) as [Z1 Z2]. apply Hu in Z1.
      destruct y as [y1 y2]. cbn [fst snd] in *. f_equal; lia.
Qed.

(** ** facts on bonds *)
Lemma bL_iff c r : 0 <= c <= n -> 0 <= r -> (c < bl r <-> r < RL c). Proof. apply BL. Qed.
Lemma bM_iff c r : 0 <= c <= n -> 0 <= r -> (c < bm r <-> r < RM c). Proof. apply BM. Qed.
Lemma eL_iff c i : 0 <= c <= n -> 0 <= i < k -> (c + RL c <= T i <-> i < EL c). Proof. apply BL. Qed.
Lemma eM_iff c i : 0 <= c <= n -> 0 <= i < k -> (c + RM c <= UU i <-> i < EM c). Proof. apply BM. Qed.
Lemma rangeL c : 0 <= c <= n -> 0 <= RL c /\ 0 <= EL c <= k. Proof. apply BL. Qed.
Lemma rangeM c : 0 <= c <= n -> 0 <= RM c /\ 0 <= EM c <= k. Proof. apply BM. Qed.
Lemma stepL c : 0 < c <= n -> 0 <= RL (c - 1) - RL c /\ 0 <= EL (c - 1) - EL c /\ (RL (c - 1) - RL c) + (EL (c - 1) - EL c) <= 1.
Proof. apply BL. Qed.
Lemma stepM c : 0 < c <= n -> 0 <= RM (c - 1) - RM c /\ 0 <= EM (c - 1) - EM c /\ (RM (c - 1) - RM c) + (EM (c - 1) - EM c) <= 1.
Proof. apply BM. Qed.
Lemma endL : RL n = 0 /\ EL n = 0. Proof. apply BL. Qed.
Lemma endM : RM n = 0 /\ EM n = 0. Proof. apply BM. Qed.

Lemma mono_gen (f : Z -> Z) c e : (forall x, c < x <= e -> f (x - 1) <= f x) -> c <= e -> f c <= f e.
Proof.
  intros H Hle. assert (G : forall m, 0 <= m -> c + m <= e -> f c <= f (c + m)).
  { apply (natlike_ind (fun m => c + m <= e -> f c <= f (c + m))); [intros _; replace (c + 0) with c by lia; lia|].
    intros m Hm IH Hm2. specialize (H (c + Z.succ m) ltac:(lia)). replace (c + Z.succ m - 1) with (c + m) in H by lia. lia. }
  specialize (G (e - c) ltac:(lia) ltac:(lia)). replace (c + (e - c)) with e in G by lia. auto.
Qed.
Lemma monoXL c e : 0 <= c <= e -> e <= n -> c + RL c <= e + RL e.
Proof. intros H He. apply (mono_gen (fun x => x + RL x)); [|lia]. intros x Hx. pose proof (stepL x ltac:(lia)). lia. Qed.
Lemma monoXM c e : 0 <= c <= e -> e <= n -> c + RM c <= e + RM e.
Proof. intros H He. apply (mono_gen (fun x => x + RM x)); [|lia]. intros x Hx. pose proof (stepM x ltac:(lia)). lia. Qed.

(** a bond on every level *)
Lemma level s : RL 0 <= s < n -> exists c, 0 <= c < n /\ c + RL c = s /\ c + 1 + RL (c + 1) = s + 1.
Proof.
  intros Hs. assert (G : forall m, 0 <= m -> m <= n -> s < m + RL m -> exists c, 0 <= c < m /\ c + RL c = s /\ c + 1 + RL (c + 1) = s + 1).
  { apply (natlike_ind (fun m => m <= n -> s < m + RL m -> exists c, 0 <= c < m /\ c + RL c = s /\ c + 1 + RL (c + 1) = s + 1)).
    - intros. lia.
    - intros m Hm IH Hle Hlt. destruct (Z.lt_ge_cases s (m + RL m)) as [H|H].
      + destruct (IH ltac:(lia) H) as (c & Hc & H2). exists c. split; [lia|auto].
      + exists m. pose proof (stepL (Z.succ m) ltac:(lia)) as HS. replace (Z.succ m - 1) with m in HS by lia.
        replace (m + 1) with (Z.succ m) by lia. lia. }
  destruct endL as [E0 _]. destruct (G n Hn ltac:(lia) ltac:(lia)) as (c & Hc & H2). exists c. auto.
Qed.

Lemma T_lt i : 0 <= i < k -> T i < n.
Proof. intros Hi. pose proof (eL_iff n i ltac:(lia) Hi). destruct endL. lia. Qed.
Lemma U_lt i : 0 <= i < k -> UU i < n.
Proof. intros Hi. pose proof (eM_iff n i ltac:(lia) Hi). destruct endM. lia. Qed.
Lemma RL0 : RL 0 = lb k lam.
Proof.
  pose proof (lb_nonneg k lam). destruct (rangeL 0 ltac:(lia)) as [H0 _].
  pose proof (bL_iff 0 (lb k lam) ltac:(lia) ltac:(lia)) as H1. pose proof (bt_pos k n d Hk lam (lb k lam) pl ltac:(lia)) as H2.
  pose proof (bL_iff 0 (RL 0) ltac:(lia) ltac:(lia)) as H3. pose proof (bt_pos k n d Hk lam (RL 0) pl ltac:(lia)) as H4.
  unfold lb in *. lia.
Qed.
Lemma RM0 : RM 0 = lb k mu.
Proof.
  pose proof (lb_nonneg k mu). destruct (rangeM 0 ltac:(lia)) as [H0 _].
  pose proof (bM_iff 0 (lb k mu) ltac:(lia) ltac:(lia)) as H1. pose proof (bt_pos k n d Hk mu (lb k mu) pm ltac:(lia)) as H2.
  pose proof (bM_iff 0 (RM 0) ltac:(lia) ltac:(lia)) as H3. pose proof (bt_pos k n d Hk mu (RM 0) pm ltac:(lia)) as H4.
  unfold lb in *. lia.
Qed.
Lemma T_low i : 0 <= i < k -> RL 0 - d <= T i.
Proof. intros Hi. rewrite RL0. pose proof (tc_mono 0 0 0 lam i k ltac:(lia)). unfold TT, lb. lia. Qed.
Lemma U_low i : 0 <= i < k -> RM 0 - d <= UU i.
Proof. intros Hi. rewrite RM0. pose proof (tc_mono 0 0 0 mu i k ltac:(lia)). unfold TT, lb. lia. Qed.
Lemma T_dec i j : i < j -> T j < T i.
Proof. intros Hi. pose proof (tc_mono 0 0 0 lam i j ltac:(lia)). unfold TT. lia. Qed.
Lemma U_dec i j : i < j -> UU j < UU i.
Proof. intros Hi. pose proof (tc_mono 0 0 0 mu i j ltac:(lia)). unfold TT. lia. Qed.

Lemma bl_le r : 0 <= r -> 0 <= bl r <= n.
Proof.
  intros Hr. split; [apply (bt_nonneg k n d)|]. destruct (Z.le_gt_cases (bl r) n) as [|H]; auto.
  pose proof (bL_iff n r ltac:(lia) Hr). destruct endL. lia.
Qed.
Lemma bm_le r : 0 <= r -> 0 <= bm r <= n.
Proof.
  intros Hr. split; [apply (bt_nonneg k n d)|]. destruct (Z.le_gt_cases (bm r) n) as [|H]; auto.
  pose proof (bM_iff n r ltac:(lia) Hr). destruct endM. lia.
Qed.

Lemma interlace : (forall r, 0 <= r -> bl r <= bm r /\ bm (r + 1) <= bl r) <-> (forall c, 0 <= c <= n -> 0 <= dR c <= 1).
Proof.
  unfold dR. split.
  - intros H c Hc. destruct (rangeL c Hc) as [H0 _]. split.
    + destruct (Z.le_gt_cases (RL c) (RM c)) as [|Hg]; [lia|]. exfalso. destruct (rangeM c Hc) as [H1 _].
      pose proof (bL_iff c (RM c) Hc ltac:(lia)). pose proof (bM_iff c (RM c) Hc ltac:(lia)). specialize (H (RM c) ltac:(lia)). lia.
    + destruct (Z.le_gt_cases (RM c) (RL c + 1)) as [|Hg]; [lia|]. exfalso.
      pose proof (bL_iff c (RL c) Hc ltac:(lia)). pose proof (bM_iff c (RL c + 1) Hc ltac:(lia)). specialize (H (RL c) ltac:(lia)). lia.
  - intros H r Hr. split.
    + destruct (Z.le_gt_cases (bl r) (bm r)) as [|Hg]; auto. exfalso. pose proof (bl_le r Hr). pose proof (bm_le r Hr).
      specialize (H (bm r) ltac:(lia)). pose proof (bL_iff (bm r) r ltac:(lia) Hr). pose proof (bM_iff (bm r) r ltac:(lia) Hr). lia.
    + destruct (Z.le_gt_cases (bm (r + 1)) (bl r)) as [|Hg]; auto. exfalso. pose proof (bl_le r Hr).
      specialize (H (bl r) ltac:(lia)). pose proof (bL_iff (bl r) r ltac:(lia) Hr). pose proof (bM_iff (bl r) (r + 1) ltac:(lia) ltac:(lia)). lia.
Qed.

(** a hit is a bond where [mu] has one row more *)
Lemma hit_bond s r : (forall c, 0 <= c <= n -> 0 <= dR c <= 1) ->
  (hits s r <-> 0 <= r /\ 0 <= s - r <= n /\ RL (s - r) = r /\ dR (s - r) = 1).
Proof.
  intros HR. unfold PieriBKT.hits. split.
  - intros (H0 & H1 & H2). pose proof (bl_le r H0). pose proof (bm_le r H0). split; auto. split; [lia|].
    specialize (HR (s - r) ltac:(lia)). pose proof (bL_iff (s - r) r ltac:(lia) H0). pose proof (bM_iff (s - r) r ltac:(lia) H0).
    unfold dR in *. lia.
  - intros (H0 & H1 & H2 & H3). split; auto.
    pose proof (bL_iff (s - r) r ltac:(lia) H0). pose proof (bM_iff (s - r) r ltac:(lia) H0). unfold dR in *. lia.
Qed.
(** on a level the difference of the rows grows with the bond *)
Lemma dR_level j c : 0 <= j <= c -> c <= n -> j + RL j = c + RL c -> dR j <= dR c.
Proof. intros H1 H2 H3. pose proof (monoXM j c H1 H2). unfold dR. lia. Qed.
Lemma between_level j c x : 0 <= j <= x -> x <= c -> c <= n -> j + RL j = c + RL c -> x + RL x = c + RL c.
Proof. intros. pose proof (monoXL j x ltac:(lia) ltac:(lia)). pose proof (monoXL x c ltac:(lia) ltac:(lia)). lia. Qed.

Lemma valid_shape : wvalid -> shapeAB k lam mu.
Proof.
  intros (V1 & V2 & V3).
  assert (HR : forall c, 0 <= c <= n -> 0 <= dR c <= 1) by (intros c Hc; specialize (V1 c Hc); lia).
  split; [|apply interlace; auto]. intros i Hi. split.
  - destruct (Z.eq_dec (i + 1) k) as [Ek|Ek].
    + rewrite Ek. change (t k) with (lb k lam). rewrite <- RL0. pose proof (tc_mono 0 0 0 mu i k ltac:(lia)) as H1.
      change (u k) with (lb k mu) in H1. rewrite <- RM0 in H1. specialize (HR 0 ltac:(lia)). unfold dR in HR. lia.
    + destruct (Z.le_gt_cases (t (i + 1)) (u i)) as [|Hg]; auto. exfalso.
      assert (HTU : UU i <= T (i + 1)) by (unfold TT; lia).
      assert (Hlow : RL 0 <= T (i + 1)).
      { pose proof (U_low (i + 1) ltac:(lia)). pose proof (U_dec i (i + 1) ltac:(lia)). specialize (HR 0 ltac:(lia)). unfold dR in HR. lia. }
      destruct (level (T (i + 1))) as (c & Hc & E1 & E2); [split; [auto|apply T_lt; lia]|].
      pose proof (eL_iff c (i + 1) ltac:(lia) ltac:(lia)) as Q1. pose proof (eM_iff c i ltac:(lia) ltac:(lia)) as Q2.
      pose proof (eM_iff c (i + 1) ltac:(lia) ltac:(lia)) as Q3. pose proof (U_dec i (i + 1) ltac:(lia)).
      specialize (V1 c ltac:(lia)). unfold dR, dE in V1. lia.
  - destruct (Z.le_gt_cases (u i) (t i + 1)) as [|Hg]; auto. exfalso.
    assert (HTU : T i + 2 <= UU i) by (unfold TT; lia). pose proof (U_lt i Hi) as HU. pose proof (T_low i Hi) as HT.
    destruct (level (T i + 1)) as (c & Hc & E1 & E2); [lia|].
    pose proof (eL_iff c i ltac:(lia) Hi) as Q1. pose proof (eM_iff c i ltac:(lia) Hi) as Q2.
    pose proof (eL_iff (c + 1) i ltac:(lia) Hi) as Q3. pose proof (eM_iff (c + 1) i ltac:(lia) Hi) as Q4.
    pose proof (V1 c ltac:(lia)) as W1. pose proof (V1 (c + 1) ltac:(lia)) as W2.
    specialize (V3 (c + 1) ltac:(lia)). replace (c + 1 - 1) with c in V3 by lia.
    pose proof (stepM (c + 1) ltac:(lia)) as S1. replace (c + 1 - 1) with c in S1 by lia.
    pose proof (stepL (c + 1) ltac:(lia)) as S2. replace (c + 1 - 1) with c in S2 by lia.
    unfold dR, dE in *. lia.
Qed.

Lemma valid_rules : wvalid -> rules_hits.
Proof.
  intros HV. pose proof (valid_shape HV) as [HA HB]. pose proof HV as (V1 & V2 & V3).
  assert (HR : forall c, 0 <= c <= n -> 0 <= dR c <= 1) by (intros c Hc; specialize (V1 c Hc); lia).
  (* two hits on one level *)
  assert (Huq : forall i j c, 0 <= i < k -> 0 <= j < c -> c <= n -> j + RL j = c + RL c -> dR j = 1 ->
     UU i <= c + RL c <= T i -> False).
  { intros i j c Hi Hj Hc Hlev H1 Hs.
    pose proof (between_level j c (c - 1) ltac:(lia) ltac:(lia) Hc Hlev) as Hl1.
    pose proof (dR_level j (c - 1) ltac:(lia) ltac:(lia) ltac:(lia)) as D1.
    pose proof (dR_level j c ltac:(lia) ltac:(lia) ltac:(lia)) as D2.
    pose proof (eL_iff c i ltac:(lia) Hi) as Q1. pose proof (eM_iff c i ltac:(lia) Hi) as Q2.
    pose proof (eL_iff (c - 1) i ltac:(lia) Hi) as Q3. pose proof (eM_iff (c - 1) i ltac:(lia) Hi) as Q4.
    pose proof (V1 c ltac:(lia)) as W1. pose proof (V1 (c - 1) ltac:(lia)) as W2. specialize (V2 c ltac:(lia)).
    unfold dR, dE in *. lia. }
  assert (Huh : forall i s r1 r2, 0 <= i < k -> UU i <= s <= T i -> hits s r1 -> hits s r2 -> r1 = r2).
  { intros i s r1 r2 Hi Hs H1 H2. apply hit_bond in H1, H2; auto. destruct H1 as (A0 & A1 & A2 & A3). destruct H2 as (B0 & B1 & B2 & B3).
    destruct (Z.lt_trichotomy r1 r2) as [H|[H|H]]; auto; exfalso.
    - apply (Huq i (s - r2) (s - r1)); auto; lia.
    - apply (Huq i (s - r1) (s - r2)); auto; lia. }
  split.
  - intros i r1 r2 Hi He. apply (Huh i (T i)); auto. unfold TT. lia.
  - intros i Hi Hlt. assert (HUT : UU i < T i) by (unfold TT; lia).
    assert (Hlow : RL 0 <= UU i).
    { pose proof (U_low i Hi) as H1. pose proof (V1 0 ltac:(lia)) as W. pose proof (eL_iff 0 i ltac:(lia) Hi). pose proof (eM_iff 0 i ltac:(lia) Hi).
      unfold dR, dE in W. lia. }
    pose proof (T_lt i Hi) as HT.
    (* bonds on the levels of the column *)
    assert (Hin : forall c, 0 <= c <= n -> UU i < c + RL c <= T i -> dR c = 1 /\ dE c = -1).
    { intros c Hc Hs. pose proof (V1 c Hc) as W. pose proof (eL_iff c i ltac:(lia) Hi). pose proof (eM_iff c i ltac:(lia) Hi). unfold dR, dE in *. lia. }
    assert (Htop : forall c, 0 <= c < n -> c + 1 + RL (c + 1) = c + RL c + 1 -> UU i <= c + RL c <= T i -> dR c = 1).
    { intros c Hc E Hs. destruct (Z.eq_dec (UU i) (c + RL c)) as [Eu|]; [|apply Hin; lia].
      destruct (Hin (c + 1) ltac:(lia) ltac:(lia)) as [D1 _]. pose proof (V1 c ltac:(lia)) as W.
      pose proof (stepM (c + 1) ltac:(lia)) as S1. replace (c + 1 - 1) with c in S1 by lia. unfold dR in *. lia. }
    destruct (level (T i) ltac:(lia)) as (c0 & Hc0 & E1 & E2).
    assert (Hrow : forall m, 0 <= m -> forall c, 0 <= c < n -> c + RL c = T i - m -> c + 1 + RL (c + 1) = T i - m + 1 -> UU i <= T i - m -> RL c = RL c0).
    { apply (natlike_ind (fun m => forall c, 0 <= c < n -> c + RL c = T i - m -> c + 1 + RL (c + 1) = T i - m + 1 -> UU i <= T i - m -> RL c = RL c0)).
      - intros c Hc F1 F2 _. assert (c = c0); [|congruence].
        destruct (Z.lt_trichotomy c c0) as [H|[H|H]]; auto; exfalso.
        + pose proof (monoXL (c + 1) c0 ltac:(lia) ltac:(lia)). lia.
        + pose proof (monoXL (c0 + 1) c ltac:(lia) ltac:(lia)). lia.
      - intros m Hm IH c Hc F1 F2 HU. destruct (level (T i - m) ltac:(lia)) as (c' & Hc' & G1 & G2).
        specialize (IH c' Hc' G1 G2 ltac:(lia)).
        assert (Hle : c + 1 <= c').
        { destruct (Z.le_gt_cases (c + 1) c') as [|Hg]; auto. pose proof (monoXL c' c ltac:(lia) ltac:(lia)). lia. }
        assert (c' = c + 1); [|subst c'; lia].
        destruct (Z.eq_dec c' (c + 1)) as [|Hne]; auto. exfalso.
        pose proof (between_level (c + 1) c' (c' - 1) ltac:(lia) ltac:(lia) ltac:(lia) ltac:(lia)) as Hl.
        destruct (Hin c' ltac:(lia) ltac:(lia)) as [D1 D2]. destruct (Hin (c' - 1) ltac:(lia) ltac:(lia)) as [D3 D4].
        specialize (V2 c' ltac:(lia)). lia. }
    exists (RL c0). intros s Hs.
    destruct (level s ltac:(lia)) as (c & Hc & F1 & F2).
    assert (Er : RL c = RL c0) by (apply (Hrow (T i - s)); lia).
    assert (Hh : hits s (RL c0)).
    { apply hit_bond; auto. pose proof (rangeL c ltac:(lia)). replace (s - RL c0) with c by lia. split; [lia|]. split; [lia|]. split; auto.
      apply Htop; lia. }
    split; auto. intros r' Hr'. apply (Huh i s); auto.
Qed.

Lemma rules_valid : shapeAB k lam mu -> rules_hits -> wvalid.
Proof.
  intros [HA HB] [RS RLs].
  assert (HR : forall c, 0 <= c <= n -> 0 <= dR c <= 1) by (apply interlace; auto).
  assert (HT1 : forall i, 0 <= i < k -> UU i <= T i + 1) by (intros i Hi; specialize (HA i Hi); unfold TT; lia).
  assert (HT2 : forall i, 0 <= i -> i + 1 < k -> T (i + 1) < UU i) by (intros i Hi Hi'; specialize (HA i ltac:(lia)); unfold TT; lia).
  assert (Hup : forall c, 0 <= c <= n -> dE c <= 1 /\ (dE c = 1 -> dR c = 0)).
  { intros c Hc. specialize (HR c Hc). destruct (rangeL c Hc) as [_ R1]. destruct (rangeM c Hc) as [_ R2]. unfold dE, dR in *. split.
    - destruct (Z.le_gt_cases (EM c - EL c) 1) as [|Hg]; auto. exfalso.
      pose proof (eL_iff c (EL c) Hc ltac:(lia)). pose proof (eM_iff c (EL c + 1) Hc ltac:(lia)).
      specialize (HT1 (EL c) ltac:(lia)). pose proof (U_dec (EL c) (EL c + 1) ltac:(lia)). lia.
    - intros H1. pose proof (eL_iff c (EL c) Hc ltac:(lia)). pose proof (eM_iff c (EL c) Hc ltac:(lia)).
      specialize (HT1 (EL c) ltac:(lia)). lia. }
  assert (Hdn : forall c, 0 <= c <= n -> -1 <= dE c).
  { intros c Hc. specialize (HR c Hc). destruct (rangeL c Hc) as [_ R1]. destruct (rangeM c Hc) as [_ R2]. unfold dE, dR in *.
    destruct (Z.le_gt_cases (-1) (EM c - EL c)) as [|Hg]; auto. exfalso.
    pose proof (eL_iff c (EM c + 1) Hc ltac:(lia)). pose proof (eM_iff c (EM c) Hc ltac:(lia)).
    specialize (HT2 (EM c) ltac:(lia) ltac:(lia)). lia. }
  assert (Hm1 : forall c, 0 <= c <= n -> dE c = -1 -> dR c = 1).
  { intros c Hc He. pose proof (HR c Hc) as HRc. destruct (Z.eq_dec (dR c) 1) as [|Hne]; auto. exfalso.
    destruct (rangeL c Hc) as [R0 R1]. destruct (rangeM c Hc) as [_ R2]. unfold dE in He. set (i := EM c) in *.
    assert (Hi : 0 <= i < k) by lia. pose proof (eL_iff c i Hc Hi). pose proof (eM_iff c i Hc Hi).
    assert (EqR : RM c = RL c) by (unfold dR in *; lia).
    assert (Hut : u i < t i) by (assert (UU i < T i) by lia; unfold TT in *; lia).
    destruct (RLs i Hi Hut) as (r & Hr). set (s := c + RL c) in *.
    destruct (Hr s ltac:(lia)) as [H1 _]. destruct (Hr (s - 1) ltac:(lia)) as [H2 _].
    apply hit_bond in H1, H2; auto. destruct H1 as (A0 & A1 & A2 & A3). destruct H2 as (B0 & B1 & B2 & B3).
    assert (Hj : s - r <= c).
    { destruct (Z.le_gt_cases (s - r) c) as [|Hg]; auto. exfalso. pose proof (monoXL c (s - 1 - r) ltac:(lia) ltac:(lia)). lia. }
    pose proof (dR_level (s - r) c ltac:(lia) ltac:(lia) ltac:(lia)). lia. }
  split; [|split].
  - intros c Hc. specialize (HR c Hc). specialize (Hup c Hc). specialize (Hdn c Hc). specialize (Hm1 c Hc). lia.
  - intros c Hc D1 D2 D3 D4. pose proof (stepL c Hc) as SL. destruct (Z.eq_dec (RL (c - 1)) (RL c)) as [|Hne]; auto. exfalso.
    destruct (rangeL c ltac:(lia)) as [R0 R1]. destruct (rangeM c ltac:(lia)) as [_ R2].
    set (i := EM c). assert (Hi : 0 <= i < k) by (unfold dE in *; lia). set (s := c + RL c).
    pose proof (eL_iff c i ltac:(lia) Hi). pose proof (eM_iff c i ltac:(lia) Hi).
    assert (H1 : hits s (RL c)) by (apply hit_bond; auto; replace (s - RL c) with c by lia; lia).
    assert (H2 : hits s (RL (c - 1))).
    { apply hit_bond; auto. replace (s - RL (c - 1)) with (c - 1) by lia. lia. }
    assert (Hs : UU i <= s <= T i) by (unfold dR, dE in *; lia).
    destruct (Z.lt_trichotomy (u i) (t i)) as [Hc1|[Hc1|Hc1]].
    + destruct (RLs i Hi Hc1) as (r & Hr). destruct (Hr s Hs) as [_ Hu]. pose proof (Hu _ H1). pose proof (Hu _ H2). lia.
    + assert (s = T i) by (unfold TT in *; lia). assert (RL c = RL (c - 1)); [|lia].
      apply (RS i); auto; congruence.
    + unfold TT in *. lia.
  - intros c Hc D1 D2 D3 D4 E1 E2. destruct (rangeL c ltac:(lia)) as [R0 R1]. destruct (rangeM c ltac:(lia)) as [_ R2].
    set (i := EL c). assert (Hi : 0 <= i < k) by (unfold dE in *; lia).
    pose proof (eL_iff (c - 1) i ltac:(lia) Hi). pose proof (eM_iff c i ltac:(lia) Hi).
    specialize (HT1 i Hi). unfold dR, dE in *. lia.
Qed.

Theorem arrow_wvalid : pieri_arrow k d lam mu <-> wvalid.
Proof.
  unfold pieri_arrow. rewrite (strips_shape k n d lam Hk HL mu HM). split.
  - intros (HS & H1). apply rules_valid; auto. apply rules_iff; auto.
  - intros HV. pose proof (valid_shape HV) as HS. split; auto. apply rules_iff; auto. apply valid_rules; auto.
Qed.

(** the free columns *)
Lemma fcol_bond (HV : wvalid) j : fcol k d lam mu j <-> 0 <= j <= n /\ dR j = 1 /\ dE j = 0.
Proof.
  pose proof (proj2 arrow_wvalid HV) as HA.
  pose proof (proj1 (arrow_prel k n d lam Hk Hd HL mu HM) HA) as HP. pose proof HV as (V1 & _).
  assert (Hmen : forall r j, 0 <= r < lb k mu -> bl r <= j < bm r -> 0 <= j <= n -> RL j = r -> dR j = 1 ->
    (mentioned k d lam mu (r + 1, k + 1 + j) <-> dE j = -1)).
  { intros r j0 Hr Hj Hj0 Er D1. pose proof (rangeL j0 Hj0) as [_ R1]. pose proof (rangeM j0 Hj0) as [_ R2]. split.
    - intros (c & s & Hc & Hs & Hrel). unfold related in Hrel. cbn [fst snd] in Hrel.
      set (i := c - 1) in *. assert (Hi : 0 <= i < k) by lia. replace c with (i + 1) in * by lia.
      change (count_ge mu (i + 1)) with (u i) in Hs. change (count_ge lam (i + 1)) with (t i) in Hs.
      assert (Es : s + k - (i + 1) - d = j0 + r) by lia.
      pose proof (eL_iff j0 i Hj0 Hi). pose proof (eM_iff j0 i Hj0 Hi). specialize (V1 j0 Hj0).
      unfold dR, dE, TT in *. lia.
    - intros D2. set (i := EM j0). assert (Hi : 0 <= i < k) by (unfold dE in D2; lia).
      pose proof (eL_iff j0 i Hj0 Hi). pose proof (eM_iff j0 i Hj0 Hi).
      exists (i + 1), (j0 + r - k + (i + 1) + d). split; [lia|].
      change (count_ge mu (i + 1)) with (u i). change (count_ge lam (i + 1)) with (t i).
      unfold related. cbn [fst snd]. unfold dR, dE, TT in *. lia. }
  unfold fcol. split.
  - intros ((r & Hr & Hj) & Hm). pose proof (bl_le r ltac:(lia)). pose proof (bm_le r ltac:(lia)).
    assert (Hj0 : 0 <= j <= n) by lia. split; auto.
    pose proof (bL_iff j r Hj0 ltac:(lia)). pose proof (bM_iff j r Hj0 ltac:(lia)). pose proof (V1 j Hj0) as W.
    assert (D1 : dR j = 1) by (unfold dR in *; lia). split; auto.
    assert (Er : RL j = r) by (unfold dR in *; lia).
    rewrite <- (mentioned_iff k n d lam mu Hk Hd HL HM HP r j) in Hm by auto.
    rewrite Hmen in Hm by auto. lia.
  - intros (Hj0 & D1 & D2). destruct (rangeL j Hj0) as [R0 _].
    pose proof (bL_iff j (RL j) Hj0 ltac:(lia)) as B1. pose proof (bM_iff j (RL j) Hj0 ltac:(lia)) as B2.
    assert (Hr : 0 <= RL j < lb k mu).
    { rewrite <- RM0. split; auto. pose proof (bM_iff 0 (RL j) ltac:(lia) ltac:(lia)). unfold dR in *. lia. }
    assert (Hj : bl (RL j) <= j < bm (RL j)) by (unfold dR in *; lia). split; [exists (RL j); auto|].
    rewrite <- (mentioned_iff k n d lam mu Hk Hd HL HM HP (RL j) j) by auto. rewrite Hmen by auto. lia.
Qed.

Lemma comps_bond (HV : wvalid) skip :
  component_count (free_box k d lam mu) (fun x => skip = true -> snd x <> k + 1)
    (zlen (filter (starts (fun j => (dR j =? 1) && (dE j =? 0)) skip) (zrange 0 n))).
Proof.
  pose proof (proj2 arrow_wvalid HV) as HA.
  pose proof (proj1 (arrow_prel k n d lam Hk Hd HL mu HM) HA) as HP.
  assert (Hf : forall j, fcol k d lam mu j -> 0 <= j < n).
  { intros j Hj. apply (fcol_bond HV) in Hj. destruct Hj as (H1 & H2 & _). destruct endL. destruct endM.
    destruct (Z.eq_dec j n) as [->|]; [unfold dR in H2|]; lia. }
  apply (starts_count k n d lam mu Hk Hd HL HM HP); auto.
  intros j Hj. rewrite (fcol_bond HV), andb_true_iff, !Z.eqb_eq. intuition lia.
Qed.

End WA.
