(** OG(m,N): the special class of the greatest degree acts by an involution. *)

From Coq Require Import ZArith List Lia Bool Permutation QArith Qcanon Setoid Morphisms.
From Verif Require Import Py OrderFacts PyFacts ModelPart ModelQcalc ModelPoly ModelStr ModelGr Spec SpecPieri
  PolyFacts SuppFacts Enum FillFacts PartFacts ConjFacts PairFacts Word Transfer TransD Extract CommC CommB OpTheory Sys Sys2 SysMap RingC RingB CoefSys
  WordD CoefD CommD CommD2 RingD DualWord GrInv Seidel SeidelSys SysApi ApiA.
Import ListNotations.
Open Scope Z_scope.

(** the power of [q] by the first letter *)
Definition ahd (two1 : nat) (w : word) : nat := match w with LR :: _ => two1 | LE :: _ => 1 | _ => 0 end%nat.
Definition Th (w : word) : word := match w with x :: w' => swq x :: w' | [] => [] end.
Lemma Th_Th w : Th (Th w) = w.
Proof. destruct w as [|[| |] w]; reflexivity. Qed.
Lemma Th_ws k n w : In w (wset k n) -> In (Th w) (wset k n).
Proof. rewrite !in_wset. destruct w as [|[| |] w]; cbn [Th swq length cE isE]; auto. Qed.

(** ** OG(m,2n+1) *)
Lemma kerT_Th m d e w v : (ahd 2 w + e = d + ahd 2 v)%nat -> kerT bB m d w v = kerT bB m e (Th w) (Th v).
Proof.
  destruct w as [|x w]; [reflexivity|]. destruct v as [|y v]; [destruct x; reflexivity|].
  destruct x, y; cbn [ahd Th swq]; intros H; destruct d as [|[|[|d]]]; destruct e as [|[|[|e]]]; try lia; reflexivity.
Qed.
Lemma kerT_Th0 m d e w v : cE w = 0 -> cE v = 0 -> (ahd 1 w + e = d + ahd 1 v)%nat -> kerT bB0 m d w v = kerT bB0 m e (Th w) (Th v).
Proof.
  destruct w as [|x w]; [reflexivity|]. destruct v as [|y v]; [destruct x; reflexivity|]. pose proof (cE_range w). pose proof (cE_range v).
  destruct x, y; cbn [ahd Th swq cE isE]; intros H1 H2 H3; try lia; destruct d as [|[|d]]; destruct e as [|[|e]]; try lia; reflexivity.
Qed.
Lemma kerT_low m d w v : (d + ahd 2 v < ahd 2 w)%nat -> kerT bB m d w v = [].
Proof.
  destruct w as [|x w]; [reflexivity|]. destruct v as [|y v]; [reflexivity|].
  destruct x, y; cbn [ahd]; intros H; destruct d as [|[|d]]; try lia; reflexivity.
Qed.
Lemma kerT_low0 m d w v : (d + ahd 1 v < ahd 1 w)%nat -> kerT bB0 m d w v = [].
Proof.
  destruct w as [|x w]; [reflexivity|]. destruct v as [|y v]; [reflexivity|].
  destruct x, y; cbn [ahd]; intros H; destruct d as [|[|d]]; try lia; reflexivity.
Qed.
Lemma ahd_Th t w : (ahd 2 (Th w) + ahd 2 w <= 2)%nat /\ (ahd 1 (Th w) + ahd 1 w <= 2)%nat /\ (t = 2%nat -> w <> [] -> ahd t (Th w) + ahd t w = 2)%nat.
Proof. destruct w as [|[| |] w]; cbn; (split; [lia|split; [lia|intros -> ?; cbn; try lia; try congruence]]). Qed.

Section B.
Variables k n : Z.
Hypothesis Hok : okB true k n.
Notation V := (kstrict_in k (n - k) (n + k)).
Notation ws := (wset k n).
Let Hk : 0 <= k <= n. Proof. apply Hok. Qed.
Let Hkn : 1 <= n - k. Proof. destruct Hok as (_ & _ & H). auto. Qed.

Definition two1 : nat := if k =? 0 then 1%nat else 2%nat.
Definition topB (l : list Z) : list Z :=
  if part l 0 =? n + k then tl l else if count_ge l 1 =? n - k then l else (n + k) :: l.
Definition aB (l : list Z) : nat :=
  if part l 0 =? n + k then two1 else if count_ge l 1 =? n - k then 1%nat else 0%nat.

Lemma count_len l : is_partition l -> count_ge l 1 = zlen l.
Proof.
  intros [H _]. unfold count_ge, zlen. f_equal. assert (G : forall l', (forall x, In x l' -> 0 < x) -> length (filter (fun x => 1 <=? x) l') = length l').
  { induction l' as [|x l' IH]; intros G; [reflexivity|]. cbn [filter]. pose proof (G x (or_introl eq_refl)). destruct (Z.leb_spec 1 x); [|lia].
    cbn [length]. f_equal. apply IH. intros y Hy. apply G. right. auto. }
  apply G. intros x Hx. destruct (In_nth _ _ 0 Hx) as (j & Hj & E). pose proof (H j Hj) as P. unfold part in P. rewrite E in P. lia.
Qed.
Lemma wpB w : In w ws -> topB (wp 0 w) = wp 0 (Th w) /\ aB (wp 0 w) = ahd two1 w.
Proof.
  intros Hw. pose proof (proj2 (wset_V k n Hk (wp 0 w)) (ex_intro _ w (conj Hw eq_refl))) as HV.
  pose proof (count_len (wp 0 w) ltac:(apply HV)) as HC. unfold topB, aB. rewrite HC.
  pose proof (wset_zlen k n Hk w Hw) as Ez. pose proof (proj1 (in_wset k n w) Hw) as [_ HE].
  destruct w as [|x w]; [cbn in Ez; lia|]. rewrite zlen_cons in Ez.
  pose proof (wp_kstrict 0 (or_introl eq_refl) w ltac:(pose proof (zlen_nonneg w); lia)) as ((Hp & Hr & Hc) & _). unfold wn in Hc.
  pose proof (cE_range w) as HR. destruct x; cbn [Th swq ahd].
  - cbn [cE isE] in HE.
    assert (P0 : part (wp 0 (LE :: w)) 0 <> n + k).
    { cbn [wp]. pose proof (part_map_succ (wp 0 w) (zlen w - cE w) 0 Hp ltac:(unfold zlen in *; lia) ltac:(lia)) as E. change (Z.to_nat 0) with O in E. rewrite E.
      destruct (0 <? zlen w - cE w); lia. }
    assert (Lz : zlen (wp 0 (LE :: w)) = n - k) by (cbn [wp]; rewrite PieriSet.zlen_map_zrange; lia).
    destruct (Z.eqb_spec (part (wp 0 (LE :: w)) 0) (n + k)); [congruence|]. rewrite Lz, Z.eqb_refl. auto.
  - cbn [cE isE] in HE. assert (E : wp 0 (LR :: w) = n + k :: wp 0 w).
    { cbn [wp]. cbv zeta. replace (zlen w + 1 - 0 + cE w) with (n + k) by lia. destruct (Z.eqb_spec (n + k) 0); [lia|reflexivity]. }
    rewrite E. unfold part. cbn [nth tl]. rewrite Z.eqb_refl. auto.
  - cbn [cE isE] in HE. assert (E : wp 0 (LR :: w) = n + k :: wp 0 w).
    { cbn [wp]. cbv zeta. replace (zlen w + 1 - 0 + cE w) with (n + k) by lia. destruct (Z.eqb_spec (n + k) 0); [lia|reflexivity]. }
    rewrite E. change (wp 0 (LL :: w)) with (wp 0 w). destruct (Z.eqb_spec (part (wp 0 w) 0) (n + k)); [lia|].
    destruct (Z.eqb_spec (zlen (wp 0 w)) (n - k)); [unfold zlen in *; lia|]. auto.
Qed.
Lemma topB_V l : V l -> V (topB l).
Proof. intros Hl. destruct (proj1 (wset_V k n Hk l) Hl) as (w & Hw & <-). rewrite (proj1 (wpB w Hw)). apply (wset_V k n Hk). eauto using Th_ws. Qed.
Lemma topB_topB l : V l -> topB (topB l) = l.
Proof.
  intros Hl. destruct (proj1 (wset_V k n Hk l) Hl) as (w & Hw & <-). rewrite (proj1 (wpB w Hw)), (proj1 (wpB _ (Th_ws _ _ _ Hw))), Th_Th. reflexivity.
Qed.
Lemma topB_pieri i l nu : IC k n i -> V l -> V nu ->
  (forall d e, (aB l + e = d + aB nu)%nat -> coef (P (piB k n true) i l) (qS d nu) = coef (P (piB k n true) i (topB l)) (qS e (topB nu))) /\
  (forall d, (d + aB nu < aB l)%nat -> coef (P (piB k n true) i l) (qS d nu) = 0%Qc) /\
  (forall e, (aB l + e < aB nu)%nat -> coef (P (piB k n true) i (topB l)) (qS e (topB nu)) = 0%Qc).
Proof.
  unfold IC. intros Hi Hl Hn. destruct (proj1 (wset_V k n Hk l) Hl) as (w & Hw & <-), (proj1 (wset_V k n Hk nu) Hn) as (v & Hv & <-).
  destruct (wpB w Hw) as [-> ->], (wpB v Hv) as [-> ->].
  pose proof (Th_ws _ _ _ Hw) as Hw'. pose proof (Th_ws _ _ _ Hv) as Hv'.
  pose proof (fun d => proj1 (piB_wcoefs k n true i w Hok Hw ltac:(lia)) d v Hv) as C1.
  pose proof (fun d => proj1 (piB_wcoefs k n true i (Th w) Hok Hw' ltac:(lia)) d (Th v) Hv') as C2. cbv beta in C1, C2.
  pose proof (proj1 (in_wset k n w) Hw) as [L1 E1]. pose proof (proj1 (in_wset k n v) Hv) as [L2 E2].
  unfold kerB, tabB, two1 in *. destruct (Z.eqb_spec k 0) as [Ek|Ek].
  - split; [|split].
    + intros d e H. rewrite C1, C2. rewrite (kerT_Th0 _ d e w v) by (auto; lia). reflexivity.
    + intros d H. rewrite C1, kerT_low0 by auto. rewrite co_nil. ring.
    + intros e H. rewrite C2, kerT_low0; [rewrite co_nil; ring|]. destruct w as [|[| |] w], v as [|[| |] v]; cbn [ahd Th swq cE isE length] in *; try lia; try (pose proof (cE_range w); lia); pose proof (cE_range v); lia.
  - split; [|split].
    + intros d e H. rewrite C1, C2. rewrite (kerT_Th _ d e w v) by auto. reflexivity.
    + intros d H. rewrite C1, kerT_low by auto. rewrite co_nil. ring.
    + intros e H. rewrite C2, kerT_low; [rewrite co_nil; ring|]. destruct w as [|[| |] w], v as [|[| |] v]; cbn [ahd Th swq length] in *; try lia.
Qed.
Lemma topB_nil : topB [] = [n + k] /\ aB [] = O.
Proof. unfold topB, aB. change (part [] 0) with 0. change (count_ge [] 1) with 0. destruct (Z.eqb_spec 0 (n + k)), (Z.eqb_spec 0 (n - k)); try lia. auto. Qed.

Notation MQ := (M TB (piB k n true) k (giam_fuel (gB k n))).
Lemma rotB l : V l -> peq (MQ (pS [n + k]) (pS l)) (pmono (qS (aB l) (topB l))).
Proof.
  intros Hl. destruct topB_nil as [E0 A0]. rewrite <- E0.
  apply (FT_mult (sysB k n true Hok) topB topB aB); auto using topB_V, topB_topB. intros; apply topB_pieri; auto.
Qed.
Lemma symB lam m nu : V lam -> V m -> V nu ->
  (forall d e, (aB lam + e = d + aB nu)%nat -> coef (MQ (pS lam) (pS m)) (qS d nu) = coef (MQ (pS (topB lam)) (pS m)) (qS e (topB nu))) /\
  (forall d, (d + aB nu < aB lam)%nat -> coef (MQ (pS lam) (pS m)) (qS d nu) = 0%Qc) /\
  (forall e, (aB lam + e < aB nu)%nat -> coef (MQ (pS (topB lam)) (pS m)) (qS e (topB nu)) = 0%Qc).
Proof.
  intros. destruct topB_nil as [E0 A0]. apply (FT_sym (sysB k n true Hok) topB topB aB); auto using topB_V, topB_topB. intros; apply topB_pieri; auto.
Qed.
End B.

(** ** OG(m,2n+2) *)
Definition Td (w : word) : word := match w with LE :: w' => LE :: swl w' | _ => Th w end.
Lemma Td_Td w : Td (Td w) = w.
Proof. destruct w as [|[| |] w]; cbn [Td Th swq]; rewrite ?swl_swl; reflexivity. Qed.
Lemma Td_ws k n w : In w (wset k n) -> In (Td w) (wset k n).
Proof. rewrite !in_wset. destruct w as [|[| |] w]; cbn [Td Th swq length cE isE]; rewrite ?swl_len, ?swl_cE; auto. Qed.
Lemma ahd_Td t w : ahd t (Td w) = ahd t (Th w).
Proof. destruct w as [|[| |] w]; reflexivity. Qed.
Lemma swe_cons e x w : (1 <= length w)%nat -> swe e (x :: w) = x :: swe e w.
Proof. intros H. unfold swe. destruct (Nat.odd e); auto. apply swl_tl; auto. Qed.
Lemma swe_S e w : swe (S e) w = swl (swe e w).
Proof. unfold swe. rewrite Nat.odd_succ, <- Nat.negb_odd. destruct (Nat.odd e); cbn [negb]; rewrite ?swl_swl; reflexivity. Qed.
Lemma swe_SS e w : swe (S (S e)) w = swe e w.
Proof. rewrite !swe_S, swl_swl. reflexivity. Qed.
Lemma swe_swl e w : swe e (swl w) = swl (swe e w).
Proof. unfold swe. destruct (Nat.odd e); reflexivity. Qed.
Lemma kT_heads m d e x y x' y' w v : (1 <= length w)%nat -> (1 <= length v)%nat -> bB d x y = bB e x' y' ->
  kT bB m d (x :: w) (y :: v) = kT bB m e (x' :: w) (y' :: v).
Proof. intros Hw Hv E. unfold kT, tfin. rewrite !lastl_tl by auto. cbn [bwalk]. rewrite E. reflexivity. Qed.
Lemma kS_heads m d e x y x' y' w v c : match dB d x y with Some (a, s) => dB e x' y' = Some (a, c * s)%Qc | None => dB e x' y' = None end ->
  (c * kS dB m d (x :: w) (y :: v) = kS dB m e (x' :: w) (y' :: v))%Qc.
Proof. cbn [kS]. destruct (dB d x y) as [[a s]|]; intros ->; ring. Qed.
Lemma kS_LE m d w v : kS dB m d (LE :: w) (LE :: v) = 0%Qc.
Proof. destruct d as [|[|[|d]]]; reflexivity. Qed.
Lemma kD_Td1 k n p d e w v : 1 <= n -> length w = S (Z.to_nat n) -> length v = S (Z.to_nat n) -> (ahd 2 w + e = d + ahd 2 v)%nat -> (d <= e)%nat ->
  kD bB dB k n p d w v = kD bB dB k n p e (Td w) (Td v).
Proof.
  intros Hn Hw Hv H Hde. unfold kD. set (m := Nat.pred (Z.to_nat n)). assert (Em : Z.to_nat n = S m) by (unfold m; lia). rewrite Em in *.
  destruct w as [|x w]; [discriminate|]. destruct v as [|y v]; [discriminate|]. pose proof Hw as Lw. pose proof Hv as Lv. injection Lw as Lw. injection Lv as Lv.
  destruct x, y; cbn [ahd] in H; cbn [Td Th swq].
  - assert (e = d) by lia. subst e. rewrite <- !swl_tl, swe_swl by lia. rewrite kT_swl by (rewrite ?swe_len; auto). rewrite !swe_cons by lia. rewrite !swl_tl, !kS_LE by (rewrite ?swe_len; lia). reflexivity.
  - assert (e = S d) by lia. subst e. rewrite <- swl_tl, swe_S by lia. rewrite kT_swl, kS_swl by (rewrite ?swe_len; cbn [length]; lia).
    rewrite !swe_cons by lia. rewrite (kT_heads m (S d) d LE LL LE LR) by (rewrite ?swe_len; try lia; destruct d as [|[|[|d]]]; reflexivity).
    rewrite <- (kS_heads m d (S d) LE LR LE LL _ _ (- (1))%Qc) by (destruct d as [|[|[|d]]]; cbn; reflexivity). ring.
  - lia.
  - lia.
  - assert (e = d) by lia. subst e. rewrite !swe_cons by lia. rewrite (kT_heads m d d LL LL LR LR) by (rewrite ?swe_len; try lia; destruct d as [|[|[|d]]]; reflexivity).
    rewrite <- (kS_heads m d d LR LR LL LL _ _ 1%Qc) by (destruct d as [|[|[|d]]]; cbn; reflexivity). ring.
  - lia.
  - assert (e = S d) by lia. subst e. rewrite <- swl_tl, swe_S, swe_swl, swl_swl by lia. rewrite !swe_cons by lia.
    rewrite (kT_heads m (S d) d LR LE LL LE) by (rewrite ?swe_len; try lia; destruct d as [|[|[|d]]]; reflexivity).
    rewrite <- (kS_heads m d (S d) LL LE LR LE _ _ 1%Qc) by (destruct d as [|[|[|d]]]; cbn; reflexivity). ring.
  - assert (e = S (S d)) by lia. subst e. rewrite swe_SS. rewrite !swe_cons by lia.
    rewrite (kT_heads m (S (S d)) d LR LL LL LR) by (rewrite ?swe_len; try lia; destruct d as [|[|[|d]]]; reflexivity).
    rewrite <- (kS_heads m d (S (S d)) LL LR LR LL _ _ 1%Qc) by (destruct d as [|[|[|d]]]; cbn; reflexivity). ring.
  - assert (e = d) by lia. subst e. rewrite !swe_cons by lia. rewrite (kT_heads m d d LR LR LL LL) by (rewrite ?swe_len; try lia; destruct d as [|[|[|d]]]; reflexivity).
    rewrite <- (kS_heads m d d LL LL LR LR _ _ 1%Qc) by (destruct d as [|[|[|d]]]; cbn; reflexivity). ring.
Qed.
Lemma kD_Td k n p d e w v : 1 <= n -> length w = S (Z.to_nat n) -> length v = S (Z.to_nat n) -> (ahd 2 w + e = d + ahd 2 v)%nat ->
  kD bB dB k n p d w v = kD bB dB k n p e (Td w) (Td v).
Proof.
  intros Hn Hw Hv H. destruct (Nat.le_gt_cases d e) as [Hde|Hde]; [apply kD_Td1; auto|].
  rewrite <- (Td_Td w) at 1. rewrite <- (Td_Td v) at 1. symmetry.
  assert (L : forall u, length (Td u) = length u) by (intros [|[| |] u]; cbn [Td Th length]; rewrite ?swl_len; reflexivity).
  apply kD_Td1; auto; try (rewrite L; auto); [|lia]. rewrite !ahd_Td.
  destruct w as [|[| |] w], v as [|[| |] v]; cbn [ahd Th swq length] in *; lia.
Qed.
Lemma kD_low k n p d w v : 1 <= n -> length w = S (Z.to_nat n) -> length v = S (Z.to_nat n) -> (d + ahd 2 v < ahd 2 w)%nat -> kD bB dB k n p d w v = 0%Qc.
Proof.
  intros Hn Hw Hv H. unfold kD. destruct w as [|x w]; [discriminate|]. destruct v as [|y v]; [discriminate|]. cbn [length] in *.
  rewrite swe_cons by lia.
  assert (E1 : kT bB (Nat.pred (Z.to_nat n)) d (x :: w) (y :: swe d v) = []).
  { unfold kT, tfin. cbn [bwalk]. destruct x, y; cbn [ahd] in H; destruct d as [|[|d]]; try lia; reflexivity. }
  assert (E2 : kS dB (Nat.pred (Z.to_nat n)) d (x :: w) (y :: swe d v) = 0%Qc).
  { cbn [kS]. destruct x, y; cbn [ahd] in H; destruct d as [|[|d]]; try lia; reflexivity. }
  rewrite E1, E2, co_nil. ring.
Qed.

Section D.
Variables k n : Z.
Hypothesis Hok : okD true k n.
Notation V := (typed_in k (n + 1 - k) (n + k)).
Notation ws := (wset k (n + 1)).
Let Hk : 1 <= k <= n. Proof. apply Hok. Qed.

Definition topD (l : list Z) : list Z :=
  if part l 0 =? n + k then tl l else if count_ge l 1 =? n + 1 - k then swap_type k l else (n + k) :: l.
Definition aD (l : list Z) : nat :=
  if part l 0 =? n + k then 2%nat else if count_ge l 1 =? n + 1 - k then 1%nat else 0%nat.

Lemma encD_facts w : (1 <= length w)%nat -> part (encD w) 0 = part (wp 1 w) 0 /\ count_ge (encD w) 1 = zlen (wp 1 w).
Proof.
  intros H. destruct (wp1_kstrict w H) as ((Hp & _) & _). rewrite <- (count_len _ Hp). unfold encD. destruct (lastl w); auto. split.
  - destruct (wp 1 w); reflexivity.
  - unfold count_ge. rewrite filter_app. cbn [filter]. change (1 <=? 0) with false. cbv iota. rewrite app_nil_r. reflexivity.
Qed.
Lemma encD_LL w : (1 <= length w)%nat -> encD (LL :: w) = encD w.
Proof. intros H. unfold encD. rewrite lastl_tl by auto. reflexivity. Qed.
Lemma encD_LR w : (1 <= length w)%nat -> encD (LR :: w) = zlen w + cE w :: encD w.
Proof. intros H. unfold encD. rewrite lastl_tl by auto. rewrite wpD_LR by auto. destruct (lastl w); reflexivity. Qed.
Lemma wpD w : In w ws -> topD (encD w) = encD (Td w) /\ aD (encD w) = ahd 2 w.
Proof.
  intros Hw. destruct (ws_len k n Hk w Hw) as (L1 & L2 & L3). destruct (encD_facts w ltac:(lia)) as [P0 C0]. unfold topD, aD. rewrite P0, C0.
  destruct w as [|x w]; [discriminate|]. rewrite zlen_cons in L2. cbn [length] in L1. assert (Lw : (1 <= length w)%nat) by lia.
  destruct (wp1_kstrict w Lw) as ((Hp & Hr & Hc) & _). pose proof (cE_range w) as HR. destruct x; cbn [Td Th swq ahd]; cbn [cE isE] in L3.
  - assert (Q0 : part (wp 1 (LE :: w)) 0 <> n + k).
    { cbn [wp]. pose proof (part_map_succ (wp 1 w) (zlen w - cE w) 0 Hp ltac:(unfold zlen in *; lia) ltac:(lia)) as E. change (Z.to_nat 0) with O in E. rewrite E.
      destruct (0 <? zlen w - cE w); lia. }
    pose proof (fullD_E w) as F. unfold fullD in F. rewrite zlen_cons in F. cbn [cE isE] in F.
    destruct (Z.eqb_spec (part (wp 1 (LE :: w)) 0) (n + k)); [congruence|]. rewrite F. replace (zlen w + 1 - (1 + cE w)) with (n + 1 - k) by lia. rewrite Z.eqb_refl.
    split; auto. rewrite (swap_encD k n Hk) by auto. rewrite swl_tl by lia. reflexivity.
  - rewrite wpD_LR, encD_LR, encD_LL by auto. replace (zlen w + cE w) with (n + k) by lia. unfold part. cbn [nth tl]. rewrite Z.eqb_refl. auto.
  - rewrite encD_LR, encD_LL by auto. change (wp 1 (LL :: w)) with (wp 1 w). destruct (Z.eqb_spec (part (wp 1 w) 0) (n + k)); [lia|].
    destruct (Z.eqb_spec (zlen (wp 1 w)) (n + 1 - k)); [unfold zlen in *; lia|]. split; auto. f_equal. lia.
Qed.
Lemma topD_V l : V l -> V (topD l).
Proof. intros Hl. destruct (encD_ex k n Hk l Hl) as (w & Hw & <-). rewrite (proj1 (wpD w Hw)). apply (encD_V k n Hk). apply Td_ws; auto. Qed.
Lemma topD_topD l : V l -> topD (topD l) = l.
Proof.
  intros Hl. destruct (encD_ex k n Hk l Hl) as (w & Hw & <-). rewrite (proj1 (wpD w Hw)), (proj1 (wpD _ (Td_ws _ _ _ Hw))), Td_Td. reflexivity.
Qed.
Lemma topD_pieri i l nu : ID k n i -> V l -> V nu ->
  (forall d e, (aD l + e = d + aD nu)%nat -> coef (P (piD k n true) i l) (qS d nu) = coef (P (piD k n true) i (topD l)) (qS e (topD nu))) /\
  (forall d, (d + aD nu < aD l)%nat -> coef (P (piD k n true) i l) (qS d nu) = 0%Qc) /\
  (forall e, (aD l + e < aD nu)%nat -> coef (P (piD k n true) i (topD l)) (qS e (topD nu)) = 0%Qc).
Proof.
  intros Hi Hl Hn. destruct (encD_ex k n Hk l Hl) as (w & Hw & <-), (encD_ex k n Hk nu Hn) as (v & Hv & <-).
  destruct (wpD w Hw) as [-> ->], (wpD v Hv) as [-> ->].
  pose proof (Td_ws _ _ _ Hw) as Hw'. pose proof (Td_ws _ _ _ Hv) as Hv'.
  pose proof (fun d => proj1 (piD_wcoefs k n true Hok i w Hw) d v Hv) as C1.
  pose proof (fun d => proj1 (piD_wcoefs k n true Hok i (Td w) Hw') d (Td v) Hv') as C2. cbv beta in C1, C2.
  destruct (ws_len k n Hk w Hw) as (L1 & _), (ws_len k n Hk v Hv) as (L2 & _), (ws_len k n Hk _ Hw') as (L3 & _), (ws_len k n Hk _ Hv') as (L4 & _).
  unfold tabD, dtabD in *. split; [|split].
  - intros d e H. rewrite C1, C2. apply kD_Td; auto; lia.
  - intros d H. rewrite C1. apply kD_low; auto; lia.
  - intros e H. rewrite C2. apply kD_low; auto; [lia|]. rewrite !ahd_Td. destruct w as [|[| |] w], v as [|[| |] v]; cbn [ahd Th swq length] in *; lia.
Qed.
Lemma topD_nil : topD [] = [n + k] /\ aD [] = O.
Proof. unfold topD, aD. change (part [] 0) with 0. change (count_ge [] 1) with 0. destruct (Z.eqb_spec 0 (n + k)), (Z.eqb_spec 0 (n + 1 - k)); try lia. auto. Qed.

Notation MQ := (M TD (piD k n true) k (giam_fuel (gD k n))).
Lemma rotD l : V l -> peq (MQ (pS [n + k]) (pS l)) (pmono (qS (aD l) (topD l))).
Proof.
  intros Hl. destruct topD_nil as [E0 A0]. rewrite <- E0.
  apply (FT_mult (sysD k n true Hok) topD topD aD); auto using topD_V, topD_topD. intros; apply topD_pieri; auto.
Qed.
Lemma symD lam m nu : V lam -> V m -> V nu ->
  (forall d e, (aD lam + e = d + aD nu)%nat -> coef (MQ (pS lam) (pS m)) (qS d nu) = coef (MQ (pS (topD lam)) (pS m)) (qS e (topD nu))) /\
  (forall d, (d + aD nu < aD lam)%nat -> coef (MQ (pS lam) (pS m)) (qS d nu) = 0%Qc) /\
  (forall e, (aD lam + e < aD nu)%nat -> coef (MQ (pS (topD lam)) (pS m)) (qS e (topD nu)) = 0%Qc).
Proof.
  intros. destruct topD_nil as [E0 A0]. apply (FT_sym (sysD k n true Hok) topD topD aD); auto using topD_V, topD_topD. intros; apply topD_pieri; auto.
Qed.
End D.
