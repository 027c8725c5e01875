(** Strange duality on Gr(m,n): the hypotheses of Strange.v, with classes as periodic
    sequences (CylA.v). *)

From Coq Require Import ZArith List Lia Bool Permutation QArith Qcanon Setoid Morphisms.
From Verif Require Import Py OrderFacts PyFacts ModelPart ModelQcalc ModelPoly ModelStr ModelGr Spec
  PolyFacts SuppFacts OpTheory Enum FillFacts PartFacts PieriA QPieriA CylA WSum Sys Sys2 RingA FactsA DualA DualSys QOcc SpecMaxQ LoopQ
  StrangePair Strange.
Import ListNotations.
Open Scope Z_scope.

Section A.
Variables m k : Z.
Hypothesis Hm : 1 <= m.
Hypothesis Hk1 : 1 <= k.
Let Hk : 0 <= k. Proof. lia. Qed.
Notation V := (in_box m k).
Notation per := (per m k).
Notation win := (win m k).
Notation P := (P (piA m k true)).
Notation sysA := (sysA m k Hm Hk true).
Notation MM := (M TA (piA m k true) k (giam_fuel (gA m k))).
Notation lq := (supp (linm V (eq VQ))).
Notation qt a x := (pmul (pmono (repeat VQ a)) (pS x)).

Lemma IAk : IA k k.
Proof. unfold IA. lia. Qed.
Lemma win_eq a b x y : V x -> V y -> (forall j, win a x j = win b y j) -> a = b /\ x = y.
Proof.
  intros Hx Hy E. destruct (win_unique m k Hm Hk (b - a) x y Hx Hy) as (G & ->); [|split; [lia|auto]].
  intros j. specialize (E (j + a)). replace b with (a + (b - a)) in E by lia. rewrite win_shift in E. unfold CylA.win in E at 1.
  replace (j + a - a) with j in E by lia. lia.
Qed.

(** the product with the largest special class moves the sequence by one step *)
Definition shifted (x : list Z) (a : nat) (x' : list Z) : Prop := V x' /\ forall j, win (Z.of_nat a) x' j = per x (j - 1).
Lemma shift_ex x : V x -> exists a x', shifted x a x'.
Proof.
  intros Hx. pose proof (in_box_wbox _ _ _ Hx) as Wx.
  pose proof (unwin_ok m k Hm Hk (padm m x) (fun j => per x (j - 1)) Wx) as U.
  destruct (unwin m k (fun j => per x (j - 1))) as [f w]. destruct U as (Ww & Hf & EL).
  - intros j. replace (j + m - 1) with (j - 1 + m) by lia. rewrite (per_perd m k Hm). lia.
  - intros j. rewrite !per_padm. pose proof (per_mono m k Hm Hk x (j - 1) j Hx ltac:(lia)). lia.
  - exists f, (part_clip w). assert (Vz' : V (part_clip w)) by (apply wbox_in_box; auto). split; auto.
    intros j. rewrite EL. rewrite <- (win_padm m k _ (part_clip w)). rewrite (wbox_padm_clip m k) by auto. reflexivity.
Qed.
Lemma wsum_per x : V x -> wsum m (per x) = size x.
Proof.
  intros Hx. pose proof (in_box_wbox _ _ _ Hx) as (_ & Lx).
  transitivity (wsum m (per (padm m x))); [apply wsum_ext; intros; symmetry; apply per_padm|]. unfold wsum. rewrite map_per by auto. rewrite zsum_padm. reflexivity.
Qed.
Lemma wsum_win' d y : V y -> wsum m (win (Z.of_nat d) y) = size y + Z.of_nat d * (m + k).
Proof.
  intros Hy. pose proof (in_box_wbox _ _ _ Hy) as (_ & Ly).
  transitivity (wsum m (win (Z.of_nat d) (padm m y))); [apply wsum_ext; intros; symmetry; apply win_padm|]. rewrite (wsum_win m k Hm) by auto. rewrite zsum_padm. reflexivity.
Qed.
Lemma wsum_per1 x : V x -> wsum m (fun j => per x (j - 1)) = size x + k.
Proof.
  intros Hx. rewrite wsum_shift by auto. rewrite wsum_per by auto. pose proof (per_perd m k Hm x (-1)) as Q. replace (-1 + m) with (m - 1) in Q by lia. lia.
Qed.
Lemma shift_size x a x' : V x -> shifted x a x' -> size x' + Z.of_nat a * (m + k) = size x + k.
Proof. intros Hx (Hx' & E). rewrite <- wsum_win', <- wsum_per1 by auto. apply wsum_ext. auto. Qed.
Lemma shift_coef x a x' d y : V x -> V y -> shifted x a x' ->
  coef (P k x) (qS d y) = if (d =? a)%nat then (if l_dec x' y then 1%Qc else 0%Qc) else 0%Qc.
Proof.
  intros Hx Hy HS. pose proof (shift_size x a x' Hx HS) as Hs. destruct HS as (Hx' & E).
  destruct (in_dec pair_dec (d, padm m y) (EA m k true k (padm m x))) as [HE|HE].
  - assert (Hc : coef (P k x) (qS d y) = 1%Qc) by (rewrite coef_edge by auto using IAk; destruct (in_dec pair_dec _ _); [auto|contradiction]).
    assert (HN : coef (P k x) (qS d y) <> 0%Qc) by (rewrite Hc; discriminate). apply step_iff in HN; auto using IAk. destruct HN as (HI & HZ).
    assert (W : forall j, win (Z.of_nat d) y j = per x (j - 1)).
    { destruct (zsum_nonneg0 (fun j => per x (j - 1) + - win (Z.of_nat d) y j) (zrange 0 m)) as (_ & B); [intros j _; specialize (HI j); lia|].
      assert (D2 : zsum (map (fun j => per x (j - 1) + - win (Z.of_nat d) y j) (zrange 0 m)) = 0).
      { change (wsum m (fun j => per x (j - 1) + - win (Z.of_nat d) y j) = 0). rewrite wsum_add, wsum_opp, wsum_per1, wsum_win' by auto. lia. }
      apply (period_ind m Hm (fun j => win (Z.of_nat d) y j = per x (j - 1))).
      - intros j. replace (j + m - 1) with (j - 1 + m) by lia. rewrite (per_perd m k Hm), (win_perd m k Hm). lia.
      - intros j Hj. specialize (B D2 j). rewrite in_zrange in B. specialize (B Hj). lia. }
    destruct (win_eq (Z.of_nat d) (Z.of_nat a) y x' Hy Hx') as (E1 & ->); [intros j; rewrite W, E; auto|].
    replace d with a in * by lia. rewrite Nat.eqb_refl. destruct (l_dec x' x'); [auto|congruence].
  - assert (Hc : coef (P k x) (qS d y) = 0%Qc) by (rewrite coef_edge by auto using IAk; destruct (in_dec pair_dec _ _); [contradiction|auto]).
    rewrite Hc. destruct (Nat.eqb_spec d a) as [->|]; auto. destruct (l_dec x' y) as [<-|]; auto. exfalso.
    assert (HN : coef (P k x) (qS a x') <> 0%Qc); [|congruence]. apply step_iff; auto using IAk. split; auto.
    intros j. rewrite E. pose proof (per_mono m k Hm Hk x (j - 1) j Hx ltac:(lia)). lia.
Qed.
Lemma shift_P x a x' : V x -> shifted x a x' -> peq (P k x) (qt a x').
Proof.
  intros Hx HS. apply (sp_nondeg V).
  - apply (sys_P_lq sysA); auto using IAk.
  - apply (q_lq (V := V)). apply sys_lq_pS. apply HS.
  - intros d y Hy. rewrite !sp_pS_l. destruct (d <=? 0); auto. rewrite (shift_coef x a x') by auto. rewrite coef_qmul, coef_pS_q.
    destruct (Nat.eqb_spec (Z.to_nat (- d)) a), (Nat.leb_spec a (Z.to_nat (- d))), (Nat.eqb_spec (Z.to_nat (- d) - a) 0); auto; lia.
Qed.

Lemma il_turn x a x' d y : V x -> shifted x a x' -> (il (per x) (win d y) <-> il (per y) (win (Z.of_nat a - d) x')).
Proof.
  intros Hx (Hx' & E).
  assert (Q : forall j, win (Z.of_nat a - d) x' j = per x (j + d - 1) - d).
  { intros j. specialize (E (j + d)). replace (Z.of_nat a) with (d + (Z.of_nat a - d)) in E by lia. rewrite win_shift in E.
    replace (j + d - d) with j in E by lia. lia. }
  split; intros HI j.
  - rewrite Q. pose proof (HI (j + d)) as H1. pose proof (HI (j + d - 1)) as H2. unfold CylA.win in H1, H2.
    replace (j + d - d) with j in H1 by lia. replace (j + d - 1 - d) with (j - 1) in H2 by lia. lia.
  - pose proof (HI (j - d)) as H1. pose proof (HI (j - d + 1)) as H2. rewrite Q in H1, H2. unfold CylA.win.
    replace (j - d + d - 1) with (j - 1) in H1 by lia. replace (j - d + 1 + d - 1) with j in H2 by lia. replace (j - d + 1 - 1) with (j - d) in H2 by lia. lia.
Qed.

Lemma coef_dec i d x y : IA k i -> V x -> V y -> coef (P i x) (qS d y) = 1%Qc \/ coef (P i x) (qS d y) = 0%Qc.
Proof. intros. rewrite coef_edge by auto. destruct (in_dec pair_dec _ _); auto. Qed.
Lemma il_d01 d x y : V x -> V y -> il (per x) (win d y) -> d = 0 \/ d = 1.
Proof.
  intros Hx Hy HI. apply (edge_d01 m k Hm Hk (padm m x) (padm m y)); try (apply in_box_wbox; auto). apply il_padm; auto.
Qed.
Lemma coef_turn i x a x' d y : 1 <= i < k -> V x -> V y -> shifted x a x' ->
  (if 0 <=? d then coef (P i x) (qS (Z.to_nat d) y) else 0%Qc) =
  (if d <=? Z.of_nat a then coef (P (k - i) y) (qS (Z.to_nat (Z.of_nat a - d)) x') else 0%Qc).
Proof.
  intros Hi Hx Hy HS. pose proof (shift_size x a x' Hx HS) as Hs. pose proof (proj1 HS) as Hx'.
  assert (I1 : IA k i) by (unfold IA; lia). assert (I2 : IA k (k - i)) by (unfold IA; lia).
  assert (L : (if 0 <=? d then coef (P i x) (qS (Z.to_nat d) y) else 0%Qc) <> 0%Qc <-> il (per x) (win d y) /\ size y + d * (m + k) = size x + i).
  { destruct (Z.leb_spec 0 d) as [Hd|Hd].
    - rewrite (step_iff m k Hm Hk) by auto. rewrite Z2Nat.id by auto. reflexivity.
    - split; [congruence|]. intros (HI & _). exfalso. destruct (il_d01 d x y Hx Hy HI); lia. }
  assert (R : (if d <=? Z.of_nat a then coef (P (k - i) y) (qS (Z.to_nat (Z.of_nat a - d)) x') else 0%Qc) <> 0%Qc <->
    il (per y) (win (Z.of_nat a - d) x') /\ size x' + (Z.of_nat a - d) * (m + k) = size y + (k - i)).
  { destruct (Z.leb_spec d (Z.of_nat a)) as [Hd|Hd].
    - rewrite (step_iff m k Hm Hk) by auto. rewrite Z2Nat.id by lia. reflexivity.
    - split; [congruence|]. intros (HI & _). exfalso. destruct (il_d01 _ y x' Hy Hx' HI); lia. }
  assert (LR : (il (per x) (win d y) /\ size y + d * (m + k) = size x + i) <->
    (il (per y) (win (Z.of_nat a - d) x') /\ size x' + (Z.of_nat a - d) * (m + k) = size y + (k - i))).
  { rewrite (il_turn x a x' d y Hx HS). rewrite Z.mul_sub_distr_r. split; intros (A & B); split; auto; lia. }
  rewrite <- L, <- R in LR. clear L R.
  assert (D1 : (if 0 <=? d then coef (P i x) (qS (Z.to_nat d) y) else 0%Qc) = 1%Qc \/ (if 0 <=? d then coef (P i x) (qS (Z.to_nat d) y) else 0%Qc) = 0%Qc)
    by (destruct (0 <=? d); [apply coef_dec; auto|auto]).
  assert (D2 : (if d <=? Z.of_nat a then coef (P (k - i) y) (qS (Z.to_nat (Z.of_nat a - d)) x') else 0%Qc) = 1%Qc \/
    (if d <=? Z.of_nat a then coef (P (k - i) y) (qS (Z.to_nat (Z.of_nat a - d)) x') else 0%Qc) = 0%Qc)
    by (destruct (d <=? Z.of_nat a); [apply coef_dec; auto|auto]).
  destruct D1 as [E1|E1], D2 as [E2|E2]; rewrite E1, E2 in *; auto; exfalso; destruct LR as (A & B); [apply A|apply B]; try reflexivity; discriminate.
Qed.

Lemma V0 : V [].
Proof. apply (ps_nil _ _ _ _ _ _ _ sysA). Qed.
Lemma halfA i : IA k i -> exists c, lq c /\
  forall d x y, V x -> V y -> sp d (P i x) (pS y) = sp d (P k x) (MM c (pS y)).
Proof.
  intros Hi. destruct (Z.eq_dec i k) as [->|Hne].
  - exists (pS []). split; [apply sys_lq_pS, V0|]. intros d x y Hx Hy. apply sp_peq_r. symmetry. apply (sys_unit sysA). apply sys_lq_pS; auto.
  - assert (Hi' : 1 <= i < k) by (unfold IA in Hi; lia). assert (I2 : IA k (k - i)) by (unfold IA; lia).
    exists (P (k - i) []). split; [apply (sys_P_lq sysA); auto using V0|]. intros d x y Hx Hy.
    destruct (shift_ex x Hx) as (a & x' & HS).
    rewrite (sp_peq_r d _ (MM (P (k - i) []) (pS y)) (P (k - i) y)).
    + rewrite (sp_peq_l d _ _ _ (shift_P x a x' Hx HS)), sp_q_l, sp_pS_l. rewrite (sp_pS_r V) by (apply (sys_P_lq sysA); auto).
      rewrite (coef_turn i x a x' d y) by auto. replace (- (d - Z.of_nat a)) with (Z.of_nat a - d) by lia.
      destruct (Z.leb_spec d (Z.of_nat a)), (Z.leb_spec (d - Z.of_nat a) 0); auto; lia.
    + rewrite <- (sys_ext_one sysA) by (auto; apply sys_lq_pS; auto). apply ext_pS.
Qed.
Lemma unitA d x y : V x -> V y -> sp d (pS x) (pS y) = sp d (P k x) (P k y).
Proof.
  intros Hx Hy. destruct (shift_ex x Hx) as (a & x' & HS). destruct (shift_ex y Hy) as (b & y' & HT).
  rewrite (sp_peq_l d _ _ _ (shift_P x a x' Hx HS)), (sp_peq_r d _ _ _ (shift_P y b y' Hy HT)), sp_q_l, sp_q_r, !sp_pS_l, !coef_pS_q.
  destruct (l_dec y x) as [<-|Hne].
  - destruct HS as (Hx' & E), HT as (Hy' & F). destruct (win_eq (Z.of_nat a) (Z.of_nat b) x' y' Hx' Hy') as (G & <-); [intros j; rewrite E, F; auto|].
    replace (d - Z.of_nat a + Z.of_nat b) with d by lia. destruct (l_dec x' x'); [auto|congruence].
  - destruct (l_dec y' x') as [->|Hne'].
    + exfalso. apply Hne. destruct HS as (Hx' & E), HT as (_ & F).
      assert (G : forall j, win 0 y j = win (Z.of_nat b - Z.of_nat a) x j).
      { intros j. rewrite win_0. specialize (F (j + 1)). replace (j + 1 - 1) with j in F by lia. rewrite <- F.
        replace (Z.of_nat b) with ((Z.of_nat b - Z.of_nat a) + Z.of_nat a) at 1 by lia. rewrite win_shift, E. unfold CylA.win.
        replace (j + 1 - (Z.of_nat b - Z.of_nat a) - 1) with (j - (Z.of_nat b - Z.of_nat a)) by lia. lia. }
      destruct (win_eq 0 (Z.of_nat b - Z.of_nat a) y x Hy Hx G); auto.
    + repeat match goal with |- context [if ?b then _ else _] => destruct b end; reflexivity.
Qed.

Lemma part_rep c t i : part (repeat c t) i = if (i <? t)%nat then c else 0.
Proof. unfold part. revert i. induction t as [|t IH]; intros [|i]; cbn [repeat nth]; auto. rewrite IH. reflexivity. Qed.
Lemma rep_box c t : 0 < c <= k -> Z.of_nat t <= m -> V (repeat c t).
Proof.
  intros Hc Ht. split; [split|split].
  - intros j Hj. rewrite repeat_length in Hj. rewrite part_rep. destruct (Nat.ltb_spec j t); lia.
  - intros j. rewrite !part_rep. destruct (Nat.ltb_spec j t), (Nat.ltb_spec (S j) t); lia.
  - rewrite repeat_length. lia.
  - rewrite part_rep. destruct (Nat.ltb_spec 0 t); lia.
Qed.
Lemma per_nil j : per [] j = - k * (j / m).
Proof. unfold CylA.per, part. rewrite nth_overflow by (cbn; lia). lia. Qed.
Lemma shift_col : shifted (repeat 1 (Z.to_nat m)) 1 [].
Proof.
  split; [apply V0|]. intros j. unfold CylA.win. change (Z.of_nat 1) with 1. rewrite per_nil. unfold CylA.per. rewrite part_rep.
  pose proof (Z.mod_pos_bound (j - 1) m ltac:(lia)). destruct (Nat.ltb_spec (Z.to_nat ((j - 1) mod m)) (Z.to_nat m)); lia.
Qed.
Lemma invA : exists c e, lq c /\ forall p, lq p -> peq (ext (piA m k true) k (MM c p)) (pmul (pmono (repeat VQ e)) p).
Proof.
  assert (HV : V (repeat 1 (Z.to_nat m))) by (apply rep_box; lia). assert (HC : lq (pS (repeat 1 (Z.to_nat m)))) by (apply sys_lq_pS; auto).
  assert (H0 : lq (pS [])) by (apply sys_lq_pS, V0).
  exists (pS (repeat 1 (Z.to_nat m))), 1%nat. split; auto. intros p Hp.
  rewrite (sys_ext sysA) by auto using IAk.
  transitivity (MM (qt 1 []) p).
  - apply M_peq; [|reflexivity]. rewrite ext_pS. apply shift_P; auto using shift_col.
  - rewrite (sys_q_l sysA) by auto using q_all. apply pmul_proper; [reflexivity|]. apply (sys_unit sysA); auto.
Qed.
Lemma shift_row j : Z.of_nat j < m -> shifted (repeat k j) 0 (repeat k (S j)).
Proof.
  intros Hj. split; [apply rep_box; lia|]. change (Z.of_nat 0) with 0.
  intros i. rewrite win_0. revert i. apply (period_ind m Hm (fun i => per (repeat k (S j)) i = per (repeat k j) (i - 1))).
  - intros i. replace (i + m - 1) with (i - 1 + m) by lia. rewrite !(per_perd m k Hm). lia.
  - intros i Hi. rewrite (per_in m k _ i) by lia. rewrite part_rep. destruct (Z.eq_dec i 0) as [->|Hi0].
    + rewrite Z.sub_0_l, per_m1, part_rep by lia. destruct (Nat.ltb_spec (Z.to_nat 0) (S j)), (Nat.ltb_spec (Z.to_nat (m - 1)) j); lia.
    + rewrite per_in, part_rep by lia. destruct (Nat.ltb_spec (Z.to_nat i) (S j)), (Nat.ltb_spec (Z.to_nat (i - 1)) j); lia.
Qed.
Notation Kn := (@Kn (piA m k true) k).
Lemma Kn_row j : Z.of_nat j <= m -> peq (Kn j (pS [])) (pS (repeat k j)).
Proof.
  induction j as [|j IH]; intros Hj; [reflexivity|]. cbn [Strange.Kn]. rewrite (ext_proper _ _ _ _ (IH ltac:(lia))). rewrite ext_pS.
  rewrite (shift_P (repeat k j) 0 (repeat k (S j))); [apply pmul_1_l| |apply shift_row; lia].
  destruct j; [apply V0|]. apply rep_box; lia.
Qed.
Lemma ptKA p : lq p -> peq (MM (pS (repeat k (Z.to_nat m))) p) (Kn (Z.to_nat m) p).
Proof.
  intros Hp. assert (H0 : lq (pS [])) by (apply sys_lq_pS, V0).
  transitivity (Kn (Z.to_nat m) (MM (pS []) p)); [|apply Kn_peq; apply (sys_unit sysA); auto].
  rewrite (Kn_MM_l sysA k IAk) by auto. apply M_peq; [symmetry; apply Kn_row; lia|reflexivity].
Qed.
Lemma dual_nil : dualA m k [] = repeat k (Z.to_nat m).
Proof.
  symmetry. apply (dualA_compl m k Hm Hk); [apply V0|apply rep_box; lia|]. intros j Hj. unfold part at 1. rewrite nth_overflow by (cbn; lia). rewrite part_rep.
  match goal with |- context [Nat.ltb ?a ?b] => destruct (Nat.ltb_spec a b) end; lia.
Qed.

Theorem strangeA l d p r : V l -> lq p -> lq r ->
  sp d (MM (pS l) p) r = sp d (MM (pS (repeat k (Z.to_nat m))) p) (MM (pS (dualA m k l)) r).
Proof.
  intros Hl Hp Hr.
  apply (strange sysA k IAk halfA unitA invA (dualA m k) (repeat k (Z.to_nat m))) with (N0 := Z.to_nat m); auto using ptKA.
  - apply rep_box; lia.
  - intros. apply dualA_box; auto.
  - intros. apply dualA_dualA; auto.
  - intros x y e Hx Hy. rewrite <- dual_nil. apply (sym_point sysA (dualA m k)); auto.
    + intros. apply dualA_dualA; auto.
    + intros. apply adjAq; auto.
Qed.

(** the product with the class of a point is a single term *)
Lemma point_term mu : V mu -> exists e rho, V rho /\ peq (MM (pS (repeat k (Z.to_nat m))) (pS mu)) (qt e rho).
Proof.
  intros Hmu.
  assert (HK : forall N, exists e rho, V rho /\ peq (Kn N (pS mu)) (qt e rho)).
  { induction N as [|N (e & rho & Hr & IH)]; [exists 0%nat, mu; split; auto; symmetry; apply pmul_1_l|].
    destruct (shift_ex rho Hr) as (a & x' & HS). exists (e + a)%nat, x'. split; [apply HS|]. cbn [Strange.Kn].
    rewrite (ext_proper _ _ _ _ IH). rewrite (ext_qmul (piA m k true) (eq VQ) eqVQ_isqv) by apply q_all. rewrite ext_pS, (shift_P rho a x' Hr HS).
    rewrite pmul_assoc, <- pmono_app, <- repeat_app. reflexivity. }
  destruct (HK (Z.to_nat m)) as (e & rho & Hr & E). exists e, rho. split; auto. rewrite ptKA by (apply sys_lq_pS; auto). auto.
Qed.

(** in coefficients *)
Lemma sp_coefs p r nu e rho : lq p -> (forall d, sp d p (pS nu) = sp d (qt e rho) r) ->
  (forall d, (d <= e)%nat -> coef p (qS d nu) = coef r (qS (e - d) rho)) /\
  (forall d, (e < d)%nat -> coef p (qS d nu) = 0%Qc) /\
  (forall d, (e < d)%nat -> coef r (qS d rho) = 0%Qc).
Proof.
  intros Hp HE.
  assert (S : forall d, (if 0 <=? d then coef p (qS (Z.to_nat d) nu) else 0%Qc) =
    (if d - Z.of_nat e <=? 0 then coef r (qS (Z.to_nat (- (d - Z.of_nat e))) rho) else 0%Qc)).
  { intros d. rewrite <- (sp_pS_r V) by auto. rewrite HE, sp_q_l. apply sp_pS_l. }
  split; [|split]; intros d Hd.
  - specialize (S (Z.of_nat d)). destruct (Z.leb_spec 0 (Z.of_nat d)), (Z.leb_spec (Z.of_nat d - Z.of_nat e) 0); try lia.
    rewrite Nat2Z.id in S. rewrite S. replace (Z.to_nat (- (Z.of_nat d - Z.of_nat e))) with (e - d)%nat by lia. reflexivity.
  - specialize (S (Z.of_nat d)). destruct (Z.leb_spec 0 (Z.of_nat d)), (Z.leb_spec (Z.of_nat d - Z.of_nat e) 0); try lia.
    rewrite Nat2Z.id in S. auto.
  - specialize (S (Z.of_nat e - Z.of_nat d)). destruct (Z.leb_spec 0 (Z.of_nat e - Z.of_nat d)), (Z.leb_spec (Z.of_nat e - Z.of_nat d - Z.of_nat e) 0); try lia.
    replace (Z.to_nat (- (Z.of_nat e - Z.of_nat d - Z.of_nat e))) with d in S by lia. auto.
Qed.
Theorem strange_coef lam mu nu : V lam -> V mu -> V nu -> exists e rho, V rho /\
  peq (MM (pS (repeat k (Z.to_nat m))) (pS mu)) (qt e rho) /\
  (forall d, (d <= e)%nat -> coef (MM (pS lam) (pS mu)) (qS d nu) = coef (MM (pS (dualA m k lam)) (pS nu)) (qS (e - d) rho)) /\
  (forall d, (e < d)%nat -> coef (MM (pS lam) (pS mu)) (qS d nu) = 0%Qc) /\
  (forall d, (e < d)%nat -> coef (MM (pS (dualA m k lam)) (pS nu)) (qS d rho) = 0%Qc).
Proof.
  intros Hl Hmu Hnu. destruct (point_term mu Hmu) as (e & rho & Hr & E). exists e, rho. split; auto. split; auto.
  apply sp_coefs.
  - apply (sys_lin sysA); [apply sys_lq_vp|]; apply sys_lq_pS; auto.
  - intros d. rewrite strangeA by (auto; apply sys_lq_pS; auto). apply sp_peq_l. auto.
Qed.
(** S[lam] -> S[lam]* / S[point], q -> 1/q is an automorphism *)
Theorem strange_auto lam mu nu : V lam -> V mu -> V nu -> exists e rho, V rho /\
  peq (MM (pS (repeat k (Z.to_nat m))) (pS (dualA m k nu))) (qt e rho) /\
  (forall d, (d <= e)%nat -> coef (MM (pS lam) (pS mu)) (qS d nu) = coef (MM (pS (dualA m k lam)) (pS (dualA m k mu))) (qS (e - d) rho)) /\
  (forall d, (e < d)%nat -> coef (MM (pS lam) (pS mu)) (qS d nu) = 0%Qc) /\
  (forall d, (e < d)%nat -> coef (MM (pS (dualA m k lam)) (pS (dualA m k mu))) (qS d rho) = 0%Qc).
Proof.
  intros Hl Hmu Hnu. assert (Q : forall x, V x -> V (dualA m k x) /\ lq (pS x) /\ lq (pS (dualA m k x))).
  { intros x Hx. assert (V (dualA m k x)) by (apply dualA_box; auto). split; auto. split; apply sys_lq_pS; auto. }
  destruct (Q lam Hl) as (L1 & L2 & L3), (Q mu Hmu) as (M1 & M2 & M3), (Q nu Hnu) as (N1 & N2 & N3).
  assert (Hp : lq (pS (repeat k (Z.to_nat m)))) by (apply sys_lq_pS, rep_box; lia).
  pose proof (sys_lq_one sysA) as H1.
  assert (ML : forall a b, lq a -> lq b -> lq (MM a b)) by (intros; apply (sys_lin sysA); auto; apply sys_lq_vp; auto).
  destruct (point_term _ N1) as (e & rho & Hr & E). exists e, rho. split; auto. split; auto. apply sp_coefs; auto. intros d.
  set (pt := pS (repeat k (Z.to_nat m))) in *.
  rewrite strangeA by auto.
  rewrite <- (sp_peq_r d _ (MM (pS nu) (pS (dualA m k lam))) (MM (pS (dualA m k lam)) (pS nu))) by (apply (sys_comm sysA); auto).
  rewrite (sp_peq_l d (MM pt (pS mu)) (MM (pS mu) pt)) by (apply (sys_comm sysA); auto).
  rewrite strangeA by auto. rewrite (sp_peq_r d _ _ (MM (pS nu) (MM (pS (dualA m k mu)) (pS (dualA m k lam))))) by (apply (sys_swap sysA); auto; apply sys_lq_vp; auto).
  fold pt. pose proof (strangeA (dualA m k nu) d pt (MM (pS (dualA m k mu)) (pS (dualA m k lam))) N1 Hp (ML _ _ M3 L3)) as S.
  rewrite dualA_dualA in S by auto. fold pt in S. rewrite <- S.
  rewrite (sp_peq_l d _ (qt e rho)) by (rewrite (sys_comm sysA) by auto; exact E). apply sp_peq_r. apply (sys_comm sysA); auto.
Qed.
End A.
