(** The powers of q in the products of two classes of Gr(m,n): classes with a power
    of q as periodic sequences (CylA.v), chains of at most [m] strips. *)

From Coq Require Import ZArith List Lia Bool Permutation QArith Qcanon Setoid Morphisms.
From Verif Require Import Py OrderFacts PyFacts ModelPart ModelQcalc ModelPoly ModelStr ModelGr Spec
  PolyFacts SuppFacts OpTheory Enum FillFacts PartFacts PieriA QPieriA CylA WSum Sys Sys2 RingA FactsA DualA DualSys QOcc SpecMaxQ.
Import ListNotations.
Open Scope Z_scope.

Section A.
Variables m k : Z.
Hypothesis Hm : 1 <= m.
Hypothesis Hk : 0 <= k.
Notation V := (in_box m k).
Notation per := (per m k).
Notation win := (win m k).
Notation P := (P (piA m k true)).

Lemma coef_edge i d x y : IA k i -> V x -> V y ->
  coef (P i x) (qS d y) = if in_dec pair_dec (d, padm m y) (EA m k true i (padm m x)) then 1%Qc else 0%Qc.
Proof.
  intros Hi Hx Hy. pose proof (in_box_wbox _ _ _ Hx) as Wx. pose proof (in_box_wbox _ _ _ Hy) as Wy.
  rewrite (P_enum m k Hm Hk true i x Hx (IA_dom k true i Hi) (qS d y)). rewrite coef_phi, phi_msum, map_fold.
  apply delta_sum; [apply EA_nodup|]. intros [e w] Hw. pose proof (EA_wbox m k Hm Hk true i (padm m x) _ Wx Hw) as Ww. cbn [snd] in Ww.
  destruct (pair_dec _ _) as [E|E].
  - inversion E; subst. rewrite (proj2 (mono_eqb_perm _ _)); auto. unfold qterm. cbn [fst snd]. rewrite (clip_padm m k) by auto. reflexivity.
  - rewrite (proj2 (mono_eqb_false _ _)); auto. intros HP. apply Sys.qS_inj in HP. cbn [fst snd] in HP. destruct HP as [-> Ec]. apply E. f_equal.
    rewrite <- Ec. symmetry. apply (wbox_padm_clip m k). auto.
Qed.
Lemma per_padm x j : per (padm m x) j = per x j.
Proof. unfold CylA.per. rewrite part_padm. reflexivity. Qed.
Lemma win_padm d x j : win d (padm m x) j = win d x j.
Proof. unfold CylA.win. rewrite per_padm. reflexivity. Qed.
Lemma il_padm d x y : il (per (padm m x)) (win d (padm m y)) <-> il (per x) (win d y).
Proof. split; intros HI j; specialize (HI j); rewrite !per_padm, !win_padm in *; auto. Qed.

Lemma per_mono x a b : V x -> a <= b -> per x b <= per x a.
Proof.
  intros Hx Hab. pose proof (decr_le _ (per_decr m k Hm Hk _ (in_box_wbox _ _ _ Hx)) a b Hab) as Q. rewrite !per_padm in Q. auto.
Qed.
Lemma win_mono d x a b : V x -> a <= b -> win d x b <= win d x a.
Proof. intros Hx Hab. unfold CylA.win. pose proof (per_mono x (a - d) (b - d) Hx ltac:(lia)). lia. Qed.

(** the terms of the quantum Pieri rule *)
Lemma step_iff i d x y : IA k i -> V x -> V y ->
  (coef (P i x) (qS d y) <> 0%Qc <-> il (per x) (win (Z.of_nat d) y) /\ size y + Z.of_nat d * (m + k) = size x + i).
Proof.
  intros Hi Hx Hy. pose proof (in_box_wbox _ _ _ Hx) as Wx. pose proof (in_box_wbox _ _ _ Hy) as Wy.
  rewrite coef_edge by auto. destruct (in_dec pair_dec _ _) as [HE|HE].
  - split; [intros _|discriminate]. apply (EA_edge m k Hm Hk) in HE; auto. destruct HE as ((_ & H1 & H2) & _). cbn [fst snd] in *.
    rewrite !zsum_padm in H2. rewrite !size_zsum. split; [apply il_padm; auto|auto].
  - split; [congruence|]. intros (H1 & H2). exfalso. apply HE. apply (EA_edge m k Hm Hk); auto. split; [|auto]. split; [exact Wy|]. cbn [fst snd].
    rewrite !zsum_padm. rewrite !size_zsum in H2. split; [apply il_padm; auto|auto].
Qed.

Lemma zsum_nonneg0 (f : Z -> Z) l : (forall j, In j l -> 0 <= f j) -> 0 <= zsum (map f l) /\ (zsum (map f l) = 0 -> forall j, In j l -> f j = 0).
Proof.
  induction l as [|a l IH]; intros Hf; [cbn; split; [lia|intros _ j []]|]. cbn [map]. change (zsum (f a :: map f l)) with (f a + zsum (map f l)).
  destruct IH as (I1 & I2); [intros; apply Hf; right; auto|]. pose proof (Hf a (or_introl eq_refl)). split; [lia|]. intros E j [<-|Hj]; [lia|]. apply I2; auto. lia.
Qed.
Lemma per_eq x y : V x -> V y -> (forall j, per x j = per y j) -> x = y.
Proof.
  intros Hx Hy E. apply (padm_inj m k); auto. pose proof (in_box_wbox _ _ _ Hx) as (_ & Lx). pose proof (in_box_wbox _ _ _ Hy) as (_ & Ly).
  rewrite <- (map_per m k (padm m x) Lx), <- (map_per m k (padm m y) Ly). apply map_ext. intros j. rewrite !per_padm. apply E.
Qed.
Lemma win_0 x j : win 0 x j = per x j.
Proof. unfold CylA.win. rewrite Z.sub_0_r. lia. Qed.
Lemma part_bd x j : V x -> 0 <= part x j <= k.
Proof. intros Hx. rewrite <- (part_padm m). apply (part_nonneg_w m k); auto. apply in_box_wbox; auto. Qed.
Lemma win_unique d x y : V x -> V y -> (forall j, per x j = win d y j) -> d = 0 /\ x = y.
Proof.
  intros Hx Hy E. pose proof (in_box_wbox _ _ _ Hx) as Wx. pose proof (in_box_wbox _ _ _ Hy) as Wy.
  assert (HI : il (per x) (win d y)).
  { intros j. rewrite <- E. split; [lia|]. apply per_mono; auto; lia. }
  destruct (edge_d01 m k Hm Hk _ _ d Wx Wy (proj2 (il_padm d x y) HI)) as [->| ->].
  - split; auto. apply per_eq; auto. intros j. rewrite E. apply win_0.
  - exfalso. specialize (E 0). unfold CylA.win in E. rewrite Z.sub_0_l, (per_m1 m k), (per_in m k) in E by lia.
    pose proof (part_bd x (Z.to_nat 0) Hx). pose proof (part_bd y (Z.to_nat (m - 1)) Hy). lia.
Qed.
Lemma il_range d x y : V x -> V y -> il (per x) (win (Z.of_nat d) y) ->
  (d = 0%nat /\ x = y) \/ 1 <= size y + Z.of_nat d * (m + k) - size x <= k.
Proof.
  intros Hx Hy HI. pose proof (in_box_wbox _ _ _ Hx) as (_ & Lx). pose proof (in_box_wbox _ _ _ Hy) as (_ & Ly).
  assert (E1 : wsum m (win (Z.of_nat d) y) = size y + Z.of_nat d * (m + k)).
  { transitivity (wsum m (win (Z.of_nat d) (padm m y))); [apply wsum_ext; intros; symmetry; apply win_padm|]. rewrite (wsum_win m k Hm) by auto. rewrite zsum_padm. reflexivity. }
  assert (E2 : wsum m (per x) = size x).
  { transitivity (wsum m (per (padm m x))); [apply wsum_ext; intros; symmetry; apply per_padm|]. unfold wsum. rewrite map_per by auto. rewrite zsum_padm. reflexivity. }
  assert (E3 : wsum m (fun j => per x (j - 1)) = size x + k).
  { rewrite wsum_shift by auto. rewrite E2. pose proof (per_perd m k Hm x (-1)) as Q. replace (-1 + m) with (m - 1) in Q by lia. lia. }
  assert (D1 : wsum m (fun j => win (Z.of_nat d) y j + - per x j) = size y + Z.of_nat d * (m + k) - size x) by (rewrite wsum_add, wsum_opp; lia).
  assert (D2 : wsum m (fun j => per x (j - 1) + - win (Z.of_nat d) y j) = size x + k - (size y + Z.of_nat d * (m + k))) by (rewrite wsum_add, wsum_opp; lia).
  destruct (zsum_nonneg0 (fun j => win (Z.of_nat d) y j + - per x j) (zrange 0 m)) as (A1 & A2); [intros j _; specialize (HI j); lia|].
  destruct (zsum_nonneg0 (fun j => per x (j - 1) + - win (Z.of_nat d) y j) (zrange 0 m)) as (B1 & _); [intros j _; specialize (HI j); lia|].
  unfold wsum in D1, D2. rewrite D1 in *. rewrite D2 in *.
  destruct (Z.eq_dec (size y + Z.of_nat d * (m + k) - size x) 0) as [E0|E0]; [left|right; lia].
  destruct (win_unique (Z.of_nat d) x y Hx Hy) as (G1 & G2); [|split; [lia|auto]].
  apply (period_ind m Hm (fun j => per x j = win (Z.of_nat d) y j)).
  - intros j. rewrite (per_perd m k Hm), (win_perd m k Hm). lia.
  - intros j Hj. specialize (A2 E0 j). rewrite in_zrange in A2. specialize (A2 Hj). lia.
Qed.
Lemma step_or_stay d x y : V x -> V y -> il (per x) (win (Z.of_nat d) y) ->
  (d = 0%nat /\ x = y) \/ exists i, IA k i /\ coef (P i x) (qS d y) <> 0%Qc.
Proof.
  intros Hx Hy HI. destruct (il_range d x y Hx Hy HI) as [|G]; [auto|right]. exists (size y + Z.of_nat d * (m + k) - size x).
  split; [exact G|]. apply step_iff; auto. split; auto. lia.
Qed.

(** ** Chains of [r] strips *)
Notation nsteps := (@nsteps (piA m k true) (IA k)).
Notation sysA := (sysA m k Hm Hk true).

Lemma steps_loop x r d y : V x -> nsteps x r d y -> V y /\ forall j, per x j <= win (Z.of_nat d) y j <= per x (j - Z.of_nat r).
Proof.
  intros Hx. induction 1 as [|r d y HS (Vy & IH)|r d y i e z HS (Vy & IH) Hi Hc].
  - split; auto. intros j. cbn [Z.of_nat]. rewrite win_0, Z.sub_0_r. lia.
  - split; auto. intros j. specialize (IH j). split; [lia|]. pose proof (in_box_wbox _ _ _ Hx) as Wx.
    assert (per x (j - Z.of_nat r) <= per x (j - Z.of_nat (S r))); [|lia]. apply per_mono; auto; lia.
  - assert (Vz : V z) by (eapply Reach.lq_V; [apply (sys_P_lq sysA); eauto|eauto]). split; auto. apply step_iff in Hc; auto. destruct Hc as (HI & _). intros j.
    rewrite Nat2Z.inj_add, win_shift. pose proof (IH j) as I1. pose proof (IH (j - 1)) as I2. specialize (HI (j - Z.of_nat d)).
    assert (Q1 : win (Z.of_nat d) y j = per y (j - Z.of_nat d) + Z.of_nat d) by reflexivity.
    assert (Q2 : win (Z.of_nat d) y (j - 1) = per y (j - Z.of_nat d - 1) + Z.of_nat d) by (unfold CylA.win; do 2 f_equal; lia).
    replace (j - Z.of_nat (S r)) with (j - 1 - Z.of_nat r) by lia. lia.
Qed.

(** every decreasing periodic sequence above a class is a class with a power of q *)
Lemma loop_steps x y e r : V x -> V y -> (forall j, per x j <= win (Z.of_nat e) y j) ->
  exists d z, V z /\ nsteps x r d z /\ forall j, win (Z.of_nat d) z j = Z.min (win (Z.of_nat e) y j) (per x (j - Z.of_nat r)).
Proof.
  intros Hx Hy HL. pose proof (in_box_wbox _ _ _ Hx) as Wx. pose proof (in_box_wbox _ _ _ Hy) as Wy.
  induction r as [|r (d & z & Vz & HS & E)].
  - exists 0%nat, x. split; auto. split; [apply ns_refl|]. intros j. cbn [Z.of_nat]. rewrite win_0, Z.sub_0_r. specialize (HL j). lia.
  - pose proof (in_box_wbox _ _ _ Vz) as Wz.
    set (L := fun j => Z.min (win (Z.of_nat e) y (j + Z.of_nat d)) (per x (j + Z.of_nat d - Z.of_nat (S r))) - Z.of_nat d).
    assert (PL : perd m k L).
    { intros j. unfold L. replace (j + m + Z.of_nat d) with (j + Z.of_nat d + m) by lia. replace (j + Z.of_nat d + m - Z.of_nat (S r)) with (j + Z.of_nat d - Z.of_nat (S r) + m) by lia.
      rewrite (win_perd m k Hm), (per_perd m k Hm). lia. }
    assert (EZ : forall j, per z j = Z.min (win (Z.of_nat e) y (j + Z.of_nat d)) (per x (j + Z.of_nat d - Z.of_nat r)) - Z.of_nat d).
    { intros j. rewrite <- E. unfold CylA.win. replace (j + Z.of_nat d - Z.of_nat d) with j by lia. lia. }
    assert (IL : il (per (padm m z)) L).
    { intros j. rewrite !per_padm, !EZ. unfold L.
      assert (W1 : win (Z.of_nat e) y (j + Z.of_nat d) <= win (Z.of_nat e) y (j - 1 + Z.of_nat d)) by (apply win_mono; auto; lia).
      assert (W2 : per x (j + Z.of_nat d - Z.of_nat r) <= per x (j + Z.of_nat d - Z.of_nat (S r))) by (apply per_mono; auto; lia).
      replace (j - 1 + Z.of_nat d - Z.of_nat r) with (j + Z.of_nat d - Z.of_nat (S r)) by lia. lia. }
    pose proof (unwin_ok m k Hm Hk (padm m z) L Wz PL IL) as U. destruct (unwin m k L) as [f w]. destruct U as (Ww & Hf & EL).
    set (z' := part_clip w). assert (Vz' : V z') by (apply wbox_in_box; auto). assert (Ez : padm m z' = w) by (apply (wbox_padm_clip m k); auto).
    assert (EL' : forall j, L j = win (Z.of_nat f) z' j) by (intros j; rewrite EL, <- Ez; apply win_padm).
    assert (IL' : il (per z) (win (Z.of_nat f) z')) by (intros j; specialize (IL j); rewrite !per_padm, EL' in IL; auto).
    exists (d + f)%nat, z'. split; auto. split.
    + destruct (step_or_stay f z z' Vz Vz' IL') as [(-> & <-)|(i & Hi & Hc)]; [rewrite Nat.add_0_r; apply ns_stay; auto|eapply ns_step; eauto].
    + intros j. rewrite Nat2Z.inj_add, win_shift, <- EL'. unfold L. replace (j - Z.of_nat d + Z.of_nat d) with j by lia. lia.
Qed.
Lemma steps_iff x d y : V x -> V y ->
  (nsteps x (Z.to_nat m) d y <-> forall j, per x j <= win (Z.of_nat d) y j <= per x j + k).
Proof.
  intros Hx Hy. assert (PM : forall j, per x (j - Z.of_nat (Z.to_nat m)) = per x j + k).
  { intros j. pose proof (per_perd m k Hm x (j - m)) as Q. replace (j - m + m) with j in Q by lia. rewrite Z2Nat.id by lia. lia. }
  split.
  - intros HS. destruct (steps_loop x _ d y Hx HS) as (_ & G). intros j. rewrite <- PM. auto.
  - intros HL. destruct (loop_steps x y d (Z.to_nat m) Hx Hy (fun j => proj1 (HL j))) as (e & z & Vz & HS & E).
    assert (Q : forall j, win (Z.of_nat e) z j = win (Z.of_nat d) y j) by (intros j; rewrite E, PM; specialize (HL j); lia).
    destruct (win_unique (Z.of_nat d - Z.of_nat e) z y Vz Hy) as (Q1 & <-).
    { intros j. specialize (Q (j + Z.of_nat e)). replace (Z.of_nat d) with (Z.of_nat e + (Z.of_nat d - Z.of_nat e)) in Q by lia.
      rewrite win_shift in Q. unfold CylA.win in Q at 1. replace (j + Z.of_nat e - Z.of_nat e) with j in Q by lia. lia. }
    replace d with e by lia. auto.
Qed.

(** ** The powers of q in a product *)
Lemma noqA i l d x : IA k i -> V l -> (length l < Z.to_nat m)%nat -> coef (P i l) (qS d x) <> 0%Qc -> d = 0%nat /\ (length x <= S (length l))%nat.
Proof.
  intros Hi Hl HL Hc. assert (Vx : V x) by (eapply Reach.lq_V; [apply (sys_P_lq sysA); eauto|eauto]). apply step_iff in Hc; auto. destruct Hc as (HI & _).
  pose proof (in_box_wbox _ _ _ Hl) as Wl. pose proof (in_box_wbox _ _ _ Vx) as Wx.
  destruct (edge_d01 m k Hm Hk _ _ _ Wl Wx (proj2 (il_padm _ l x) HI)) as [Ed|Ed].
  - split; [lia|]. rewrite Ed in HI. destruct (le_lt_dec (length x) (S (length l))) as [|HG]; auto. exfalso.
    destruct Vx as (Px & Lx & _). specialize (HI (Z.of_nat (S (length l)))). rewrite win_0, !(per_in m k) in HI by lia.
    replace (Z.to_nat (Z.of_nat (S (length l)) - 1)) with (length l) in HI by lia. rewrite Nat2Z.id in HI.
    pose proof (proj1 Px (S (length l)) HG) as G.
    assert (E0 : part l (length l) = 0) by (unfold part; apply nth_overflow; lia). lia.
  - exfalso. specialize (HI 0). rewrite Ed in HI. unfold CylA.win in HI. rewrite Z.sub_0_l, !(per_m1 m k) in HI by lia.
    assert (E0 : part l (Z.to_nat (m - 1)) = 0) by (unfold part; apply nth_overflow; lia). pose proof (part_bd x (Z.to_nat (m - 1)) Vx). lia.
Qed.
Lemma selA l p l0 : V l -> l <> [] -> gsel k l = Ok (p, l0) -> length l = S (length l0).
Proof.
  intros Hl Hne E. destruct l as [|a l]; [congruence|]. rewrite (gsel_A m k a l Hl) in E. injection E as <- <-. reflexivity.
Qed.
Lemma lenA l : V l -> (length l <= Z.to_nat m)%nat.
Proof. intros (_ & Hl & _). lia. Qed.
Lemma per_dual y j : V y -> per (dualA m k y) j = k - per y (m - 1 - j).
Proof.
  intros Hy. revert j. apply (period_ind m Hm (fun j => per (dualA m k y) j = k - per y (m - 1 - j))).
  - intros j. rewrite (per_perd m k Hm). pose proof (per_perd m k Hm y (m - 1 - (j + m))) as Q. replace (m - 1 - (j + m) + m) with (m - 1 - j) in Q by lia. lia.
  - intros j Hj. rewrite !(per_in m k) by lia.
    pose proof (proj1 (dualA_compl m k Hm Hk y (dualA m k y) Hy (dualA_box m k Hm Hk y Hy)) eq_refl (Z.to_nat (m - 1 - j)) ltac:(lia)) as C.
    replace (m - 1 - Z.of_nat (Z.to_nat (m - 1 - j))) with j in C by lia. lia.
Qed.
Definition loop_ok (x y : list Z) (d : Z) : Prop := forall j, d <= per x j + per y (m - 1 + d - j) <= k + d.
Lemma loop_dual x y d : V y -> (loop_ok x y d <-> forall j, per x j <= win d (dualA m k y) j <= per x j + k).
Proof.
  intros Hy. unfold loop_ok, CylA.win. split; intros HL j; specialize (HL j); rewrite per_dual in * by auto; replace (m - 1 - (j - d)) with (m - 1 + d - j) in * by lia; lia.
Qed.

Hypothesis pos : forall i l d x, IA k i -> V l -> (0 <= coef (P i l) (qS d x))%Qc.
Theorem power_loop x y d : V x -> V y ->
  ((exists z, coef (M TA (piA m k true) k (giam_fuel (gA m k)) (pS x) (pS y)) (qS d z) <> 0%Qc) <-> loop_ok x y (Z.of_nat d)).
Proof.
  intros Hx Hy. rewrite loop_dual by auto. rewrite <- steps_iff by (auto; apply dualA_box; auto).
  apply (power_occurs sysA pos (Z.to_nat m) noqA selA lenA (dualA m k)); auto.
  - intros. apply dualA_box; auto.
  - intros. apply dualA_dualA; auto.
  - intros. apply adjAq; auto.
Qed.

(** the conditions on one period *)
Lemma loop_parts x y d : V x -> V y -> (loop_ok x y (Z.of_nat d) <-> q_overlap m k x y d).
Proof.
  intros Hx Hy. split.
  - intros HL.
    assert (Hd : Z.of_nat d <= m).
    { destruct (Z_le_gt_dec (Z.of_nat d) m) as [|HG]; auto. exfalso. specialize (HL 0). rewrite (per_in m k x 0) in HL by lia.
      pose proof (per_mono y (0 + m + m) (m - 1 + Z.of_nat d - 0) Hy ltac:(lia)) as Q. rewrite !(per_perd m k Hm), (per_in m k y 0) in Q by lia.
      pose proof (part_bd x (Z.to_nat 0) Hx). pose proof (part_bd y (Z.to_nat 0) Hy). lia. }
    split; auto. intros j Hj. specialize (HL (Z.of_nat j)). rewrite (per_in m k x) in HL by lia. rewrite Nat2Z.id in HL. split; intros Hjd.
    + pose proof (per_perd m k Hm y (Z.of_nat d - 1 - Z.of_nat j)) as Q. replace (Z.of_nat d - 1 - Z.of_nat j + m) with (m - 1 + Z.of_nat d - Z.of_nat j) in Q by lia.
      rewrite Q in HL. rewrite (per_in m k) in HL by lia. replace (Z.to_nat (Z.of_nat d - 1 - Z.of_nat j)) with (d - 1 - j)%nat in HL by lia. lia.
    + rewrite (per_in m k) in HL by lia. replace (Z.to_nat (m - 1 + Z.of_nat d - Z.of_nat j)) with (Z.to_nat m - 1 + d - j)%nat in HL by lia. lia.
  - intros (Hd & HO). unfold loop_ok.
    apply (period_ind m Hm (fun j => Z.of_nat d <= per x j + per y (m - 1 + Z.of_nat d - j) <= k + Z.of_nat d)).
    + intros j. rewrite (per_perd m k Hm). pose proof (per_perd m k Hm y (m - 1 + Z.of_nat d - (j + m))) as Q.
      replace (m - 1 + Z.of_nat d - (j + m) + m) with (m - 1 + Z.of_nat d - j) in Q by lia. lia.
    + intros j Hj. destruct (HO (Z.to_nat j) ltac:(lia)) as (O1 & O2). rewrite (per_in m k x) by lia.
      destruct (Z_lt_le_dec j (Z.of_nat d)) as [Hjd|Hjd].
      * specialize (O1 ltac:(lia)).
        pose proof (per_perd m k Hm y (Z.of_nat d - 1 - j)) as Q. replace (Z.of_nat d - 1 - j + m) with (m - 1 + Z.of_nat d - j) in Q by lia.
        rewrite Q. rewrite (per_in m k) by lia. replace (Z.to_nat (Z.of_nat d - 1 - j)) with (d - 1 - Z.to_nat j)%nat by lia.
        pose proof (part_bd x (Z.to_nat j) Hx). pose proof (part_bd y (d - 1 - Z.to_nat j) Hy). lia.
      * specialize (O2 ltac:(lia)). rewrite (per_in m k) by lia. replace (Z.to_nat (m - 1 + Z.of_nat d - j)) with (Z.to_nat m - 1 + d - Z.to_nat j)%nat by lia. lia.
Qed.
(** the powers form an interval *)
Lemma loop_between x y a b c : V y -> a <= b <= c -> loop_ok x y a -> loop_ok x y c -> loop_ok x y b.
Proof.
  intros Hy Hab H1 H2 j. specialize (H1 j). specialize (H2 j).
  pose proof (per_mono y (m - 1 + a - j) (m - 1 + b - j) Hy ltac:(lia)). pose proof (per_mono y (m - 1 + b - j) (m - 1 + c - j) Hy ltac:(lia)). lia.
Qed.
End A.
