(** Degrees of the maximal isotropic Grassmannians: Schur's formula. *)

From Coq Require Import ZArith List Lia Bool Permutation QArith Qcanon Setoid Morphisms.
From Verif Require Import Py OrderFacts PyFacts ModelPart ModelQcalc ModelPoly ModelStr ModelGr Spec SpecRing SpecPieri SpecProd SpecDegree
  PolyFacts SuppFacts OpTheory ExprFacts Transfer PartialFrac DegreeAlg PartFacts ConjFacts PieriBKT PieriCoef PieriD QPieriD Sys Sys2 SysApi DualSys GrInv RingData
  ApiPieriP ReachQ ApiRing ApiRingD Outside ReachMax Degree DegreeLow DegreeA.
Import ListNotations.
Open Scope Z_scope.

(** *** one added box *)
Lemma count_one (A P : box -> Prop) x N : (forall y, A y <-> y = x) -> component_count A P N -> (P x -> N = 1) /\ (~ P x -> N = 0).
Proof.
  intros HA (reps & EN & HN & Hg & _ & Hc). assert (C1 : forall y, connected A x y -> y = x).
  { intros y G. induction G as [y Hy|y z z' G IH Hz _]; [apply HA|apply HA]; auto. }
  assert (R : forall y, In y reps -> y = x) by (intros y Hy; apply HA, (Hg y Hy)). split; intros HP.
  - assert (GD : A x /\ forall y, connected A x y -> P y).
    { split; [apply HA; auto|]. intros y Hy. destruct Hy as [y Hy|y z z' G Hz _]; [apply HA in Hy|apply HA in Hz]; subst; auto. }
    destruct (Hc x GD) as (y & Hy & _). destruct reps as [|a [|b t]]; [destruct Hy|simpl in EN; lia|].
    exfalso. pose proof (R a (or_introl eq_refl)). pose proof (R b (or_intror (or_introl eq_refl))). subst. inversion_clear HN as [|? ? H1 _]. apply H1. simpl. auto.
  - destruct reps as [|a t]; [simpl in EN; lia|]. exfalso. pose proof (R a (or_introl eq_refl)). subst a. destruct (Hg x (or_introl eq_refl)) as (H1 & H2).
    apply HP, H2, con_refl. auto.
Qed.
Lemma free_one d l nu i : is_partition nu -> (1 <= part nu i) -> (forall j, part l j = part nu j - (if Nat.eqb j i then 1 else 0)) ->
  forall y, free_box 0 d l nu y <-> y = (Z.of_nat i + 1, part nu i).
Proof.
  intros Hn Hi HP (r, c). unfold free_box, added, in_diagram, mentioned. cbn [fst snd]. split.
  - intros (((H1 & H2) & H3) & _ & _). rewrite HP in H3. destruct (Nat.eqb_spec (Z.to_nat (r - 1)) i) as [E|E]; [|exfalso; apply H3; lia].
    subst i. f_equal; [lia|]. destruct (Z.eq_dec c (part nu (Z.to_nat (r - 1)))); auto. exfalso. apply H3. lia.
  - intros E. injection E as -> ->. replace (Z.to_nat (Z.of_nat i + 1 - 1)) with i by lia. rewrite HP, Nat.eqb_refl.
    split; [split; [lia|lia]|]. split; [lia|]. intros (c & r & Hc & _). lia.
Qed.

Lemma zlen_low_pos l : is_partition l -> zlen l <= size l.
Proof.
  intros H. assert (G : forall x, In x l -> 1 <= x) by (intros x Hx; apply (In_nth _ _ 0) in Hx; destruct Hx as (j & Hj & <-); pose proof (proj1 H j Hj); unfold part in *; lia).
  clear H. induction l as [|x l IH]; [reflexivity|]. unfold zlen in *. cbn [length]. change (size (x :: l)) with (x + size l). pose proof (G x (or_introl eq_refl)).
  specialize (IH (fun y Hy => G y (or_intror Hy))). lia.
Qed.
Lemma parts_pos l : is_partition l -> forall x, In x l -> 1 <= x.
Proof. intros H x Hx. apply (In_nth _ _ 0) in Hx. destruct Hx as (j & Hj & <-). pose proof (proj1 H j Hj). unfold part in *. lia. Qed.
Lemma strict_nodup l : is_partition l -> kstrict 0 l -> NoDup l.
Proof.
  intros H HS. apply (NoDup_nth _ 0). assert (G : forall i j, (i < j)%nat -> (j < length l)%nat -> part l j < part l i).
  { intros i j Hij. induction Hij as [|j Hij IH]; intros Hl; [apply HS; apply (proj1 H); lia|]. specialize (IH ltac:(lia)). pose proof (proj2 H j). lia. }
  intros i j Hi Hj E. destruct (Nat.lt_trichotomy i j) as [Hl|[->|Hl]]; auto; pose proof (G _ _ Hl ltac:(auto)); unfold part in *; lia.
Qed.

(** *** removing a box from a strict partition *)
Notation lw i nu := (low (zlen nu) i nu).
Lemma padm_full nu : padm (zlen nu) nu = nu.
Proof. unfold padm. rewrite Z.sub_diag. apply app_nil_r. Qed.
Lemma to_zlen {A} (l : list A) : Z.to_nat (zlen l) = length l. Proof. unfold zlen. lia. Qed.
(** the lowered row stays, or was the last one and had one box *)
Lemma low_cases nu i : is_partition nu -> (i < length nu)%nat -> (2 <= part nu i -> lw i nu = dec i nu /\ zlen (lw i nu) = zlen nu) /\
  (part nu i = 1 -> part nu (S i) = 0 -> dec i nu = lw i nu ++ [0] /\ zlen (lw i nu) = zlen nu - 1).
Proof.
  intros Hn Hi. unfold low. rewrite padm_full. split.
  - intros H. assert (E : part_clip (dec i nu) = dec i nu).
    { apply part_clip_pos, Forall_forall. intros x Hx. apply (In_nth _ _ 0) in Hx. destruct Hx as (j & Hj & <-). rewrite dec_length in Hj. rewrite nth_dec by auto.
      pose proof (proj1 Hn j Hj). unfold part in *. destruct (Nat.eqb_spec j i); subst; lia. }
    rewrite E. split; auto. unfold zlen. rewrite dec_length. auto.
  - intros H H0. destruct (list_mid nu i Hi) as (a & b & El & Ea). unfold part in H. rewrite H in El. clear H. subst nu i.
    assert (b = []); [|subst b].
    { destruct b as [|y b]; auto. exfalso. pose proof (proj1 Hn (S (length a))). rewrite H0 in H. rewrite app_length in H. cbn [length] in H. lia. }
    rewrite dec_mid. change (1 - 1) with 0. assert (E : part_clip (a ++ [0]) = a).
    { change [0] with (repz 0 1). rewrite part_clip_app0. apply part_clip_pos, Forall_forall. intros x Hx. pose proof (parts_pos _ Hn x (in_or_app _ _ _ (or_introl Hx))). lia. }
    rewrite E. split; auto. unfold zlen. rewrite app_length. cbn [length]. lia.
Qed.

Section S.
Context {g : gr} {V : list Z -> Prop} {I : Z -> Prop} {mu : list Z -> nat}.
Notation pi := (pieri_fun g).
Variables (R n : Z).
Hypothesis HV : forall l, V l <-> kstrict_in 0 R n l.
Hypothesis SYS : pieri_sys (g_type g) pi V I (g_k g) mu (giam_fuel g).
Hypothesis H1 : I 1.
Hypothesis V1 : V [1].
Hypothesis E1 : peq (pS [1]) (P pi 1 []).
Variables (w : list Z -> list Z -> Qc) (e : Z -> list Z -> Qc).
Hypothesis Pw : forall l, V l -> (forall nu, coef (P pi 1 l) [vS nu] = w l nu) /\ (forall m, coef (P pi 1 l) m <> 0%Qc -> exists nu, V nu /\ m = [vS nu]).
Hypothesis w_strip : forall l nu, V l -> V nu -> w l nu <> 0%Qc -> adds_horizontal_strip l nu /\ size nu = size l + 1.
Hypothesis w_int : forall l nu, V l -> V nu -> exists z, w l nu = zq z.
Hypothesis e_nil : e 0 [] = 1%Qc.
Hypothesis e_rec : forall l nu i, V l -> V nu -> (i < length nu)%nat -> l = lw i nu -> (e (size nu - 1) l * w l nu)%Qc = e (size nu) nu.

Lemma rec_strict nu c : V nu -> 1 <= size nu -> (forall l, V l -> In l (lows (zlen nu) nu) -> c l = (e (size nu - 1)%Z l * FG (size nu - 1) l)%Qc) -> (forall l, ~ V l -> c l = 0%Qc) ->
  qsum (fun l => c l * w l nu)%Qc (lows (zlen nu) nu) = (e (size nu) nu * FG (size nu) nu)%Qc.
Proof.
  intros Hn HS C1 C2. pose proof (proj1 (HV nu) Hn) as ((Hp & Hl & Hb) & Hk). pose proof (parts_pos nu Hp) as Hpos. pose proof (strict_nodup nu Hp Hk) as HN.
  rewrite <- (FG_sum (size nu) nu) at 1 by (auto; symmetry; apply size_zsum). rewrite <- qsum_mul.
  unfold lows. rewrite qsum_map, to_zlen. apply qsum_ext. intros i Hi. apply in_seq in Hi. assert (Hi' : (i < length nu)%nat) by lia.
  assert (Hi2 : (i < Z.to_nat (zlen nu))%nat) by (rewrite to_zlen; auto). assert (HL : zlen nu <= zlen nu) by lia.
  pose proof (proj1 Hp i Hi') as Hy. pose proof (Hk i Hy) as Hd.
  destruct (low_cases nu i Hp Hi') as (L1 & L2). rewrite <- (FG_term (size nu) nu i) by auto.
  assert (Hnv : nth i nu 0 = part nu i) by reflexivity.
  destruct (Z.eq_dec (part nu (S i)) (part nu i - 1)) as [Ed|Ed]; [destruct (Z.eq_dec (part nu i) 1) as [Eo|Eo]|].
  - (* the last row, of length one *)
    destruct (L2 Eo ltac:(lia)) as (L3 & L4). assert (HVl : V (lw i nu)).
    { apply HV. split; [split; [apply low_partition; auto; lia|split; [pose proof (low_length (zlen nu) i nu); unfold zlen in *; lia|rewrite part_low by auto; destruct (Nat.eqb 0 i); lia]]|].
      intros j. rewrite !part_low by auto. specialize (Hk j). destruct (Nat.eqb_spec j i), (Nat.eqb_spec (S j) i); subst; lia. }
    rewrite C1; auto; [|apply in_map_iff; exists i; split; auto; apply in_seq; lia].
    rewrite L3, FG_last; [rewrite <- (e_rec (lw i nu) nu i) by auto; ring|]. apply parts_pos. apply HV in HVl. apply HVl.
  - (* the next row is as long as the lowered row *)
    rewrite C2.
    + rewrite (FG_term (size nu) nu i), FG_zero; auto; [ring|rewrite Hnv; lia|]. rewrite Hnv, <- Ed. apply nth_In.
      destruct (Nat.lt_ge_cases (S i) (length nu)) as [|G]; auto. rewrite (part_high nu (S i)) in Ed by auto. lia.
    + intros G. apply HV in G. destruct G as (_ & G). specialize (G i). rewrite !part_low, Nat.eqb_refl in G by auto.
      replace (Nat.eqb (S i) i) with false in G by (symmetry; apply Nat.eqb_neq; lia). lia.
  - assert (H2 : 2 <= part nu i) by (pose proof (is_partition_nonneg nu (S i) Hp); lia). destruct (L1 H2) as (L3 & L4). assert (HVl : V (lw i nu)).
    { apply HV. split; [split; [apply low_partition; auto; lia|split; [pose proof (low_length (zlen nu) i nu); unfold zlen in *; lia|rewrite part_low by auto; destruct (Nat.eqb 0 i); lia]]|].
      intros j. rewrite !part_low by auto. specialize (Hk j). destruct (Nat.eqb_spec j i), (Nat.eqb_spec (S j) i); subst; lia. }
    rewrite C1; auto; [|apply in_map_iff; exists i; split; auto; apply in_seq; lia].
    rewrite <- L3. rewrite <- (e_rec (lw i nu) nu i) by auto. ring.
Qed.
Lemma deg_strict N : exists r, toS g (power_of_S1 N) = Ok r /\ lin_comb0 V r /\
  forall nu, V nu -> exists c, coef r [vS nu] = zq c /\ (size nu <> Z.of_nat N -> c = 0) /\ (size nu = Z.of_nat N -> zq c = (e (Z.of_nat N) nu * FG (Z.of_nat N) nu)%Qc).
Proof.
  apply (power_toS SYS) with (w := w) (f := fun N l => (e N l * FG N l)%Qc) (L := fun nu => lows (zlen nu) nu); auto.
  - intros nu Hn. apply size_pos. apply HV in Hn. apply Hn.
  - rewrite e_nil. unfold FG. change (factorial 0) with 1. change (Kp hG []) with 1%Qc. unfold facts. change (product (map factorial [])) with 1. rewrite zq_1. field. discriminate.
  - intros nu Hn. apply lows_nodup. lia.
  - intros nu l Hn Hl Hw. destruct (w_strip l nu Hl Hn Hw) as (A & B). apply HV in Hn, Hl. apply lows_cover; auto; [apply Hn|apply Hl|lia|intros j; apply A].
  - intros nu l Hn Hi _. apply lows_in in Hi. destruct Hi as (i & Hi & ->). rewrite size_low; auto; lia.
  - intros nu c Hn. apply rec_strict. auto.
Qed.
End S.

Lemma schur t N nu c : is_partition nu -> zq c = (zq t * FG (Z.of_nat N) nu)%Qc -> schur_formula t N nu c.
Proof.
  intros Hp E. pose proof (parts_pos nu Hp) as Hpos. unfold schur_formula. apply zq_inj. rewrite !zq_mul, E. unfold FG. fold (facts nu).
  assert (EK : (Kp hG nu * Kp (fun x y => zq (x + y)) nu)%Qc = Kp (fun x y => zq (x - y)) nu).
  { apply (Kp_div (fun x y => zq (x - y)) (fun x y => zq (x + y))). intros x y Hx Hy. apply zq_ne. pose proof (Hpos x Hx). pose proof (Hpos y Hy). lia. }
  rewrite !Kp_zq in EK. rewrite <- EK. field. apply facts_ne.
Qed.
Lemma lw_parts nu i : (i < length nu)%nat -> forall j, part (lw i nu) j = part nu j - (if Nat.eqb j i then 1 else 0).
Proof. intros Hi j. apply part_low; [lia|rewrite to_zlen; auto]. Qed.
Lemma lw_strip nu i : is_partition nu -> is_partition (lw i nu) -> (i < length nu)%nat -> adds_horizontal_strip (lw i nu) nu /\ size nu = size (lw i nu) + 1.
Proof.
  intros Hp Hq Hi. split.
  - intros j. pose proof (proj2 Hp j) as D. pose proof (proj2 Hq j) as D'. rewrite !lw_parts in * by auto. destruct (Nat.eqb_spec j i), (Nat.eqb_spec (S j) i); subst; lia.
  - rewrite size_low; [lia|lia|rewrite to_zlen; auto].
Qed.

Lemma c96_LG N g : IsotropicGrassmannian (N / 2) N = Ok g -> 2 <= N ->
  power_law (class_IG (N / 2) N) (toS g) (fun M nu => schur_formula (2 ^ (Z.of_nat M - zlen nu)) M nu).
Proof.
  intros Hg HN2. pose proof Hg as Hg'. apply ig_inv in Hg'. destruct Hg' as (n & EN & En & _ & _). set (m := N / 2) in *. assert (Hm : 1 <= m) by lia.
  destruct (rd_IG m N g Hg Hm) as (mu & RD). pose proof (rd_cl _ _ _ _ RD) as SYS.
  assert (EV : class_IG m N = kstrict_in 0 m m) by (change (class_IG m N) with (kstrict_in (N / 2 - m) m (N - m)); fold m; f_equal; lia).
  assert (H1 : 1 <= 1 <= N - m) by lia.
  set (w := fun l nu => coef (P (pieri_fun g) 1 l) [vS nu]).
  assert (HW : forall l, class_IG m N l -> (forall nu, coef_IG 0 m 1 0 l nu (w l nu)) /\ (forall mo, coef (P (pieri_fun g) 1 l) mo <> 0%Qc -> exists nu, mo = [vS nu])).
  { intros l Hl. destruct (c44_IG' m N g 1 l Hg Hl) as (r & c & E & (X1 & X2) & HC). fold m in HC. replace (m - m) with 0 in HC by lia.
    assert (Ep : peq r (P (pieri_fun g) 1 l)) by (apply P_pieri; auto; exists (P (pieri_fun g) 1 l); apply (ps_ok _ _ _ _ _ _ _ SYS); auto).
    split.
    - intros nu. unfold w. rewrite <- (Ep _), X1. auto.
    - intros mo Hmo. rewrite <- (Ep mo) in Hmo. auto. }
  assert (TT : forall l nu, class_IG m N l -> pieri_term 0 m 1 l nu <-> class_IG m N nu /\ adds_horizontal_strip l nu /\ size nu = size l + 1).
  { intros l nu Hl. rewrite EV in *. unfold pieri_term. rewrite Z.sub_0_r, Z.add_0_r. split; intros (A & B & C); split; auto; split; auto; apply (arrow0 0); auto; try apply Hl; apply A. }
  intros M.
  destruct (deg_strict (g := g) (V := class_IG m N) (I := fun i => 1 <= i <= N - m) (mu := mu) m m) with (w := w) (e := fun (M : Z) (l : list Z) => zq (2 ^ (M - zlen l))) (N := M) as (r & E & L0 & HF).
  - intros l. rewrite EV. tauto.
  - exact SYS.
  - exact H1.
  - apply (rd_V _ _ _ _ RD 1). exact H1.
  - apply (rd_spc _ _ _ _ RD 1). exact H1.
  - intros l Hl. split; [reflexivity|]. intros mo Hmo. destruct (proj2 (HW l Hl) mo Hmo) as (nu & ->). exists nu. split; auto.
    destruct (proj1 (HW l Hl) nu) as [(T & _)|(_ & G)]; [apply TT in T; tauto|]. unfold w in G. contradiction.
  - intros l nu Hl Hn Hw. destruct (proj1 (HW l Hl) nu) as [(T & _)|(_ & G)]; [apply TT in T; tauto|contradiction].
  - intros l nu Hl Hn. destruct (proj1 (HW l Hl) nu) as [(T & K & _ & _ & ->)|(_ & ->)]; [exists (2 ^ (K - 0)); reflexivity|exists 0; rewrite zq_0; reflexivity].
  - apply zq_1.
  - intros l nu i Hl Hn Hi El. assert (Kl := Hl). assert (Kn := Hn). rewrite EV in Kl, Kn. pose proof (proj1 (proj1 Kn)) as Pn. pose proof (proj1 (proj1 Kl)) as Pl. subst l.
    pose proof (proj1 Pn i Hi) as Hy. pose proof (lw_strip nu i Pn Pl Hi) as (ST & SZ).
    destruct (proj1 (HW _ Hl) nu) as [(T & K & CC & _ & ->)|(G & _)]; [|exfalso; apply G, TT; auto].
    destruct (count_one _ _ (Z.of_nat i + 1, part nu i) K (free_one 0 (lw i nu) nu i Pn ltac:(lia) (lw_parts nu i Hi)) CC) as (K1 & K0). cbn [snd] in K1, K0.
    destruct (low_cases nu i Pn Hi) as (L1 & L2). unfold two_to. fold (zq (2 ^ (K - 0))). rewrite <- zq_mul. f_equal.
    pose proof (zlen_low_pos (lw i nu) Pl) as B1. destruct (Z.eq_dec (part nu i) 1) as [Eo|Eo].
    + rewrite K0 by lia. pose proof (proj2 Kn i ltac:(lia)) as Kd. pose proof (is_partition_nonneg nu (S i) Pn). destruct (L2 Eo ltac:(lia)) as (_ & ->). change (2 ^ (0 - 0)) with 1. rewrite Z.mul_1_r. f_equal. lia.
    + rewrite K1 by lia. destruct (L1 ltac:(lia)) as (_ & L4). rewrite L4 in *. change (2 ^ (1 - 0)) with 2. replace (size nu - zlen nu) with (Z.succ (size nu - 1 - zlen nu)) by lia. rewrite Z.pow_succ_r by lia. lia.
  - exists r. split; [exact E|]. split; [exact L0|]. intros nu Hn. destruct (HF nu Hn) as (c & A & B & C). exists c. split; [exact A|]. split; [exact B|].
    intros HS. apply schur; [rewrite EV in Hn; apply Hn|auto].
Qed.

Section OG.
Variables (N m n0 : Z) (g : gr) (I : Z -> Prop) (mu : list Z -> nat).
Notation V := (class_OG m N).
Hypothesis HV : forall l, V l <-> kstrict_in 0 m n0 l.
Hypothesis SYS : pieri_sys (g_type g) (pieri_fun g) V I (g_k g) mu (giam_fuel g).
Hypothesis H1 : I 1.
Hypothesis V1 : V [1].
Hypothesis E1 : peq (pS [1]) (P (pieri_fun g) 1 []).
Notation w := (fun l nu => coef (P (pieri_fun g) 1 l) [vS nu]).
Hypothesis HW : forall l, V l -> (forall mo, coef (P (pieri_fun g) 1 l) mo <> 0%Qc -> exists nu, mo = [vS nu]) /\
  forall nu, (V nu /\ adds_horizontal_strip l nu /\ size nu = size l + 1 -> w l nu = 1%Qc) /\
    (w l nu <> 0%Qc -> V nu /\ adds_horizontal_strip l nu /\ size nu = size l + 1).
Lemma deg_OG : power_law V (toS g) (schur_formula 1).
Proof.
  intros M.
  destruct (deg_strict (g := g) (V := V) (I := I) (mu := mu) m n0) with (w := w) (e := fun (_ : Z) (_ : list Z) => 1%Qc) (N := M) as (r & E & L0 & HF); auto.
  - intros l Hl. split; [reflexivity|]. intros mo Hmo. destruct (proj1 (HW l Hl) mo Hmo) as (nu & ->). exists nu. split; auto. apply (proj2 (HW l Hl) nu). auto.
  - intros l nu Hl Hn Hw. apply (proj2 (HW l Hl) nu). auto.
  - intros l nu Hl Hn. destruct (Qc_eq_dec (w l nu) 0%Qc) as [->|Hw]; [exists 0; rewrite zq_0; auto|]. exists 1. rewrite zq_1. apply (proj2 (HW l Hl) nu). apply (proj2 (HW l Hl) nu). auto.
  - intros l nu i Hl Hn Hi El. pose proof (proj1 (proj1 (proj1 (HV nu) Hn))) as Pn. pose proof (proj1 (proj1 (proj1 (HV l) Hl))) as Pl. subst l.
    cbv beta. rewrite (proj1 (proj2 (HW _ Hl) nu)); [ring|]. split; auto. apply lw_strip; auto.
  - exists r. split; [exact E|]. split; [exact L0|]. intros nu Hn. destruct (HF nu Hn) as (c & A & B & C). exists c. split; [exact A|]. split; [exact B|].
    intros HS. apply schur; [apply HV in Hn; apply Hn|]. rewrite zq_1. auto.
Qed.
End OG.

Lemma c96_OG N g : OrthogonalGrassmannian (N / 2) N = Ok g -> 3 <= N -> power_law (class_OG (N / 2) N) (toS g) (schur_formula 1).
Proof.
  intros Hg HN3. set (m := N / 2) in *.
  assert (ONE : forall l nu d K, is_partition l -> is_partition nu -> adds_horizontal_strip l nu -> size nu = size l + 1 ->
    component_count (free_box 0 d l nu) (fun _ => True) K -> K = 1).
  { intros l nu d K Hl Hn Hs Hz CC. pose proof (lows_cover (zlen nu) nu l Hn Hl ltac:(lia) (fun j => proj2 (Hs j)) Hz) as HI.
    apply lows_in in HI. destruct HI as (i & Hi & ->). rewrite to_zlen in Hi. pose proof (proj1 Hn i Hi).
    apply (count_one _ _ (Z.of_nat i + 1, part nu i) K (free_one d (lw i nu) nu i Hn ltac:(lia) (lw_parts nu i Hi)) CC). auto. }
  destruct (Z.even N) eqn:EE.
  - assert (EN : N = 2 * m) by (unfold m; rewrite (Zdiv.Z_div_mod_eq_full N 2) at 1; rewrite Zmod_even, EE; lia).
    assert (EV : forall x, class_OG m N x <-> kstrict_in 0 m (m - 1) x).
    { intros x. unfold class_OG. rewrite EE. fold m. change (typed_in (m - m) m (N - 1 - m) x <-> kstrict_in 0 m (m - 1) x).
      replace (m - m) with 0 by lia. replace (N - 1 - m) with (m - 1) by lia. split; [|left; auto]. intros [G|(_ & _ & G & _)]; auto. lia. }
    destruct (half_even m N g Hg EE ltac:(lia) ltac:(lia)) as (mu & HD). specialize (HD false ltac:(discriminate)). cbv beta iota in HD.
    pose proof (hf_sys _ _ _ _ _ HD) as SYS. assert (H1 : index_even m N 1) by (left; lia).
    apply (deg_OG N m (m - 1) g (index_even m N) mu); auto; [apply (hf_V _ _ _ _ _ HD 1 H1)|apply (hf_sp _ _ _ _ _ HD 1 H1)|].
    intros l Hl. destruct (c44_OG' m N g 1 l Hg) as (r & c & E & EX & HC); [unfold m; lia|lia|auto|]. rewrite EE in HC. fold m in HC. replace (m - m) with 0 in HC by lia.
    assert (Ep : peq r (P (pieri_fun g) 1 l)) by (apply P_pieri; auto; exists (P (pieri_fun g) 1 l); apply (ps_ok _ _ _ _ _ _ _ SYS); auto).
    destruct EX as (X1 & X2). apply EV in Hl. split; [intros mo Hmo; rewrite <- (Ep mo) in Hmo; auto|]. intros x. rewrite <- (Ep _), X1. specialize (HC x).
    assert (T0 : forall y, kstrict_in 0 m (m - 1) y -> shape y = y /\ type_of 0 y = 0).
    { intros y Hy. split; [apply shape_partition, Hy|]. unfold type_of. destruct (existsb (Z.eqb 0) y) eqn:X; auto. apply in_existsb in X. exfalso.
      destruct (In_nth _ _ 0 X) as (j & Hj & Ej). pose proof (proj1 (proj1 (proj1 Hy)) j Hj). unfold part in *. lia. }
    assert (HT : pieri_term_D 0 (m - 1) 1 l x <-> class_OG m N x /\ adds_horizontal_strip l x /\ size x = size l + 1).
    { rewrite EV. unfold pieri_term_D. rewrite Z.sub_0_r, Z.add_0_r, Z.abs_eq by lia. replace (m - 1 + 1) with m by lia. destruct (T0 l Hl) as (-> & ->). split.
      - intros (A & B & C & _). assert (A' : kstrict_in 0 m (m - 1) x) by (destruct A as [|(_ & _ & G & _)]; auto; lia).
        destruct (T0 x A') as (S' & _). rewrite S' in C. split; auto. split; auto. apply (arrow0 1); auto; [apply Hl|apply A'].
      - intros (A & B & C). destruct (T0 x A) as (-> & ->). split; [left; auto|]. split; auto. split; [|lia]. apply (arrow0 1); auto; [apply Hl|apply A]. }
    rewrite <- HT. split.
    + intros G. destruct HC as [(_ & K & CC & _ & ->)|(G' & _)]; [|contradiction]. apply HT in G. destruct G as (A & B & C). apply EV in A.
      destruct (T0 l Hl) as (S1 & _). destruct (T0 x A) as (S2 & _). rewrite S1, S2 in CC. rewrite (ONE l x 1 K) by (auto; try apply Hl; apply A). reflexivity.
    + intros Hc. destruct HC as [(G & _)|(_ & G)]; [auto|contradiction].
  - assert (EO : Z.odd N = true) by (rewrite <- Z.negb_even, EE; reflexivity).
    assert (EN : N = 2 * m + 1) by (unfold m; rewrite (Zdiv.Z_div_mod_eq_full N 2) at 1; rewrite Zmod_odd, EO; lia).
    assert (EV : class_OG m N = kstrict_in 0 m m) by (unfold class_OG; rewrite EE; fold m; change (kstrict_in (m - m) m (N - 1 - m) = kstrict_in 0 m m); f_equal; lia).
    destruct (rd_OGodd m N g Hg EO ltac:(lia)) as (mu & RD). pose proof (rd_cl _ _ _ _ RD) as SYS. assert (H1 : 1 <= 1 <= N - 1 - m) by lia.
    apply (deg_OG N m m g (fun i => 1 <= i <= N - 1 - m) mu); auto; [intros l; rewrite EV; tauto|apply (rd_V _ _ _ _ RD 1 H1)|apply (rd_spc _ _ _ _ RD 1 H1)|].
    intros l Hl. destruct (c44_OG' m N g 1 l Hg) as (r & c & E & EX & HC); [unfold m; lia|lia|auto|]. rewrite EE in HC. fold m in HC. replace (m - m) with 0 in HC by lia.
    assert (Ep : peq r (P (pieri_fun g) 1 l)) by (apply P_pieri; auto; exists (P (pieri_fun g) 1 l); apply (ps_ok _ _ _ _ _ _ _ SYS); auto).
    destruct EX as (X1 & X2). rewrite EV in *. split; [intros mo Hmo; rewrite <- (Ep mo) in Hmo; auto|]. intros x. rewrite <- (Ep _), X1. specialize (HC x).
    assert (HT : pieri_term 0 m 1 l x <-> kstrict_in 0 m m x /\ adds_horizontal_strip l x /\ size x = size l + 1).
    { unfold pieri_term. rewrite Z.sub_0_r, Z.add_0_r. split; intros (A & B & C); split; auto; split; auto; apply (arrow0 0); auto; try apply Hl; apply A. }
    rewrite <- HT. split.
    + intros G. destruct HC as [(_ & K & CC & _ & ->)|(G' & _)]; [|contradiction]. apply HT in G. destruct G as (A & B & C).
      rewrite (ONE l x 0 K) by (auto; try apply Hl; apply A). reflexivity.
    + intros Hc. destruct HC as [(G & _)|(_ & G)]; [auto|contradiction].
Qed.
