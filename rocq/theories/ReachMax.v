(** Maximal isotropic Grassmannians: a chain of Pieri terms leads from lam to nu
    exactly if the diagrams are nested. *)

From Coq Require Import ZArith List Lia Bool Permutation QArith Qcanon Setoid Morphisms.
From Verif Require Import Py OrderFacts PyFacts ModelPart ModelQcalc ModelPoly ModelStr ModelGr Spec SpecRing SpecPieri SpecReach
  PolyFacts SuppFacts OpTheory PartFacts ConvA ConjFacts PieriBKT PieriCoef PieriD QPieriD PresA WSum Sys Sys2 SysApi GrInv RingData ApiPieriP ApiRing ApiRingD
  DualSys ApiDual TopClass Reach ApiReach ReachQ.
Import ListNotations.
Open Scope Z_scope.

Lemma count_mono a b c : is_partition a -> is_partition b -> (forall j, part a j <= part b j) -> 1 <= c -> count_ge a c <= count_ge b c.
Proof.
  intros Ha Hb H Hc. destruct (Z_le_gt_dec (count_ge a c) (count_ge b c)) as [|Hg]; auto. exfalso.
  pose proof (count_ge_nonneg b c) as H0. set (r := count_ge b c) in *.
  assert (H1 := proj1 (count_iff a (Z.to_nat r) c Ha Hc) ltac:(lia)).
  assert (H2 := proj2 (count_iff b (Z.to_nat r) c Hb Hc)). specialize (H (Z.to_nat r)). fold r in H2. lia.
Qed.
Lemma arrow0 d a b : is_partition a -> is_partition b -> (pieri_arrow 0 d a b <-> adds_horizontal_strip a b).
Proof.
  intros Ha Hb. split.
  - intros ((nu & Hn & Hr & Hs) & _). assert (E : nu = a); [|rewrite <- E; auto]. apply partition_eq; auto.
    intros j. destruct (Hr j) as (H1 & H2). pose proof (is_partition_nonneg nu j Hn). destruct (Z.eq_dec (part nu j) (part a j)); auto. specialize (H2 ltac:(lia)). lia.
  - intros Hs. split; [|split].
    + exists a. split; auto. split; auto. intros j. lia.
    + intros c Hc. lia.
    + intros c Hc E. exfalso. pose proof (count_mono a b c Ha Hb (fun j => proj2 (Hs j)) Hc). lia.
Qed.

(** strict partitions with parts at most n *)
Section Strict.
Variables (R n : Z) (op : Z -> poly -> res poly).
Notation V := (kstrict_in 0 R n).
Hypothesis Hop : forall i l, 1 <= i <= n -> V l -> exists r, op i (pS l) = Ok r /\
  forall x, occurs r x <-> V x /\ adds_horizontal_strip l x /\ size x = size l + i.

Lemma up_strict l s : V l -> V s -> (forall j, part l j <= part s j) -> V (up l s).
Proof.
  intros Hl Hs Hn. split; [apply up_box; auto; [apply Hl|apply Hs]|].
  assert (U0 : part (up l s) 0 = part s 0) by (destruct s; reflexivity). pose proof (up_S R n l s (proj1 Hl) (proj1 Hs) Hn) as US.
  pose proof (proj2 Hl) as S1. pose proof (proj2 Hs) as S2.
  intros [|j] H; rewrite ?US, ?U0 in *.
  - specialize (S2 0%nat ltac:(lia)). lia.
  - specialize (S2 (S j)). specialize (S1 j). pose proof (proj2 (proj1 (proj1 Hs)) (S j)). pose proof (proj2 (proj1 (proj1 Hl)) j). lia.
Qed.
Lemma chain_strict lam nu : V lam -> V nu -> (chain op (fun i => 1 <= i <= n) lam nu <-> forall j, part lam j <= part nu j).
Proof.
  intros Hl Hn. split.
  - intros HC. assert (G : V nu /\ forall j, part lam j <= part nu j); [|apply G]. clear Hn.
    induction HC as [|y z i r HC IH Hi E Ho]; [split; auto; lia|]. destruct IH as (Hy & IH).
    destruct (Hop i y Hi Hy) as (p & E' & HS). rewrite E in E'. injection E' as <-.
    apply HS in Ho. destruct Ho as (Hz & Hs & _). split; auto. intros j. specialize (IH j). specialize (Hs j). lia.
  - remember (Z.to_nat (size nu - size lam)) as N eqn:EN. revert lam EN Hl. induction N as [N IH] using (well_founded_induction Wf_nat.lt_wf).
    intros lam -> Hl HN. destruct (list_eq_dec Z.eq_dec lam nu) as [->|Hne]; [apply chain_refl|].
    pose proof (proj1 Hl) as Bl. pose proof (proj1 Hn) as Bn.
    pose proof (up_strict lam nu Hl Hn HN) as Hu. pose proof (up_strip R n lam nu Bl Bn HN) as Us.
    pose proof (up_size R n lam nu Bl Bn HN) as Uz. pose proof (up_le R n lam nu Bl Bn HN) as Ul.
    assert (Ul' : forall j, part lam j <= part (up lam nu) j) by (intros j; apply (Us j)).
    destruct (strip_size lam (up lam nu) ltac:(apply Hl) ltac:(apply Hu) Ul') as (S1 & S2).
    destruct (strip_size (up lam nu) nu ltac:(apply Hu) ltac:(apply Hn) Ul) as (S3 & _).
    assert (S4 : size lam <> size (up lam nu)) by (intros E; apply Hne; apply (up_same R n lam nu Bl Bn HN); symmetry; auto).
    assert (Hp : part nu 0 <= n) by apply Hn.
    apply (chain_trans _ _ _ (up lam nu)); [|apply (IH (Z.to_nat (size nu - size (up lam nu)))); auto; lia].
    set (i := size (up lam nu) - size lam). assert (Hi : 1 <= i <= n) by (unfold i; lia).
    destruct (Hop i lam Hi Hl) as (p & E & HS). apply (chain_step _ _ _ lam _ i p); auto; [apply chain_refl|].
    apply HS. split; auto. split; auto. unfold i; lia.
Qed.
End Strict.


Lemma gen_nested V g op I : nonzero_law V (mult g) (dualize g) op I ->
  (forall lam nu, V lam -> V nu -> (chain op I lam nu <-> forall j, part lam j <= part nu j)) -> nested_law V (mult g) (dualize g).
Proof.
  intros HL HC lam mu Hl Hm. destruct (HL lam mu Hl Hm) as (r & d & nu & E1 & E2 & Hn & P & HE). exists r, d, nu.
  repeat (split; [assumption|]). rewrite HE. apply HC; auto.
Qed.
Lemma occurs0 r c x : expands0 r c -> (occurs r x <-> c x <> 0%Qc).
Proof.
  intros (H1 & H2). split.
  - intros (d & Hd). destruct (H2 _ Hd) as (y & E). unfold qS in E. destruct d; [|discriminate]. injection E as E. rewrite <- H1. exact Hd.
  - intros Hc. exists 0%nat. change (qS 0 x) with [vS x]. rewrite H1. auto.
Qed.

Lemma c71_LG N g : IsotropicGrassmannian (N / 2) N = Ok g -> 2 <= N -> nested_law (class_IG (N / 2) N) (mult g) (dualize g).
Proof.
  intros Hg HN2. pose proof Hg as Hg'. apply ig_inv in Hg'. destruct Hg' as (n & EN & En & _ & _). set (m := N / 2) in *.
  assert (Hm : 1 <= m) by lia.
  apply (gen_nested _ _ _ _ (c71_IG m N g Hg Hm)). intros lam nu Hl Hn.
  assert (EV : class_IG m N = kstrict_in 0 m m) by (change (class_IG m N) with (kstrict_in (N / 2 - m) m (N - m)); fold m; f_equal; lia).
  rewrite EV in *. replace (N - m) with m by lia. apply (chain_strict m m); auto.
  intros i l Hi Hl'. destruct (c44_IG' m N g i l Hg) as (r & c & E & EX & HC); [rewrite EV; auto|]. exists r. split; auto. intros x.
  fold m in HC. replace (m - m) with 0 in HC by lia. specialize (HC x). rewrite (occurs0 _ _ x EX).
  assert (HT : pieri_term 0 m i l x <-> kstrict_in 0 m m x /\ adds_horizontal_strip l x /\ size x = size l + i).
  { unfold pieri_term. rewrite Z.sub_0_r, Z.add_0_r. split; intros (A & B & C); split; auto; split; auto.
    - apply (arrow0 0); auto; [apply Hl'|apply A].
    - apply (arrow0 0); auto; [apply Hl'|apply A]. }
  rewrite <- HT. split; [|intros G; eapply term_IG; eauto]. intros Hc. destruct HC as [(G & _)|(_ & G)]; [auto|contradiction].
Qed.
Lemma c71_OGmax N g : OrthogonalGrassmannian (N / 2) N = Ok g -> 3 <= N -> nested_law (class_OG (N / 2) N) (mult g) (dualize g).
Proof.
  intros Hg HN3. set (m := N / 2) in *. destruct (Z.even N) eqn:EE.
  - assert (EN : N = 2 * m) by (unfold m; rewrite (Zdiv.Z_div_mod_eq_full N 2) at 1; rewrite Zmod_even, EE; lia).
    apply (gen_nested _ _ _ _ (c71_OGeven m N g Hg EE ltac:(lia) ltac:(lia))). intros lam nu Hl Hn.
    assert (EV : forall x, class_OG m N x <-> kstrict_in 0 m (m - 1) x).
    { intros x. unfold class_OG. rewrite EE. fold m. change (typed_in (m - m) m (N - 1 - m) x <-> kstrict_in 0 m (m - 1) x).
      replace (m - m) with 0 by lia. replace (N - 1 - m) with (m - 1) by lia. split; [|left; auto]. intros [G|(_ & _ & G & _)]; auto. lia. }
    assert (EI : forall x y, chain (pieri g) (index_even m N) x y <-> chain (pieri g) (fun i => 1 <= i <= m - 1) x y).
    { intros x y. split; intros G; induction G; [apply chain_refl|eapply chain_step; eauto|apply chain_refl|eapply chain_step; eauto]; unfold index_even in *; lia. }
    rewrite EI. apply EV in Hl, Hn. apply (chain_strict m (m - 1)); auto.
    intros i l Hi Hl'. destruct (c44_OG' m N g i l Hg) as (r & c & E & EX & HC); [unfold m; lia|lia|apply EV; auto|]. exists r. split; auto. intros x.
    specialize (HC x). rewrite EE in HC. fold m in HC. replace (m - m) with 0 in HC by lia. rewrite (occurs0 _ _ x EX).
    assert (T0 : forall y, kstrict_in 0 m (m - 1) y -> shape y = y /\ type_of 0 y = 0).
    { intros y Hy. split; [apply shape_partition, Hy|]. unfold type_of. destruct (existsb (Z.eqb 0) y) eqn:X; auto. apply in_existsb in X. exfalso.
      destruct (In_nth _ _ 0 X) as (j & Hj & Ej). pose proof (proj1 (proj1 (proj1 Hy)) j Hj). unfold part in *. lia. }
    assert (HT : pieri_term_D 0 (m - 1) i l x <-> kstrict_in 0 m (m - 1) x /\ adds_horizontal_strip l x /\ size x = size l + i).
    { unfold pieri_term_D. rewrite Z.sub_0_r, Z.add_0_r, Z.abs_eq by lia. replace (m - 1 + 1) with m by lia. destruct (T0 l Hl') as (-> & ->). split.
      - intros (A & B & C & _). assert (A' : kstrict_in 0 m (m - 1) x) by (destruct A as [|(_ & _ & G & _)]; auto; lia).
        destruct (T0 x A') as (S' & _). rewrite S' in C. split; auto. split; auto. apply (arrow0 1); auto; [apply Hl'|apply A'].
      - intros (A & B & C). destruct (T0 x A) as (-> & ->). split; [left; auto|]. split; auto. split; [|lia]. apply (arrow0 1); auto; [apply Hl'|apply A]. }
    rewrite <- HT. split.
    + intros Hc. destruct HC as [(G & _)|(_ & G)]; [auto|contradiction].
    + intros G. destruct HC as [(_ & M & _ & H1 & ->)|(G' & _)]; [|contradiction]. specialize (H1 ltac:(lia)). unfold mult_D.
      replace (Z.abs i <? 0) with false by lia. replace (0 <? M) with true by lia. apply two_to_neq. lia.
  - assert (EO : Z.odd N = true) by (rewrite <- Z.negb_even, EE; reflexivity).
    assert (EN : N = 2 * m + 1) by (unfold m; rewrite (Zdiv.Z_div_mod_eq_full N 2) at 1; rewrite Zmod_odd, EO; lia).
    apply (gen_nested _ _ _ _ (c71_OGodd m N g Hg EO ltac:(lia))). intros lam nu Hl Hn.
    assert (EV : class_OG m N = kstrict_in 0 m m) by (unfold class_OG; rewrite EE; fold m; change (kstrict_in (m - m) m (N - 1 - m) = kstrict_in 0 m m); f_equal; lia).
    rewrite EV in *. replace (N - 1 - m) with m by lia. apply (chain_strict m m); auto.
    intros i l Hi Hl'. destruct (c44_OG' m N g i l Hg) as (r & c & E & EX & HC); [unfold m; lia|lia|rewrite EV; auto|]. exists r. split; auto. intros x.
    specialize (HC x). rewrite EE in HC. fold m in HC. replace (m - m) with 0 in HC by lia. rewrite (occurs0 _ _ x EX).
    assert (HT : pieri_term 0 m i l x <-> kstrict_in 0 m m x /\ adds_horizontal_strip l x /\ size x = size l + i).
    { unfold pieri_term. rewrite Z.sub_0_r, Z.add_0_r. split; intros (A & B & C); split; auto; split; auto.
      - apply (arrow0 0); auto; [apply Hl'|apply A].
      - apply (arrow0 0); auto; [apply Hl'|apply A]. }
    rewrite <- HT. split; [|intros G; eapply term_OG; eauto]. intros Hc. destruct HC as [(G & _)|(_ & G)]; [auto|contradiction].
Qed.
