(** The product of the special class of degree [p] and the class of [t] for a
    partition [p :: t]: the leading term is the class of [p :: t], with coefficient 1. *)

From Coq Require Import ZArith List Lia Bool.
From Verif Require Import Py PyFacts ModelPart ModelQcalc Spec SpecPieri Enum FillFacts PartFacts ConjFacts PairFacts CompsFacts CompsBound.
Import ListNotations.
Open Scope Z_scope.

Lemma size_le a : forall b, (forall j, 0 <= part a j <= part b j) ->
  size a <= size b /\ (size a = size b -> forall j, part a j = part b j).
Proof.
  induction a as [|x a IH]; intros b H.
  - assert (Hb : forall b, (forall j, 0 <= part b j) -> 0 <= size b /\ (size b = 0 -> forall j, part b j = 0)).
    { clear. induction b as [|y b IH]; intros H; [split; [cbn; lia|]; intros _ j; destruct j; reflexivity|].
      destruct IH as [I1 I2]; [intros j; apply (H (S j))|]. specialize (H 0%nat). unfold part in H. cbn in H. cbn [size fold_right].
      fold (size b). split; [lia|]. intros E j. destruct j; [unfold part; cbn; lia|]. apply (I2 ltac:(lia) j). }
    destruct (Hb b) as [B1 B2]; [intros j; specialize (H j); lia|]. cbn [size fold_right]. split; auto.
    intros E j. rewrite B2 by lia. unfold part. destruct j; reflexivity.
  - destruct b as [|y b].
    + destruct (IH []) as [I1 I2]; [intros j; specialize (H (S j)); unfold part in *; destruct j; cbn in *; lia|].
      pose proof (H 0%nat) as H0. unfold part in H0. cbn in H0. cbn [size fold_right] in *. fold (size a) in *. split; [lia|].
      intros E j. destruct j; [unfold part; cbn; lia|]. change (part (x :: a) (S j)) with (part a j). rewrite (I2 ltac:(lia) j). unfold part. destruct j; reflexivity.
    + destruct (IH b) as [I1 I2]; [intros j; apply (H (S j))|].
      pose proof (H 0%nat) as H0. unfold part in H0. cbn in H0. cbn [size fold_right] in *. fold (size a) (size b) in *. split; [lia|].
      intros E j. destruct j; [unfold part; cbn; lia|]. apply (I2 ltac:(lia) j).
Qed.
Lemma partition_dec l j : is_partition l -> part l j <= part l 0.
Proof. intros [_ H]. induction j as [|j IH]; [lia|]. specialize (H j). lia. Qed.

Lemma partition_tl x t : is_partition (x :: t) -> is_partition t /\ 0 < x /\ part t 0 <= x.
Proof.
  intros [H1 H2]. split; [split|split].
  - intros j Hj. apply (H1 (S j)). cbn. lia.
  - intros j. apply (H2 (S j)).
  - apply (H1 0%nat). cbn. lia.
  - apply (H2 0%nat).
Qed.

Lemma arrow_head k d p t mu : is_partition t -> is_partition mu -> pieri_arrow k d t mu -> size mu = size t + p -> 0 < p ->
  p <= part mu 0 /\ (part mu 0 = p -> mu = p :: t).
Proof.
  intros Ht Hmu ((nu & Hnu & H1 & H2) & _) Hs Hp.
  destruct mu as [|x mu]; [cbn in Hs; pose proof (size_le [] t ltac:(intros j; pose proof (is_partition_nonneg t j Ht); unfold part in *; destruct j; cbn in *; lia)) as [Hx _]; cbn [size fold_right] in *; lia|].
  destruct (partition_tl x mu Hmu) as (Hmu' & Hx & _).
  destruct (size_le mu t) as [A B].
  { intros j. split; [apply is_partition_nonneg; auto|]. specialize (H2 j). specialize (H1 j). change (part (x :: mu) (S j)) with (part mu j) in H2. lia. }
  change (part (x :: mu) 0) with x. cbn [size fold_right] in Hs. fold (size mu) in Hs. split; [lia|]. intros ->. f_equal.
  apply partition_eq; auto. apply B. lia.
Qed.

Section R.
Variables (k d p : Z) (t : list Z).
Hypothesis Hk : 0 <= k.
Hypothesis Hd : d = 0 \/ d = 1.
Notation l := (p :: t).
Hypothesis Hl : is_partition l.
Hypothesis Hstr : kstrict k l.

Lemma cge c : count_ge l c = (if c <=? p then 1 else 0) + count_ge t c.
Proof. apply count_ge_cons. Qed.

Lemma arrow_tl : pieri_arrow k d t l.
Proof.
  destruct (partition_tl p t Hl) as (Ht & Hp & Hh). split; [|split].
  - exists t. split; auto. split.
    + intros j. split; [lia|]. lia.
    + intros j. destruct Hl as [_ H2]. specialize (H2 j). split; [apply Z.le_refl|]. exact H2.
  - intros c Hc E x y Hx Hy Rx Ry. exfalso. rewrite cge in E. destruct (Z.leb_spec c p) as [|Hcp]; [lia|].
    destruct Hx as (Hx & _). unfold in_diagram in Hx.
    assert (Hx2 : snd x <= p).
    { destruct Hx as (_ & _ & Hx). pose proof (partition_dec l (Z.to_nat (fst x - 1)) Hl) as Hdec. change (part l 0) with p in Hdec. lia. }
    unfold related, bottom_box in Rx. cbn [fst snd] in Rx. rewrite cge in Rx. replace (c <=? p) with false in Rx by lia.
    assert (Ec : count_ge t c = 0).
    { destruct (Z.eq_dec (count_ge t c) 0) as [|Hne]; auto. pose proof (count_ge_nonneg t c).
      pose proof (proj1 (count_iff t 0 c Ht ltac:(lia)) ltac:(lia)). lia. }
    rewrite Ec in Rx. destruct Hd; subst d; lia.
  - intros c Hc E. exfalso. rewrite cge in E. destruct (c <=? p); lia.
Qed.

(** the added boxes are the bottom boxes of the columns *)
Lemma added_tl x : added t l x <-> 1 <= snd x <= p /\ fst x = count_ge l (snd x).
Proof.
  destruct (partition_tl p t Hl) as (Ht & Hp & Hh). destruct x as [r c]. unfold added, in_diagram. cbn [fst snd].
  split.
  - intros ((H1 & H2) & H3).
    assert (Hc : c <= p) by (pose proof (partition_dec l (Z.to_nat (r - 1)) Hl) as Hdec; change (part l 0) with p in Hdec; lia).
    split; [lia|]. pose proof (count_iff l (Z.to_nat (r - 1)) c Hl ltac:(lia)). pose proof (count_iff t (Z.to_nat (r - 1)) c Ht ltac:(lia)).
    rewrite cge in *. replace (c <=? p) with true in * by lia. lia.
  - intros (H1 & ->). pose proof (count_ge_nonneg t c). pose proof (count_iff l (Z.to_nat (count_ge l c - 1)) c Hl ltac:(lia)) as E1.
    pose proof (count_iff t (Z.to_nat (count_ge l c - 1)) c Ht ltac:(lia)) as E2. rewrite cge in *. replace (c <=? p) with true in * by lia. lia.
Qed.
Lemma free_tl x : free_box k d t l x <-> k < snd x <= p /\ fst x = count_ge l (snd x).
Proof.
  unfold free_box. rewrite added_tl. split; [lia|]. intros (H1 & H2). split; [lia|]. split; [lia|].
  intros (c & r & Hc & Hr & _). rewrite cge in Hr. replace (c <=? p) with true in Hr by lia. lia.
Qed.
Lemma con_tl c : k < c <= p -> connected (free_box k d t l) (count_ge l (k + 1), k + 1) (count_ge l c, c).
Proof.
  intros Hc. destruct (partition_tl p t Hl) as (Ht & Hp & Hh).
  assert (G : forall m, 0 <= m -> k + 1 + m <= p -> connected (free_box k d t l) (count_ge l (k + 1), k + 1) (count_ge l (k + 1 + m), k + 1 + m)).
  { apply (natlike_ind (fun m => k + 1 + m <= p -> connected (free_box k d t l) (count_ge l (k + 1), k + 1) (count_ge l (k + 1 + m), k + 1 + m))).
    - intros _. rewrite Z.add_0_r. apply con_refl. apply free_tl. cbn. lia.
    - intros m Hm IH Hle. apply (con_step _ _ (count_ge l (k + 1 + m), k + 1 + m)); [apply IH; lia|apply free_tl; cbn; lia|].
      split; cbn [fst snd]; [|lia]. set (c1 := k + 1 + m). replace (k + 1 + Z.succ m) with (c1 + 1) by (unfold c1; lia).
      pose proof (count_ge_mono l c1 (c1 + 1) ltac:(lia)) as M1. 
      destruct (Z.le_gt_cases (count_ge l c1) (count_ge l (c1 + 1) + 1)) as [|Hbig]; [lia|]. exfalso.
      pose proof (count_ge_nonneg l (c1 + 1)) as Hnn. set (h := count_ge l (c1 + 1)) in *.
      pose proof (proj1 (count_iff l (Z.to_nat h) c1 Hl ltac:(unfold c1; lia)) ltac:(lia)) as E1.
      pose proof (proj1 (count_iff l (S (Z.to_nat h)) c1 Hl ltac:(unfold c1; lia)) ltac:(lia)) as E2.
      assert (E3 : part l (Z.to_nat h) < c1 + 1).
      { destruct (Z.lt_ge_cases (part l (Z.to_nat h)) (c1 + 1)) as [|E3]; auto. exfalso.
        pose proof (proj2 (count_iff l (Z.to_nat h) (c1 + 1) Hl ltac:(unfold c1; lia)) E3). fold h in H. lia. }
      specialize (Hstr (Z.to_nat h) ltac:(unfold c1 in *; lia)). lia. }
  specialize (G (c - k - 1) ltac:(lia) ltac:(lia)). replace (k + 1 + (c - k - 1)) with c in G by lia. exact G.
Qed.
Lemma con_sym A x y : connected A x y -> connected A y x.
Proof.
  assert (Ha : forall x y, connected A x y -> A x) by (induction 1; auto).
  assert (Hb : forall x y, connected A x y -> A y) by (destruct 1; auto).
  assert (Htr : forall x y z, touching y x -> connected A y z -> A x -> connected A x z).
  { intros x' y' z' Ht Hc Hx. induction Hc as [y' Hy|y' z' u Hc IH Hu Htu].
    - eapply con_step; [apply con_refl; auto|auto|]. unfold touching in *. lia.
    - eapply con_step; [apply IH; auto|auto|auto]. }
  induction 1 as [x Hx|x y z Hc IH Hz Ht]; [apply con_refl; auto|]. apply (Htr z y x); auto.
Qed.
Lemma comps_tl_C : component_count (free_box k d t l) (fun x => snd x <> k + 1) 0.
Proof.
  exists []. split; [reflexivity|]. split; [constructor|]. split; [intros x []|]. split; [intros x y []|].
  intros [r c] (Hx & Hg). exfalso. pose proof Hx as Hx'. apply free_tl in Hx. cbn [fst snd] in Hx. destruct Hx as (Hc & Er). subst r.
  apply (Hg (count_ge l (k + 1), k + 1)); [|reflexivity]. apply con_sym. apply con_tl. auto.
Qed.
Lemma comps_tl_B : component_count (free_box k d t l) (fun _ => True) (if p <=? k then 0 else 1).
Proof.
  destruct (Z.leb_spec p k) as [Hpk|Hpk].
  - exists []. split; [reflexivity|]. split; [constructor|]. split; [intros x []|]. split; [intros x y []|].
    intros x (Hx & _). apply free_tl in Hx. lia.
  - exists [(count_ge l (k + 1), k + 1)]. split; [reflexivity|]. split; [constructor; [simpl; tauto|constructor]|].
    split; [|split].
    + intros x [<-|[]]. split; auto. apply free_tl. cbn. lia.
    + intros x y [<-|[]] [<-|[]] _. auto.
    + intros [r c] (Hx & _). apply free_tl in Hx. cbn [fst snd] in Hx. destruct Hx as (Hc & ->). eexists. split; [left; reflexivity|]. apply con_tl. auto.
Qed.
End R.
