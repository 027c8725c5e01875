(** Conversions of type A: part2index, index2part, dualize. *)

From Coq Require Import ZArith List Lia Bool Permutation QArith Qcanon Setoid Morphisms.
From Verif Require Import Py OrderFacts ModelPart ModelQcalc ModelPoly ModelStr ModelGr Spec
  PolyFacts SuppFacts PyFacts PartFacts Conv RingA FactsA.
Import ListNotations.
Open Scope Z_scope.

Section A.
Variables m k : Z.
Hypothesis Hm : 0 <= m.
Hypothesis Hk : 0 <= k.
Let g := gA m k.

Definition idxA (lam : list Z) : list Z := map (fun j => k + j - part lam (Z.to_nat j) + 1) (zrange 0 m).
Definition prtA (idx : list Z) : list Z :=
  part_clip (map (fun j => k + j + 1 - part idx (Z.to_nat j)) (zrange 0 m)).

Lemma part2indexA_ok lam : in_box m k lam -> part2indexA_inner lam k (m + k) = Ok (idxA lam).
Proof.
  intros (Hp & Hl & _). unfold part2indexA_inner, idxA. replace (m + k - k) with m by lia.
  apply mapM_ok. intros j Hj. apply in_zrange in Hj.
  rewrite (py_get_in _ _ 0) by (rewrite zlen_app, zlen_repz by auto; unfold zlen; lia).
  change (nth (Z.to_nat j) (lam ++ repz 0 m) 0) with (part (lam ++ repz 0 m) (Z.to_nat j)).
  rewrite part_app0. reflexivity.
Qed.

Lemma index2partA_ok idx : index_set m (m + k) idx -> index2partA_inner idx k (m + k) = Ok (prtA idx).
Proof.
  intros (Hl & _). unfold index2partA_inner, prtA. replace (m + k - k) with m by lia.
  erewrite mapM_ok; [reflexivity|]. intros j Hj. apply in_zrange in Hj. cbv beta.
  rewrite (py_get_in _ _ 0) by (unfold zlen; lia). reflexivity.
Qed.

Lemma length_idxA lam : length (idxA lam) = Z.to_nat m.
Proof. unfold idxA. rewrite map_length, length_zrange. f_equal. lia. Qed.
Lemma part_idxA lam j : (j < Z.to_nat m)%nat -> part (idxA lam) j = k + Z.of_nat j - part lam j + 1.
Proof. intros H. unfold idxA. rewrite part_map_zrange by auto. rewrite Nat2Z.id. auto. Qed.

Lemma part_dec_le l i j : is_partition l -> (i <= j)%nat -> part l j <= part l i.
Proof. intros [_ H] Hij. induction Hij; [lia|]. specialize (H m0). lia. Qed.

Lemma idxA_set lam : in_box m k lam -> index_set m (m + k) (idxA lam).
Proof.
  intros (Hp & Hl & H0). split; [|split]; rewrite length_idxA.
  - lia.
  - intros i Hi. rewrite part_idxA by auto.
    pose proof (part_dec_le lam 0 i Hp ltac:(lia)). pose proof (is_partition_nonneg lam i Hp). lia.
  - intros i j Hij. rewrite !part_idxA by lia. pose proof (part_dec_le lam i j Hp ltac:(lia)). lia.
Qed.

Lemma part_prtA idx j : (j < Z.to_nat m)%nat -> part (prtA idx) j = k + Z.of_nat j + 1 - part idx j.
Proof.
  intros H. unfold prtA. rewrite part_clip_part, part_map_zrange by auto. rewrite Nat2Z.id. auto.
Qed.

Lemma index_gap idx i j : index_set m (m + k) idx -> (i <= j < Z.to_nat m)%nat ->
  part idx i + (Z.of_nat j - Z.of_nat i) <= part idx j.
Proof.
  intros (Hl & Hr & Hi) [Hij Hj]. induction Hij as [|j Hij IH]; [lia|].
  assert (part idx j < part idx (S j)) by (apply Hi; lia). specialize (IH ltac:(lia)). lia.
Qed.

Lemma prtA_box idx : index_set m (m + k) idx -> in_box m k (prtA idx).
Proof.
  intros H. pose proof H as (Hl & Hr & Hi). unfold prtA. destruct (Z.eq_dec m 0) as [E0|E0].
  { rewrite E0 at 2. apply in_box_nil; lia. }
  apply wbox_in_box; auto.
  assert (Lw : zlen (map (fun j => k + j + 1 - part idx (Z.to_nat j)) (zrange 0 m)) = m)
    by (rewrite zlen_map, zlen_zrange; lia).
  apply wbox_part; [lia|auto|]. split; [exact Lw|].
  assert (Ln : length (map (fun j => k + j + 1 - part idx (Z.to_nat j)) (zrange 0 m)) = Z.to_nat m)
    by (unfold zlen in Lw; lia).
  rewrite Ln. split; intros j Hj; rewrite !part_map_zrange by lia; rewrite !Nat2Z.id.
  - pose proof (index_gap idx 0 j H ltac:(lia)). pose proof (index_gap idx j (Z.to_nat m - 1) H ltac:(lia)).
    pose proof (Hr O ltac:(lia)). pose proof (Hr (Z.to_nat m - 1)%nat ltac:(lia)). lia.
  - pose proof (index_gap idx j (S j) H ltac:(lia)). lia.
Qed.

Lemma box_eq a b : in_box m k a -> in_box m k b -> (forall j, (j < Z.to_nat m)%nat -> part a j = part b j) -> a = b.
Proof.
  intros Ha Hb H. rewrite <- (clip_padm m k a Ha), <- (clip_padm m k b Hb). f_equal.
  pose proof (in_box_wbox _ _ _ Ha) as [_ La]. pose proof (in_box_wbox _ _ _ Hb) as [_ Lb]. unfold zlen in *.
  apply list_part_eq; [lia|]. intros j Hj. rewrite !part_padm. apply H. lia.
Qed.

Lemma prtA_idxA lam : in_box m k lam -> prtA (idxA lam) = lam.
Proof.
  intros H. apply box_eq; auto.
  - apply prtA_box, idxA_set; auto.
  - intros j Hj. rewrite part_prtA, part_idxA by auto. lia.
Qed.
Lemma idxA_prtA idx : index_set m (m + k) idx -> idxA (prtA idx) = idx.
Proof.
  intros (Hl & H). apply list_part_eq; rewrite length_idxA; [lia|].
  intros j Hj. rewrite part_idxA, part_prtA by auto. lia.
Qed.

Lemma index_nonneg n idx : index_set m n idx -> nonneg idx.
Proof.
  intros (Hl & H & _). apply Forall_forall. intros x Hx. apply (In_nth _ _ 0) in Hx.
  destruct Hx as (i & Hi & <-). specialize (H i Hi). unfold part in H. lia.
Qed.
Lemma box_nonneg l : in_box m k l -> nonneg l.
Proof.
  intros (H & _). apply Forall_forall. intros x Hx. apply (In_nth _ _ 0) in Hx.
  destruct Hx as (i & Hi & <-). apply (is_partition_nonneg l i H).
Qed.

Lemma p2iA s : on_list (in_box m k) s ->
  on_part (fun lam => a <- part2indexA_inner lam k (m + k) ;; ret_schur (SP a)) s = Ok (pvar (VS (hl idxA s))) /\
  on_list (index_set m (m + k)) (hl idxA s).
Proof.
  apply (on_part_conv (fun lam => part2indexA_inner lam k (m + k))).
  - intros l Hl. split; [apply part2indexA_ok | apply idxA_set]; auto.
  - apply index_nonneg.
Qed.
Lemma i2pA s : on_list (index_set m (m + k)) s ->
  on_part (fun idx => a <- index2partA_inner idx k (m + k) ;; ret_schur (SP a)) s = Ok (pvar (VS (hl prtA s))) /\
  on_list (in_box m k) (hl prtA s).
Proof.
  apply (on_part_conv (fun lam => index2partA_inner lam k (m + k))).
  - intros l Hl. split; [apply index2partA_ok | apply prtA_box]; auto.
  - apply box_nonneg.
Qed.

Definition didx (idx : list Z) : list Z := map (fun x => m + k + 1 - x) (rev idx).
Lemma part_didx idx j : (j < length idx)%nat -> part (didx idx) j = m + k + 1 - part idx (length idx - 1 - j).
Proof.
  intros Hj. unfold part, didx.
  rewrite (nth_indep _ 0 ((fun x => m + k + 1 - x) 0)) by (rewrite map_length, rev_length; auto).
  rewrite (map_nth (fun x => m + k + 1 - x)), rev_nth by auto. do 2 f_equal. lia.
Qed.
Lemma length_didx idx : length (didx idx) = length idx.
Proof. unfold didx. rewrite map_length, rev_length. auto. Qed.
Lemma didx_set idx : index_set m (m + k) idx -> index_set m (m + k) (didx idx).
Proof.
  intros (Hl & Hr & Hi). split; [|split]; rewrite length_didx; auto.
  - intros i Hi'. rewrite part_didx by auto. specialize (Hr (length idx - 1 - i)%nat ltac:(lia)). lia.
  - intros i j Hij. rewrite !part_didx by lia.
    specialize (Hi (length idx - 1 - j)%nat (length idx - 1 - i)%nat ltac:(lia)). lia.
Qed.

Lemma dual_idx lam : in_box m k lam -> complementary m k lam (prtA (didx (idxA lam))).
Proof.
  intros H j Hj. rewrite part_prtA by lia. rewrite part_didx by (rewrite length_idxA; lia).
  rewrite length_idxA. rewrite part_idxA by lia.
  replace (Z.to_nat m - 1 - Z.to_nat (m - 1 - Z.of_nat j))%nat with j by lia. lia.
Qed.

(** the complement is unique *)
Lemma complementary_unique lam mu mu' : in_box m k mu -> in_box m k mu' ->
  complementary m k lam mu -> complementary m k lam mu' -> mu = mu'.
Proof.
  intros H H' C C'. apply box_eq; auto. intros j Hj.
  specialize (C (Z.to_nat m - 1 - j)%nat ltac:(lia)). specialize (C' (Z.to_nat m - 1 - j)%nat ltac:(lia)).
  replace (Z.to_nat (m - 1 - Z.of_nat (Z.to_nat m - 1 - j))) with j in * by lia. lia.
Qed.
Lemma complementary_sym lam mu : complementary m k lam mu -> complementary m k mu lam.
Proof.
  intros C j Hj. specialize (C (Z.to_nat (m - 1 - Z.of_nat j)) ltac:(lia)).
  replace (Z.to_nat (m - 1 - Z.of_nat (Z.to_nat (m - 1 - Z.of_nat j)))) with j in C by lia. lia.
Qed.

Definition dlz (l : list Z) := prtA (didx (idxA l)).
Lemma dlz_box l : in_box m k l -> in_box m k (dlz l).
Proof. intros. apply prtA_box, didx_set, idxA_set; auto. Qed.
Lemma dlz_dlz l : in_box m k l -> dlz (dlz l) = l.
Proof.
  intros H. apply (complementary_unique (dlz l)); auto using dlz_box.
  - apply dual_idx, dlz_box; auto.
  - apply complementary_sym, dual_idx; auto.
Qed.

Lemma dualize_ok p : expr_in (on_list (in_box m k)) p ->
  exists r, dualize g p = Ok r /\ peq r (psubst (ren (hl dlz)) p) /\ expr_in (on_list (in_box m k)) r.
Proof.
  intros Hp. unfold dualize, part2index, index2part. subst g. cbn [g_type g_k g_n gA ambient_N].
  destruct (conv_ok _ _ _ _ p p2iA Hp) as (x & E1 & P1 & W1). rewrite E1. cbn [bind].
  destruct (conv_ok _ _ _ _ x (on_part_conv_pure didx (index_set m (m + k)) (index_set m (m + k)) didx_set (index_nonneg _)) W1)
    as (y & E2 & P2 & W2).
  change (fun idx => ret_schur (SP (dualize_index_inner idx (m + k) TA))) with (fun idx => ret_schur (SP (didx idx))).
  rewrite E2. cbn [bind].
  destruct (conv_ok _ _ _ _ y i2pA W2) as (r & E3 & P3 & W3). exists r. split; [exact E3|].
  split; auto. rewrite P3, P2, P1, !ren_comp. apply psubst_ext. intros mo c v _ _.
  destruct v as [[l|]| | |]; reflexivity.
Qed.

Lemma size_complement lam mu : in_box m k lam -> in_box m k mu -> complementary m k lam mu ->
  size lam + size mu = m * k.
Proof.
  intros Hl Hmu C. rewrite (size_zsum lam), (size_zsum mu), <- (zsum_padm m lam), <- (zsum_padm m mu).
  pose proof (in_box_wbox _ _ _ Hl) as [_ La]. pose proof (in_box_wbox _ _ _ Hmu) as [_ Lb].
  assert (E : padm m mu = cw k (padm m lam)).
  { unfold zlen in *. assert (Lc : length (cw k (padm m lam)) = length (padm m lam)).
    { unfold cw. rewrite rev_length, map_length. auto. }
    apply list_part_eq; [lia|]. intros j Hj. rewrite part_cw by lia. rewrite !part_padm.
    specialize (C (Z.to_nat m - 1 - j)%nat ltac:(lia)).
    replace (Z.to_nat (m - 1 - Z.of_nat (Z.to_nat m - 1 - j))) with j in C by lia.
    replace (length (padm m lam) - 1 - j)%nat with (Z.to_nat m - 1 - j)%nat by lia. lia. }
  rewrite E, zsum_cw, La. lia.
Qed.

End A.
