(** Removing one box from a partition. *)

From Coq Require Import ZArith List Lia Bool QArith Qcanon.
From Verif Require Import Py OrderFacts PyFacts ModelPart Spec SpecDegree PartFacts ConjFacts Transfer PartialFrac DegreeAlg.
Import ListNotations.
Open Scope Z_scope.

(** row i loses a box; the rows are counted up to M *)
Definition low (M : Z) (i : nat) (nu : list Z) : list Z := part_clip (dec i (padm M nu)).
Definition lows (M : Z) (nu : list Z) : list (list Z) := map (fun i => low M i nu) (seq 0 (Z.to_nat M)).

Lemma padm_len M nu : zlen nu <= M -> length (padm M nu) = Z.to_nat M.
Proof. intros H. unfold padm, repz. rewrite app_length, repeat_length. unfold zlen in *. lia. Qed.
Lemma part_high nu j : (length nu <= j)%nat -> part nu j = 0.
Proof. intros H. unfold part. apply nth_overflow. auto. Qed.
Lemma part_dec i l j : part (dec i l) j = if (j <? length l)%nat then part l j - (if Nat.eqb j i then 1 else 0) else 0.
Proof.
  destruct (Nat.ltb_spec j (length l)) as [H|H].
  - unfold part. apply nth_dec. auto.
  - apply part_high. rewrite dec_length. auto.
Qed.
Lemma part_low M i nu j : zlen nu <= M -> (i < Z.to_nat M)%nat -> part (low M i nu) j = part nu j - (if Nat.eqb j i then 1 else 0).
Proof.
  intros HM Hi. unfold low. rewrite part_clip_part, part_dec, padm_len, part_padm by auto. destruct (Nat.ltb_spec j (Z.to_nat M)) as [H|H]; [reflexivity|].
  rewrite part_high by (unfold zlen in *; lia). destruct (Nat.eqb_spec j i); lia.
Qed.
Lemma lows_nodup M nu : zlen nu <= M -> NoDup (lows M nu).
Proof.
  intros HM. unfold lows. assert (G : forall s, NoDup s -> (forall i, In i s -> (i < Z.to_nat M)%nat) -> NoDup (map (fun i => low M i nu) s)).
  - induction 1 as [|i s Hi Hs IH]; intros HB; constructor; [|apply IH; intros; apply HB; simpl; auto].
    intros HI. apply in_map_iff in HI. destruct HI as (j & E & Hj). assert (E' : part (low M j nu) i = part (low M i nu) i) by (rewrite E; auto).
    rewrite !part_low in E' by (auto; apply HB; simpl; auto). rewrite Nat.eqb_refl in E'. destruct (Nat.eqb_spec i j); [subst; auto|lia].
  - apply G; [apply seq_NoDup|]. intros i Hi. apply in_seq in Hi. lia.
Qed.
Lemma zsum_dec i l : (i < length l)%nat -> zsum (dec i l) = zsum l - 1.
Proof. intros Hi. destruct (list_mid l i Hi) as (a & b & El & Ea). set (y := nth i l 0) in *. clearbody y. subst. rewrite dec_mid, !zsum_app. change (zsum (y :: b)) with (y + zsum b). change (zsum (y - 1 :: b)) with (y - 1 + zsum b). lia. Qed.
Lemma size_low M i nu : zlen nu <= M -> (i < Z.to_nat M)%nat -> size (low M i nu) = size nu - 1.
Proof.
  intros HM Hi. rewrite (size_zsum (low M i nu)), (size_zsum nu). unfold low. rewrite zsum_clip, zsum_dec by (rewrite padm_len; auto). unfold padm. rewrite zsum_app.
  assert (E : zsum (repz 0 (M - zlen nu)) = 0) by (unfold repz; generalize (Z.to_nat (M - zlen nu)) as c; induction c; simpl; auto). lia.
Qed.
Lemma lows_in M nu l : In l (lows M nu) -> exists i, (i < Z.to_nat M)%nat /\ l = low M i nu.
Proof. intros H. apply in_map_iff in H. destruct H as (i & E & Hi). apply in_seq in Hi. exists i. split; [lia|auto]. Qed.

Lemma one_box (a b : list Z) : length a = length b -> (forall j, part a j <= part b j) -> zsum b = zsum a + 1 ->
  exists i, (i < length b)%nat /\ forall j, part a j = part b j - (if Nat.eqb j i then 1 else 0).
Proof.
  revert b. induction a as [|x a IH]; intros [|y b]; intros E H HS; try discriminate.
  injection E as E. change (y + zsum b = x + zsum a + 1) in HS.
  assert (H' : forall j, part a j <= part b j) by (intros j; apply (H (S j))). specialize (H 0%nat). change (x <= y) in H.
  assert (G : forall a b, length a = length b -> (forall j, part a j <= part b j) -> zsum a <= zsum b /\ (zsum a = zsum b -> forall j, part a j = part b j)).
  { clear. induction a as [|x a IH]; intros [|y b]; intros E H; try discriminate; [split; [lia|]; auto|].
    injection E as E. destruct (IH b E (fun j => H (S j))) as (I1 & I2). specialize (H 0%nat). change (x <= y) in H. change (zsum (x :: a)) with (x + zsum a). change (zsum (y :: b)) with (y + zsum b).
    split; [lia|]. intros HS [|j]; [change (x = y); lia|]. apply I2. lia. }
  destruct (G a b E H') as (G1 & G2). destruct (Z.eq_dec x y) as [->|Hn].
  - destruct (IH b E H' ltac:(lia)) as (i & Hi & HP). exists (S i). split; [simpl; lia|]. intros [|j]; [change (y = y - 0); lia|]. apply HP.
  - exists 0%nat. split; [simpl; lia|]. specialize (G2 ltac:(lia)). intros [|j]; [change (x = y - 1); lia|]. change (part a j = part b j - 0). rewrite G2. lia.
Qed.
Lemma lows_cover M nu l : is_partition nu -> is_partition l -> zlen nu <= M -> (forall j, part l j <= part nu j) -> size nu = size l + 1 -> In l (lows M nu).
Proof.
  intros Hn Hl HM HP HS. assert (HL : zlen l <= zlen nu).
  { unfold zlen. destruct (Nat.le_gt_cases (length l) (length nu)) as [|G]; [lia|]. pose proof (proj1 Hl (length nu) G). specialize (HP (length nu)). rewrite (part_high nu) in HP by lia. lia. }
  destruct (one_box (padm M l) (padm M nu)) as (i & Hi & E).
  - rewrite !padm_len by lia. auto.
  - intros j. rewrite !part_padm. auto.
  - rewrite (size_zsum nu), (size_zsum l) in HS. unfold padm. rewrite !zsum_app.
    assert (Z0 : forall c, zsum (repz 0 c) = 0) by (intros c; unfold repz; generalize (Z.to_nat c) as d; induction d; simpl; auto). rewrite !Z0. lia.
  - rewrite padm_len in Hi by auto. apply in_map_iff. exists i. split; [|apply in_seq; lia].
    transitivity (part_clip (padm M l)); [|unfold padm; rewrite part_clip_app0; apply is_partition_clip; auto].
    unfold low. f_equal. apply (list_part_eq); [rewrite dec_length, !padm_len by lia; auto|].
    intros j. rewrite part_dec, padm_len by auto. destruct (Nat.ltb_spec j (Z.to_nat M)) as [H|H]; [symmetry; apply E|].
    symmetry. apply part_high. rewrite padm_len; auto. lia.
Qed.
Lemma low_partition M i nu : is_partition nu -> zlen nu <= M -> (i < Z.to_nat M)%nat -> part nu (S i) < part nu i -> is_partition (low M i nu).
Proof.
  intros Hn HM Hi H. apply (decp_is_partition (part nu 0)); [apply is_partition_nonneg; auto|]. pose proof (is_partition_nonneg nu 0 Hn).
  apply decp_part; auto. split; [|split].
  - intros j Hj. rewrite dec_length, padm_len in Hj by auto. rewrite part_dec, padm_len, part_padm by auto. rewrite (proj2 (Nat.ltb_lt _ _) Hj).
    pose proof (is_partition_nonneg nu j Hn). pose proof (is_partition_nonneg nu (S j) Hn). destruct (Nat.eqb_spec j i); subst; lia.
  - intros j. rewrite !part_dec, !part_padm, dec_length, !padm_len by auto. destruct (Nat.ltb_spec (S j) (Z.to_nat M)); [left|right; auto].
    destruct (Nat.ltb_spec j (Z.to_nat M)); [|lia]. pose proof (proj2 Hn j). destruct (Nat.eqb_spec (S j) i), (Nat.eqb_spec j i); subst; lia.
  - rewrite part_dec, padm_len, part_padm by auto. destruct (0 <? Z.to_nat M)%nat; [|lia]. destruct (Nat.eqb 0 i); lia.
Qed.
Lemma low_length M i nu : zlen (low M i nu) <= Z.max M (zlen nu).
Proof.
  unfold low. eapply Z.le_trans; [apply zlen_clip|]. unfold zlen. rewrite dec_length. unfold padm, repz. rewrite app_length, repeat_length. unfold zlen. lia.
Qed.
