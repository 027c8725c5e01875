(** Index sets of IG(m,2n): part2indexC_inner and index2partC_inner are inverse
    bijections. *)

From Coq Require Import ZArith List Lia Bool FinFun.
From Verif Require Import Py OrderFacts ModelPart ModelQcalc ModelPoly Spec PyFacts PartFacts ConjFacts PairFacts.
Import ListNotations.
Open Scope Z_scope.

(** ** Counting indices below a bound *)
Fixpoint cnt (f : nat -> bool) (j : nat) : Z :=
  match j with O => 0 | S j => cnt f j + (if f j then 1 else 0) end.

Lemma cnt_ext f g j : (forall i, (i < j)%nat -> f i = g i) -> cnt f j = cnt g j.
Proof. induction j; intros H; simpl; auto. rewrite IHj, (H j); auto. Qed.
Lemma cnt_bounds f j : 0 <= cnt f j <= Z.of_nat j.
Proof. induction j; simpl cnt; [lia|]. destruct (f j); lia. Qed.
Lemma cnt_mono f g j : (forall i, (i < j)%nat -> f i = true -> g i = true) -> cnt f j <= cnt g j.
Proof.
  induction j; intros H; simpl; [lia|]. specialize (IHj ltac:(auto)). specialize (H j ltac:(lia)).
  destruct (f j); [rewrite H by auto; lia|]. destruct (g j); lia.
Qed.
Lemma cnt_all f j : (forall i, (i < j)%nat -> f i = true) -> cnt f j = Z.of_nat j.
Proof. induction j; intros H; simpl cnt; [auto|]. rewrite IHj, (H j) by auto. lia. Qed.
Lemma cnt_none f j : (forall i, (i < j)%nat -> f i = false) -> cnt f j = 0.
Proof. induction j; intros H; simpl cnt; [auto|]. rewrite IHj, (H j) by auto. lia. Qed.
Lemma cnt_from f i j : (i <= j)%nat -> (forall h, (i <= h < j)%nat -> f h = true) -> cnt f j = cnt f i + Z.of_nat (j - i).
Proof.
  induction j; intros Hij H.
  - replace i with 0%nat by lia. simpl. lia.
  - destruct (Nat.eq_dec i (S j)) as [->|]; [replace (S j - S j)%nat with 0%nat by lia; lia|].
    simpl cnt. rewrite (H j), IHj; try lia. intros h Hh. apply H. lia.
Qed.
Lemma cnt_below f i j : (i <= j)%nat -> cnt f j <= cnt f i + Z.of_nat (j - i).
Proof.
  induction j; intros Hij.
  - replace i with 0%nat by lia. simpl. lia.
  - destruct (Nat.eq_dec i (S j)) as [->|]; [replace (S j - S j)%nat with 0%nat by lia; lia|].
    simpl cnt. specialize (IHj ltac:(lia)). destruct (f j); lia.
Qed.
Lemma cnt_split f g j : cnt f j = cnt (fun i => f i && g i) j + cnt (fun i => f i && negb (g i)) j.
Proof. induction j; cbn [cnt]; auto. destruct (f j), (g j); cbn [andb negb]; lia. Qed.
Lemma cnt_neg f j : cnt (fun i => negb (f i)) j = Z.of_nat j - cnt f j.
Proof. induction j; cbn [cnt]; auto. destruct (f j); cbn [negb]; lia. Qed.

Lemma cnt_length f j : cnt f j = Z.of_nat (length (filter f (seq 0 j))).
Proof.
  induction j; [reflexivity|]. cbn [cnt]. rewrite IHj. rewrite seq_S, filter_app, app_length. cbn [filter plus].
  destruct (f j); simpl; lia.
Qed.
(** counting through an injection into an interval *)
Lemma cnt_inj f (g : nat -> Z) a b j :
  (forall i, (i < j)%nat -> f i = true -> a <= g i < b) ->
  (forall i i', (i < i' < j)%nat -> f i = true -> f i' = true -> g i <> g i') ->
  cnt f j <= Z.max 0 (b - a).
Proof.
  intros H1 H2. rewrite cnt_length. rewrite <- (map_length g).
  assert (Hle : (length (map g (filter f (seq 0 j))) <= length (zrange a b))%nat).
  { apply NoDup_incl_length.
    - assert (Hn : NoDup (filter f (seq 0 j))) by (apply NoDup_filter, seq_NoDup).
      assert (Hin : forall x, In x (filter f (seq 0 j)) -> (x < j)%nat /\ f x = true).
      { intros x Hx. apply filter_In in Hx. destruct Hx as [Hx ?]. apply in_seq in Hx. split; auto. lia. }
      induction (filter f (seq 0 j)) as [|x t IH]; simpl; constructor.
      + rewrite in_map_iff. intros (y & E & Hy). inversion Hn; subst.
        destruct (Hin x ltac:(simpl; auto)) as [A1 A2]. destruct (Hin y ltac:(simpl; auto)) as [B1 B2].
        destruct (Nat.lt_trichotomy x y) as [Hxy|[->|Hxy]]; [|tauto|].
        * apply (H2 x y); auto.
        * apply (H2 y x); auto.
      + apply IH; [inversion Hn; auto|]. intros; apply Hin; simpl; auto.
    - intros x Hx. apply in_map_iff in Hx. destruct Hx as (i & <- & Hi). apply filter_In in Hi.
      destruct Hi as [Hi Hf]. apply in_seq in Hi. apply in_zrange. apply H1; auto. lia. }
  rewrite length_zrange in Hle. lia.
Qed.

(** the loops of the model *)
Lemma foldM_cnt (F : Z -> Z -> res Z) (f : nat -> bool) (j : nat) :
  (forall c i, (i < j)%nat -> F c (Z.of_nat i) = Ok (if f i then c + 1 else c)) ->
  foldM F (zrange 0 (Z.of_nat j)) 0 = Ok (cnt f j).
Proof.
  induction j; intros H; [reflexivity|].
  rewrite zrange_snoc by lia. rewrite foldM_app.
  replace (Z.of_nat (S j) - 1) with (Z.of_nat j) by lia. rewrite IHj by auto. cbn [bind foldM].
  rewrite H by lia. simpl. destruct (f j); f_equal; lia.
Qed.

Section C.
Variables (n k m : Z).
Hypothesis Hk : 0 <= k.
Hypothesis Hm : 0 <= m.
Hypothesis Hn : n = m + k.

Definition RC (l : list Z) (i j : nat) : bool := part l i + part l j <=? 2 * k + Z.of_nat j - Z.of_nat i.
Definition cC (l : list Z) (j : nat) : Z := cnt (fun i => RC l i j) j.
Definition idxC (l : list Z) : list Z :=
  map (fun j => n + k + 1 - part l (Z.to_nat j) + cC l (Z.to_nat j)) (zrange 0 m).
Definition QC (p : list Z) (i j : nat) : bool := 2 * n + 1 <? part p i + part p j.
Definition dC (p : list Z) (j : nat) : Z := cnt (fun i => QC p i j) j.
Definition preC (p : list Z) : list Z :=
  map (fun j => n + k + 1 - part p (Z.to_nat j) + dC p (Z.to_nat j)) (zrange 0 m).
Definition prtC (p : list Z) : list Z := part_clip (preC p).

Definition iso_set (p : list Z) : Prop := isotropic_set m (2 * n) p.

Lemma length_idxC l : length (idxC l) = Z.to_nat m.
Proof. unfold idxC. rewrite map_length, length_zrange. f_equal. lia. Qed.
Lemma part_idxC l j : (j < Z.to_nat m)%nat -> part (idxC l) j = n + k + 1 - part l j + cC l j.
Proof. intros H. unfold idxC. rewrite part_map_zrange by auto. rewrite Nat2Z.id. auto. Qed.
Lemma length_preC l : length (preC l) = Z.to_nat m.
Proof. unfold preC. rewrite map_length, length_zrange. f_equal. lia. Qed.
Lemma part_preC p j : (j < Z.to_nat m)%nat -> part (preC p) j = n + k + 1 - part p j + dC p j.
Proof. intros H. unfold preC. rewrite part_map_zrange by auto. rewrite Nat2Z.id. auto. Qed.

(** *** k-strict partitions *)
Section L.
Variable l : list Z.
Hypothesis Hl : kstrict_in k m (n + k) l.

Lemma l_dec i j : (i <= j)%nat -> part l j <= part l i.
Proof.
  intros H. destruct Hl as [((_ & Hd) & _) _]. induction H; [lia|]. specialize (Hd m0). lia.
Qed.
Lemma l_nonneg j : 0 <= part l j.
Proof. destruct Hl as [(Hp & _) _]. apply is_partition_nonneg; auto. Qed.
(** strict decrease as long as the parts exceed k *)
Lemma l_strict h i : (h < i)%nat -> k < part l (i - 1) -> part l i + Z.of_nat (i - h) <= part l h.
Proof.
  destruct Hl as [_ Hs]. intros Hhi Hgt. induction i as [|i IH]; [lia|].
  replace (S i - 1)%nat with i in Hgt by lia. pose proof (Hs i Hgt).
  destruct (Nat.eq_dec h i) as [->|]; [lia|].
  assert (k < part l (i - 1)) by (pose proof (l_dec (i - 1) i ltac:(lia)); lia).
  specialize (IH ltac:(lia) H0). lia.
Qed.
Lemma R_le i j : (i < j)%nat -> part l i <= k -> RC l i j = true.
Proof. intros H1 H2. unfold RC. apply Z.leb_le. pose proof (l_dec i j ltac:(lia)). lia. Qed.
Lemma R_gt i j : (i < j)%nat -> k < part l j -> RC l i j = false.
Proof.
  intros H1 H2. unfold RC. apply Z.leb_gt.
  pose proof (l_dec (j - 1) j ltac:(lia)). pose proof (l_strict i j H1 ltac:(lia)). lia.
Qed.
Lemma c_gt j : k < part l j -> cC l j = 0.
Proof. intros H. apply cnt_none. intros i Hi. apply R_gt; auto. Qed.
(** R is upward closed in its first argument *)
Lemma R_up h i j : (h <= i < j)%nat -> RC l h j = true -> RC l i j = true.
Proof.
  intros H1 H2. destruct (Z.le_gt_cases (part l i) k) as [Hle|Hgt]; [apply R_le; auto; lia|].
  unfold RC in *. apply Z.leb_le in H2. apply Z.leb_le.
  destruct (Nat.eq_dec h i) as [->|]; [lia|].
  pose proof (l_dec (i - 1) i ltac:(lia)). pose proof (l_strict h i ltac:(lia) ltac:(lia)). lia.
Qed.
Lemma c_R i j : (i < j)%nat -> RC l i j = true -> Z.of_nat (j - i) <= cC l j.
Proof.
  intros H1 H2. unfold cC. rewrite (cnt_from _ i j) by (try lia; intros h Hh; apply (R_up i h j); auto; lia).
  pose proof (cnt_bounds (fun i0 => RC l i0 j) i). lia.
Qed.
Lemma c_notR i j : (i < j)%nat -> RC l i j = false -> cC l j <= Z.of_nat (j - i) - 1.
Proof.
  intros H1 H2. unfold cC. pose proof (cnt_below (fun i0 => RC l i0 j) (S i) j ltac:(lia)) as H.
  rewrite (cnt_none _ (S i)) in H; [lia|]. intros h Hh.
  destruct (RC l h j) eqn:E; auto. rewrite (R_up h i j) in H2; auto; lia.
Qed.
Lemma c_succ j : part l j <= k -> cC l j + 1 <= cC l (S j).
Proof.
  intros H. unfold cC. cbn [cnt]. rewrite (R_le j (S j)) by (auto; lia).
  enough (cnt (fun i => RC l i j) j <= cnt (fun i => RC l i (S j)) j) by lia.
  apply cnt_mono. intros i Hi. unfold RC. rewrite !Z.leb_le. pose proof (l_dec j (S j) ltac:(lia)). lia.
Qed.

Lemma idxC_cross i j : (i < j < Z.to_nat m)%nat ->
  (RC l i j = true -> 2 * n + 1 < part (idxC l) i + part (idxC l) j) /\
  (RC l i j = false -> part (idxC l) i + part (idxC l) j < 2 * n + 1).
Proof.
  intros H. rewrite !part_idxC by lia. split; intros E.
  - pose proof (c_R i j ltac:(lia) E). pose proof (cnt_bounds (fun i0 => RC l i0 i) i). fold (cC l i) in *.
    unfold RC in E. apply Z.leb_le in E. pose proof (l_dec i j ltac:(lia)).
    destruct (Z.le_gt_cases (part l i) k); lia.
  - pose proof (c_notR i j ltac:(lia) E).
    assert (k < part l i) by (destruct (Z.le_gt_cases (part l i) k) as [G|]; auto; rewrite (R_le i j) in E by (auto; lia); discriminate).
    rewrite (c_gt i) by auto. unfold RC in E. apply Z.leb_gt in E. lia.
Qed.
Lemma idxC_small j : (j < Z.to_nat m)%nat -> (part (idxC l) j <= n <-> k < part l j).
Proof.
  intros Hj. rewrite part_idxC by auto. pose proof (cnt_bounds (fun i0 => RC l i0 j) j). fold (cC l j) in *.
  split; [lia|]. intros H0. rewrite c_gt by auto. lia.
Qed.

Lemma idxC_set : iso_set (idxC l).
Proof.
  assert (Hs : forall i j, (i < j < Z.to_nat m)%nat -> part (idxC l) i < part (idxC l) j).
  { intros i j. induction j as [|j IH]; [lia|]. intros H.
    assert (part (idxC l) j < part (idxC l) (S j)).
    { rewrite !part_idxC by lia. destruct (Z.le_gt_cases (part l j) k) as [Hle|Hgt].
      - pose proof (c_succ j Hle). pose proof (l_dec j (S j) ltac:(lia)). lia.
      - rewrite (c_gt j) by auto. pose proof (proj2 Hl j Hgt). pose proof (cnt_bounds (fun i0 => RC l i0 (S j)) (S j)).
        fold (cC l (S j)) in *. lia. }
    destruct (Nat.eq_dec i j) as [->|]; auto. specialize (IH ltac:(lia)). lia. }
  assert (Hi0 : forall j, (j < Z.to_nat m)%nat -> 1 <= part (idxC l) j <= 2 * n).
  { intros j Hj. rewrite part_idxC by auto. pose proof (cnt_bounds (fun i0 => RC l i0 j) j). fold (cC l j) in *.
    pose proof (l_nonneg j). pose proof (l_dec 0 j ltac:(lia)). destruct Hl as [(_ & _ & Hz) _]. lia. }
  split; [split; [|split]|].
  - rewrite length_idxC. lia.
  - intros j Hj. rewrite length_idxC in Hj. auto.
  - intros i j Hij. rewrite length_idxC in Hij. auto.
  - intros i j Hi Hj. rewrite length_idxC in *.
    destruct (Nat.lt_trichotomy i j) as [H|[->|H]]; [| lia |].
    + pose proof (idxC_cross i j ltac:(lia)) as [A B]. destruct (RC l i j); [specialize (A eq_refl)|specialize (B eq_refl)]; lia.
    + pose proof (idxC_cross j i ltac:(lia)) as [A B]. destruct (RC l j i); [specialize (A eq_refl)|specialize (B eq_refl)]; lia.
Qed.

Lemma dC_idxC j : (j < Z.to_nat m)%nat -> dC (idxC l) j = cC l j.
Proof.
  intros Hj. unfold dC, cC. apply cnt_ext. intros i Hi. unfold QC.
  pose proof (idxC_cross i j ltac:(lia)) as [A B].
  destruct (RC l i j); [apply Z.ltb_lt; auto|apply Z.ltb_ge; specialize (B eq_refl); lia].
Qed.
Lemma preC_idxC j : (j < Z.to_nat m)%nat -> part (preC (idxC l)) j = part l j.
Proof. intros Hj. rewrite part_preC, part_idxC, dC_idxC by auto. lia. Qed.
Lemma prtC_idxC : prtC (idxC l) = l.
Proof.
  unfold prtC. assert (E : preC (idxC l) = padm m l).
  { destruct Hl as [Hb _]. pose proof (in_box_wbox _ _ _ Hb) as [_ Hlen]. unfold zlen in Hlen.
    apply list_part_eq; [rewrite length_preC; lia|]. intros j Hj. rewrite length_preC in Hj.
    rewrite preC_idxC, part_padm; auto. }
  rewrite E. eapply clip_padm. apply Hl.
Qed.
End L.

(** *** isotropic index sets *)
Section P.
Variable p : list Z.
Hypothesis Hp : iso_set p.

Lemma p_len : length p = Z.to_nat m.
Proof. destruct Hp as [(H & _) _]. lia. Qed.
Lemma p_inc i j : (i <= j < Z.to_nat m)%nat -> part p i <= part p j.
Proof.
  intros H. destruct Hp as [(_ & _ & Hi) _]. destruct (Nat.eq_dec i j) as [->|]; [lia|].
  specialize (Hi i j). rewrite p_len in Hi. specialize (Hi ltac:(lia)). lia.
Qed.
Lemma p_sinc i j : (i < j < Z.to_nat m)%nat -> part p i < part p j.
Proof. intros H. destruct Hp as [(_ & _ & Hi) _]. apply Hi. rewrite p_len. lia. Qed.
Lemma p_rng j : (j < Z.to_nat m)%nat -> 1 <= part p j <= 2 * n.
Proof. intros H. destruct Hp as [(_ & Hr & _) _]. apply Hr. rewrite p_len. auto. Qed.
Lemma p_iso i j : (i < Z.to_nat m)%nat -> (j < Z.to_nat m)%nat -> part p i + part p j <> 2 * n + 1.
Proof. intros. destruct Hp as [_ Hi]. apply Hi; rewrite p_len; auto. Qed.

Lemma Q_up h i j : (h <= i < j)%nat -> (j < Z.to_nat m)%nat -> QC p h j = true -> QC p i j = true.
Proof.
  unfold QC. rewrite !Z.ltb_lt. intros. pose proof (p_inc h i ltac:(lia)). lia.
Qed.
(** at most one of each pair x, 2n+1-x *)
Lemma d_half j : (j < Z.to_nat m)%nat -> dC p j <= Z.max 0 (part p j - n - 1).
Proof.
  intros Hj. unfold dC.
  eapply Z.le_trans; [apply (cnt_inj _ (fun i => Z.max (part p i) (2 * n + 1 - part p i)) (n + 1) (part p j))|].
  - intros i Hi E. unfold QC in E. apply Z.ltb_lt in E. pose proof (p_sinc i j ltac:(lia)). lia.
  - intros i i' Hi _ _. pose proof (p_sinc i i' ltac:(lia)). pose proof (p_iso i i' ltac:(lia) ltac:(lia)). lia.
  - lia.
Qed.
Lemma d_small j : (j < Z.to_nat m)%nat -> part p j <= n -> dC p j = 0.
Proof. intros Hj H. pose proof (d_half j Hj). pose proof (cnt_bounds (fun i => QC p i j) j). unfold dC in *. lia. Qed.
Lemma pre_small j : (j < Z.to_nat m)%nat -> (k < part (preC p) j <-> part p j <= n).
Proof.
  intros Hj. rewrite part_preC by auto. pose proof (d_half j Hj).
  pose proof (cnt_bounds (fun i => QC p i j) j). fold (dC p j) in *. split; lia.
Qed.

Lemma d_step j : (S j < Z.to_nat m)%nat ->
  dC p (S j) - dC p j <= part p (S j) - part p j - 1 + (if QC p j (S j) then 1 else 0).
Proof.
  intros Hj. unfold dC at 1. cbn [cnt].
  rewrite (cnt_split (fun i => QC p i (S j)) (fun i => QC p i j) j).
  assert (E1 : cnt (fun i => QC p i (S j) && QC p i j) j = dC p j).
  { apply cnt_ext. intros i Hi. unfold QC. pose proof (p_sinc j (S j) ltac:(lia)).
    destruct (2 * n + 1 <? part p i + part p j) eqn:E; [|apply andb_false_r].
    apply Z.ltb_lt in E. rewrite andb_true_r. apply Z.ltb_lt. lia. }
  assert (E2 : cnt (fun i => QC p i (S j) && negb (QC p i j)) j <= part p (S j) - part p j - 1).
  { pose proof (p_sinc j (S j) ltac:(lia)).
    eapply Z.le_trans; [apply (cnt_inj _ (fun i => part p i) (2 * n + 2 - part p (S j)) (2 * n + 1 - part p j))|].
    - intros i Hi E. apply andb_true_iff in E. destruct E as [Ea Eb]. unfold QC in *. apply Z.ltb_lt in Ea.
      apply negb_true_iff, Z.ltb_ge in Eb. pose proof (p_iso i j ltac:(lia) ltac:(lia)). lia.
    - intros i i' Hi _ _. pose proof (p_sinc i i' ltac:(lia)). lia.
    - lia. }
  lia.
Qed.

Lemma pre_nonneg j : (j < Z.to_nat m)%nat -> 0 <= part (preC p) j.
Proof.
  (* first the last entry, then downwards *)
  intros Hj0. assert (Hlast : forall j, S j = Z.to_nat m -> 0 <= part (preC p) j).
  { clear j Hj0. intros j Hj. rewrite part_preC by lia. destruct (Z.le_gt_cases (part p j) n) as [Hle|Hgt].
    { rewrite d_small by (auto; lia). lia. }
    pose proof (cnt_neg (fun i => QC p i j) j) as E. fold (dC p j) in E.
    assert (cnt (fun i => negb (QC p i j)) j <= Z.max 0 (2 * n + 1 - part p j - 1)); [|pose proof (p_rng j ltac:(lia)); lia].
    apply (cnt_inj _ (fun i => part p i) 1 (2 * n + 1 - part p j)).
    - intros i Hi Eb. unfold QC in Eb. apply negb_true_iff, Z.ltb_ge in Eb.
      pose proof (p_iso i j ltac:(lia) ltac:(lia)). pose proof (p_rng i ltac:(lia)). lia.
    - intros i i' Hi _ _. pose proof (p_sinc i i' ltac:(lia)). lia. }
  assert (G : forall d i, (i + d = Z.to_nat m - 1)%nat -> 0 <= part (preC p) i).
  { induction d as [|d IH]; intros i Hi; [apply Hlast; lia|].
    specialize (IH (S i) ltac:(lia)). rewrite !part_preC in * by lia. pose proof (d_step i ltac:(lia)).
    destruct (QC p i (S i)); lia. }
  apply (G (Z.to_nat m - 1 - j)%nat). lia.
Qed.
Lemma pre_dec j : (S j < Z.to_nat m)%nat -> part (preC p) (S j) <= part (preC p) j /\
  (k < part (preC p) j -> part (preC p) (S j) < part (preC p) j).
Proof.
  intros Hj. pose proof (d_step j Hj) as Hd.
  assert (H1 : part (preC p) (S j) <= part (preC p) j).
  { rewrite !part_preC by lia. destruct (QC p j (S j)); lia. }
  split; auto. intros Hgt. destruct (Z.le_gt_cases (part (preC p) (S j)) k); [lia|].
  apply pre_small in Hgt; [|lia]. pose proof (proj1 (pre_small (S j) Hj) ltac:(lia)) as H2.
  rewrite !part_preC by lia. rewrite !d_small by (auto; lia). pose proof (p_sinc j (S j) ltac:(lia)). lia.
Qed.

Lemma prtC_in : kstrict_in k m (n + k) (prtC p).
Proof.
  assert (Hd : decp (n + k) (preC p)).
  { apply decp_part; [lia|]. rewrite length_preC. split; [|split].
    - intros j Hj. apply pre_nonneg; auto.
    - intros j. destruct (Nat.lt_ge_cases (S j) (Z.to_nat m)); auto. left. apply pre_dec; auto.
    - destruct (Nat.eq_dec (Z.to_nat m) 0) as [E|E].
      + rewrite part_over by (rewrite length_preC; lia). lia.
      + rewrite part_preC by lia. pose proof (p_rng 0 ltac:(lia)). cbn. lia. }
  split.
  - apply wbox_in_box; [lia|]. split; auto. unfold zlen. rewrite length_preC. lia.
  - intros j. unfold prtC. rewrite !part_clip_part. intros Hgt.
    destruct (Nat.lt_ge_cases (S j) (Z.to_nat m)) as [Hj|Hj]; [apply pre_dec; auto|].
    rewrite (part_over _ (S j)) by (rewrite length_preC; lia). lia.
Qed.
Lemma part_prtC j : (j < Z.to_nat m)%nat -> part (prtC p) j = n + k + 1 - part p j + dC p j.
Proof. intros Hj. unfold prtC. rewrite part_clip_part. apply part_preC; auto. Qed.

Lemma R_Q i j : (i < j < Z.to_nat m)%nat -> RC (prtC p) i j = QC p i j.
Proof.
  intros H. destruct (QC p i j) eqn:E.
  - destruct (Z.le_gt_cases (part (prtC p) i) k) as [Hle|Hgt].
    { apply R_le; auto; [apply prtC_in|lia]. }
    unfold RC. apply Z.leb_le. unfold prtC in Hgt. rewrite part_clip_part in Hgt.
    apply pre_small in Hgt; [|lia]. rewrite !part_prtC by lia. rewrite (d_small i) by (auto; lia).
    unfold dC. rewrite (cnt_from _ i j) by (try lia; intros h Hh; apply (Q_up i h j); auto; lia).
    assert (cnt (fun i0 => QC p i0 j) i <= Z.max 0 (part p i - (2 * n + 2 - part p j))).
    { apply (cnt_inj _ (fun i => part p i)).
      - intros h Hh Eh. unfold QC in Eh. apply Z.ltb_lt in Eh. pose proof (p_sinc h i ltac:(lia)). lia.
      - intros h h' Hh _ _. pose proof (p_sinc h h' ltac:(lia)). lia. }
    unfold QC in E. apply Z.ltb_lt in E. lia.
  - unfold RC. apply Z.leb_gt. unfold QC in E. apply Z.ltb_ge in E.
    pose proof (p_iso i j ltac:(lia) ltac:(lia)). pose proof (p_sinc i j ltac:(lia)).
    rewrite !part_prtC by lia. rewrite (d_small i) by (try lia).
    unfold dC. 
    pose proof (cnt_neg (fun i => QC p i j) j) as En.
    assert (cnt (fun i => negb (QC p i j)) j <= Z.of_nat (S i) + Z.max 0 (2 * n + 1 - part p j - (part p i + 1))); [|lia].
    rewrite (cnt_split _ (fun h => Nat.leb h i) j).
    assert (A : cnt (fun h => negb (QC p h j) && Nat.leb h i) j <= Z.of_nat (S i)).
    { eapply Z.le_trans; [apply (cnt_inj _ (fun h => Z.of_nat h) 0 (Z.of_nat (S i)))|lia].
      - intros h Hh Eh. apply andb_true_iff in Eh. destruct Eh as [_ Eh]. apply Nat.leb_le in Eh. lia.
      - intros; lia. }
    assert (B : cnt (fun h => negb (QC p h j) && negb (Nat.leb h i)) j <= Z.max 0 (2 * n + 1 - part p j - (part p i + 1))).
    { apply (cnt_inj _ (fun h => part p h)).
      - intros h Hh Eh. apply andb_true_iff in Eh. destruct Eh as [Eh1 Eh2]. apply negb_true_iff, Nat.leb_gt in Eh2.
        unfold QC in Eh1. apply negb_true_iff, Z.ltb_ge in Eh1. pose proof (p_sinc i h ltac:(lia)).
        pose proof (p_iso h j ltac:(lia) ltac:(lia)). lia.
      - intros h h' Hh _ _. pose proof (p_sinc h h' ltac:(lia)). lia. }
    lia.
Qed.
Lemma idxC_prtC : idxC (prtC p) = p.
Proof.
  apply list_part_eq; rewrite length_idxC, ?p_len; auto. intros j Hj.
  rewrite part_idxC, part_prtC by auto. unfold cC, dC.
  rewrite (cnt_ext (fun i => RC (prtC p) i j) (fun i => QC p i j)); [lia|]. intros i Hi. apply R_Q. lia.
Qed.
End P.

(** *** the model *)
Lemma count_inner_ok (la l : list Z) delta (j : nat) : (j < length la)%nat -> (forall i, part la i = part l i) ->
  count_inner la k (Z.of_nat j) delta =
  Ok (cnt (fun i => part l i + part l j <=? 2 * k + delta + Z.of_nat j - Z.of_nat i) j).
Proof.
  intros Hj Hp. unfold count_inner. apply foldM_cnt. intros c i Hi.
  rewrite (py_get_in la (Z.of_nat i) 0) by (unfold zlen; lia). cbn [bind].
  rewrite (py_get_in la (Z.of_nat j) 0) by (unfold zlen; lia). cbn [bind]. rewrite !Nat2Z.id.
  change (nth i la 0) with (part la i). change (nth j la 0) with (part la j). rewrite !Hp.
  reflexivity.
Qed.
Lemma count_idx_ok (p : list Z) bound (j : nat) : (j < length p)%nat ->
  count_idx p bound (Z.of_nat j) = Ok (cnt (fun i => bound <? part p i + part p j) j).
Proof.
  intros Hj. unfold count_idx. apply foldM_cnt. intros c i Hi.
  rewrite (py_get_in p (Z.of_nat i) 0) by (unfold zlen; lia). cbn [bind].
  rewrite (py_get_in p (Z.of_nat j) 0) by (unfold zlen; lia). cbn [bind]. rewrite !Nat2Z.id. reflexivity.
Qed.

Lemma part2indexC_ok l : part2indexC_inner l k n = Ok (idxC l).
Proof.
  unfold part2indexC_inner, idxC. replace (n - k) with m by lia. apply mapM_ok. intros j Hj.
  apply in_zrange in Hj. assert (E : exists i, j = Z.of_nat i) by (exists (Z.to_nat j); lia). destruct E as [i ->].
  rewrite (count_inner_ok _ l) by (try apply part_app0; rewrite app_length; unfold repz; rewrite repeat_length; lia).
  cbn [bind]. rewrite (py_get_in _ (Z.of_nat i) 0) by (rewrite zlen_app, zlen_repz by lia; pose proof (zlen_nonneg l); lia).
  cbn [bind]. rewrite !Nat2Z.id. change (nth i (l ++ repz 0 m) 0) with (part (l ++ repz 0 m) i). rewrite part_app0.
  unfold cC, RC. rewrite Z.add_0_r. reflexivity.
Qed.
Lemma index2partC_ok p : length p = Z.to_nat m -> index2partC_inner p k n = Ok (prtC p).
Proof.
  intros Hlen. unfold index2partC_inner, prtC, preC. replace (n - k) with m by lia.
  erewrite mapM_ok; [reflexivity|]. intros j Hj.
  apply in_zrange in Hj. assert (E : exists i, j = Z.of_nat i) by (exists (Z.to_nat j); lia). destruct E as [i ->].
  cbv beta. rewrite count_idx_ok by lia. cbn [bind].
  rewrite (py_get_in _ (Z.of_nat i) 0) by (unfold zlen; lia). cbn [bind]. rewrite !Nat2Z.id. reflexivity.
Qed.
End C.
