(** part2pair and pair2part. *)

From Coq Require Import ZArith List Lia Bool.
From Verif Require Import Py OrderFacts ModelPart ModelQcalc ModelPoly Spec PyFacts PartFacts ConjFacts.
Import ListNotations.
Open Scope Z_scope.

Lemma part_map f l j : f 0 = 0 -> part (map f l) j = f (part l j).
Proof. intros H. unfold part. rewrite <- H at 1. apply map_nth. Qed.
Lemma count_ge_map_min l k v : v <= k -> count_ge (map (fun x => Z.min x k) l) v = count_ge l v.
Proof.
  intros H. induction l as [|x t IH]; [reflexivity|]. cbn [map]. rewrite !count_ge_cons, IH.
  destruct (v <=? Z.min x k) eqn:E1, (v <=? x) eqn:E2; lia.
Qed.
Lemma count_ge_map_min0 l k v : k < v -> count_ge (map (fun x => Z.min x k) l) v = 0.
Proof.
  intros H. induction l as [|x t IH]; [reflexivity|]. cbn [map]. rewrite count_ge_cons, IH.
  destruct (v <=? Z.min x k) eqn:E1; lia.
Qed.
Lemma partition_min k l : 0 < k -> is_partition l -> is_partition (map (fun x => Z.min x k) l).
Proof.
  intros Hk [H1 H2]. split; intros j.
  - rewrite map_length, part_map by lia. intros Hj. specialize (H1 j Hj). lia.
  - rewrite !part_map by lia. specialize (H2 j). lia.
Qed.
Lemma map_min_0 l : is_partition l -> map (fun x => Z.min x 0) l = repz 0 (zlen l).
Proof.
  intros H. apply partition_pos in H. unfold repz, zlen. rewrite Nat2Z.id. induction H; [reflexivity|].
  simpl. f_equal; auto. lia.
Qed.
Lemma map_max_decp k l : 0 <= k -> is_partition l ->
  is_partition (part_clip (map (fun x => Z.max (x - k) 0) l)).
Proof.
  intros Hk H. destruct l as [|x t]; [apply is_partition_nil|].
  pose proof (partition_pos _ H) as Hp. pose proof (Forall_inv Hp) as Hx.
  apply (decp_is_partition (Z.max (x - k) 0)); [lia|].
  assert (G : forall prev, decp prev (x :: t) -> decp (Z.max (prev - k) 0) (map (fun x => Z.max (x - k) 0) (x :: t))).
  { generalize (x :: t). clear. induction l as [|y u IH]; intros prev; simpl; auto.
    intros [H1 H2]. split; [lia|]. apply IH; auto. }
  apply G. apply (partition_decp _ H).
Qed.

Lemma last_partition l : is_partition l -> (match l with [] => false | _ => last l 1 =? 0 end) = false.
Proof.
  intros H. destruct l as [|x t]; auto. apply Z.eqb_neq. apply partition_pos in H.
  rewrite Forall_forall in H. specialize (H (last (x :: t) 1)). 
  assert (In (last (x :: t) 1) (x :: t)).
  { clear. revert x. induction t as [|y t IH]; intros x; [simpl; auto|]. right. apply (IH y). }
  specialize (H H0). lia.
Qed.

Lemma part2pair_unmarked k l : is_partition l -> part2pair_inner l k =
  (padm k (part_conj (map (fun x => Z.min x k) l)), part_clip (map (fun x => Z.max (x - k) 0) l)).
Proof.
  intros H. unfold part2pair_inner, padm. pose proof (last_partition l H) as E.
  destruct l; [reflexivity|]. rewrite E. reflexivity.
Qed.
Lemma part2pair_marked k l : 0 <= k -> is_partition l -> part2pair_inner (l ++ [0]) k =
  (fst (part2pair_inner l k), snd (part2pair_inner l k) ++ [0]).
Proof.
  intros Hk H. rewrite (part2pair_unmarked k l) by auto. unfold part2pair_inner, padm. cbn [fst snd].
  rewrite !map_app. cbn [map]. rewrite Z.min_l by lia. rewrite Z.max_r by lia.
  change [0] with (repz 0 1). rewrite part_conj_zeros, part_clip_app0.
  change (repz 0 1) with [0].
  destruct (l ++ [0]) as [|y u] eqn:E; [destruct l; discriminate|]. rewrite <- E.
  rewrite last_last. reflexivity.
Qed.

Lemma part2pair_pair_of k l : 0 <= k -> is_partition l ->
  pair_of k l (fst (part2pair_inner l k)) (snd (part2pair_inner l k)).
Proof.
  intros Hk H. rewrite part2pair_unmarked by auto. cbn [fst snd].
  assert (Hc : forall j, part (part_conj (map (fun x => Z.min x k) l)) j =
    if Z.of_nat j <? k then count_ge l (Z.of_nat j + 1) else 0).
  { intros j. destruct (Z.eq_dec k 0) as [->|Hk0].
    - rewrite map_min_0 by auto. rewrite part_conj_clip, part_clip_repz.
      replace (Z.of_nat j <? 0) with false by (symmetry; apply Z.ltb_ge; lia). apply part_nil.
    - destruct (part_conj_conjugate _ (partition_min k l ltac:(lia) H)) as [_ E]. rewrite E.
      destruct (Z.of_nat j <? k) eqn:Ej; [apply count_ge_map_min|apply count_ge_map_min0]; lia. }
  assert (Hlen : zlen (part_conj (map (fun x => Z.min x k) l)) <= k).
  { destruct (Z.le_gt_cases (zlen (part_conj (map (fun x => Z.min x k) l))) k) as [|Hgt]; auto.
    assert (is_partition (part_conj (map (fun x => Z.min x k) l))) as [Hp _].
    { destruct (Z.eq_dec k 0) as [->|Hk0].
      - rewrite map_min_0 by auto. rewrite part_conj_clip, part_clip_repz. apply is_partition_nil.
      - apply part_conj_conjugate. apply partition_min; auto. lia. }
    specialize (Hp (Z.to_nat k)). rewrite Hc in Hp. unfold zlen in Hgt.
    specialize (Hp ltac:(lia)). replace (Z.of_nat (Z.to_nat k) <? k) with false in Hp by (symmetry; apply Z.ltb_ge; lia). lia. }
  split; [|split; [|split]].
  - unfold padm. change (zlen (part_conj (map (fun x => Z.min x k) l) ++
      repz 0 (k - zlen (part_conj (map (fun x => Z.min x k) l)))) = k).
    rewrite zlen_app, zlen_repz by lia. lia.
  - intros j Hj. rewrite part_padm, Hc. destruct (Z.of_nat j <? k) eqn:E; lia.
  - apply map_max_decp; auto.
  - intros j. rewrite part_clip_part, part_map by lia. lia.
Qed.

Lemma pair_of_unique k l t b t' b' : pair_of k l t b -> pair_of k l t' b' -> t = t' /\ b = b'.
Proof.
  intros (L1 & T1 & P1 & B1) (L2 & T2 & P2 & B2). split.
  - apply list_part_eq; [lia|]. intros j Hj. rewrite T1, T2; auto; lia.
  - apply partition_eq; auto. intros j. rewrite B1, B2. auto.
Qed.

Lemma count_ge_le l v : count_ge l v <= zlen l.
Proof.
  unfold count_ge, zlen. apply inj_le. induction l as [|x t IH]; simpl; auto. destruct (v <=? x); simpl; lia.
Qed.
Lemma count_ge_mono l v w : v <= w -> count_ge l w <= count_ge l v.
Proof.
  intros H. induction l as [|x t IH]; [reflexivity|]. rewrite !count_ge_cons.
  destruct (v <=? x) eqn:E1, (w <=? x) eqn:E2; lia.
Qed.

(** the pair of a k-strict partition *)
Lemma pair_of_in k rows cols l t b : 0 <= k <= cols -> kstrict_in k rows cols l -> pair_of k l t b ->
  pair_in k rows cols t b.
Proof.
  intros Hk [(Hp & Hl & H0) Hs] (L & T & Pb & B). 
  split; auto. split; [|split; [|split; [|split; [|split]]]]; auto.
  - intros j Hj. rewrite T by auto. pose proof (count_ge_le l (Z.of_nat j + 1)).
    pose proof (count_ge_nonneg l (Z.of_nat j + 1)). unfold zlen in *. lia.
  - intros j Hj. rewrite !T by lia. apply count_ge_mono. lia.
  - intros j. rewrite !B. intros Hj. specialize (Hs j ltac:(lia)). lia.
  - rewrite B. lia.
  - assert (Hb : forall j, (j < length b)%nat -> k < part l j).
    { intros j Hj. destruct Pb as [Pb _]. specialize (Pb j Hj). rewrite B in Pb. lia. }
    destruct (k =? 0) eqn:E0.
    + destruct (Nat.le_gt_cases (length b) (length l)) as [|Hgt]; [lia|].
      specialize (Hb _ Hgt). rewrite part_over in Hb by auto. lia.
    + rewrite T by lia. replace (Z.of_nat (Z.to_nat (k - 1)) + 1) with k by lia.
      destruct (Z.le_gt_cases (Z.of_nat (length b)) (count_ge l k)) as [|Hgt]; auto.
      pose proof (count_ge_nonneg l k).
      specialize (Hb (Z.to_nat (count_ge l k)) ltac:(lia)).
      pose proof (count_iff l (Z.to_nat (count_ge l k)) k Hp ltac:(lia)). lia.
Qed.

(** [t] without its trailing zeros *)
Lemma top_partition k rows cols t b : pair_in k rows cols t b -> is_partition (part_clip t).
Proof.
  intros (L & R & D & _). destruct t as [|x u]; [apply is_partition_nil|].
  apply (decp_is_partition rows).
  - specialize (R 0%nat). simpl in L. specialize (R ltac:(lia)). lia.
  - apply decp_part; [specialize (R 0%nat ltac:(simpl in L; lia)); lia|].
    split; [|split].
    + intros j Hj. apply R. lia.
    + intros j. destruct (Nat.lt_ge_cases (S j) (length (x :: u))) as [Hj|Hj]; auto. left. apply D. lia.
    + apply R. simpl in L. lia.
Qed.

(** the partition of a pair *)
Definition glue (t b : list Z) : list Z :=
  match t with
  | [] => b
  | _ => let l := part_conj t in map (fun i => part l (Z.to_nat i) + part b (Z.to_nat i)) (zrange 0 (zlen l))
  end.

Lemma glue_eval k rows cols t b : pair_in k rows cols t b -> 0 <= k ->
  forall j, part (glue t b) j =
    if k =? 0 then part b j else count_ge t (Z.of_nat j + 1) + part b j.
Proof.
  intros Hp Hk j. pose proof Hp as (L & R & D & Pb & Sb & B0 & Lb).
  destruct t as [|x u].
  - simpl in L. subst k. reflexivity.
  - destruct (k =? 0) eqn:E0; [simpl in L; lia|].
    pose proof (top_partition _ _ _ _ _ Hp) as Ht. pose proof (part_conj_conjugate _ Ht) as [Hc Ec].
    rewrite <- part_conj_clip in *. unfold glue.
    set (l := part_conj (x :: u)) in *.
    assert (El : forall i, part l i = count_ge (x :: u) (Z.of_nat i + 1)) by (intros; rewrite Ec, count_clip by lia; auto).
    rewrite <- El.
    destruct (Nat.lt_ge_cases j (length l)) as [Hj|Hj].
    + rewrite part_map_zrange by (unfold zlen; lia). rewrite Nat2Z.id. auto.
    + rewrite part_over by (rewrite map_length, length_zrange; unfold zlen; lia).
      rewrite (part_over l) by auto. rewrite (part_over b); auto.
      assert (Hl0 : part l (length l) = 0) by (apply part_over; auto).
      assert (Z.of_nat (length b) <= Z.of_nat (length l)); [|lia].
      eapply Z.le_trans; [exact Lb|].
      (* the last entry of t is at most the number of rows *)
      destruct (Z.le_gt_cases (part (x :: u) (Z.to_nat (k - 1))) (Z.of_nat (length l))) as [|Hgt]; auto.
      exfalso.
      assert (0 < part l (length l)); [|lia]. rewrite El.
      rewrite <- count_clip by lia.
      apply (count_iff _ 0); auto; [lia|]. rewrite part_clip_part.
      assert (G : forall i, Z.of_nat i < k -> part (x :: u) i <= part (x :: u) 0).
      { induction i; [lia|]. intros Hi. specialize (D i Hi). specialize (IHi ltac:(lia)). lia. }
      specialize (G (Z.to_nat (k - 1)) ltac:(lia)). lia.
Qed.

Lemma top_full k rows cols t b j : pair_in k rows cols t b -> 0 < k ->
  count_ge t (Z.of_nat j + 1) <= k /\
  (Z.of_nat j < part t (Z.to_nat (k - 1)) -> count_ge t (Z.of_nat j + 1) = k).
Proof.
  intros Hp Hk. pose proof Hp as (L & R & D & _).
  assert (Hle : count_ge t (Z.of_nat j + 1) <= k) by (pose proof (count_ge_le t (Z.of_nat j + 1)); unfold zlen in *; lia).
  split; auto. intros Hj. pose proof (top_partition _ _ _ _ _ Hp) as Ht.
  assert (k - 1 < count_ge t (Z.of_nat j + 1)); [|lia].
  rewrite <- count_clip by lia. rewrite <- (Z2Nat.id (k - 1)) by lia. apply count_iff; auto; [lia|].
  rewrite part_clip_part. lia.
Qed.

Lemma glue_partition k rows cols t b : pair_in k rows cols t b -> 0 <= k -> is_partition (glue t b).
Proof.
  intros Hp Hk. pose proof (glue_eval _ _ _ _ _ Hp Hk) as G. pose proof Hp as (L & R & D & Pb & Sb & B0 & Lb).
  destruct (Z.eq_dec k 0) as [->|Hk0].
  { destruct t; [auto|simpl in L; lia]. }
  destruct (k =? 0) eqn:E0; [lia|]. split.
  - intros j Hj. rewrite G. 
    assert (Hj' : (j < length (part_conj t))%nat).
    { destruct t; [simpl in L; lia|]. unfold glue in Hj. rewrite map_length, length_zrange in Hj. unfold zlen in Hj. lia. }
    pose proof (top_partition _ _ _ _ _ Hp) as Ht. pose proof (part_conj_conjugate _ Ht) as [[Hc _] Ec].
    rewrite <- part_conj_clip in *. specialize (Hc j Hj'). rewrite Ec, count_clip in Hc by lia.
    pose proof (is_partition_nonneg b j Pb). lia.
  - intros j. rewrite !G. pose proof (count_ge_mono t (Z.of_nat j + 1) (Z.of_nat (S j) + 1) ltac:(lia)).
    destruct Pb as [_ Pb]. specialize (Pb j). lia.
Qed.

Lemma glue_pair_of k rows cols t b : pair_in k rows cols t b -> 0 <= k -> pair_of k (glue t b) t b.
Proof.
  intros Hp Hk. pose proof (glue_eval _ _ _ _ _ Hp Hk) as G.
  pose proof (glue_partition _ _ _ _ _ Hp Hk) as GP. pose proof Hp as (L & R & D & Pb & Sb & B0 & Lb).
  assert (Hb : forall j, 0 < k -> 0 < part b j -> count_ge t (Z.of_nat j + 1) = k).
  { intros j Hk0 Hj. apply (top_full _ _ _ _ _ j Hp Hk0). destruct (k =? 0) eqn:E0; [lia|].
    destruct (Nat.lt_ge_cases j (length b)) as [|Hge]; [lia|]. rewrite part_over in Hj by auto. lia. }
  split; auto. split; [|split; auto].
  - intros j Hj. destruct (k =? 0) eqn:E0; [lia|].
    pose proof (top_partition _ _ _ _ _ Hp) as Ht.
    assert (W : forall i, Z.of_nat i < part t j <-> Z.of_nat i < count_ge (glue t b) (Z.of_nat j + 1)).
    { intros i. rewrite count_iff by (auto; lia). rewrite G.
      pose proof (count_iff (part_clip t) j (Z.of_nat i + 1) Ht ltac:(lia)) as W.
      rewrite count_clip, part_clip_part in W by lia.
      pose proof (is_partition_nonneg b i Pb). pose proof (Hb i ltac:(lia)).
      destruct (Z.eq_dec (part b i) 0); lia. }
    specialize (R j Hj). pose proof (count_ge_nonneg (glue t b) (Z.of_nat j + 1)).
    pose proof (W (Z.to_nat (part t j))). pose proof (W (Z.to_nat (count_ge (glue t b) (Z.of_nat j + 1)))). lia.
  - intros j. rewrite G. pose proof (is_partition_nonneg b j Pb). destruct (k =? 0) eqn:E0; [lia|].
    pose proof (top_full _ _ _ _ _ j Hp ltac:(lia)) as [T1 T2]. pose proof (Hb j ltac:(lia)).
    destruct (Z.eq_dec (part b j) 0); lia.
Qed.

Lemma pair_of_kstrict k rows cols l t b : 0 <= k <= cols -> is_partition l -> pair_of k l t b -> pair_in k rows cols t b ->
  kstrict_in k rows cols l.
Proof.
  intros Hk Hl (L & T & Pb & B) (_ & R & D & _ & Sb & B0 & Lb). split; [split; auto; split|].
  - destruct (Z.eq_dec k 0) as [->|Hk0].
    + rewrite Z.eqb_refl in Lb. 
      destruct (Nat.le_gt_cases (length l) (length b)) as [|Hgt]; [lia|].
      destruct Hl as [Hl _]. specialize (Hl _ Hgt). specialize (B (length b)). rewrite part_over in B by auto. lia.
    + specialize (T 0%nat ltac:(lia)). specialize (R 0%nat ltac:(lia)). simpl in T. rewrite count_1 in T by auto.
      unfold zlen in T. lia.
  - specialize (B 0%nat). lia.
  - intros j Hj. pose proof (B j). pose proof (B (S j)). specialize (Sb j ltac:(lia)). lia.
Qed.

Lemma glue_of_pair k l t b rows cols : 0 <= k <= cols -> kstrict_in k rows cols l -> pair_of k l t b -> glue t b = l.
Proof.
  intros Hk Hl Hp. pose proof (pair_of_in _ _ _ _ _ _ Hk Hl Hp) as Hin.
  destruct Hl as [(Hl & _) _]. apply partition_eq; auto; [eapply glue_partition; eauto; lia|].
  intros j. rewrite (glue_eval _ _ _ _ _ Hin) by lia. destruct Hp as (L & T & Pb & B).
  pose proof (is_partition_nonneg l j Hl) as H0.
  destruct (k =? 0) eqn:E0; rewrite B; [lia|].
  assert (W : forall i, Z.of_nat i < Z.min (part l j) k <-> Z.of_nat i < count_ge t (Z.of_nat j + 1)).
  { intros i. rewrite <- (count_clip t) by lia. rewrite count_iff by (try lia; eapply top_partition; eauto).
    rewrite part_clip_part. destruct (Z.lt_ge_cases (Z.of_nat i) k) as [Hi|Hi].
    - rewrite T by auto. pose proof (count_iff l j (Z.of_nat i + 1) Hl ltac:(lia)). lia.
    - rewrite (part_over t) by lia. lia. }
  pose proof (count_ge_nonneg t (Z.of_nat j + 1)).
  pose proof (W (Z.to_nat (Z.min (part l j) k))). pose proof (W (Z.to_nat (count_ge t (Z.of_nat j + 1)))). lia.
Qed.

(** evaluation of pair2part *)
Lemma pair2part_unmarked k rows cols t b : pair_in k rows cols t b -> 0 <= k ->
  pair2part_inner t b = Ok (glue t b).
Proof.
  intros Hp Hk. pose proof (glue_eval _ _ _ _ _ Hp Hk) as G. pose proof Hp as (L & R & D & Pb & Sb & B0 & Lb).
  destruct t as [|x u]; [reflexivity|]. unfold pair2part_inner.
  destruct (k =? 0) eqn:E0; [simpl in L; lia|].
  assert (Hlen : zlen b <= zlen (part_conj (x :: u))).
  { destruct (Z.le_gt_cases (zlen b) (zlen (part_conj (x :: u)))) as [|Hgt]; auto.
    unfold zlen in Hgt. destruct Pb as [Pb _]. specialize (Pb (length (part_conj (x :: u))) ltac:(lia)).
    specialize (G (length (part_conj (x :: u)))). rewrite part_over in G
      by (unfold glue; rewrite map_length, length_zrange; unfold zlen; lia).
    pose proof (count_ge_nonneg (x :: u) (Z.of_nat (length (part_conj (x :: u))) + 1)). lia. }
  unfold glue. set (l := part_conj (x :: u)) in *.
  rewrite mapM_ok with (g := fun i => part l (Z.to_nat i) + part b (Z.to_nat i)).
  2:{ intros i Hi. apply in_zrange in Hi. rewrite (py_get_in l i 0) by lia. cbn [bind].
      rewrite (py_get_in b i 0) by lia. reflexivity. }
  cbn [bind]. pose proof (last_partition b Pb) as El.
  assert (Ea : map (fun i => part l (Z.to_nat i) + part b (Z.to_nat i)) (zrange 0 (zlen b)) ++ sl_from l (zlen b) =
    map (fun i => part l (Z.to_nat i) + part b (Z.to_nat i)) (zrange 0 (zlen l))).
  { assert (Esl : sl_from l (zlen b) = skipn (length b) l).
    { unfold sl_from. rewrite sl_bound_in by (pose proof (zlen_nonneg b); lia). unfold zlen. rewrite Nat2Z.id. auto. }
    rewrite Esl. unfold zlen in *. apply list_part_eq.
    - rewrite app_length, !map_length, !length_zrange, skipn_length. lia.
    - intros j Hj. rewrite app_length, map_length, length_zrange, skipn_length in Hj.
      rewrite part_map_zrange by lia. rewrite Nat2Z.id.
      destruct (Nat.lt_ge_cases j (length b)) as [Hjb|Hjb].
      + unfold part at 1. rewrite app_nth1 by (rewrite map_length, length_zrange; lia).
        change (part (map (fun i => part l (Z.to_nat i) + part b (Z.to_nat i)) (zrange 0 (Z.of_nat (length b)))) j =
                part l j + part b j).
        rewrite part_map_zrange by lia. rewrite Nat2Z.id. auto.
      + unfold part at 1. rewrite app_nth2 by (rewrite map_length, length_zrange; lia).
        rewrite map_length, length_zrange. rewrite (part_over b) by auto. rewrite Z.add_0_r.
        unfold part. replace (j - Z.to_nat (Z.of_nat (length b) - 0))%nat with (j - length b)%nat by lia.
        rewrite <- (firstn_skipn (length b) l) at 2. rewrite app_nth2; rewrite firstn_length_le by lia; auto. }
  rewrite Ea. destruct b as [|y b']; [reflexivity|]. rewrite El. reflexivity.
Qed.

Lemma pair2part_marked k rows cols t b : pair_in k rows cols t b -> 0 < k ->
  Z.of_nat (length b) < part t (Z.to_nat (k - 1)) ->
  pair2part_inner t (b ++ [0]) = Ok (glue t b ++ [0]).
Proof.
  intros Hp Hk Hm. pose proof (pair2part_unmarked _ _ _ _ _ Hp ltac:(lia)) as E.
  pose proof (glue_eval _ _ _ _ _ Hp ltac:(lia)) as G. pose proof Hp as (L & R & D & Pb & Sb & B0 & Lb).
  pose proof (top_full _ _ _ _ _ (length b) Hp Hk) as [_ T]. specialize (T Hm).
  destruct t as [|x u]; [simpl in L; lia|]. unfold pair2part_inner in *.
  destruct (k =? 0) eqn:E0; [lia|].
  assert (Hlen : zlen b < zlen (part_conj (x :: u))).
  { destruct (Z.lt_ge_cases (zlen b) (zlen (part_conj (x :: u)))) as [|Hgt]; auto.
    specialize (G (length b)). rewrite part_over in G
      by (unfold glue; rewrite map_length, length_zrange; unfold zlen in *; lia).
    rewrite (part_over b) in G by auto. lia. }
  set (l := part_conj (x :: u)) in *. pose proof (zlen_nonneg b).
  assert (Eh : mapM (fun i => x0 <- py_get l i ;; y <- py_get (b ++ [0]) i ;; Ok (x0 + y)) (zrange 0 (zlen b)) =
               mapM (fun i => x0 <- py_get l i ;; y <- py_get b i ;; Ok (x0 + y)) (zrange 0 (zlen b))).
  { apply mapM_ext. intros i Hi. apply in_zrange in Hi. destruct (py_get l i); auto. cbn [bind].
    rewrite (py_get_in b i 0) by lia. rewrite (py_get_in _ i 0) by (rewrite zlen_app, zlen_one; lia).
    rewrite app_nth1 by (unfold zlen in *; lia). auto. }
  rewrite zlen_app, zlen_one, (zrange_snoc 0) by lia.
  replace (zlen b + (0 + 1) - 1) with (zlen b) by lia.
  rewrite mapM_app, Eh. destruct (mapM _ (zrange 0 (zlen b))) as [a|e] eqn:Em; [|discriminate]. cbn [bind] in *.
  cbn [mapM bind]. rewrite (py_get_in l (zlen b) 0) by lia. cbn [bind].
  rewrite (py_get_mid b 0 []) by auto. cbn [bind].
  assert (Esl : sl_from l (zlen b) = nth (Z.to_nat (zlen b)) l 0 :: sl_from l (zlen b + (0 + 1))).
  { unfold sl_from. rewrite !sl_bound_in by lia. replace (Z.to_nat (zlen b + (0 + 1))) with (S (Z.to_nat (zlen b))) by lia.
    assert (Hn : (Z.to_nat (zlen b) < length l)%nat) by (unfold zlen in *; lia).
    clear - Hn. revert Hn. generalize (Z.to_nat (zlen b)). induction l as [|y l IH]; intros [|n] Hn; simpl in *; try lia; auto.
    apply IH. lia. }
  destruct (b ++ [0]) as [|y b'] eqn:Eb; [destruct b; discriminate|]. rewrite <- Eb. rewrite last_last, Z.eqb_refl.
  f_equal. f_equal. rewrite <- app_assoc. cbn [app]. rewrite Z.add_0_r, <- Esl.
  pose proof (last_partition b Pb) as El. destruct b as [|z b0]; [|rewrite El in E]; injection E as E; exact E.
Qed.
