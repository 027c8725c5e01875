(** Partitions in a box: clipped lists (as in Schubert classes) and lists padded
    with zeros (as used inside the Pieri rules). *)

From Coq Require Import ZArith List Lia Bool Permutation.
From Verif Require Import Py OrderFacts PyFacts ModelPart ModelQcalc ModelPoly Spec.
Import ListNotations.
Open Scope Z_scope.

(** weakly decreasing, nonnegative, first entry at most [prev] *)
Fixpoint decp (prev : Z) (l : list Z) : Prop :=
  match l with
  | [] => True
  | x :: t => 0 <= x <= prev /\ decp x t
  end.

Definition padm (m : Z) (l : list Z) : list Z := l ++ repz 0 (m - zlen l).
(** padded partitions of the box *)
Definition wbox (m k : Z) (l : list Z) : Prop := decp k l /\ zlen l = m.

Lemma size_zsum l : size l = zsum l.
Proof. induction l; simpl; auto. Qed.

Lemma repz_succ {A} (v : A) c : 0 <= c -> repz v (c + 1) = v :: repz v c.
Proof. intros. unfold repz. replace (Z.to_nat (c + 1)) with (S (Z.to_nat c)) by lia. auto. Qed.

Lemma part_clip_repz c : part_clip (repz 0 c) = [].
Proof. unfold repz. induction (Z.to_nat c); simpl; auto. rewrite IHn. auto. Qed.

Lemma part_clip_app0 l c : part_clip (l ++ repz 0 c) = part_clip l.
Proof.
  induction l as [|x l IH]; simpl; [apply part_clip_repz|]. rewrite IH. auto.
Qed.

Lemma part_clip_pos l : Forall (fun x => x <> 0) l -> part_clip l = l.
Proof.
  induction 1 as [|x l Hx _ IH]; simpl; auto. rewrite IH.
  destruct l; auto. destruct (x =? 0) eqn:E; auto. lia.
Qed.

(** a clipped list and its padding *)
Lemma part_clip_spec l : exists c, 0 <= c /\ l = part_clip l ++ repz 0 c.
Proof.
  induction l as [|x l (c & Hc & IH)]; [exists 0; split; [lia|]; auto|].
  simpl. destruct (part_clip l) eqn:E.
  - destruct (x =? 0) eqn:Ex.
    + exists (c + 1). split; [lia|]. rewrite repz_succ by auto. simpl in *. f_equal; [lia | auto].
    + exists c. split; auto. simpl in *. f_equal. auto.
  - exists c. split; auto. simpl. f_equal. auto.
Qed.

Lemma part_clip_idem l : part_clip (part_clip l) = part_clip l.
Proof.
  destruct (part_clip_spec l) as (c & Hc & E). rewrite E at 2. rewrite part_clip_app0. auto.
Qed.

Lemma zlen_clip l : zlen (part_clip l) <= zlen l.
Proof.
  destruct (part_clip_spec l) as (c & Hc & E). rewrite E at 2. rewrite zlen_app, zlen_repz by auto. lia.
Qed.

Lemma padm_clip l : padm (zlen l) (part_clip l) = l.
Proof.
  destruct (part_clip_spec l) as (c & Hc & E). unfold padm.
  assert (Hl : zlen l = zlen (part_clip l) + c) by (rewrite E at 1; rewrite zlen_app, zlen_repz; auto).
  rewrite Hl. replace (zlen (part_clip l) + c - zlen (part_clip l)) with c by lia. auto.
Qed.

Lemma part_clip_inj a b : zlen a = zlen b -> part_clip a = part_clip b -> a = b.
Proof. intros H E. rewrite <- (padm_clip a), <- (padm_clip b), H, E. auto. Qed.

Lemma nth_repz0 j c : nth j (repz 0 c) 0 = 0.
Proof. unfold repz. apply nth_repeat. Qed.

Lemma part_app0 l c j : part (l ++ repz 0 c) j = part l j.
Proof.
  unfold part. destruct (Nat.lt_ge_cases j (length l)).
  - apply app_nth1; auto.
  - rewrite app_nth2 by auto. rewrite nth_repz0, nth_overflow; auto.
Qed.
Lemma part_padm m l j : part (padm m l) j = part l j.
Proof. apply part_app0. Qed.
Lemma part_clip_part l j : part (part_clip l) j = part l j.
Proof.
  destruct (part_clip_spec l) as (c & Hc & E). rewrite E at 2. rewrite part_app0. auto.
Qed.
Lemma zsum_clip l : zsum (part_clip l) = zsum l.
Proof.
  destruct (part_clip_spec l) as (c & Hc & E). rewrite E at 2. rewrite zsum_app, zsum_repz0. lia.
Qed.
Lemma zsum_padm m l : zsum (padm m l) = zsum l.
Proof. unfold padm. rewrite zsum_app, zsum_repz0. lia. Qed.

Lemma decp_mono a b l : a <= b -> decp a l -> decp b l.
Proof. destruct l; simpl; intuition lia. Qed.

Lemma decp_nonneg prev l : decp prev l -> Forall (fun x => 0 <= x) l.
Proof.
  revert prev. induction l as [|x l IH]; simpl; intros prev H; constructor.
  - lia.
  - apply (IH x). tauto.
Qed.

Lemma decp_part prev l : 0 <= prev -> (decp prev l <->
  (forall j, (j < length l)%nat -> 0 <= part l j) /\
  (forall j, part l (S j) <= part l j \/ (length l <= S j)%nat) /\ (part l 0 <= prev)).
Proof.
  revert prev. induction l as [|x l IH]; intros prev Hp.
  - simpl. unfold part. simpl. split; auto. intros _. repeat split; intros; try lia.
  - cbn [decp]. split.
    + intros [H1 H2]. apply IH in H2; [|lia]. destruct H2 as (A & B & C). repeat split.
      * intros [|j] Hj; unfold part; simpl; [lia|]. apply (A j). simpl in Hj. lia.
      * intros [|j]; unfold part in *; simpl in *; auto. specialize (B j). lia.
      * unfold part; simpl. lia.
    + intros (A & B & C). assert (Hx : 0 <= x) by (apply (A 0%nat); simpl; lia).
      split; [unfold part in C; simpl in C; lia|]. apply IH; auto. repeat split.
      * intros j Hj. apply (A (S j)). simpl; lia.
      * intros j. specialize (B (S j)). unfold part in *. simpl in *. lia.
      * specialize (B 0%nat). unfold part in *. simpl in *. destruct B; auto.
        destruct l; simpl in *; lia.
Qed.

Lemma decp_app prev a b : decp prev (a ++ b) -> decp prev a.
Proof. revert prev. induction a; simpl; auto. intros prev [H1 H2]. split; auto. Qed.

Lemma decp_app0 prev l c : 0 <= prev -> decp prev l -> decp prev (l ++ repz 0 c).
Proof.
  revert prev. induction l as [|x l IH]; simpl; intros prev Hp H.
  - clear -Hp. unfold repz. revert prev Hp. induction (Z.to_nat c); simpl; auto.
    intros prev Hp. split; [lia|]. apply IHn. lia.
  - split; [tauto|]. apply IH; tauto.
Qed.

(** clipping a decreasing list gives a partition, padding recovers it *)
Lemma clip_decp_pos prev l : decp prev l -> Forall (fun x => 0 < x) (part_clip l).
Proof.
  revert prev. induction l as [|x l IH]; simpl; intros prev H; [constructor|].
  destruct H as [H1 H2]. specialize (IH x H2).
  destruct (part_clip l) as [|y t] eqn:E.
  - destruct (x =? 0) eqn:Ex; constructor; auto. lia.
  - constructor; auto. inversion IH; subst.
    assert (In y l).
    { destruct (part_clip_spec l) as (c & _ & El). rewrite El, E. simpl. auto. }
    assert (Hall : Forall (fun z => z <= x) l).
    { clear -H2. revert x H2. induction l as [|z l IHl]; constructor.
      - simpl in H2. lia.
      - simpl in H2. eapply Forall_impl; [|apply (IHl z); tauto]. simpl. intros. lia. }
    rewrite Forall_forall in Hall. specialize (Hall y H). lia.
Qed.

Lemma decp_is_partition prev l : 0 <= prev -> decp prev l -> is_partition (part_clip l).
Proof.
  intros Hp H. pose proof (clip_decp_pos _ _ H) as Hpos. split.
  - intros j Hj. rewrite Forall_forall in Hpos. apply Hpos. unfold part. apply nth_In. auto.
  - intros j. rewrite !part_clip_part. apply decp_part in H; auto. destruct H as (A & B & C).
    destruct (B j) as [|Hl]; auto. unfold part. rewrite (nth_overflow _ _ Hl).
    destruct (Nat.lt_ge_cases j (length l)); [apply A; auto | rewrite nth_overflow; auto; lia].
Qed.

Lemma is_partition_nonneg l j : is_partition l -> 0 <= part l j.
Proof.
  intros [H _]. destruct (Nat.lt_ge_cases j (length l)).
  - specialize (H j H0). lia.
  - unfold part. rewrite nth_overflow; auto. lia.
Qed.

Lemma is_partition_decp l k : is_partition l -> part l 0 <= k -> decp k l.
Proof.
  intros H Hk. pose proof (is_partition_nonneg l 0 H).
  apply decp_part; [lia|]. destruct H as [H1 H2]. repeat split; auto.
  intros j Hj. specialize (H1 j Hj). lia.
Qed.

Lemma is_partition_clip l : is_partition l -> part_clip l = l.
Proof.
  intros [H _]. apply part_clip_pos. apply Forall_forall. intros x Hx.
  destruct (In_nth _ _ 0 Hx) as (j & Hj & E). specialize (H j Hj). unfold part in H. lia.
Qed.

Lemma in_box_k m k l : in_box m k l -> 0 <= k.
Proof. intros (H & _ & Hk). pose proof (is_partition_nonneg l 0 H). lia. Qed.

Lemma in_box_wbox m k l : in_box m k l -> wbox m k (padm m l).
Proof.
  intros Hb. pose proof (in_box_k _ _ _ Hb) as Hk0. destruct Hb as (H & Hm & Hk).
  split.
  - apply decp_app0; auto. apply is_partition_decp; auto.
  - unfold padm. rewrite zlen_app, zlen_repz; unfold zlen; lia.
Qed.

Lemma wbox_in_box m k l : 0 <= k -> wbox m k l -> in_box m k (part_clip l).
Proof.
  intros Hk [H Hm]. split; [eapply decp_is_partition; eauto|]. split.
  - pose proof (zlen_clip l). unfold zlen in *. lia.
  - rewrite part_clip_part. apply decp_part in H; tauto.
Qed.

Lemma clip_padm m k l : in_box m k l -> part_clip (padm m l) = l.
Proof. intros (H & _). unfold padm. rewrite part_clip_app0. apply is_partition_clip; auto. Qed.

Lemma wbox_padm_clip m k l : wbox m k l -> padm m (part_clip l) = l.
Proof. intros [_ <-]. apply padm_clip. Qed.

Lemma in_box_nonneg m k l : in_box m k l -> schur_nonneg (SP l) = true.
Proof.
  intros ((H & _) & _). simpl. apply forallb_forall. intros x Hx.
  destruct (In_nth _ _ 0 Hx) as (j & Hj & E). specialize (H j Hj). unfold part in H. lia.
Qed.

Lemma in_box_nil m k : 0 <= m -> 0 <= k -> in_box m k [].
Proof.
  intros. split; [split|].
  - simpl. intros; lia.
  - intros j. unfold part. destruct j; simpl; lia.
  - unfold part. simpl. lia.
Qed.

Lemma nth_zrange n j d : (j < Z.to_nat n)%nat -> nth j (zrange 0 n) d = Z.of_nat j.
Proof.
  intros H. unfold zrange. rewrite Z.sub_0_r.
  rewrite (nth_indep _ d ((fun i => 0 + Z.of_nat i) 0%nat)) by (rewrite map_length, seq_length; auto).
  rewrite (map_nth (fun i => 0 + Z.of_nat i)), seq_nth by auto. lia.
Qed.
Lemma part_map_zrange (f : Z -> Z) n j : (j < Z.to_nat n)%nat ->
  part (map f (zrange 0 n)) j = f (Z.of_nat j).
Proof.
  intros H. unfold part. rewrite (nth_indep _ 0 (f 0)) by (rewrite map_length, length_zrange; lia).
  rewrite map_nth, nth_zrange; auto.
Qed.
Lemma part_over l j : (length l <= j)%nat -> part l j = 0.
Proof. intros. unfold part. apply nth_overflow; auto. Qed.
Lemma list_part_eq a b : length a = length b -> (forall j, (j < length a)%nat -> part a j = part b j) -> a = b.
Proof.
  intros Hl H. apply (nth_ext a b 0 0); auto.
Qed.

