(** Conjugate partitions. *)

From Coq Require Import ZArith List Lia Bool.
From Verif Require Import Py ModelPart ModelQcalc Spec PyFacts PartFacts.
Import ListNotations.
Open Scope Z_scope.

Lemma count_ge_cons x l v : count_ge (x :: l) v = (if v <=? x then 1 else 0) + count_ge l v.
Proof. unfold count_ge. simpl. destruct (v <=? x); cbn [length]; lia. Qed.
Lemma count_ge_nonneg l v : 0 <= count_ge l v.
Proof. unfold count_ge. lia. Qed.
Lemma count_ge_app a b v : count_ge (a ++ b) v = count_ge a v + count_ge b v.
Proof. unfold count_ge. rewrite filter_app, app_length. lia. Qed.

Lemma is_partition_tail x t : is_partition (x :: t) -> is_partition t.
Proof. intros [H1 H2]. split; intros j; [intros Hj; apply (H1 (S j)); simpl; lia|apply (H2 (S j))]. Qed.
Lemma is_partition_nil : is_partition [].
Proof. split; intros j; [simpl; lia|]. unfold part. destruct j; simpl; lia. Qed.
Lemma part_nil j : part [] j = 0.
Proof. unfold part. destruct j; reflexivity. Qed.

Lemma decp_part_le prev l j : 0 <= prev -> decp prev l -> part l j <= prev.
Proof.
  revert prev j. induction l as [|x t IH]; intros prev j Hp; [rewrite part_nil; lia|].
  intros [H1 H2]. destruct j; [unfold part; simpl; lia|]. change (part (x :: t) (S j)) with (part t j).
  specialize (IH x j ltac:(lia) H2). lia.
Qed.
Lemma count_ge_big prev l v : decp prev l -> prev < v -> count_ge l v = 0.
Proof.
  revert prev. induction l as [|x t IH]; intros prev; [reflexivity|]. intros [H1 H2] Hv.
  rewrite count_ge_cons, (IH x) by (auto; lia). destruct (v <=? x) eqn:E; lia.
Qed.

(** the defining property of the conjugate *)
Lemma count_ge_iff l : forall prev, decp prev l -> forall j v, 1 <= v ->
  (Z.of_nat j < count_ge l v <-> v <= part l j).
Proof.
  induction l as [|x t IH]; intros prev Hd j v Hv.
  - rewrite part_nil. unfold count_ge. simpl. lia.
  - destruct Hd as [H1 H2]. rewrite count_ge_cons. destruct (v <=? x) eqn:E.
    + destruct j as [|j].
      * change (part (x :: t) 0) with x. pose proof (count_ge_nonneg t v). lia.
      * change (part (x :: t) (S j)) with (part t j). rewrite <- (IH x H2 j v Hv). lia.
    + rewrite (count_ge_big x) by (auto; lia). split; [lia|]. intros H.
      pose proof (decp_part_le x (x :: t) j ltac:(lia) (conj (conj (proj1 H1) (Z.le_refl x)) H2)). lia.
Qed.

Lemma partition_decp l : is_partition l -> decp (part l 0) l.
Proof. intros H. apply is_partition_decp; auto. lia. Qed.
Lemma count_iff l j v : is_partition l -> 1 <= v -> (Z.of_nat j < count_ge l v <-> v <= part l j).
Proof. intros H. apply (count_ge_iff l (part l 0)). apply partition_decp; auto. Qed.

(** partitions are determined by their parts *)
Lemma partition_eq a b : is_partition a -> is_partition b -> (forall j, part a j = part b j) -> a = b.
Proof.
  intros Ha Hb H. apply list_part_eq; auto.
  assert (G : forall a b, is_partition a -> is_partition b -> (forall j, part a j = part b j) -> (length a <= length b)%nat).
  { clear. intros a b Ha Hb H. destruct (Nat.le_gt_cases (length a) (length b)) as [|Hl]; auto.
    destruct Ha as [Ha _]. specialize (Ha _ Hl). rewrite H, part_over in Ha; lia. }
  apply Nat.le_antisymm; apply G; auto.
Qed.
Lemma partition_eq_ge a b : is_partition a -> is_partition b ->
  (forall j v, 1 <= v -> (v <= part a j <-> v <= part b j)) -> a = b.
Proof.
  intros Ha Hb H. apply partition_eq; auto. intros j.
  pose proof (is_partition_nonneg a j Ha). pose proof (is_partition_nonneg b j Hb).
  pose proof (H j (part a j)). pose proof (H j (part b j)).
  destruct (Z.eq_dec (part a j) 0), (Z.eq_dec (part b j) 0); lia.
Qed.

Lemma conjugate_unique lam a b : is_conjugate lam a -> is_conjugate lam b -> a = b.
Proof. intros [Ha Ea] [Hb Eb]. apply partition_eq; auto. intros j. rewrite Ea, Eb. auto. Qed.
Lemma conjugate_sym lam mu : is_partition lam -> is_conjugate lam mu -> is_conjugate mu lam.
Proof.
  intros Hl [Hm E]. split; auto. intros i.
  assert (G : forall j, Z.of_nat j < part lam i <-> Z.of_nat j < count_ge mu (Z.of_nat i + 1)).
  { intros j. rewrite (count_iff mu) by (auto; lia). rewrite E.
    transitivity (Z.of_nat j + 1 <= part lam i); [lia|]. rewrite <- (count_iff lam) by (auto; lia). lia. }
  pose proof (is_partition_nonneg lam i Hl). pose proof (count_ge_nonneg mu (Z.of_nat i + 1)).
  pose proof (G (Z.to_nat (part lam i))). pose proof (G (Z.to_nat (count_ge mu (Z.of_nat i + 1)))). lia.
Qed.

(** the first column *)
Definition strip (l : list Z) : list Z := part_clip (map (fun x => x - 1) l).
Lemma part_pred l j : (j < length l)%nat -> part (map (fun x => x - 1) l) j = part l j - 1.
Proof.
  intros H. unfold part. rewrite (nth_indep _ 0 ((fun x => x - 1) 0)) by (rewrite map_length; auto).
  rewrite (map_nth (fun x => x - 1)). auto.
Qed.
Lemma part_strip l j : is_partition l -> part (strip l) j = Z.max 0 (part l j - 1).
Proof.
  intros [H1 H2]. unfold strip. rewrite part_clip_part.
  destruct (Nat.lt_ge_cases j (length l)) as [Hj|Hj].
  - rewrite part_pred by auto. specialize (H1 j Hj). lia.
  - rewrite !part_over by (rewrite ?map_length; auto). lia.
Qed.
Lemma decp_map_pred l prev : decp prev l -> Forall (fun x => 0 < x) l -> decp (prev - 1) (map (fun x => x - 1) l).
Proof.
  revert prev. induction l as [|x t IH]; intros prev; simpl; auto. intros [H1 H2] H. inversion H; subst.
  split; [lia|]. apply IH; auto.
Qed.
Lemma partition_pos l : is_partition l -> Forall (fun x => 0 < x) l.
Proof.
  intros [H _]. apply Forall_forall. intros x Hx. destruct (In_nth _ _ 0 Hx) as (j & Hj & <-).
  apply (H j Hj).
Qed.
Lemma strip_partition l : is_partition l -> is_partition (strip l).
Proof.
  intros H. destruct l as [|x t]; [apply is_partition_nil|].
  pose proof (partition_pos _ H) as Hp.
  apply (decp_is_partition (x - 1)); [inversion Hp; lia|].
  apply decp_map_pred; auto. exact (partition_decp _ H).
Qed.
Lemma count_clip l v : 1 <= v -> count_ge (part_clip l) v = count_ge l v.
Proof.
  intros Hv. destruct (part_clip_spec l) as (c & _ & E). rewrite E at 2. rewrite count_ge_app.
  replace (count_ge (repz 0 c) v) with 0; [lia|]. unfold repz. induction (Z.to_nat c); [reflexivity|].
  cbn [repeat]. rewrite count_ge_cons. destruct (v <=? 0) eqn:E0; lia.
Qed.
Lemma count_strip l v : 1 <= v -> count_ge (strip l) v = count_ge l (v + 1).
Proof.
  intros Hv. unfold strip. rewrite count_clip by auto. induction l as [|x t IH]; [reflexivity|].
  cbn [map]. rewrite !count_ge_cons, IH. destruct (v <=? x - 1) eqn:E1, (v + 1 <=? x) eqn:E2; lia.
Qed.
Lemma count_1 l : is_partition l -> count_ge l 1 = zlen l.
Proof.
  intros H. apply partition_pos in H. unfold count_ge, zlen. f_equal. f_equal.
  induction H; [reflexivity|]. simpl. destruct (1 <=? x) eqn:E; [|lia]. f_equal; auto.
Qed.
Lemma zsum_map_pred l : zsum (map (fun x => x - 1) l) = zsum l - zlen l.
Proof.
  induction l as [|x t IH]; [reflexivity|]. rewrite zlen_cons.
  change (zsum (map (fun x => x - 1) (x :: t))) with (x - 1 + zsum (map (fun x => x - 1) t)).
  change (zsum (x :: t)) with (x + zsum t). lia.
Qed.

Lemma conj_loop_part m : forall l j, is_partition l -> part l 0 <= Z.of_nat m ->
  part (conj_loop m l) j = count_ge l (Z.of_nat j + 1).
Proof.
  induction m as [|m IH]; intros l j Hl H0.
  - assert (l = []) as ->. { destruct l; auto. apply partition_pos in Hl. inversion Hl; subst. unfold part in H0. simpl in H0. lia. }
    rewrite part_nil. reflexivity.
  - cbn [conj_loop]. destruct j as [|j].
    + change (part (?x :: ?t) 0) with x. symmetry. apply count_1; auto.
    + change (part (?x :: ?t) (S j)) with (part t j). fold (strip l).
      rewrite IH by (auto using strip_partition; rewrite part_strip by auto; lia).
      rewrite count_strip by lia. f_equal. lia.
Qed.
Lemma conj_loop_size m : forall l, is_partition l -> part l 0 <= Z.of_nat m -> size (conj_loop m l) = size l.
Proof.
  induction m as [|m IH]; intros l Hl H0.
  - assert (l = []) as ->. { destruct l; auto. apply partition_pos in Hl. inversion Hl; subst. unfold part in H0. simpl in H0. lia. }
    reflexivity.
  - cbn [conj_loop]. change (size (?x :: ?t)) with (x + size t). fold (strip l).
    rewrite IH by (auto using strip_partition; rewrite part_strip by auto; lia).
    unfold strip. rewrite (size_zsum (part_clip _)), (size_zsum l), zsum_clip, zsum_map_pred. lia.
Qed.
Lemma conj_loop_len m : forall l, length (conj_loop m l) = m.
Proof. induction m; intros; simpl; auto. Qed.

Lemma part_conj_partition l : is_partition l -> part_conj l = conj_loop (Z.to_nat (part l 0)) l.
Proof.
  intros H. unfold part_conj. rewrite is_partition_clip by auto. destruct l as [|x t]; [reflexivity|].
  destruct (existsb _ _) eqn:E; auto. apply existsb_exists in E. destruct E as (y & Hy & E).
  apply partition_pos in H. rewrite Forall_forall in H. specialize (H y Hy). lia.
Qed.

Lemma part_conj_conjugate l : is_partition l -> is_conjugate l (part_conj l).
Proof.
  intros H. rewrite part_conj_partition by auto. pose proof (is_partition_nonneg l 0 H).
  assert (E : forall j, part (conj_loop (Z.to_nat (part l 0)) l) j = count_ge l (Z.of_nat j + 1)).
  { intros j. apply conj_loop_part; auto. lia. }
  split; auto. split; intros j.
  - rewrite conj_loop_len, E. intros Hj. apply (count_iff l 0); auto; lia.
  - rewrite !E. pose proof (count_iff l (Z.to_nat (count_ge l (Z.of_nat j + 1))) (Z.of_nat (S j) + 1) H ltac:(lia)) as H1.
    pose proof (count_iff l (Z.to_nat (count_ge l (Z.of_nat j + 1))) (Z.of_nat j + 1) H ltac:(lia)) as H2.
    pose proof (count_ge_nonneg l (Z.of_nat j + 1)). lia.
Qed.
Lemma part_conj_clip l : part_conj l = part_conj (part_clip l).
Proof. unfold part_conj. rewrite part_clip_idem. auto. Qed.
Lemma part_conj_zeros l c : part_conj (l ++ repz 0 c) = part_conj l.
Proof. rewrite part_conj_clip, part_clip_app0, <- part_conj_clip. auto. Qed.
Lemma part_conj_involutive l : is_partition l -> part_conj (part_conj l) = l.
Proof.
  intros H. pose proof (part_conj_conjugate l H) as C. pose proof (part_conj_conjugate _ (proj1 C)) as C'.
  eapply conjugate_unique; [exact C'|]. apply conjugate_sym; auto.
Qed.
Lemma part_conj_size l : is_partition l -> size (part_conj l) = size l.
Proof.
  intros H. rewrite part_conj_partition by auto. pose proof (is_partition_nonneg l 0 H).
  apply conj_loop_size; auto. lia.
Qed.
