(** Index sets of OG(m,2n+2): a typed partition corresponds to the k-strict
    partition of IG(m,2n+2) obtained by adding one box to each row longer than k,
    and possibly one to the first row of length k. *)

From Coq Require Import ZArith List Lia Bool.
From Verif Require Import Py OrderFacts ModelPart ModelQcalc ModelPoly Spec PyFacts PartFacts ConjFacts PairFacts
  IndexC IndexB.
Import ListNotations.
Open Scope Z_scope.

Lemma zmem_iff x l : zmem x l = true <-> In x l.
Proof.
  unfold zmem. rewrite existsb_exists. split.
  - intros (y & Hy & E). apply Z.eqb_eq in E. subst; auto.
  - intros H. exists x. rewrite Z.eqb_refl. auto.
Qed.
Lemma mod2_odd x : (x mod 2 =? 1) = Z.odd x.
Proof. rewrite Zmod_odd. destruct (Z.odd x); reflexivity. Qed.
(** a count through a list *)
Lemma filter_cnt f l : zlen (filter f l) = cnt (fun j => f (part l j)) (length l).
Proof.
  induction l as [|x t IH] using rev_ind; [reflexivity|]. rewrite filter_app, zlen_app, IH, app_length.
  replace (length t + length [x])%nat with (S (length t)) by (simpl; lia). cbn [cnt]. f_equal.
  - apply cnt_ext. intros i Hi. unfold part. rewrite app_nth1; auto.
  - unfold part. rewrite nth_middle. cbn [filter]. destruct (f x); reflexivity.
Qed.
Lemma cnt_prefix f L j : 0 <= L <= Z.of_nat j -> (forall i, (i < j)%nat -> (f i = true <-> Z.of_nat i < L)) -> cnt f j = L.
Proof.
  intros HL H. replace j with (Z.to_nat L + (j - Z.to_nat L))%nat by lia. 
  assert (E : forall d, (Z.to_nat L + d <= j)%nat -> cnt f (Z.to_nat L + d) = L).
  { induction d; intros Hd.
    - rewrite Nat.add_0_r. rewrite cnt_all; [lia|]. intros i Hi. apply H; lia.
    - rewrite Nat.add_succ_r. cbn [cnt]. rewrite IHd by lia. destruct (f (Z.to_nat L + d)%nat) eqn:E; [|lia].
      apply H in E; lia. }
  apply E. lia.
Qed.
(** a downward closed property of rows holds for the first cnt rows *)
Lemma cnt_down f j : (forall i, (S i < j)%nat -> f (S i) = true -> f i = true) ->
  forall i, (i < j)%nat -> (f i = true <-> Z.of_nat i < cnt f j).
Proof.
  induction j; intros H i Hi; [lia|]. cbn [cnt]. specialize (IHj ltac:(intros; apply H; auto; lia)).
  destruct (f j) eqn:E.
  - assert (A : forall h, (h <= j)%nat -> f h = true).
    { intros h Hh. remember (j - h)%nat as d eqn:Ed. revert h Hh Ed. induction d; intros h Hh Ed.
      - replace h with j by lia. auto.
      - apply H; [lia|]. apply IHd; lia. }
    rewrite (cnt_all f j) by (intros; apply A; lia). split; [lia|]. intros _. apply A. lia.
  - destruct (Nat.eq_dec i j) as [->|].
    + pose proof (cnt_bounds f j). split; [congruence|lia].
    + rewrite Z.add_0_r. apply IHj. lia.
Qed.

Section D.
Variables (n k m : Z).
Hypothesis Hk : 0 <= k.
Hypothesis Hm : 0 <= m.
Hypothesis Hn : n + 1 = m + k.
Hypothesis Hn0 : 0 <= n.

Definition ntD (l : list Z) : Z := match l with [] => n + 1 | _ => if last l 1 =? 0 then n + 2 else n + 1 end.
Definition raised (nt : Z) (l : list Z) (j : nat) : bool :=
  (k <? part l j) || ((part l j =? k) && ((Nat.eqb j 0) || (k <? part l (j - 1))) && Z.odd (nt + Z.of_nat j)).
Definition upl (nt : Z) (l : list Z) : list Z :=
  part_clip (map (fun j => part l (Z.to_nat j) + (if raised nt l (Z.to_nat j) then 1 else 0)) (zrange 0 m)).
Definition upD (l : list Z) : list Z := upl (ntD l) l.
Definition dnl (mu : list Z) : list Z :=
  part_clip (map (fun j => part mu (Z.to_nat j) - (if k <? part mu (Z.to_nat j) then 1 else 0)) (zrange 0 m)).
Definition LD (mu : list Z) : Z := cnt (fun j => k <? part mu j) (Z.to_nat m).
Definition dnD (mu : list Z) : list Z :=
  let s := dnl mu in if zmem k s && Z.odd (n + 1 - LD mu) then s ++ [0] else s.

Definition idxD (l : list Z) : list Z := idxC (n + 1) k m (upD l).
Definition prtD (p : list Z) : list Z := dnD (prtC (n + 1) k m p).

Lemma part_upl nt l j : (j < Z.to_nat m)%nat -> part (upl nt l) j = part l j + (if raised nt l j then 1 else 0).
Proof. intros Hj. unfold upl. rewrite part_clip_part, part_map_zrange by auto. rewrite Nat2Z.id. auto. Qed.
Lemma part_upl_over nt l j : (Z.to_nat m <= j)%nat -> part (upl nt l) j = 0.
Proof. intros Hj. unfold upl. rewrite part_clip_part, part_over; auto. rewrite map_length, length_zrange. lia. Qed.
Lemma part_dnl mu j : (j < Z.to_nat m)%nat -> part (dnl mu) j = part mu j - (if k <? part mu j then 1 else 0).
Proof. intros Hj. unfold dnl. rewrite part_clip_part, part_map_zrange by auto. rewrite Nat2Z.id. auto. Qed.
Lemma part_dnl_over mu j : (Z.to_nat m <= j)%nat -> part (dnl mu) j = 0.
Proof. intros Hj. unfold dnl. rewrite part_clip_part, part_over; auto. rewrite map_length, length_zrange. lia. Qed.

Lemma box_clip (f : Z -> Z) c : 0 <= c ->
  (forall j, (j < Z.to_nat m)%nat -> 0 <= f (Z.of_nat j)) ->
  (forall j, (S j < Z.to_nat m)%nat -> f (Z.of_nat (S j)) <= f (Z.of_nat j)) ->
  ((0 < Z.to_nat m)%nat -> f 0 <= c) -> in_box m c (part_clip (map f (zrange 0 m))).
Proof.
  intros Hc H1 H2 H3. apply wbox_in_box; [lia|]. split; [|unfold zlen; rewrite map_length, length_zrange; lia].
  assert (Hlen : length (map f (zrange 0 m)) = Z.to_nat m) by (rewrite map_length, length_zrange; lia).
  apply decp_part; auto. rewrite Hlen. split; [|split].
  - intros j Hj. rewrite part_map_zrange by auto. auto.
  - intros j. destruct (Nat.lt_ge_cases (S j) (Z.to_nat m)); auto. left. rewrite !part_map_zrange by lia. auto.
  - destruct (Nat.eq_dec (Z.to_nat m) 0) as [E|E]; [rewrite part_over by lia; auto|].
    rewrite part_map_zrange by lia. apply H3. lia.
Qed.
Lemma kstrict_part l j : kstrict_in k m (n + k) l -> (Z.to_nat m <= j)%nat -> part l j = 0.
Proof. intros [(_ & H & _) _] Hj. apply part_over. lia. Qed.

(** *** up *)
Section Up.
Variables (nt : Z) (l : list Z).
Hypothesis Hl : kstrict_in k m (n + k) l.

Lemma up_dec i j : (i <= j)%nat -> part l j <= part l i.
Proof. destruct Hl as [(Hp & _) _]. intros H. destruct Hp as [_ Hp]. induction H; [lia|]. specialize (Hp m0). lia. Qed.
Lemma raised_down j : raised nt l (S j) = true -> k < part l j.
Proof.
  unfold raised. rewrite orb_true_iff, !andb_true_iff, orb_true_iff, !Z.ltb_lt.
  replace (S j - 1)%nat with j by lia. pose proof (up_dec j (S j) ltac:(lia)).
  intros [H1|[[_ [H1|H1]] _]]; [lia|discriminate|auto].
Qed.
Lemma raised_ge j : raised nt l j = true -> k <= part l j.
Proof. unfold raised. rewrite orb_true_iff, !andb_true_iff, Z.ltb_lt, Z.eqb_eq. lia. Qed.
Lemma raised_not j : raised nt l j = false -> part l j <= k.
Proof. unfold raised. rewrite orb_false_iff, Z.ltb_ge. tauto. Qed.
Lemma raised_gt j : k < part l j -> raised nt l j = true.
Proof. intros H. unfold raised. rewrite (proj2 (Z.ltb_lt _ _)) by auto. auto. Qed.
Lemma up_gt j : (j < Z.to_nat m)%nat -> (k < part (upl nt l) j <-> raised nt l j = true).
Proof.
  intros Hj. rewrite part_upl by auto. destruct (raised nt l j) eqn:E.
  - apply raised_ge in E. split; auto; lia.
  - apply raised_not in E. split; [lia|discriminate].
Qed.
Lemma up_strict h i : (h < i)%nat -> k < part l (i - 1) -> part l i + Z.of_nat (i - h) <= part l h.
Proof.
  destruct Hl as [_ Hs]. intros Hhi Hgt. induction i as [|i IH]; [lia|].
  replace (S i - 1)%nat with i in Hgt by lia. pose proof (Hs i Hgt).
  destruct (Nat.eq_dec h i) as [->|]; [lia|].
  assert (k < part l (i - 1)) by (pose proof (up_dec (i - 1) i ltac:(lia)); lia).
  specialize (IH ltac:(lia) H0). lia.
Qed.
Lemma up_in : kstrict_in k m (n + 1 + k) (upl nt l).
Proof.
  pose proof Hl as [(Hp & Hlen & H0) Hs]. split.
  - apply box_clip; [lia| | |].
    + intros j Hj. rewrite Nat2Z.id. pose proof (is_partition_nonneg l j Hp). destruct (raised nt l j); lia.
    + intros j Hj. rewrite !Nat2Z.id. destruct (raised nt l (S j)) eqn:E.
      * apply raised_down in E. rewrite (raised_gt j) by auto. pose proof (up_dec j (S j) ltac:(lia)). lia.
      * pose proof (up_dec j (S j) ltac:(lia)). destruct (raised nt l j); lia.
    + intros Hj. cbn. destruct (raised nt l 0); lia.
  - intros j Hgt. destruct (Nat.lt_ge_cases j (Z.to_nat m)) as [Hj|Hj]; [|rewrite part_upl_over in Hgt by auto; lia].
    destruct (Nat.lt_ge_cases (S j) (Z.to_nat m)) as [Hj'|Hj']; [|rewrite (part_upl_over _ _ (S j)) by auto; lia].
    apply up_gt in Hgt; auto. rewrite !part_upl by auto. rewrite Hgt.
    destruct (raised nt l (S j)) eqn:E.
    + apply raised_down in E. specialize (Hs j E). lia.
    + apply raised_not in E. apply raised_ge in Hgt. lia.
Qed.
(** the two counts agree *)
Lemma up_count j : (j < Z.to_nat m)%nat ->
  cnt (fun i => part l i + part l j <=? 2 * k + -1 + Z.of_nat j - Z.of_nat i) j = cC k (upl nt l) j.
Proof.
  intros Hj. apply cnt_ext. intros i Hi. unfold RC. rewrite !part_upl by lia.
  destruct (raised nt l j) eqn:Ej.
  - assert (Hgt : k < part l (j - 1)).
    { apply raised_down. replace (S (j - 1)) with j by lia. auto. }
    pose proof (up_strict i j Hi Hgt). pose proof (raised_ge j Ej). 
    transitivity false; [|symmetry]; apply Z.leb_gt; destruct (raised nt l i); lia.
  - pose proof (raised_not j Ej). destruct (raised nt l i) eqn:Ei.
    + destruct (part l i + part l j <=? 2 * k + -1 + Z.of_nat j - Z.of_nat i) eqn:E; symmetry;
        [apply Z.leb_le|apply Z.leb_gt]; lia.
    + pose proof (raised_not i Ei). transitivity true; [|symmetry]; apply Z.leb_le; lia.
Qed.
Lemma dn_up : dnl (upl nt l) = l.
Proof.
  pose proof Hl as [(Hp & Hlen & H0) Hs].
  assert (Hc : forall j, part (dnl (upl nt l)) j = part l j).
  { intros j. destruct (Nat.lt_ge_cases j (Z.to_nat m)) as [Hj|Hj].
    - rewrite part_dnl by auto. pose proof (up_gt j Hj) as G. rewrite part_upl in * by auto.
      destruct (raised nt l j).
      + rewrite (proj2 (Z.ltb_lt _ _)) by (apply G; auto). lia.
      + replace (k <? part l j + 0) with false; [lia|]. symmetry. apply Z.ltb_ge. destruct G as [G _].
        destruct (Z.le_gt_cases (part l j + 0) k); auto. specialize (G ltac:(lia)). discriminate.
    - rewrite part_dnl_over, kstrict_part; auto. }
  apply partition_eq; auto. unfold dnl. eapply (box_clip _ (n + 1 + k)); [lia| | |].
  - intros j Hj. rewrite Nat2Z.id. rewrite <- part_dnl by auto. rewrite Hc. apply is_partition_nonneg; auto.
  - intros j Hj. rewrite !Nat2Z.id. rewrite <- !part_dnl by lia. rewrite !Hc. apply up_dec. lia.
  - intros Hj. change (Z.to_nat 0) with 0%nat. rewrite <- part_dnl by lia. rewrite Hc. lia.
Qed.
Lemma LD_down i : (i < Z.to_nat m)%nat -> (raised nt l i = true <-> Z.of_nat i < LD (upl nt l)).
Proof.
  intros Hi. rewrite <- up_gt by auto. rewrite <- Z.ltb_lt.
  apply (cnt_down (fun j => k <? part (upl nt l) j)); auto. intros j Hj H. apply Z.ltb_lt in H. apply Z.ltb_lt.
  destruct up_in as [((_ & Hd) & _) _]. specialize (Hd j). lia.
Qed.
End Up.

(** marker of a typed partition *)
Lemma ntD_unmarked l : is_partition l -> ntD l = n + 1.
Proof. intros H. pose proof (last_partition l H). unfold ntD. destruct l; auto. rewrite H0. auto. Qed.
Lemma ntD_marked l : ntD (l ++ [0]) = n + 2.
Proof. unfold ntD. destruct (l ++ [0]) eqn:E; [destruct l; discriminate|]. rewrite <- E, last_last. auto. Qed.
Lemma part_snoc0 l j : part (l ++ [0]) j = part l j.
Proof. change [0] with (repz 0 1). apply part_app0. Qed.
Lemma upl_snoc0 nt l : upl nt (l ++ [0]) = upl nt l.
Proof.
  unfold upl. f_equal. apply map_ext. intros j. unfold raised. rewrite !part_snoc0. auto.
Qed.
(** the row of length k *)
Lemma row_of_k l : kstrict_in k m (n + k) l -> In k l ->
  exists i, (i < Z.to_nat m)%nat /\ part l i = k /\ (forall j, (j < i)%nat -> k < part l j).
Proof.
  intros Hl Hin. pose proof Hl as [(Hp & Hlen & _) _].
  assert (Hpos : 0 < k).
  { apply partition_pos in Hp. rewrite Forall_forall in Hp. apply Hp; auto. }
  apply In_nth with (d := 0) in Hin. destruct Hin as (i & Hi & E). change (nth i l 0) with (part l i) in E.
  assert (Hstep : forall i, part l i = k -> exists i', part l i' = k /\ (forall j, (j < i')%nat -> k < part l j)).
  { clear i Hi E. induction i as [|i IH]; intros E; [exists 0%nat; split; auto; lia|].
    pose proof (up_dec l Hl i (S i) ltac:(lia)). destruct (Z.eq_dec (part l i) k) as [E'|]; [auto|].
    exists (S i). split; auto. intros j Hj. pose proof (up_dec l Hl j i ltac:(lia)). lia. }
  destruct (Hstep i E) as (i' & E' & H'). exists i'. split; auto.
  destruct (Nat.lt_ge_cases i' (Z.to_nat m)); auto. rewrite (kstrict_part l i') in E' by auto. lia.
Qed.
Lemma LD_first nt l i : kstrict_in k m (n + k) l -> (i < Z.to_nat m)%nat -> part l i = k ->
  (forall j, (j < i)%nat -> k < part l j) ->
  LD (upl nt l) = Z.of_nat i + (if Z.odd (nt + Z.of_nat i) then 1 else 0).
Proof.
  intros Hl Hi E Hlt. unfold LD.
  assert (Er : raised nt l i = Z.odd (nt + Z.of_nat i)).
  { unfold raised. rewrite E, Z.ltb_irrefl, Z.eqb_refl. cbn [orb andb].
    destruct i; [reflexivity|]. replace (S i - 1)%nat with i by lia. rewrite (proj2 (Z.ltb_lt _ _)) by (apply Hlt; lia). reflexivity. }
  apply cnt_prefix; [destruct (Z.odd _); lia|]. intros j Hj. rewrite Z.ltb_lt, up_gt by auto.
  destruct (Nat.lt_trichotomy j i) as [H|[->|H]].
  - rewrite raised_gt by auto. split; auto. intros _. destruct (Z.odd _); lia.
  - rewrite Er. destruct (Z.odd _); split; auto; try lia; try discriminate.
  - split; [|destruct (Z.odd _); lia]. intros Hr. destruct j; [lia|]. apply (raised_down nt l Hl) in Hr.
    pose proof (up_dec l Hl i j ltac:(lia)). lia.
Qed.
Lemma odd_opp a b : Z.odd (a - b) = Z.odd (a + b).
Proof. rewrite Z.odd_sub, Z.odd_add. auto. Qed.

Ltac parity i :=
  destruct (Z.odd (_ + Z.of_nat i)) eqn:Eo; repeat rewrite ?Z.odd_sub, ?Z.odd_add in *;
  cbn [Z.odd] in *; destruct (Z.odd n), (Z.odd (Z.of_nat i)); cbn in *; congruence.
Lemma dnD_upD l : typed_in k m (n + k) l -> dnD (upD l) = l.
Proof.
  intros [H|(mu & -> & Hk0 & Hin & H)]; unfold dnD, upD.
  - rewrite ntD_unmarked by apply H. rewrite dn_up by auto. destruct (zmem k l) eqn:E; [|reflexivity].
    apply zmem_iff in E. destruct (row_of_k l H E) as (i & Hi & Ei & Hlt).
    rewrite (LD_first _ l i) by auto. cbn [andb].
    parity i.
  - rewrite ntD_marked, upl_snoc0, dn_up by auto. rewrite (proj2 (zmem_iff k mu)) by auto.
    destruct (row_of_k mu H Hin) as (i & Hi & Ei & Hlt).
    rewrite (LD_first _ mu i) by auto. cbn [andb].
    parity i.
Qed.
Lemma upD_in l : typed_in k m (n + k) l -> kstrict_in k m (n + 1 + k) (upD l).
Proof.
  unfold upD. intros [H|(mu & -> & Hk0 & Hin & H)]; [apply up_in; auto|]. rewrite upl_snoc0. apply up_in; auto.
Qed.
(** the family condition for k = 0 *)
Lemma upD_parity l : k = 0 -> typed_in k m (n + k) l -> Z.even (n + 1 - LD (upD l)) = true.
Proof.
  intros E0 [H|(mu & _ & Hk0 & _)]; [|lia]. unfold upD. rewrite ntD_unmarked by apply H.
  set (c := cnt (fun j => k <? part l j) (Z.to_nat m)).
  assert (Hc : forall i, (i < Z.to_nat m)%nat -> (k <? part l i = true <-> Z.of_nat i < c)).
  { apply cnt_down. intros i Hi. rewrite !Z.ltb_lt. pose proof (up_dec l H i (S i) ltac:(lia)). lia. }
  pose proof (cnt_bounds (fun j => k <? part l j) (Z.to_nat m)) as Hb. fold c in Hb.
  destruct (Z.eq_dec c m) as [Ec|Ec].
  - assert (LD (upl (n + 1) l) = m) as ->.
    { unfold LD. rewrite cnt_all; [lia|]. intros i Hi. apply Z.ltb_lt. rewrite up_gt by auto. apply raised_gt.
      apply Z.ltb_lt. apply Hc; auto. lia. }
    replace (n + 1 - m) with 0 by lia. auto.
  - rewrite (LD_first _ l (Z.to_nat c)); auto; try lia.
    + rewrite <- Z.negb_odd. parity (Z.to_nat c).
    + pose proof (is_partition_nonneg l (Z.to_nat c) (proj1 (proj1 H))).
      specialize (Hc (Z.to_nat c) ltac:(lia)). rewrite Z.ltb_lt in Hc. lia.
    + intros j Hj. apply Z.ltb_lt. apply Hc; lia.
Qed.

(** *** down *)
Section Down.
Variable mu : list Z.
Hypothesis Hmu : kstrict_in k m (n + 1 + k) mu.

Lemma mu_dec i j : (i <= j)%nat -> part mu j <= part mu i.
Proof. destruct Hmu as [(Hp & _) _]. intros H. destruct Hp as [_ Hp]. induction H; [lia|]. specialize (Hp m0). lia. Qed.
Lemma LD_iff i : (i < Z.to_nat m)%nat -> (k < part mu i <-> Z.of_nat i < LD mu).
Proof.
  intros Hi. rewrite <- Z.ltb_lt. apply (cnt_down (fun j => k <? part mu j)); auto. intros j Hj. rewrite !Z.ltb_lt.
  pose proof (mu_dec j (S j) ltac:(lia)). lia.
Qed.
Lemma dn_in : kstrict_in k m (n + k) (dnl mu).
Proof.
  pose proof Hmu as [(Hp & Hlen & H0) Hs]. split.
  - apply box_clip; [lia| | |].
    + intros j Hj. rewrite Nat2Z.id. pose proof (is_partition_nonneg mu j Hp). destruct (k <? part mu j) eqn:E; lia.
    + intros j Hj. rewrite !Nat2Z.id. pose proof (mu_dec j (S j) ltac:(lia)).
      destruct (k <? part mu j) eqn:E; destruct (k <? part mu (S j)) eqn:E2; try lia; specialize (Hs j ltac:(lia)); lia.
    + intros Hj. cbn. destruct (k <? part mu 0) eqn:E; lia.
  - intros j Hgt. destruct (Nat.lt_ge_cases j (Z.to_nat m)) as [Hj|Hj]; [|rewrite part_dnl_over in Hgt by auto; lia].
    destruct (Nat.lt_ge_cases (S j) (Z.to_nat m)) as [Hj'|Hj']; [|rewrite (part_dnl_over _ (S j)) by auto; lia].
    rewrite !part_dnl in * by auto. destruct (k <? part mu j) eqn:E; [|lia]. specialize (Hs j ltac:(lia)).
    destruct (k <? part mu (S j)) eqn:E2; lia.
Qed.
Lemma dnD_in : typed_in k m (n + k) (dnD mu).
Proof.
  unfold dnD. destruct (zmem k (dnl mu) && Z.odd (n + 1 - LD mu)) eqn:E; [|left; apply dn_in].
  apply andb_true_iff in E. destruct E as [E _]. apply zmem_iff in E. right. exists (dnl mu).
  split; auto. split; [|split; auto; apply dn_in].
  pose proof dn_in as [(Hp & _) _]. apply partition_pos in Hp. rewrite Forall_forall in Hp. apply Hp; auto.
Qed.
Lemma nt_dn : (0 < k /\ ~ In k (dnl mu)) \/ (k = 0 -> Z.even (n + 1 - LD mu) = true) ->
  In k (dnl mu) \/ k = 0 -> Z.odd (ntD (dnD mu) + LD mu) = false.
Proof.
  intros Hpar Hin. unfold dnD. destruct (zmem k (dnl mu)) eqn:E.
  - apply zmem_iff in E. cbn [andb]. destruct (Z.odd (n + 1 - LD mu)) eqn:Eo.
    + rewrite ntD_marked. rewrite Z.odd_sub in Eo. rewrite !Z.odd_add in *. cbn [Z.odd] in *.
      destruct (Z.odd n), (Z.odd (LD mu)); auto; discriminate.
    + rewrite ntD_unmarked by apply dn_in. rewrite <- odd_opp. auto.
  - cbn [andb]. rewrite ntD_unmarked by apply dn_in. rewrite <- odd_opp.
    destruct Hin as [Hin|Hin]; [apply zmem_iff in Hin; congruence|].
    destruct Hpar as [[H _]|H]; [lia|]. specialize (H Hin). rewrite <- Z.negb_odd in H. destruct (Z.odd _); auto. 
Qed.
Lemma upD_dnD : (k = 0 -> Z.even (n + 1 - LD mu) = true) -> upD (dnD mu) = mu.
Proof.
  intros Hpar. pose proof Hmu as [(Hp & Hlen & H0) Hs]. pose proof dn_in as Hdn.
  assert (Eq : upD (dnD mu) = upl (ntD (dnD mu)) (dnl mu)).
  { unfold upD. unfold dnD at 2. destruct (_ && _); [rewrite upl_snoc0|]; auto. }
  assert (Hr : forall j, (j < Z.to_nat m)%nat -> raised (ntD (dnD mu)) (dnl mu) j = (k <? part mu j)).
  { intros j Hj. 
    assert (Hnt : part (dnl mu) j = k -> Z.odd (ntD (dnD mu) + LD mu) = false).
    { intros E. apply nt_dn; auto. destruct (Z.eq_dec k 0) as [->|Hk0]; auto. left. rewrite <- E at 1. apply nth_In.
      destruct (Nat.lt_ge_cases j (length (dnl mu))); auto. rewrite part_over in E by auto. lia. }
    destruct (k <? part mu j) eqn:E.
    - unfold raised. rewrite part_dnl, E in Hnt by auto. rewrite part_dnl, E by auto. destruct (k <? part mu j - 1) eqn:E1; auto. cbn [orb].
      assert (part mu j - 1 = k) by lia. specialize (Hnt H). rewrite (proj2 (Z.eqb_eq _ _)) by auto. cbn [andb].
      assert (E2 : Nat.eqb j 0 || (k <? part (dnl mu) (j - 1)) = true).
      { destruct j; auto. cbn [Nat.eqb orb]. replace (S j - 1)%nat with j by lia. rewrite part_dnl by lia.
        pose proof (mu_dec j (S j) ltac:(lia)). specialize (Hs j ltac:(lia)). rewrite (proj2 (Z.ltb_lt k (part mu j))) by lia.
        apply Z.ltb_lt. lia. }
      rewrite E2. cbn [andb]. 
      assert (EL : LD mu = Z.of_nat j + 1).
      { pose proof (proj1 (LD_iff j Hj) ltac:(lia)). pose proof (cnt_bounds (fun j => k <? part mu j) (Z.to_nat m)). fold (LD mu) in *.
        destruct (Nat.eq_dec (S j) (Z.to_nat m)); [lia|]. pose proof (LD_iff (S j) ltac:(lia)). specialize (Hs j ltac:(lia)). lia. }
      rewrite EL, Z.add_assoc in Hnt. rewrite Z.odd_add in Hnt. cbn [Z.odd] in Hnt. destruct (Z.odd (_ + Z.of_nat j)); auto.
    - destruct (raised _ _ _) eqn:Er; auto. exfalso. pose proof (raised_ge _ _ _ Er) as Hge.
      rewrite part_dnl, E in Hge, Hnt by auto. assert (part mu j = k) by lia.
      specialize (Hnt ltac:(lia)). unfold raised in Er. rewrite part_dnl, E in Er by auto. replace (part mu j - 0) with k in Er by lia.
      rewrite Z.ltb_irrefl, Z.eqb_refl in Er. cbn [orb andb] in Er. apply andb_true_iff in Er. destruct Er as [Er1 Er2].
      assert (EL : LD mu = Z.of_nat j).
      { pose proof (proj1 (LD_iff j Hj)). pose proof (proj2 (LD_iff j Hj)). 
        pose proof (cnt_bounds (fun j => k <? part mu j) (Z.to_nat m)). fold (LD mu) in *.
        destruct j; [lia|]. cbn [Nat.eqb orb] in Er1. replace (S j - 1)%nat with j in Er1 by lia.
        apply Z.ltb_lt in Er1. rewrite part_dnl in Er1 by lia. pose proof (proj1 (LD_iff j ltac:(lia))).
        destruct (k <? part mu j) eqn:E3; lia. }
      rewrite EL in Hnt. congruence. }
  rewrite Eq. pose proof (up_in (ntD (dnD mu)) (dnl mu) Hdn) as [(Hpu & _) _].
  apply partition_eq; auto. intros j. destruct (Nat.lt_ge_cases j (Z.to_nat m)) as [Hj|Hj].
  - rewrite part_upl, Hr, part_dnl by auto. destruct (k <? part mu j); lia.
  - rewrite part_upl_over by auto. symmetry. apply part_over. lia.
Qed.
End Down.

(** *** the conversions *)
Definition iso_D (p : list Z) : Prop := isotropic_set_OG m (2 * n + 2) p.
Lemma iso_D_C p : iso_D p -> iso_set (n + 1) m p.
Proof. intros [H _]. unfold iso_set. replace (2 * (n + 1)) with (2 * n + 2) by lia. auto. Qed.
Lemma count_ge_cnt l v : count_ge l v = cnt (fun j => v <=? part l j) (length l).
Proof. unfold count_ge. apply (filter_cnt (fun x => v <=? x)). Qed.
Lemma LD_count p : iso_set (n + 1) m p -> LD (prtC (n + 1) k m p) = m - count_ge p (n + 2).
Proof.
  intros Hp. rewrite count_ge_cnt. rewrite (p_len (n + 1) m p Hp). unfold LD.
  rewrite (cnt_ext _ (fun j => negb (n + 2 <=? part p j))).
  - rewrite cnt_neg. lia.
  - intros j Hj. unfold prtC. rewrite part_clip_part.
    pose proof (pre_small (n + 1) k m p Hp j Hj) as S.
    destruct (k <? part (preC (n + 1) k m p) j) eqn:E, (n + 2 <=? part p j) eqn:E2; auto; cbn [negb];
      [apply Z.ltb_lt in E|apply Z.ltb_ge in E]; lia.
Qed.
Lemma idxD_set l : typed_in k m (n + k) l -> iso_D (idxD l).
Proof.
  intros Hl. pose proof (upD_in l Hl) as Hu. pose proof (idxC_set (n + 1) k m Hm Hn (upD l) Hu) as Hs.
  fold (idxD l) in Hs. split; [unfold iso_set in Hs; replace (2 * n + 2) with (2 * (n + 1)) by lia; exact Hs|].
  intros E. assert (k = 0) by lia. pose proof (upD_parity l H Hl) as Hp.
  pose proof (LD_count (idxD l) Hs) as EL. unfold idxD in EL at 1. rewrite prtC_idxC in EL by auto.
  rewrite EL in Hp. replace (m + 1) with (n + 2) by lia. replace (n + 1 - (m - count_ge (idxD l) (n + 2))) with (count_ge (idxD l) (n + 2)) in Hp by lia.
  auto.
Qed.
Lemma prtD_in p : iso_D p -> typed_in k m (n + k) (prtD p).
Proof. intros H. apply dnD_in. apply prtC_in; auto. apply iso_D_C; auto. Qed.
Lemma prtD_idxD l : typed_in k m (n + k) l -> prtD (idxD l) = l.
Proof. intros H. unfold prtD, idxD. rewrite prtC_idxC by (apply upD_in; auto). apply dnD_upD; auto. Qed.
Lemma idxD_prtD p : iso_D p -> idxD (prtD p) = p.
Proof.
  intros H. pose proof (iso_D_C p H) as Hp. unfold prtD, idxD. rewrite upD_dnD.
  - apply idxC_prtC; auto.
  - apply prtC_in; auto.
  - intros E0. rewrite LD_count by auto. destruct H as [_ H]. specialize (H ltac:(lia)).
    replace (n + 1 - (m - count_ge p (n + 2))) with (count_ge p (n + 2)) by lia. replace (n + 2) with (m + 1) by lia. auto.
Qed.

(** *** the model *)
Lemma part2indexD_ok l : typed_in k m (n + k) l -> part2indexD_inner l k n = Ok (idxD l).
Proof.
  intros Hl.
  assert (G : forall l0 nt, kstrict_in k m (n + k) l0 -> (forall j, part l j = part l0 j) ->
    nt = ntD l -> part2indexD_inner l k n = Ok (idxC (n + 1) k m (upl nt l0))).
  { intros l0 nt H Ep ->. unfold part2indexD_inner, idxC. replace (n + 1 - k) with m by lia.
    fold (ntD l). apply mapM_ok. intros j Hj.
    apply in_zrange in Hj. assert (E : exists i, j = Z.of_nat i) by (exists (Z.to_nat j); lia). destruct E as [i ->].
    assert (Ea : forall j, part (l ++ repz 0 m) j = part l0 j) by (intros j; rewrite part_app0; auto).
    assert (Hlen : (i < length (l ++ repz 0%Z m))%nat) by (rewrite app_length; unfold repz; rewrite repeat_length; lia).
    rewrite (count_inner_ok k _ l0) by auto.
    cbn [bind]. rewrite (py_get_in _ (Z.of_nat i) 0) by (unfold zlen; lia). cbn [bind]. rewrite !Nat2Z.id.
    change (nth i (l ++ repz 0 m) 0) with (part (l ++ repz 0 m) i). rewrite Ea.
    rewrite (up_count (ntD l) l0 H) by lia. rewrite part_upl by lia. unfold raised.
    destruct (k <? part l0 i) eqn:E1; cbn [orb]; [f_equal; lia|].
    destruct (part l0 i =? k) eqn:E2; cbn [andb bind]; [|f_equal; lia].
    destruct i as [|i].
    - cbn [Z.of_nat Z.eqb Nat.eqb orb andb bind]. rewrite mod2_odd. destruct (Z.odd _); f_equal; lia.
    - rewrite (proj2 (Z.eqb_neq (Z.of_nat (S i)) 0)) by lia. cbn [Nat.eqb orb].
      replace (Z.of_nat (S i) - 1) with (Z.of_nat i) by lia.
      rewrite (py_get_in _ (Z.of_nat i) 0) by (unfold zlen; lia). cbn [bind]. rewrite Nat2Z.id.
      change (nth i (l ++ repz 0 m) 0) with (part (l ++ repz 0 m) i). rewrite Ea.
      replace (S i - 1)%nat with i by lia. rewrite mod2_odd. destruct (k <? part l0 i); cbn [andb]; [|f_equal; lia].
      destruct (Z.odd _); f_equal; lia. }
  unfold idxD, upD. destruct Hl as [H|(mu & -> & Hk0 & Hin & H)].
  - apply G; auto.
  - rewrite upl_snoc0. apply G; auto. intros j. apply part_snoc0.
Qed.

Lemma zlen_missing p : iso_set (n + 1) m p ->
  zlen (filter (fun x => negb (zmem x p)) (zrange 1 (n + 2))) = n + 1 - (m - count_ge p (n + 2)).
Proof.
  intros Hp.
  assert (Hlen : forall f (u : list Z), zlen (filter f u) + zlen (filter (fun x => negb (f x)) u) = zlen u).
  { intros f u. unfold zlen. induction u as [|x t IH]; [reflexivity|]. cbn [filter]. destruct (f x); cbn [negb length]; lia. }
  pose proof (Hlen (fun x => zmem x p) (zrange 1 (n + 2))) as E1. rewrite zlen_zrange in E1.
  assert (E2 : zlen (filter (fun x => zmem x p) (zrange 1 (n + 2))) = zlen (filter (fun x => negb (n + 2 <=? x)) p)).
  { unfold zlen. f_equal. apply Permutation.Permutation_length. apply Permutation.NoDup_Permutation.
    - apply NoDup_filter. apply zrange_nodup.
    - apply NoDup_filter. apply (NoDup_nth p 0). intros i j Hi Hj E. rewrite (p_len (n + 1) m p Hp) in *.
      destruct (Nat.lt_trichotomy i j) as [H|[H|H]]; auto.
      + pose proof (p_sinc (n + 1) m p Hp i j ltac:(lia)). unfold part in *. lia.
      + pose proof (p_sinc (n + 1) m p Hp j i ltac:(lia)). unfold part in *. lia.
    - intros x. rewrite !filter_In, in_zrange, zmem_iff. split.
      + intros [H1 H2]. split; auto. apply negb_true_iff, Z.leb_gt. lia.
      + intros [H1 H2]. apply negb_true_iff, Z.leb_gt in H2. split; auto.
        apply In_nth with (d := 0) in H1. destruct H1 as (j & Hj & E). rewrite (p_len (n + 1) m p Hp) in Hj.
        pose proof (p_rng (n + 1) m p Hp j Hj). unfold part in *. lia. }
  pose proof (Hlen (fun x => n + 2 <=? x) p) as E3. unfold zlen in E3 at 3. rewrite (p_len (n + 1) m p Hp) in E3.
  unfold count_ge. unfold zlen in *. lia.
Qed.

Lemma index2partD_ok p : iso_D p -> index2partD_inner p k n = Ok (prtD p).
Proof.
  intros Hp0. pose proof (iso_D_C p Hp0) as Hp. pose proof (p_len (n + 1) m p Hp) as L.
  unfold index2partD_inner, prtD, dnD. rewrite zlen_missing by auto. rewrite LD_count by auto.
  replace (n + 1 - k) with m by lia.
  rewrite mapM_ok with (g := fun j => part (prtC (n + 1) k m p) (Z.to_nat j) -
     (if k <? part (prtC (n + 1) k m p) (Z.to_nat j) then 1 else 0)).
  2:{ intros j Hj. apply in_zrange in Hj.
      assert (E : exists i, j = Z.of_nat i) by (exists (Z.to_nat j); lia). destruct E as [i ->].
      rewrite !Nat2Z.id. rewrite (py_get_in _ (Z.of_nat i) 0) by (unfold zlen; lia). cbn [bind]. rewrite !Nat2Z.id.
      change (nth i p 0) with (part p i). pose proof (pre_small (n + 1) k m p Hp i ltac:(lia)) as S.
      unfold prtC. rewrite part_clip_part. rewrite part_preC in * by lia.
      destruct (part p i <=? n + 1) eqn:E.
      - rewrite (d_small (n + 1) m p Hp) in * by lia. rewrite (proj2 (Z.ltb_lt k _)) by lia. f_equal. lia.
      - rewrite count_idx_ok by lia. cbn [bind].
        replace (cnt (fun i0 => 2 * n + 3 <? part p i0 + part p i) i) with (dC (n + 1) p i).
        2:{ apply cnt_ext. intros h _. unfold QC. f_equal. lia. }
        destruct (k <? n + 1 + k + 1 - part p i + dC (n + 1) p i) eqn:E2; [lia|]. f_equal. lia. }
  cbn [bind]. fold (dnl (prtC (n + 1) k m p)). rewrite mod2_odd.
  destruct (zmem k (dnl (prtC (n + 1) k m p))); cbn [negb andb]; auto. destruct (Z.odd _); auto.
Qed.
End D.
