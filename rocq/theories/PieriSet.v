(** [pieri_set]: the exact set of partitions it returns. *)

From Coq Require Import ZArith List Lia Bool Permutation Sorted.
From Verif Require Import Py OrderFacts PyFacts ModelPart ModelQcalc Spec Enum FillFacts PartFacts ConjFacts
  PairFacts BetwFacts ModelGr Schub.
Import ListNotations.
Open Scope Z_scope.

Definition gz (l : list Z) (i : Z) : Z := part l (Z.to_nat i).

Lemma gz_get l i : 0 <= i < zlen l -> py_get l i = Ok (gz l i).
Proof. intros H. apply py_get_in; auto. Qed.
Lemma gz_over l i : zlen l <= i -> gz l i = 0.
Proof. intros H. unfold gz. apply part_over. unfold zlen in H. lia. Qed.
Lemma gz_set l i v : 0 <= i < zlen l -> exists l', py_set l i v = Ok l' /\ zlen l' = zlen l /\
  forall j, 0 <= j < zlen l -> gz l' j = if j =? i then v else gz l j.
Proof.
  intros H. assert (Hs : exists a x b, l = a ++ x :: b /\ zlen a = i).
  { exists (firstn (Z.to_nat i) l). destruct (skipn (Z.to_nat i) l) as [|x b] eqn:E.
    - apply (f_equal (@length Z)) in E. rewrite skipn_length in E. unfold zlen in H. simpl in E. lia.
    - exists x, b. rewrite <- E, firstn_skipn. split; auto. unfold zlen in *. rewrite firstn_length. lia. }
  destruct Hs as (a & x & b & -> & Ha). exists (a ++ v :: b). rewrite py_set_mid by auto. split; auto.
  split; [rewrite !zlen_app, !zlen_cons; auto|]. intros j Hj. unfold gz, part.
  destruct (Z.lt_trichotomy j i) as [Hc|[Hc|Hc]].
  - destruct (j =? i) eqn:E; [lia|]. rewrite !app_nth1 by (unfold zlen in Ha; lia). auto.
  - subst j. rewrite Z.eqb_refl. rewrite app_nth2 by (unfold zlen in Ha; lia).
    replace (Z.to_nat i - length a)%nat with 0%nat by (unfold zlen in Ha; lia). auto.
  - destruct (j =? i) eqn:E; [lia|]. rewrite !app_nth2 by (unfold zlen in Ha; lia).
    destruct (Z.to_nat j - length a)%nat eqn:En; [unfold zlen in Ha; lia|]. auto.
Qed.
Lemma gz_ext a b : zlen a = zlen b -> (forall i, 0 <= i < zlen a -> gz a i = gz b i) -> a = b.
Proof.
  intros Hl H. apply list_part_eq; [unfold zlen in Hl; lia|]. intros j Hj.
  specialize (H (Z.of_nat j)). unfold gz in H. rewrite Nat2Z.id in H. apply H. unfold zlen. lia.
Qed.
Lemma gz_map_zrange f m i : 0 <= i < m -> gz (map f (zrange 0 m)) i = f i.
Proof. intros H. unfold gz. rewrite part_map_zrange by lia. f_equal. lia. Qed.
Lemma zlen_map_zrange {A} (f : Z -> A) m : 0 <= m -> zlen (map f (zrange 0 m)) = m.
Proof. intros. rewrite zlen_map, zlen_zrange. lia. Qed.
Lemma gz_app1 a b i : 0 <= i < zlen a -> gz (a ++ b) i = gz a i.
Proof. intros H. unfold gz, part. apply app_nth1. unfold zlen in H. lia. Qed.
Lemma gz_app2 a b i : zlen a <= i -> gz (a ++ b) i = gz b (i - zlen a).
Proof.
  intros H. unfold gz, part. unfold zlen in *. rewrite app_nth2 by lia. f_equal. lia.
Qed.

(** sizes *)
Lemma size_pair k l t b : 0 <= k -> is_partition l -> pair_of k l t b -> zsum l = zsum t + zsum b.
Proof.
  intros Hk Hl Hp. pose proof (part2pair_pair_of k l Hk Hl) as Hp'.
  destruct (pair_of_unique _ _ _ _ _ _ Hp Hp') as [-> ->].
  rewrite part2pair_unmarked by auto. cbn [fst snd]. rewrite zsum_padm, zsum_clip.
  assert (E : zsum (part_conj (map (fun x => Z.min x k) l)) = zsum (map (fun x => Z.min x k) l)).
  { destruct (Z.eq_dec k 0) as [->|Hk0].
    - rewrite map_min_0 by auto. rewrite part_conj_clip, part_clip_repz, zsum_repz0. reflexivity.
    - rewrite <- !size_zsum. apply part_conj_size. apply partition_min; auto. lia. }
  rewrite E. clear. induction l; simpl; lia.
Qed.

(** bounds and fillings, entry by entry *)
Lemma gz_cons0 x l : gz (x :: l) 0 = x. Proof. reflexivity. Qed.
Lemma gz_consS x l i : 0 <= i -> gz (x :: l) (i + 1) = gz l i.
Proof. intros Hi. unfold gz. replace (Z.to_nat (i + 1)) with (S (Z.to_nat i)) by lia. reflexivity. Qed.
Lemma gz_consP x l i : 0 < i -> gz (x :: l) i = gz l (i - 1).
Proof. intros Hi. rewrite <- (gz_consS x l (i - 1)) by lia. f_equal. lia. Qed.

Lemma inV_iff d : forall a b prev p l, zlen a = zlen b ->
  (inV d prev (combine a b) p l <->
   zlen l = zlen a /\ (forall r, 0 <= r < zlen a -> gz a r <= gz l r <= gz b r) /\
   (forall r, 0 <= r -> r + 1 < zlen a -> gz l (r + 1) <= gz l r - d) /\
   (0 < zlen a -> gz l 0 <= prev - d) /\ zsum l = zsum a + p).
Proof.
  induction a as [|x a IH]; intros [|y b] prev p l Hl.
  - destruct l as [|z l]; cbn [combine inV].
    + change (zlen (@nil Z)) with 0. change (zsum []) with 0. split; [intros ->; repeat split; try lia|intros; lia].
    + rewrite zlen_cons. change (zlen (@nil Z)) with 0. pose proof (zlen_nonneg l). split; [tauto|lia].
  - unfold zlen in Hl. simpl in Hl. lia.
  - unfold zlen in Hl. simpl in Hl. lia.
  - rewrite !zlen_cons in *. destruct l as [|z l]; cbn [combine inV].
    + change (zlen (@nil Z)) with 0. pose proof (zlen_nonneg a). split; [tauto|lia].
    + rewrite IH by lia. rewrite !zlen_cons. change (zsum (z :: l)) with (z + zsum l). change (zsum (x :: a)) with (x + zsum a).
      pose proof (zlen_nonneg a) as Ha. split.
      * intros (A1 & A2 & A3 & A4 & A5 & A6 & A7). split; [lia|]. split; [|split; [|split]].
        -- intros r Hr. destruct (Z.eq_dec r 0) as [->|]; [rewrite !gz_cons0; lia|].
           rewrite !gz_consP by lia. apply A4. lia.
        -- intros r Hr Hr'. rewrite gz_consS by lia. destruct (Z.eq_dec r 0) as [->|]; [rewrite gz_cons0; apply A6; lia|].
           rewrite (gz_consP z l r) by lia. specialize (A5 (r - 1) ltac:(lia) ltac:(lia)). replace (r - 1 + 1) with r in A5 by lia. auto.
        -- intros _. rewrite gz_cons0. lia.
        -- lia.
      * intros (A1 & A2 & A3 & A4 & A5). pose proof (A2 0 ltac:(lia)) as A20. rewrite !gz_cons0 in A20.
        rewrite gz_cons0 in A4. split; [lia|]. split; [apply A4; lia|]. split; [lia|]. split; [|split; [|split]].
        -- intros r Hr. specialize (A2 (r + 1) ltac:(lia)). rewrite !gz_consS in A2 by lia. auto.
        -- intros r Hr Hr'. specialize (A3 (r + 1) ltac:(lia) ltac:(lia)). rewrite !gz_consS in A3 by lia. auto.
        -- intros H0. specialize (A3 0 ltac:(lia) ltac:(lia)). rewrite gz_cons0, gz_consS in A3 by lia. auto.
        -- lia.
Qed.

Lemma okB_gz B d : forall a b prev, zlen a = zlen b ->
  (forall r, 0 <= r < zlen a -> 0 <= gz a r <= gz b r) -> (forall r, 0 <= r < zlen a -> gz b r <= B) ->
  (forall r, 0 <= r -> r + 1 < zlen a -> gz a (r + 1) <= gz a r - d) ->
  (0 < zlen a -> gz a 0 <= prev - d) -> okB B d prev (combine a b).
Proof.
  induction a as [|x a IH]; intros [|y b] prev Hl H1 H2 H3 H4; cbn [combine okB]; auto.
  rewrite !zlen_cons in *. pose proof (zlen_nonneg a).
  pose proof (H1 0 ltac:(lia)) as H10. pose proof (H2 0 ltac:(lia)) as H20. rewrite !gz_cons0 in *.
  split; [lia|]. split; [lia|]. split; [apply H4; lia|]. apply IH; try lia.
  - intros r Hr. specialize (H1 (r + 1) ltac:(lia)). rewrite !gz_consS in H1 by lia. auto.
  - intros r Hr. specialize (H2 (r + 1) ltac:(lia)). rewrite !gz_consS in H2 by lia. auto.
  - intros r Hr Hr'. specialize (H3 (r + 1) ltac:(lia) ltac:(lia)). rewrite !gz_consS in H3 by lia. auto.
  - intros H0. specialize (H3 0 ltac:(lia) ltac:(lia)). rewrite gz_cons0, gz_consS in H3 by lia. auto.
Qed.
Lemma lows_combine a : forall b, zlen a = zlen b -> lows (combine a b) = a.
Proof.
  induction a as [|x a IH]; intros [|y b] Hl; auto.
  - unfold zlen in Hl. simpl in Hl. lia.
  - rewrite !zlen_cons in Hl. simpl. f_equal. apply IH. lia.
Qed.
Lemma highs_combine a : forall b, zlen a = zlen b -> highs (combine a b) = b.
Proof.
  induction a as [|x a IH]; intros [|y b] Hl; auto.
  - unfold zlen in Hl. simpl in Hl. lia.
  - rewrite !zlen_cons in Hl. simpl. f_equal. apply IH. lia.
Qed.
Lemma zsum_le a : forall b, zlen a = zlen b -> (forall r, 0 <= r < zlen a -> gz a r <= gz b r) -> zsum a <= zsum b.
Proof.
  induction a as [|x a IH]; intros [|y b] Hl H; [simpl; lia| | |].
  - unfold zlen in Hl. simpl in Hl. lia.
  - unfold zlen in Hl. simpl in Hl. lia.
  - rewrite !zlen_cons in Hl. rewrite zlen_cons in H. pose proof (zlen_nonneg a). pose proof (H 0 ltac:(lia)) as H9. rewrite !gz_cons0 in H9.
    specialize (IH b ltac:(lia)). simpl. assert (zsum a <= zsum b); [|lia]. apply IH.
    intros r Hr. specialize (H (r + 1) ltac:(lia)). rewrite !gz_consS in H by lia. auto.
Qed.

(** a loop along a chain collects what each element contributes *)
Lemma chain_collect (next : list Z -> res (option (list Z))) body (Q : list Z -> list Z -> Prop) :
  (forall acc, body (None, acc) = Ok (Done acc)) ->
  forall a l, chain next a l -> forall acc : list (list Z),
  (forall x o acc, In x l -> next x = Ok o -> exists acc', body (Some x, acc) = Ok (Next (o, acc')) /\
     forall v, In v acc' <-> In v acc \/ Q x v) ->
  exists acc', runs body (Some a, acc) (length l) acc' /\
    forall v, In v acc' <-> In v acc \/ exists x, In x l /\ Q x v.
Proof.
  intros Hnone a l Hc. induction Hc as [a E|a b l E Hc IH]; intros acc H.
  - destruct (H a None acc) as (acc' & E1 & E2); simpl; auto. exists acc'. split.
    + eapply runs_next; [exact E1|]. apply runs_done. auto.
    + intros v. rewrite E2. split; (intros [Hv|Hv]; [auto|right]).
      * exists a. simpl. auto.
      * destruct Hv as (x & [<-|[]] & Hv). auto.
  - destruct (H a (Some b) acc) as (acc' & E1 & E2); simpl; auto.
    destruct (IH acc') as (acc2 & R2 & I2).
    { intros x o acc0 Hx Hn. apply H; simpl; auto. }
    exists acc2. split.
    + eapply runs_next; [exact E1|]. auto.
    + intros v. rewrite I2, E2. split.
      * intros [[Hv|Hv]|(x & Hx & Hv)]; auto; right; [exists a|exists x]; simpl; auto.
      * intros [Hv|(x & [<-|Hx] & Hv)]; auto. right. exists x. auto.
Qed.

Section PS.
Variables (k n d : Z) (lam : list Z).
Hypothesis Hk : 0 <= k.
Hypothesis Hn : 0 <= n.
Hypothesis Hd : d = 0 \/ d = 1.
Hypothesis Hrc : k <= n + d.
Hypothesis HL : kstrict_in k (n + d - k) (n + k) lam.

Let rows := n + d - k.
Let cols := n + k.

(** heights of the columns and lengths of the rows beyond column [k] *)
Definition tc (mu : list Z) (i : Z) : Z := count_ge mu (i + 1).
Definition bt (mu : list Z) (r : Z) : Z := Z.max 0 (part mu (Z.to_nat r) - k).
Definition lb : Z := tc lam k.
Definition TT (i : Z) : Z := tc lam i + k - (i + 1) - d.

Lemma Hpart : is_partition lam. Proof. apply HL. Qed.

Lemma tc_mono mu i j : i <= j -> tc mu j <= tc mu i.
Proof. intros. apply count_ge_mono. lia. Qed.
Lemma tc_nonneg mu i : 0 <= tc mu i.
Proof. apply count_ge_nonneg. Qed.
Lemma tc_rows mu i : kstrict_in k rows cols mu -> tc mu i <= rows.
Proof. intros ((_ & H & _) & _). pose proof (count_ge_le mu (i + 1)). unfold tc, zlen in *. lia. Qed.
Lemma tc_iff mu i r : is_partition mu -> 0 <= i -> 0 <= r -> (r < tc mu i <-> i < part mu (Z.to_nat r)).
Proof.
  intros Hm Hi Hr. pose proof (count_iff mu (Z.to_nat r) (i + 1) Hm ltac:(lia)) as H.
  rewrite Z2Nat.id in H by auto. unfold tc. lia.
Qed.
Lemma bt_nonneg mu r : 0 <= bt mu r.
Proof. unfold bt. lia. Qed.
Lemma bt_pos mu r : is_partition mu -> 0 <= r -> (0 < bt mu r <-> r < tc mu k).
Proof. intros Hm Hr. rewrite tc_iff by auto. unfold bt. lia. Qed.
Lemma bt_dec mu r : kstrict k mu -> 0 <= r -> 0 < bt mu r -> bt mu (r + 1) < bt mu r.
Proof.
  intros Hm Hr H. unfold bt in *. specialize (Hm (Z.to_nat r)).
  replace (Z.to_nat (r + 1)) with (S (Z.to_nat r)) by lia. lia.
Qed.
Lemma bt_weak mu r : is_partition mu -> 0 <= r -> bt mu (r + 1) <= bt mu r.
Proof.
  intros [_ Hm] Hr. unfold bt in *. specialize (Hm (Z.to_nat r)).
  replace (Z.to_nat (r + 1)) with (S (Z.to_nat r)) by lia. lia.
Qed.
Lemma bt_n mu r : kstrict_in k rows cols mu -> bt mu r <= n.
Proof.
  intros ((Hm & _ & H0) & _). unfold bt. unfold cols in *.
  assert (part mu (Z.to_nat r) <= part mu 0).
  { destruct Hm as [_ Hm]. induction (Z.to_nat r); [lia|]. specialize (Hm n0). lia. }
  lia.
Qed.
Lemma lb_nonneg : 0 <= lb. Proof. apply tc_nonneg. Qed.
Lemma lb_rows : lb <= rows. Proof. apply tc_rows, HL. Qed.
Lemma lb_zero r : lb <= r -> bt lam r = 0.
Proof.
  intros H. pose proof (bt_pos lam r Hpart). pose proof lb_nonneg. pose proof (bt_nonneg lam r).
  unfold lb in *. lia.
Qed.
Lemma lb_pos r : 0 <= r < lb -> 0 < bt lam r.
Proof. intros H. apply bt_pos; [apply Hpart|lia|]. unfold lb in *. lia. Qed.

(** [bot_r + r] decreases weakly *)
Lemma beta_mono r s : 0 <= r <= s -> s <= lb -> bt lam s + s <= bt lam r + r.
Proof.
  intros Hr Hs.
  assert (G : forall x, 0 <= x -> r + x <= lb -> bt lam (r + x) + (r + x) <= bt lam r + r).
  { apply (natlike_ind (fun x => r + x <= lb -> bt lam (r + x) + (r + x) <= bt lam r + r)).
    - intros _. replace (r + 0) with r by lia. lia.
    - intros x Hx IH Hle. pose proof (bt_dec lam (r + x) ltac:(apply HL) ltac:(lia)).
      pose proof (lb_pos (r + x) ltac:(lia)). replace (r + Z.succ x) with (r + x + 1) by lia. lia. }
  specialize (G (s - r) ltac:(lia)). replace (r + (s - r)) with s in G by lia. lia.
Qed.
Lemma TT_mono i j : i < j -> TT j < TT i.
Proof. intros H. pose proof (tc_mono lam i j ltac:(lia)). unfold TT. lia. Qed.

(** the row reached by column [i]: the number of rows with [bot_r + r > TT i] *)
Fixpoint adv (f : nat) (thr b : Z) : Z :=
  match f with
  | O => b
  | S f' => if (b <? lb) && (thr <? bt lam b + b) then adv f' thr (b + 1) else b
  end.
Definition bI (i : Z) : Z := adv (Z.to_nat lb) (TT i) 0.

Definition reach (thr b : Z) : Prop :=
  0 <= b <= lb /\ (forall r, 0 <= r < b -> thr < bt lam r + r) /\ (b < lb -> bt lam b + b <= thr).
Lemma adv_reach f : forall thr b, 0 <= b <= lb -> lb - b <= Z.of_nat f ->
  (forall r, 0 <= r < b -> thr < bt lam r + r) -> reach thr (adv f thr b).
Proof.
  induction f as [|f IH]; intros thr b Hb Hf H; cbn [adv].
  - repeat split; auto; lia.
  - destruct ((b <? lb) && (thr <? bt lam b + b)) eqn:E.
    + apply andb_true_iff in E. destruct E as [E1 E2]. apply IH; try lia.
      intros r Hr. destruct (Z.eq_dec r b) as [->|]; [lia|]. apply H. lia.
    + repeat split; auto; lia.
Qed.
Lemma reach_unique thr b b' : reach thr b -> reach thr b' -> b = b'.
Proof.
  intros (H1 & H2 & H3) (H4 & H5 & H6). destruct (Z.lt_trichotomy b b') as [H|[H|H]]; auto.
  - specialize (H5 b). lia.
  - specialize (H2 b'). lia.
Qed.
Lemma bI_reach i : reach (TT i) (bI i).
Proof. pose proof lb_nonneg. apply adv_reach; lia. Qed.
Lemma bI_range i : 0 <= bI i <= lb.
Proof. apply bI_reach. Qed.
Lemma bI_below i r : 0 <= r < bI i -> TT i < bt lam r + r.
Proof. apply bI_reach. Qed.
Lemma bI_at i r : bI i <= r < lb -> bt lam r + r <= TT i.
Proof.
  intros H. pose proof (bI_range i). destruct (bI_reach i) as (_ & _ & H3).
  pose proof (beta_mono (bI i) r). lia.
Qed.
Lemma bI_mono i j : i <= j -> bI i <= bI j.
Proof.
  intros H. destruct (Z.le_gt_cases (bI i) (bI j)) as [|Hgt]; auto.
  pose proof (bI_range i). pose proof (bI_range j).
  pose proof (bI_below i (bI j) ltac:(lia)). pose proof (bI_at j (bI j) ltac:(lia)).
  destruct (Z.eq_dec i j); [subst; lia|]. pose proof (TT_mono i j ltac:(lia)). lia.
Qed.

(** the lists computed at the start *)
Definition topl : list Z := map (tc lam) (zrange 0 k).
Definition botl : list Z := map (bt lam) (zrange 0 lb) ++ [0].

Lemma zlen_topl : zlen topl = k. Proof. apply zlen_map_zrange, Hk. Qed.
Lemma gz_topl i : 0 <= i < k -> gz topl i = tc lam i. Proof. apply gz_map_zrange. Qed.
Lemma zlen_botl : zlen botl = lb + 1.
Proof. unfold botl. rewrite zlen_app, zlen_one, zlen_map_zrange; [lia|apply lb_nonneg]. Qed.
Lemma gz_botl r : 0 <= r <= lb -> gz botl r = bt lam r.
Proof.
  intros H. unfold botl. pose proof lb_nonneg. destruct (Z.eq_dec r lb) as [->|].
  - rewrite gz_app2 by (rewrite zlen_map_zrange; lia). rewrite zlen_map_zrange by lia.
    rewrite lb_zero by lia. replace (lb - lb) with 0 by lia. reflexivity.
  - rewrite gz_app1 by (rewrite zlen_map_zrange; lia). apply gz_map_zrange. lia.
Qed.

Lemma pair_lam mu : is_partition mu -> forall t b, pair_of k mu t b ->
  t = map (tc mu) (zrange 0 k) /\ b = map (bt mu) (zrange 0 (tc mu k)).
Proof.
  intros Hm t b (H1 & H2 & H3 & H4). pose proof (tc_nonneg mu k). split.
  - apply list_part_eq; [rewrite map_length, length_zrange; lia|]. intros j Hj.
    rewrite part_map_zrange by lia. apply H2. lia.
  - assert (Hlb : Z.of_nat (length b) = tc mu k).
    { assert (W : forall r : nat, Z.of_nat r < Z.of_nat (length b) <-> Z.of_nat r < tc mu k).
      { intros r. rewrite <- bt_pos by (auto; lia). unfold bt. rewrite Nat2Z.id, <- H4.
        destruct H3 as [H3 _]. specialize (H3 r). destruct (Nat.lt_ge_cases r (length b)) as [|Hge].
        - lia.
        - rewrite part_over by auto. lia. }
      pose proof (W (length b)). pose proof (W (Z.to_nat (tc mu k))). lia. }
    apply list_part_eq; [rewrite map_length, length_zrange; lia|]. intros j Hj.
    rewrite part_map_zrange by lia. unfold bt. rewrite Nat2Z.id. apply H4.
Qed.
Lemma start_top : part_conj (map (fun x => Z.min x k) lam) ++
    repz 0 (k - zlen (part_conj (map (fun x => Z.min x k) lam))) = topl.
Proof.
  pose proof (part2pair_pair_of k lam Hk Hpart) as Hp. pose proof (pair_lam lam Hpart _ _ Hp) as [E _].
  rewrite part2pair_unmarked in E by apply Hpart. exact E.
Qed.
Lemma start_bot : part_clip (map (fun x => Z.max 0 (x - k)) lam) ++ [0] = botl.
Proof.
  pose proof (part2pair_pair_of k lam Hk Hpart) as Hp. pose proof (pair_lam lam Hpart _ _ Hp) as [_ E].
  rewrite part2pair_unmarked in E by apply Hpart. cbn [snd] in E. unfold botl. f_equal.
  unfold lb. rewrite <- E. f_equal. apply map_ext. intros; lia.
Qed.

(** [shift_b] finds [bI i] *)
Lemma shift_ok fuel : forall i b, 0 <= b <= lb -> (forall r, 0 <= r < b -> TT i < bt lam r + r) ->
  lb - b < Z.of_nat fuel -> shift_b fuel botl (lb + 1) (TT i) b = Ok (bI i).
Proof.
  induction fuel as [|f IH]; intros i b Hb H Hf; [lia|]. cbn [shift_b].
  pose proof (bI_reach i) as HR.
  destruct (b + 1 <? lb + 1) eqn:E.
  - rewrite gz_get by (rewrite zlen_botl; lia). cbn [bind]. rewrite gz_botl by lia.
    destruct (TT i <? bt lam b + (b + 1) - 1) eqn:E1.
    + apply IH; try lia. intros r Hr. destruct (Z.eq_dec r b) as [->|]; [lia|]. apply H. lia.
    + f_equal. apply (reach_unique (TT i)); auto. repeat split; auto; lia.
  - f_equal. apply (reach_unique (TT i)); auto. repeat split; auto; lia.
Qed.

(** lower and upper bounds of the columns *)
Definition lowt (i : Z) : Z :=
  Z.max (if TT i + 1 - bI i <=? 0 then tc lam i else bt lam (bI i) + bI i + (i + 1) - k + d) (tc lam (i + 1)).
Definition hight (i : Z) : Z := Z.min rows (tc lam i + 1).

Lemma inner_loop c : 0 <= c <= k -> forall inner b, zlen inner = k ->
  0 <= b <= lb -> (forall r, 0 <= r < b -> TT (k - c) < bt lam r + r) ->
  (forall i, k - c <= i < k -> gz inner i = tc lam (i + 1)) ->
  exists inner' b', foldM (ps_inner_step topl botl lb k d) (zrange (k - c) k) (inner, b) = Ok (inner', b') /\
    zlen inner' = k /\ (forall i, 0 <= i < k - c -> gz inner' i = gz inner i) /\
    (forall i, k - c <= i < k -> gz inner' i = lowt i).
Proof.
  intros Hc. destruct Hc as [H0 Hck]. revert Hck. pattern c. apply natlike_ind; auto.
  - intros _ inner b Hl Hb Hr Hin. rewrite zrange_nil by lia. exists inner, b. repeat split; auto. lia.
  - clear c H0. intros c H0 IH Hck inner b Hl Hb Hr Hin. rewrite zrange_cons by lia.
    replace (k - Z.succ c + 1) with (k - c) by lia. set (i := k - Z.succ c) in *.
    cbn [foldM]. unfold ps_inner_step at 1.
    rewrite gz_get by (rewrite zlen_topl; lia). cbn [bind]. rewrite gz_topl by lia.
    change (tc lam i + k - (i + 1) - d) with (TT i).
    rewrite shift_ok; auto; [|unfold zlen; pose proof zlen_botl; unfold zlen in *; lia]. cbn [bind].
    rewrite gz_get by lia. cbn [bind].
    replace (tc lam i + k - (i + 1) + 2 - (bI i + 1) - d) with (TT i + 1 - bI i) by (unfold TT; lia).
    pose proof (bI_range i) as Hbi.
    assert (Hnext : forall v inner', zlen inner' = zlen inner ->
       (forall j, 0 <= j < zlen inner -> gz inner' j = if j =? i then v else gz inner j) -> v = lowt i ->
       exists inner'' b', foldM (ps_inner_step topl botl lb k d) (zrange (k - c) k) (inner', bI i) = Ok (inner'', b') /\
       zlen inner'' = k /\ (forall j, 0 <= j < i -> gz inner'' j = gz inner j) /\
       (forall j, i <= j < k -> gz inner'' j = lowt j)).
    { intros v inner' El Eg Ev. destruct (IH ltac:(lia) inner' (bI i)) as (i2 & b2 & E2 & L2 & G1 & G2); auto; try lia.
      - intros r Hr'. pose proof (bI_below i r Hr'). pose proof (TT_mono i (k - c) ltac:(lia)). lia.
      - intros j Hj. rewrite Eg by lia. destruct (j =? i) eqn:Ej; [lia|]. apply Hin. lia.
      - exists i2, b2. split; auto. split; auto. split; intros j Hj.
        + rewrite G1 by lia. rewrite Eg by lia. destruct (j =? i) eqn:Ej; auto. lia.
        + destruct (Z.eq_dec j i) as [->|]; [|apply G2; lia]. rewrite G1 by lia. rewrite Eg by lia.
          rewrite Z.eqb_refl. auto. }
    pose proof (Hin i ltac:(lia)) as Hini.
    destruct (TT i + 1 - bI i <=? 0) eqn:E.
    + destruct (gz_set inner i (Z.max (tc lam i) (gz inner i)) ltac:(lia)) as (inner' & E1 & E2 & E3).
      rewrite E1. cbn [bind]. eapply Hnext; eauto. unfold lowt. rewrite E, Hini. auto.
    + rewrite gz_get by (rewrite zlen_botl; lia). cbn [bind]. rewrite gz_botl by lia.
      destruct (gz_set inner i (Z.max (bt lam (bI i) + (bI i + 1) - 1 + (i + 1) - k + d) (gz inner i)) ltac:(lia)) as (inner' & E1 & E2 & E3).
      rewrite E1. cbn [bind]. eapply Hnext; eauto. unfold lowt. rewrite E, Hini. f_equal. lia.
Qed.

(** the lower bounds *)
Lemma low_case i : 0 <= i < k -> TT i + 1 - bI i <= 0 -> bI i = lb /\ tc lam i <= lowt i /\ tc lam i = lb.
Proof.
  intros Hi H. pose proof (bI_range i). pose proof (tc_mono lam i k ltac:(lia)) as Hm.
  assert (bI i = lb).
  { destruct (Z.eq_dec (bI i) lb); auto. pose proof (bI_at i (bI i) ltac:(lia)). pose proof (lb_pos (bI i) ltac:(lia)). lia. }
  split; auto. unfold lowt. destruct (TT i + 1 - bI i <=? 0) eqn:E; [|lia]. unfold TT, lb in *. lia.
Qed.
Lemma low_spec i u : 0 <= i < k -> (lowt i <= u <-> tc lam (i + 1) <= u /\
  (TT i < bI i -> tc lam i <= u) /\ (bI i <= TT i -> bt lam (bI i) + bI i <= u + k - (i + 1) - d)).
Proof.
  intros Hi. unfold lowt. destruct (TT i + 1 - bI i <=? 0) eqn:E; lia.
Qed.
Lemma low_le i : 0 <= i < k -> lowt i <= tc lam i.
Proof.
  intros Hi. apply low_spec; auto. split; [apply tc_mono; lia|]. split; [lia|]. intros H.
  pose proof (bI_range i). change (tc lam i + k - (i + 1) - d) with (TT i).
  destruct (Z.eq_dec (bI i) lb) as [E|]; [|apply bI_at; lia]. rewrite E in *. rewrite lb_zero by lia. lia.
Qed.
Lemma low_ge i : 0 <= i < k -> tc lam (i + 1) <= lowt i.
Proof. intros Hi. apply (low_spec i (lowt i)); auto. lia. Qed.
Lemma beta_U i u r : 0 <= i < k -> lowt i <= u -> bI i < r -> r <= lb -> bt lam r + r <= u + k - (i + 1) - d.
Proof.
  intros Hi Hu Hr Hr'. apply low_spec in Hu; auto. destruct Hu as (_ & U2 & U3).
  pose proof (bI_range i). destruct (Z.le_gt_cases (bI i) (TT i)) as [H1|H1].
  - specialize (U3 H1). pose proof (beta_mono (bI i) r). lia.
  - destruct (low_case i Hi) as [E _]; lia.
Qed.

Definition tbs : list (Z * Z) := map (fun i => (lowt i, hight i)) (zrange 0 k).
Lemma lows_tbs : lows tbs = map lowt (zrange 0 k).
Proof. unfold lows, tbs. rewrite map_map. auto. Qed.
Lemma highs_tbs : highs tbs = map hight (zrange 0 k).
Proof. unfold highs, tbs. rewrite map_map. auto. Qed.

(** the top partitions *)
Definition Vtop (u : list Z) : Prop :=
  zlen u = k /\ (forall i, 0 <= i < k -> lowt i <= gz u i <= hight i) /\
  (forall i, 0 <= i -> i + 1 < k -> gz u (i + 1) <= gz u i).

Lemma low_nonneg i : 0 <= i < k -> 0 <= lowt i <= hight i.
Proof.
  intros Hi. pose proof (low_le i Hi). pose proof (low_ge i Hi). pose proof (tc_nonneg lam (i + 1)).
  pose proof (tc_rows lam i HL). unfold hight. lia.
Qed.
Lemma tbs_ok : okB rows 0 rows tbs /\ decH tbs.
Proof.
  assert (G : forall c, 0 <= c -> c <= k -> forall prev, (c = 0 \/ lowt (k - c) <= prev) ->
     okB rows 0 prev (map (fun i => (lowt i, hight i)) (zrange (k - c) k)) /\
     decH (map (fun i => (lowt i, hight i)) (zrange (k - c) k))).
  { apply (natlike_ind (fun c => c <= k -> forall prev, (c = 0 \/ lowt (k - c) <= prev) ->
     okB rows 0 prev (map (fun i => (lowt i, hight i)) (zrange (k - c) k)) /\
     decH (map (fun i => (lowt i, hight i)) (zrange (k - c) k)))).
    - intros _ prev _. rewrite zrange_nil by lia. simpl. auto.
    - intros c H0 IH Hck prev Hp. rewrite zrange_cons by lia. replace (k - Z.succ c + 1) with (k - c) by lia.
      set (i := k - Z.succ c) in *. pose proof (low_nonneg i ltac:(lia)) as Hi.
      destruct (IH ltac:(lia) (lowt i)) as [I1 I2].
      { destruct (Z.eq_dec c 0); auto. right. pose proof (low_ge i ltac:(lia)). pose proof (low_le (k - c) ltac:(lia)).
        replace (i + 1) with (k - c) in * by lia. lia. }
      cbn [map okB decH]. split; [split; [lia|]; split; [unfold hight; lia|]; split; [lia|auto]|].
      split; auto. destruct (Z.eq_dec c 0) as [->|]; [rewrite zrange_nil by lia; cbn; auto|].
      rewrite zrange_cons by lia. cbn [map]. unfold hight. pose proof (tc_mono lam i (k - c) ltac:(lia)). lia. }
  specialize (G k Hk ltac:(lia) rows). replace (k - k) with 0 in G by lia. apply G.
  destruct (Z.eq_dec k 0); auto. right. pose proof (low_nonneg 0 ltac:(lia)). unfold hight in *. lia.
Qed.
Lemma inT_Vtop u : inT rows tbs u <-> Vtop u.
Proof.
  assert (G : forall c, 0 <= c -> c <= k -> forall prev u, 
     inT prev (map (fun i => (lowt i, hight i)) (zrange (k - c) k)) u <->
     zlen u = c /\ (forall i, 0 <= i < c -> lowt (k - c + i) <= gz u i <= hight (k - c + i)) /\
       (forall i, 0 <= i -> i + 1 < c -> gz u (i + 1) <= gz u i) /\ (0 < c -> gz u 0 <= prev)).
  { apply (natlike_ind (fun c => c <= k -> forall prev u, 
     inT prev (map (fun i => (lowt i, hight i)) (zrange (k - c) k)) u <->
     zlen u = c /\ (forall i, 0 <= i < c -> lowt (k - c + i) <= gz u i <= hight (k - c + i)) /\
       (forall i, 0 <= i -> i + 1 < c -> gz u (i + 1) <= gz u i) /\ (0 < c -> gz u 0 <= prev))).
    - intros _ prev v. rewrite zrange_nil by lia. destruct v as [|x v]; simpl.
      + repeat split; auto; try lia.
      + rewrite zlen_cons. pose proof (zlen_nonneg v). split; [tauto|lia].
    - intros c H0 IH Hck prev v. rewrite zrange_cons by lia. replace (k - Z.succ c + 1) with (k - c) by lia.
      cbn [map]. destruct v as [|x v]; [cbn [inT]; rewrite zlen_nil; split; [tauto|lia]|].
      cbn [inT]. rewrite IH by lia. rewrite zlen_cons.
      assert (G0 : gz (x :: v) 0 = x) by reflexivity.
      assert (G1 : forall i, 0 <= i -> gz (x :: v) (i + 1) = gz v i).
      { intros i Hi. unfold gz. replace (Z.to_nat (i + 1)) with (S (Z.to_nat i)) by lia. reflexivity. }
      split.
      + intros (A1 & A2 & A3 & A4 & A5 & A6). split; [lia|]. split; [|split].
        * intros i Hi. destruct (Z.eq_dec i 0) as [->|]; [rewrite G0; replace (k - Z.succ c + 0) with (k - Z.succ c) by lia; auto|].
          replace i with (i - 1 + 1) by lia. rewrite G1 by lia. specialize (A4 (i - 1) ltac:(lia)).
          replace (k - Z.succ c + (i - 1 + 1)) with (k - c + (i - 1)) by lia. auto.
        * intros i Hi Hi'. rewrite G1 by lia. destruct (Z.eq_dec i 0) as [->|]; [rewrite G0; apply A6; lia|].
          replace i with (i - 1 + 1) at 2 by lia. rewrite G1 by lia. specialize (A5 (i - 1) ltac:(lia) ltac:(lia)).
          replace (i - 1 + 1) with i in A5 by lia. auto.
        * intros _. rewrite G0. auto.
      + intros (A1 & A2 & A3 & A4). split; [|split; [|split; [|split; [|split]]]].
        * specialize (A2 0 ltac:(lia)). rewrite G0 in A2. replace (k - Z.succ c + 0) with (k - Z.succ c) in A2 by lia. auto.
        * rewrite G0 in A4. apply A4. lia.
        * lia.
        * intros i Hi. specialize (A2 (i + 1) ltac:(lia)). rewrite G1 in A2 by lia.
          replace (k - Z.succ c + (i + 1)) with (k - c + i) in A2 by lia. auto.
        * intros i Hi Hi'. specialize (A3 (i + 1) ltac:(lia) ltac:(lia)). rewrite !G1 in A3 by lia. auto.
        * intros Hc. specialize (A3 0 ltac:(lia) ltac:(lia)). rewrite G0 in A3. rewrite G1 in A3 by lia. auto. }
  specialize (G k Hk ltac:(lia) rows u). replace (k - k) with 0 in G by lia. fold tbs in G. rewrite G. unfold Vtop.
  split.
  - intros (A1 & A2 & A3 & A4). auto.
  - intros (A1 & A2 & A3). split; auto. split; auto. split; auto. intros H0. specialize (A2 0 ltac:(lia)). unfold hight in A2. lia.
Qed.

(** ** the bottom partitions for a given top partition *)

Section Bot.
Variable u : list Z.
Hypothesis HU : Vtop u.

Definition UU (i : Z) : Z := gz u i + k - (i + 1) - d.
Definition topk : Z := if k =? 0 then rows else gz u (k - 1).
Definition mlen : Z := if lb <? topk then lb + 1 else lb.
Definition ob0 (r : Z) : Z := if r =? 0 then n else bt lam (r - 1).

Lemma topk_lb : lb <= topk.
Proof.
  unfold topk. destruct (k =? 0) eqn:E; [apply lb_rows|].
  destruct HU as (_ & H & _). specialize (H (k - 1) ltac:(lia)). pose proof (low_ge (k - 1) ltac:(lia)) as H1.
  replace (k - 1 + 1) with k in H1 by lia. unfold lb. lia.
Qed.
Lemma topk_rows : topk <= rows.
Proof.
  unfold topk. destruct (k =? 0) eqn:E; [lia|].
  destruct HU as (_ & H & _). specialize (H (k - 1) ltac:(lia)). unfold hight in H. lia.
Qed.
Lemma mlen_eq : mlen = Z.min (lb + 1) topk.
Proof. pose proof topk_lb. unfold mlen. destruct (lb <? topk) eqn:E; lia. Qed.

Definition inb0 : list Z := map (bt lam) (zrange 0 mlen).
Definition outb0 : list Z := map ob0 (zrange 0 mlen).
Lemma mlen_nonneg : 0 <= mlen.
Proof. pose proof lb_nonneg. unfold mlen. destruct (lb <? topk); lia. Qed.
Lemma inb0_ok : sl_to botl lb ++ (if lb <? topk then [0] else []) = inb0.
Proof.
  pose proof lb_nonneg. unfold botl. rewrite sl_to_app by (rewrite zlen_map_zrange; lia). unfold inb0, mlen.
  destruct (lb <? topk) eqn:E; [|apply app_nil_r].
  rewrite (zrange_snoc 0 (lb + 1)) by lia. replace (lb + 1 - 1) with lb by lia. rewrite map_app. cbn [map].
  rewrite lb_zero by lia. auto.
Qed.
Lemma outb0_ok : (if lb =? 0 then Ok (if 0 <? topk then [cols - k] else [])
   else dl <- (if lb <? topk then x <- py_get botl (lb - 1) ;; Ok [x] else Ok []) ;;
        Ok ([cols - k] ++ sl_to botl (lb - 1) ++ dl)) = Ok outb0.
Proof.
  pose proof lb_nonneg. unfold outb0, mlen. replace (cols - k) with n by (unfold cols; lia).
  destruct (lb =? 0) eqn:E.
  - apply Z.eqb_eq in E. rewrite E. destruct (0 <? topk); reflexivity.
  - apply Z.eqb_neq in E. rewrite gz_get by (rewrite zlen_botl; lia). cbn [bind]. rewrite gz_botl by lia.
    assert (Es : sl_to botl (lb - 1) = map (bt lam) (zrange 0 (lb - 1))).
    { unfold botl. rewrite (zrange_snoc 0 lb) by lia. rewrite map_app, <- app_assoc. apply sl_to_app.
      rewrite zlen_map_zrange; lia. }
    rewrite Es.
    assert (Em : forall c, 0 <= c -> map ob0 (zrange 0 (c + 1)) = n :: map (bt lam) (zrange 0 c)).
    { intros c Hc. rewrite zrange_cons by lia. cbn [map]. f_equal.
      rewrite (zrange_shift 0 c 1). rewrite map_map. apply map_ext_in. intros r Hr. apply in_zrange in Hr.
      unfold ob0. destruct (r + 1 =? 0) eqn:E1; [lia|]. f_equal. lia. }
    destruct (lb <? topk) eqn:E2; cbn [bind].
    + rewrite Em by lia. rewrite (zrange_snoc 0 lb) by lia. rewrite map_app. reflexivity.
    + rewrite app_nil_r. replace lb with (lb - 1 + 1) at 2 by lia. rewrite Em by lia. reflexivity.
Qed.

(** after the columns below [c] have been used *)
Definition inb_ok (c : Z) (l : list Z) : Prop :=
  zlen l = mlen /\ forall r x, 0 <= r < mlen -> (gz l r <= x <-> bt lam r <= x /\
    forall i, 0 <= i < c -> gz u i < tc lam i -> bI i = r -> TT i - r + 1 <= x).
Definition outb_ok (c : Z) (l : list Z) : Prop :=
  zlen l = mlen /\ forall r x, 0 <= r < mlen -> (x <= gz l r <-> x <= ob0 r /\
    forall i, 0 <= i < c -> bI i < r -> x <= UU i - r).

Lemma outbot_loop i fuel : 0 <= i < k -> forall b1 l, bI i <= b1 -> zlen l = mlen -> mlen - b1 < Z.of_nat fuel + 1 ->
  exists l', ps_outbot (S fuel) botl (TT i) (UU i) b1 l = Ok l' /\ zlen l' = mlen /\
    forall r, 0 <= r < mlen -> gz l' r = if b1 <? r then Z.min (gz l r) (UU i - r) else gz l r.
Proof.
  intros Hi. pose proof (bI_range i) as Hbi. pose proof mlen_eq as Hme.
  induction fuel as [|f IH]; intros b1 l Hb Hl Hf.
  - cbn [ps_outbot]. destruct (b1 + 1 <? zlen l) eqn:E; [lia|]. exists l. split; auto. split; auto.
    intros r Hr. destruct (b1 <? r) eqn:E1; auto. lia.
  - cbn [ps_outbot]. destruct (b1 + 1 <? zlen l) eqn:E.
    + rewrite gz_get by (rewrite zlen_botl; lia). cbn [bind]. rewrite gz_botl by lia.
      replace (bt lam b1 + (b1 + 1) - 1 <=? TT i) with true.
      2:{ symmetry. apply Z.leb_le. pose proof (bI_at i b1 ltac:(lia)). lia. }
      rewrite gz_get by lia. cbn [bind].
      destruct (gz_set l (b1 + 1) (Z.min (gz l (b1 + 1)) (UU i - (b1 + 1))) ltac:(lia)) as (l1 & E1 & E2 & E3).
      rewrite E1. cbn [bind].
      destruct (IH (b1 + 1) l1 ltac:(lia) ltac:(lia) ltac:(lia)) as (l' & E4 & E5 & E6).
      exists l'. split; [exact E4|]. split; auto. intros r Hr. rewrite E6, E3 by lia.
      destruct (Z.lt_trichotomy r (b1 + 1)) as [H|[H|H]].
      * destruct (b1 + 1 <? r) eqn:X1, (b1 <? r) eqn:X2, (r =? b1 + 1) eqn:X3; try lia; auto.
      * subst r. destruct (b1 + 1 <? b1 + 1) eqn:X1, (b1 <? b1 + 1) eqn:X2; try lia. rewrite Z.eqb_refl. auto.
      * destruct (b1 + 1 <? r) eqn:X1, (b1 <? r) eqn:X2, (r =? b1 + 1) eqn:X3; try lia; auto.
    + exists l. split; auto. split; auto. intros r Hr. destruct (b1 <? r) eqn:E1; auto. lia.
Qed.

Lemma bounds_loop c : 0 <= c <= k -> forall b ib ob, 0 <= b <= lb -> (forall r, 0 <= r < b -> TT (k - c) < bt lam r + r) ->
  inb_ok (k - c) ib -> outb_ok (k - c) ob ->
  (exists ib' ob', ps_bounds (zrange (k - c) k) topl u botl lb k d b ib ob = Ok (Some (ib', ob')) /\
     inb_ok k ib' /\ outb_ok k ob' /\ forall i, k - c <= i < k -> gz u i < tc lam i -> bI i < mlen) \/
  (ps_bounds (zrange (k - c) k) topl u botl lb k d b ib ob = Ok None /\
     exists i, k - c <= i < k /\ gz u i < tc lam i /\ mlen <= bI i).
Proof.
  intros [H0 Hck]. revert Hck. pattern c. apply natlike_ind; auto.
  - intros _ b ib ob Hb Hr Hi Ho. rewrite zrange_nil by lia. left. exists ib, ob. replace (k - 0) with k in * by lia.
    split; auto. split; auto. split; auto. intros i Hi'. lia.
  - clear c H0. intros c H0 IH Hck b ib ob Hb Hr Hi Ho. rewrite zrange_cons by lia.
    replace (k - Z.succ c + 1) with (k - c) by lia. assert (Ei : k - c = k - Z.succ c + 1) by lia.
    set (i := k - Z.succ c) in *. cbn [ps_bounds].
    destruct HU as (U1 & U2 & U3). destruct Hi as [Li Gi]. destruct Ho as [Lo Go].
    rewrite (gz_get topl) by (rewrite zlen_topl; lia). cbn [bind]. rewrite gz_topl by lia.
    change (tc lam i + k - (i + 1) - d) with (TT i).
    rewrite shift_ok; auto; [|unfold zlen; pose proof zlen_botl; unfold zlen in *; lia]. cbn [bind].
    rewrite (gz_get u) by lia. cbn [bind]. change (gz u i + k - (i + 1) - d) with (UU i).
    pose proof (bI_range i) as Hbi.
    destruct ((gz u i <? tc lam i) && (zlen ib <? bI i + 1)) eqn:En.
    { right. split; auto. exists i. apply andb_true_iff in En. lia. }
    assert (Hin : exists ib', (if gz u i <? tc lam i then x <- py_get ib (bI i) ;;
                     py_set ib (bI i) (Z.max x (tc lam i + k - (i + 1) - (bI i + 1) + 2 - d)) else Ok ib) = Ok ib' /\
                  inb_ok (i + 1) ib').
    { destruct (gz u i <? tc lam i) eqn:Eu.
      - cbn [andb] in En. rewrite gz_get by lia. cbn [bind].
        destruct (gz_set ib (bI i) (Z.max (gz ib (bI i)) (tc lam i + k - (i + 1) - (bI i + 1) + 2 - d)) ltac:(lia)) as (ib' & E1 & E2 & E3).
        exists ib'. split; auto. split; [lia|]. intros r x Hr'. rewrite E3 by lia.
        destruct (r =? bI i) eqn:Er.
        + apply Z.eqb_eq in Er. subst r. rewrite Z.max_lub_iff, Gi by lia. split.
          * intros [[A1 A2] A3]. split; auto. intros j Hj Hj' Hb'. destruct (Z.eq_dec j i) as [->|]; [unfold TT; lia|].
            apply A2; auto. lia.
          * intros [A1 A2]. split; [split; auto|].
            -- intros j Hj. apply A2; auto. lia.
            -- specialize (A2 i ltac:(lia) ltac:(lia) eq_refl). unfold TT in A2. lia.
        + rewrite Gi by lia. split; intros [A1 A2]; split; auto; intros j Hj Hj' Hb'.
          * destruct (Z.eq_dec j i) as [->|]; [lia|]. apply A2; auto. lia.
          * apply A2; auto. lia.
      - exists ib. split; auto. split; [lia|]. intros r x Hr'. rewrite Gi by lia.
        split; intros [A1 A2]; split; auto; intros j Hj Hj' Hb'.
        + destruct (Z.eq_dec j i) as [->|]; [lia|]. apply A2; auto. lia.
        + apply A2; auto. lia. }
    destruct Hin as (ib' & Eib & Hib). rewrite Eib. cbn [bind].
    destruct (outbot_loop i (length ob) ltac:(lia) (bI i) ob ltac:(lia) Lo ltac:(unfold zlen in *; lia)) as (ob' & Eob & Lob & Gob).
    rewrite Eob. cbn [bind].
    assert (Hob : outb_ok (i + 1) ob').
    { split; auto. intros r x Hr'. rewrite Gob by lia. destruct (bI i <? r) eqn:Er.
      - rewrite Z.min_glb_iff, Go by lia. split.
        + intros [[A1 A2] A3]. split; auto. intros j Hj Hj'. destruct (Z.eq_dec j i) as [->|]; [lia|]. apply A2; auto. lia.
        + intros [A1 A2]. split; [split; auto|].
          * intros j Hj. apply A2. lia.
          * apply A2; lia.
      - rewrite Go by lia. split; intros [A1 A2]; split; auto; intros j Hj Hj'.
        + destruct (Z.eq_dec j i) as [->|]; [lia|]. apply A2; auto. lia.
        + apply A2; auto. lia. }
    rewrite Ei. rewrite Ei in IH. destruct (IH ltac:(lia) (bI i) ib' ob') as [(i2 & o2 & E1 & E2 & E3 & E4)|(E1 & j & E2 & E3 & E4)]; auto.
    + intros r Hr'. pose proof (bI_below i r Hr'). pose proof (TT_mono i (i + 1) ltac:(lia)). lia.
    + left. exists i2, o2. split; auto. split; auto. split; auto. intros j Hj Hj'.
      destruct (Z.eq_dec j i) as [->|]; [|apply E4; auto; lia]. apply andb_false_iff in En. lia.
    + right. split; auto. exists j. split; auto. lia.
Qed.

(** what the bottom must satisfy *)
Definition Vbot (l : list Z) : Prop :=
  zlen l = mlen /\ (forall r, 0 <= r < mlen -> bt lam r <= gz l r <= ob0 r) /\
  (forall r, 0 <= r -> r + 1 < mlen -> gz l (r + 1) < gz l r) /\
  (forall i, 0 <= i < k -> gz u i < tc lam i -> bI i < mlen /\ TT i - bI i + 1 <= gz l (bI i)) /\
  (forall i r, 0 <= i < k -> bI i < r < mlen -> gz l r <= UU i - r).

Lemma inb0_start : inb_ok 0 inb0.
Proof.
  pose proof mlen_nonneg. split; [apply zlen_map_zrange; lia|]. intros r x Hr. unfold inb0. rewrite gz_map_zrange by lia.
  split; [intros; split; auto; intros; lia|tauto].
Qed.
Lemma outb0_start : outb_ok 0 outb0.
Proof.
  pose proof mlen_nonneg. split; [apply zlen_map_zrange; lia|]. intros r x Hr. unfold outb0. rewrite gz_map_zrange by lia.
  split; [intros; split; auto; intros; lia|tauto].
Qed.

Lemma bounds_okB ib ob : inb_ok k ib -> outb_ok k ob -> forall prev, (0 < mlen -> gz ob 0 < prev) -> okB n 1 prev (combine ib ob).
Proof.
  intros [Li Gi] [Lo Go] prev Hprev. pose proof mlen_eq as Hme. destruct HU as (U1 & U2 & U3).
  assert (Hlow : forall r, 0 <= r < mlen -> bt lam r <= gz ib r) by (intros r Hr; apply (Gi r (gz ib r) Hr); lia).
  assert (Hmid : forall r, 0 <= r < mlen -> gz ib r <= gz ob r).
  { intros r Hr. apply Go; auto. split.
    - apply Gi; auto. split.
      + unfold ob0. destruct (r =? 0) eqn:E; [apply bt_n, HL|].
        replace r with (r - 1 + 1) at 1 by lia. apply bt_weak; [apply Hpart|lia].
      + intros i Hi Hu Hb. unfold ob0. destruct (r =? 0) eqn:E.
        * pose proof (tc_rows lam i HL). unfold TT, rows in *. lia.
        * pose proof (bI_below i (r - 1) ltac:(lia)). lia.
    - intros i' Hi' Hb'. apply Gi; auto. split.
      + pose proof (beta_U i' (gz u i') r Hi' (proj1 (U2 i' Hi')) Hb' ltac:(lia)). unfold UU. lia.
      + intros i Hi Hu Hb.
        assert (i' < i) by (destruct (Z.lt_ge_cases i' i); auto; pose proof (bI_mono i i'); lia).
        pose proof (proj1 (U2 i' Hi')). pose proof (low_ge i' Hi'). pose proof (tc_mono lam (i' + 1) i ltac:(lia)).
        unfold TT, UU. lia. }
  apply okB_gz; try lia; rewrite ?Li.
  - intros r Hr. specialize (Hlow r Hr). specialize (Hmid r Hr). pose proof (bt_nonneg lam r). lia.
  - intros r Hr. apply Z.le_trans with (ob0 r).
    + apply (Go r (gz ob r) Hr). lia.
    + unfold ob0. destruct (r =? 0); [lia|apply bt_n, HL].
  - intros r Hr Hr'. apply Gi; [lia|]. specialize (Hlow r ltac:(lia)). split.
    + pose proof (bt_dec lam r ltac:(apply HL) Hr (lb_pos r ltac:(lia))). lia.
    + intros i Hi Hu Hb. pose proof (bI_below i r ltac:(lia)). lia.
  - intros H0. specialize (Hmid 0 ltac:(lia)). specialize (Hprev ltac:(lia)). lia.
Qed.

Lemma inV_Vbot ib ob prev q l : inb_ok k ib -> outb_ok k ob -> (0 < mlen -> prev = gz ob 0 + 1) ->
  (forall i, 0 <= i < k -> gz u i < tc lam i -> bI i < mlen) ->
  (inV 1 prev (combine ib ob) q l <-> Vbot l /\ zsum l = zsum ib + q).
Proof.
  intros [Li Gi] [Lo Go] Hprev Hs. rewrite inV_iff by lia. rewrite Li. split.
  - intros (A1 & A2 & A3 & A4 & A5). split; auto. split; auto. split; [|split; [|split]].
    + intros r Hr. specialize (A2 r Hr). destruct A2 as [A2 A6]. apply Gi in A2; auto. apply Go in A6; auto. tauto.
    + intros r Hr Hr'. specialize (A3 r Hr Hr'). lia.
    + intros i Hi Hu. specialize (Hs i Hi Hu). split; auto. pose proof (bI_range i). specialize (A2 (bI i) ltac:(lia)).
      destruct A2 as [A2 _]. apply Gi in A2; [|lia]. apply A2; auto.
    + intros i r Hi Hr. pose proof (bI_range i). specialize (A2 r ltac:(lia)). destruct A2 as [_ A6]. apply Go in A6; [|lia].
      apply A6; auto. lia.
  - intros [(A1 & A2 & A3 & A4 & A5) A6]. split; auto. split; [|split; [|split]]; auto.
    + intros r Hr. split.
      * apply Gi; auto. split; [apply A2; auto|]. intros i Hi Hu <-. apply A4; auto.
      * apply Go; auto. split; [apply A2; auto|]. intros i Hi Hb. apply A5; auto. lia.
    + intros r Hr Hr'. specialize (A3 r Hr Hr'). lia.
    + intros H0. rewrite Hprev by auto. assert (gz l 0 <= gz ob 0); [|lia]. apply Go; [lia|]. split; [apply A2; lia|].
      intros i Hi Hb. pose proof (bI_range i). lia.
Qed.

(** the partition assembled from the two parts *)
Lemma Vbot_pair l : Vbot l -> pair_in k rows cols u (part_clip l).
Proof.
  intros (L1 & L2 & L3 & _). pose proof mlen_eq as Hme. pose proof mlen_nonneg as Hm0. destruct HU as (U1 & U2 & U3).
  assert (Hnn : forall j, (j < length l)%nat -> 0 <= part l j <= n).
  { intros j Hj. assert (E : part l j = gz l (Z.of_nat j)) by (unfold gz; rewrite Nat2Z.id; auto).
    rewrite E. specialize (L2 (Z.of_nat j) ltac:(unfold zlen in L1; lia)).
    pose proof (bt_nonneg lam (Z.of_nat j)). assert (ob0 (Z.of_nat j) <= n); [|lia].
    unfold ob0. destruct (_ =? _); [lia|apply bt_n, HL]. }
  assert (Hdec : forall j, (S j < length l)%nat -> part l (S j) < part l j).
  { intros j Hj. specialize (L3 (Z.of_nat j) ltac:(lia) ltac:(unfold zlen in L1; lia)). unfold gz in L3.
    replace (Z.to_nat (Z.of_nat j + 1)) with (S j) in L3 by lia. rewrite Nat2Z.id in L3. auto. }
  assert (Hdp : decp n l).
  { apply decp_part; auto. split; [intros j Hj; apply Hnn; auto|]. split.
    - intros j. destruct (Nat.lt_ge_cases (S j) (length l)) as [Hj|Hj]; auto. left. specialize (Hdec j Hj). lia.
    - destruct l; [unfold part; simpl; lia|apply Hnn; simpl; lia]. }
  split; [unfold zlen in U1; lia|]. split; [|split; [|split; [|split; [|split]]]].
  - intros j Hj. specialize (U2 (Z.of_nat j) ltac:(lia)). unfold gz in U2. rewrite Nat2Z.id in U2.
    pose proof (low_nonneg (Z.of_nat j) ltac:(lia)). unfold hight in U2. lia.
  - intros j Hj. specialize (U3 (Z.of_nat j) ltac:(lia) ltac:(lia)). unfold gz in U3. rewrite Nat2Z.id in U3.
    replace (Z.to_nat (Z.of_nat j + 1)) with (S j) in U3 by lia. auto.
  - apply (decp_is_partition n); auto.
  - intros j Hj. rewrite !part_clip_part in *. destruct (Nat.lt_ge_cases (S j) (length l)) as [Hj'|Hj'].
    + apply Hdec; auto.
    + rewrite (part_over l (S j)) by auto. auto.
  - rewrite part_clip_part. unfold cols. destruct l; [unfold part; simpl; lia|]. specialize (Hnn 0%nat ltac:(simpl; lia)). lia.
  - pose proof (zlen_clip l). fold (zlen (part_clip l)). change (zlen (part_clip l) <= topk). lia.
Qed.

Lemma assemble l : Vbot l -> (if k =? 0 then Ok (part_clip l)
            else
              let j := Z.min (zlen (part_conj u)) (zlen l) in
              s <- mapM (fun i => x <- py_get (part_conj u) i ;; y <- py_get l i ;; Ok (x + y))
                        (zrange 0 j) ;;
              Ok (s ++ sl_from (part_conj u) j)) = Ok (glue u (part_clip l)).
Proof.
  intros HV. pose proof (Vbot_pair l HV) as Hp. destruct HV as (L1 & _). pose proof Hp as (P1 & P2 & P3 & _).
  pose proof mlen_eq as Hme. pose proof mlen_nonneg. pose proof topk_lb. destruct (k =? 0) eqn:Ek.
  - destruct u; [reflexivity|]. simpl in P1. lia.
  - pose proof (top_partition _ _ _ _ _ Hp) as Ht. pose proof (part_conj_conjugate _ Ht) as [Hc Ec].
    rewrite <- part_conj_clip in *.
    assert (Hlc : zlen (part_conj u) = part u 0).
    { pose proof (count_1 (part_conj u) Hc) as C1. rewrite <- C1. 
      pose proof (conjugate_sym _ _ Ht (conj Hc Ec)) as [_ E2]. specialize (E2 0%nat). rewrite part_clip_part in E2. auto. }
    assert (Hu0 : topk <= part u 0).
    { unfold topk. rewrite Ek. unfold gz. 
      assert (G : forall i, Z.of_nat i < k -> part u i <= part u 0).
      { induction i; [lia|]. intros Hi. specialize (P3 i Hi). specialize (IHi ltac:(lia)). lia. }
      apply G. lia. }
    rewrite Z.min_r by lia. cbv zeta.
    rewrite mapM_ok with (g := fun i => gz (part_conj u) i + gz l i).
    2:{ intros i Hi. apply in_zrange in Hi. rewrite !gz_get by lia. reflexivity. }
    cbn [bind]. f_equal.
    assert (Esl : sl_from (part_conj u) (zlen l) = skipn (length l) (part_conj u)).
    { unfold sl_from. rewrite sl_bound_in by lia. unfold zlen. rewrite Nat2Z.id. auto. }
    rewrite Esl. unfold glue. destruct u as [|x u'] eqn:Eu; [simpl in P1; lia|]. rewrite <- Eu in *.
    set (cj := part_conj u) in *. unfold zlen in *. apply list_part_eq.
    + rewrite app_length, !map_length, !length_zrange, skipn_length. lia.
    + intros j Hj. rewrite app_length, map_length, length_zrange, skipn_length in Hj.
      rewrite part_map_zrange by lia. rewrite Nat2Z.id, part_clip_part.
      destruct (Nat.lt_ge_cases j (length l)) as [Hjb|Hjb].
      * unfold part at 1. rewrite app_nth1 by (rewrite map_length, length_zrange; lia).
        change (part (map (fun i => gz cj i + gz l i) (zrange 0 (Z.of_nat (length l)))) j = part cj j + part l j).
        rewrite part_map_zrange by lia. unfold gz. rewrite Nat2Z.id. auto.
      * unfold part at 1. rewrite app_nth2 by (rewrite map_length, length_zrange; lia).
        rewrite map_length, length_zrange. rewrite (part_over l) by auto. rewrite Z.add_0_r.
        unfold part. replace (j - Z.to_nat (Z.of_nat (length l) - 0))%nat with (j - length l)%nat by lia.
        rewrite <- (firstn_skipn (length l) cj) at 2. rewrite app_nth2; rewrite firstn_length_le by lia; auto.
Qed.

Lemma body_bot p depth acc nxt : part_itr_between u (lows tbs) (highs tbs) = Ok nxt ->
  (n * rows + 1 < Z.of_nat depth) ->
  exists acc', ps_body depth p topl botl (lows tbs) (highs tbs) lb rows cols k d (Some u, acc) = Ok (Next (nxt, acc')) /\
    forall v, In v acc' <-> In v acc \/ exists l, Vbot l /\ zsum l + zsum u = zsum lam + p /\ v = glue u (part_clip l).
Proof.
  intros Hnxt Hdepth. unfold ps_body. rewrite Hnxt. cbn [bind].
  assert (Hsl : zsum topl + zsum botl = zsum lam).
  { rewrite (size_pair k lam _ _ Hk Hpart (part2pair_pair_of k lam Hk Hpart)).
    pose proof (pair_lam lam Hpart _ _ (part2pair_pair_of k lam Hk Hpart)) as [-> ->].
    fold topl. unfold botl. rewrite zsum_app. unfold lb. simpl. lia. }
  pose proof mlen_eq as Hme. pose proof mlen_nonneg as Hm0. pose proof topk_rows as Htr.
  assert (Hbsum : forall l, Vbot l -> zsum botl <= zsum l).
  { intros l (V1 & V2 & _). assert (E : zsum botl = zsum inb0).
    { unfold botl, inb0, mlen. destruct (lb <? topk).
      - pose proof lb_nonneg. rewrite (zrange_snoc 0 (lb + 1)) by lia. replace (lb + 1 - 1) with lb by lia.
        rewrite map_app, !zsum_app. cbn [map]. rewrite lb_zero by lia. auto.
      - rewrite zsum_app. simpl. lia. }
    rewrite E. destruct inb0_start as [I1 I2]. apply zsum_le; [lia|]. intros r Hr. rewrite I1 in Hr.
    apply I2; auto. split; [apply V2; auto|]. intros; lia. }
  assert (Hnone : (forall l, Vbot l -> zsum l + zsum u = zsum lam + p -> False) ->
    exists acc', Ok (Next (nxt, acc)) = @Ok (step (option (list Z) * list (list Z)) (list (list Z))) (Next (nxt, acc')) /\
    forall v, In v acc' <-> In v acc \/ exists l, Vbot l /\ zsum l + zsum u = zsum lam + p /\ v = glue u (part_clip l)).
  { intros H. exists acc. split; auto. intros v. split; auto. intros [|(l & V & E & _)]; auto. destruct (H l V E). }
  destruct (p + zsum topl - zsum u <? 0) eqn:Ep1.
  { apply Hnone. intros l V E. specialize (Hbsum l V). lia. }
  assert (Etk : (if k =? 0 then Ok rows else py_get u (k - 1)) = Ok topk).
  { unfold topk. destruct (k =? 0) eqn:Ek; auto. apply gz_get. destruct HU as (U1 & _). lia. }
  rewrite Etk. cbn [bind]. rewrite inb0_ok, outb0_ok. cbn [bind].
  destruct (bounds_loop k ltac:(lia) 0 inb0 outb0) as [(ib & ob & Eb & Hib & Hob & Hs)|(Eb & i & Hi & Hui & Hmi)].
  - pose proof lb_nonneg. lia.
  - intros r Hr. lia.
  - replace (k - k) with 0 by lia. apply inb0_start.
  - replace (k - k) with 0 by lia. apply outb0_start.
  - replace (k - k) with 0 in * by lia. rewrite Eb. cbn [bind].
    pose proof Hib as [Lib Gib]. pose proof Hob as [Lob Gob].
    assert (Hobs : forall l, Vbot l -> zsum l <= zsum ob /\ zsum ib <= zsum l).
    { intros l (V1 & V2 & V3 & V4 & V5). split.
      - apply zsum_le; [lia|]. intros r Hr. rewrite V1 in Hr. apply Gob; auto. split; [apply V2; auto|].
        intros i Hi Hb. apply V5; auto. lia.
      - apply zsum_le; [lia|]. intros r Hr. rewrite Lib in Hr. apply Gib; auto. split; [apply V2; auto|].
        intros i Hi Hui <-. apply V4; auto. }
    destruct (zsum ob - zsum botl <? p + zsum topl - zsum u) eqn:E1.
    { apply Hnone. intros l V E. specialize (Hobs l V). lia. }
    destruct (p + zsum topl - zsum u - zsum ib + zsum botl <? 0) eqn:E2.
    { apply Hnone. intros l V E. specialize (Hobs l V). lia. }
    set (q := p + zsum topl - zsum u - zsum ib + zsum botl) in *.
    assert (Hcol : exists acc', (bot1 <- pieri_fill ib ib ob 1 q ;;
         loop2 depth (ps_bot_body k (part_conj u) ib ob) (bot1, acc)) = Ok acc' /\
       forall v, In v acc' <-> In v acc \/ exists l, Vbot l /\ zsum l + zsum u = zsum lam + p /\ v = glue u (part_clip l)).
    { assert (HQ : forall prev l, (0 < mlen -> prev = gz ob 0 + 1) -> (inV 1 prev (combine ib ob) q l <-> Vbot l /\ zsum l + zsum u = zsum lam + p)).
      { intros prev l Hprev. rewrite inV_Vbot; auto. unfold q. split; intros [V1 V2]; split; auto; lia. }
      assert (Hbody : forall prev a L, (0 < mlen -> prev = gz ob 0 + 1) ->
         chain (fun x => pieri_itr x (lows (combine ib ob)) (highs (combine ib ob))) a L ->
         (forall x, In x L <-> inV 1 prev (combine ib ob) q x) -> (length L < 2 ^ depth)%nat ->
         exists acc', loop2 depth (ps_bot_body k (part_conj u) ib ob) (Some a, acc) = Ok acc' /\
           forall v, In v acc' <-> In v acc \/ exists l, Vbot l /\ zsum l + zsum u = zsum lam + p /\ v = glue u (part_clip l)).
      { intros prev a L Hprev Hc HL' Hlen.
        destruct (chain_collect _ (ps_bot_body k (part_conj u) ib ob) (fun x v => v = glue u (part_clip x)) ltac:(reflexivity) a L Hc acc)
          as (acc' & R & I).
        - intros x o acc0 Hx Hn0. apply HL' in Hx. apply HQ in Hx; auto. destruct Hx as [Vx _].
          pose proof (assemble x Vx) as Ea. cbv zeta in Ea. unfold ps_bot_body. cbv zeta. rewrite Ea. cbn [bind].
          rewrite lows_combine, highs_combine in Hn0 by lia. rewrite Hn0. cbn [bind].
          eexists. split; [reflexivity|]. intros v. cbn [In]. split; [intros [Hv|Hv]|intros [Hv|Hv]]; auto.
        - exists acc'. split; [eapply loop2_runs; eauto|]. intros v. rewrite I. split; (intros [|(x & X1 & X2)]; [auto|right]).
          + exists x. apply HL' in X1. apply HQ in X1; auto. tauto.
          + exists x. split; [|tauto]. apply HL'. apply HQ; tauto. }
      destruct (Z.eq_dec mlen 0) as [Em|Em].
      - (* no rows at the bottom *)
        assert (ib = [] /\ ob = []) as [-> ->].
        { split; apply zlen_0; lia. }
        cbn [pieri_fill bind]. apply (Hbody 0 [] [[]]); try lia.
        + apply chain_last. reflexivity.
        + intros x. destruct x; simpl; [|split; [intros [|[]]; discriminate|tauto]].
          split; auto. intros _. unfold q in *. simpl in *. lia.
        + cbn [length]. assert (0 < Z.of_nat depth) by nia. destruct depth as [|dd]; [lia|]. cbn [Nat.pow].
          assert (0 < 2 ^ dd)%nat by (clear; induction dd; simpl; lia). lia.
      - destruct ib as [|i0 ib']; [rewrite zlen_nil in Lib; lia|]. destruct ob as [|o0 ob']; [rewrite zlen_nil in Lob; lia|].
        set (bs := combine ib' ob').
        assert (Ebs : combine (i0 :: ib') (o0 :: ob') = (i0, o0) :: bs) by reflexivity.
        assert (Efl : pieri_fill (i0 :: ib') (i0 :: ib') (o0 :: ob') 1 q = Ok (fillD 1 (o0 + 1) ((i0, o0) :: bs) q)).
        { pose proof (fill_start i0 o0 bs (i0 :: ib') q) as F. rewrite <- Ebs in F.
          rewrite lows_combine, highs_combine in F by lia. apply F. unfold bs. rewrite combine_length.
          rewrite zlen_cons in *. unfold zlen in *. simpl. lia. }
        rewrite Efl. cbn [bind].
        pose proof (bounds_okB _ _ Hib Hob (o0 + 1) ltac:(rewrite gz_cons0; lia)) as HokB. rewrite Ebs in *.
        pose proof (fillD_spec n Hn 1 (o0 + 1) ((i0, o0) :: bs) q HokB ltac:(lia)) as Hf.
        specialize (HQ (o0 + 1)). 
        destruct (fillD 1 (o0 + 1) ((i0, o0) :: bs) q) as [f|].
        + destruct Hf as [F1 F2].
          destruct (chain_ok_max n Hn (inV 1 (o0 + 1) ((i0, o0) :: bs) q) (length ((i0, o0) :: bs))
             (fun x => pieri_itr x (lows ((i0, o0) :: bs)) (highs ((i0, o0) :: bs)))) with (a := f) as (L & Hc & HL' & _ & Hlen); auto.
          * intros a Ha. eapply inV_rng; eauto.
          * intros a Ha. eapply inV_len; eauto.
          * intros a Ha. rewrite pieri_itr_ok by (eauto using inV_len, inV_above).
            pose proof (nextD_spec n Hn 1 ((i0, o0) :: bs) (o0 + 1) q a HokB Ha) as H.
            destruct (nextD 1 ((i0, o0) :: bs) a) as [b|]; [|left; auto].
            right. exists b. destruct H as (N1 & N2 & N3). auto.
          * apply (Hbody (o0 + 1) f L); auto.
            assert (Hlb : Z.of_nat (length ((i0, o0) :: bs)) = mlen).
            { rewrite <- Ebs, combine_length. unfold zlen in *. lia. }
            rewrite Hlb in Hlen. pose proof (pow_le_2 n Hn (Z.to_nat mlen) 0) as Hp2.
            rewrite Z2Nat.id in Hp2 by lia. rewrite Z.add_0_r in Hp2.
            assert (Z.of_nat (length L) < Z.of_nat (2 ^ depth)); [|lia]. rewrite Nat2Z.inj_pow.
            assert (2 ^ (n * mlen) < 2 ^ Z.of_nat depth); [|lia]. apply Z.pow_lt_mono_r; [lia|lia|].
            assert (n * mlen <= n * rows); [|lia]. apply Z.mul_le_mono_nonneg_l; lia.
        + exists acc. split.
          { assert (Hpd : (0 < 2 ^ depth)%nat) by (clear; induction depth; simpl; lia).
            eapply loop2_runs; [apply runs_done; reflexivity|auto]. }
          intros v. split; auto. intros [|(l & V & E & _)]; auto. exfalso. apply (Hf l). apply HQ; auto. }
    destruct Hcol as (acc' & Ec & Ic). destruct (pieri_fill ib ib ob 1 q) as [bot1|e]; [|discriminate]. cbn [bind] in Ec |- *.
    rewrite Ec. cbn [bind]. exists acc'. auto.
  - replace (k - k) with 0 in * by lia. rewrite Eb. cbn [bind]. apply Hnone.
    intros l (_ & _ & _ & V4 & _) _. specialize (V4 i ltac:(lia) Hui). lia.
Qed.

End Bot.

(** ** the result *)

Lemma ps_inner_start : (if k =? 0 then Ok []
            else
              l <- mapM (fun j => x <- py_get topl (j + 1) ;; Ok (Z.max lb x))
                        (zrange 0 (zlen topl - 1)) ;;
              Ok (l ++ [lb])) = Ok (map (fun i => tc lam (i + 1)) (zrange 0 k)).
Proof.
  destruct (k =? 0) eqn:Ek.
  - apply Z.eqb_eq in Ek. rewrite Ek. reflexivity.
  - rewrite zlen_topl. rewrite mapM_ok with (g := fun j => tc lam (j + 1)).
    + cbn [bind]. rewrite (zrange_snoc 0 k) by lia. rewrite map_app. cbn [map]. do 3 f_equal. unfold lb. f_equal. lia.
    + intros j Hj. apply in_zrange in Hj. rewrite gz_get by (rewrite zlen_topl; lia). cbn [bind]. rewrite gz_topl by lia.
      f_equal. apply Z.max_r. apply tc_mono. lia.
Qed.

Lemma pieri_set_raw p : exists L, pieri_set p lam k n d = Ok L /\ NoDup L /\ strictly_increasing (rev L) /\
  forall v, In v L <-> exists u l, Vtop u /\ Vbot u l /\ zsum l + zsum u = zsum lam + p /\ v = glue u (part_clip l).
Proof.
  unfold pieri_set. rewrite start_top, start_bot.
  assert (E1 : exists x, (if k =? 0 then Ok (n + k) else py_get topl (k - 1)) = Ok x).
  { destruct (k =? 0) eqn:Ek; eauto. rewrite gz_get by (rewrite zlen_topl; lia). eauto. }
  destruct E1 as (x0 & E1). rewrite E1. cbn [bind]. clear x0 E1.
  replace (zlen botl - 1) with lb by (rewrite zlen_botl; lia).
  rewrite mapM_ok with (g := hight).
  2:{ intros j Hj. apply in_zrange in Hj. rewrite gz_get by (rewrite zlen_topl; lia). cbn [bind]. rewrite gz_topl by lia. reflexivity. }
  cbn [bind]. rewrite ps_inner_start. cbn [bind].
  destruct (inner_loop k ltac:(lia) (map (fun i => tc lam (i + 1)) (zrange 0 k)) 0) as (inner' & b' & E2 & L2 & _ & G2).
  - apply zlen_map_zrange; auto.
  - pose proof lb_nonneg. lia.
  - intros r Hr. lia.
  - intros i Hi. apply (gz_map_zrange (fun i => tc lam (i + 1))). lia.
  - replace (k - k) with 0 in * by lia. rewrite E2. cbn [bind].
    assert (Ei : inner' = lows tbs).
    { rewrite lows_tbs. apply gz_ext; [rewrite zlen_map_zrange; lia|]. intros i Hi. rewrite G2 by lia.
      rewrite gz_map_zrange by lia. auto. }
    rewrite Ei. rewrite <- highs_tbs. clear inner' b' E2 L2 G2 Ei.
    destruct tbs_ok as [Hok Hdec].
    assert (H0 : 0 <= rows) by (unfold rows; lia).
    destruct (between_chain rows H0 tbs rows Hok Hdec) as (L & Hc & HL' & Hlen).
    { destruct (Z.eq_dec k 0) as [E|E].
      - unfold tbs. rewrite E. reflexivity.
      - unfold tbs. rewrite zrange_cons by lia. cbn [map]. unfold hight. lia. }
    set (depth := ps_depth (n + d - k) (n + k) k).
    assert (Hdp : n * rows + 1 < Z.of_nat depth /\ rows * k < Z.of_nat depth).
    { unfold depth, ps_depth, rows in *. rewrite Z2Nat.id by nia. nia. }
    destruct (chain_collect _ (ps_body depth p topl botl (lows tbs) (highs tbs) lb (n + d - k) (n + k) k d)
       (fun u v => exists l, Vbot u l /\ zsum l + zsum u = zsum lam + p /\ v = glue u (part_clip l)) ltac:(reflexivity) _ L Hc [])
      as (acc & R & I).
    { intros x o acc Hx Hnx. apply body_bot; auto; [apply inT_Vtop, HL'; auto|lia]. }
    rewrite (loop2_runs _ depth _ _ _ R).
    2:{ assert (Z.of_nat (length L) < Z.of_nat (2 ^ depth)); [|lia]. rewrite Nat2Z.inj_pow.
        pose proof (pow_le_2 rows H0 (length tbs) 0) as Hp2. rewrite Z.add_0_r in Hp2.
        replace (Z.of_nat (length tbs)) with k in * by (unfold tbs; rewrite map_length, length_zrange; lia).
        assert (2 ^ (rows * k) < 2 ^ Z.of_nat depth); [|lia]. apply Z.pow_lt_mono_r; lia. }
    cbn [bind]. eexists. split; [reflexivity|].
    change (sort_part (dedup acc [])) with (rev (unique_list acc)).
    destruct (unique_list_ok acc) as (Hs & Hnd & Hin).
    split; [apply NoDup_rev; auto|]. split; [rewrite rev_involutive; auto|].
    intros v. rewrite <- in_rev. rewrite Hin, I. cbn [In]. split.
    + intros [[]|(u & Hu & l & HV)]. exists u, l. split; auto. apply inT_Vtop, HL'; auto.
    + intros (u & l & Hu & HV). right. exists u. split; [apply HL', inT_Vtop; auto|]. exists l. auto.
Qed.

(** the same, as conditions on the new partition *)
Definition prel (mu : list Z) : Prop :=
  (forall i, 0 <= i < k -> lowt i <= tc mu i <= tc lam i + 1) /\
  (forall r, 0 <= r -> bt lam r <= bt mu r /\ bt mu (r + 1) <= bt lam r) /\
  (forall i r, 0 <= i < k -> bI i < r -> 0 < bt mu r -> bt mu r + r <= tc mu i + k - (i + 1) - d) /\
  (forall i, 0 <= i < k -> tc mu i < tc lam i -> TT i + 1 <= bt mu (bI i) + bI i).

Lemma pieri_set_prel p : exists L, pieri_set p lam k n d = Ok L /\ NoDup L /\ strictly_increasing (rev L) /\
  forall mu, In mu L <-> kstrict_in k rows cols mu /\ zsum mu = zsum lam + p /\ prel mu.
Proof.
  destruct (pieri_set_raw p) as (L & E & Hnd & Hs & HI). exists L. split; auto. split; auto. split; auto.
  assert (Hkc : 0 <= k <= cols) by (unfold cols; lia).
  intros mu. rewrite HI. split.
  - intros (u & l & Hu & HV & Hsum & ->). pose proof (Vbot_pair u Hu l HV) as Hp.
    pose proof (glue_pair_of _ _ _ _ _ Hp Hk) as Hpo. pose proof (glue_partition _ _ _ _ _ Hp Hk) as Hgp.
    pose proof (pair_of_kstrict _ _ _ _ _ _ Hkc Hgp Hpo Hp) as Hks.
    split; auto. set (mu := glue u (part_clip l)) in *. split.
    { rewrite (size_pair k mu _ _ Hk Hgp Hpo), zsum_clip. lia. }
    pose proof Hpo as (O1 & O2 & O3 & O4). destruct HV as (V1 & V2 & V3 & V4 & V5). destruct Hu as (U1 & U2 & U3).
    pose proof lb_nonneg as Hlb.
    assert (Etc : forall i, 0 <= i < k -> tc mu i = gz u i).
    { intros i Hi. unfold tc, gz. rewrite O2 by lia. f_equal. lia. }
    assert (Ebt : forall r, 0 <= r -> bt mu r = gz l r).
    { intros r Hr. unfold bt, gz. rewrite <- O4, part_clip_part. auto. }
    assert (Hm : mlen u <= lb + 1 /\ lb <= mlen u) by (unfold mlen; destruct (_ <? _); lia).
    assert (Hov : forall r, mlen u <= r -> gz l r = 0) by (intros r Hr; apply gz_over; lia).
    split; [|split; [|split]].
    + intros i Hi. rewrite Etc by auto. specialize (U2 i Hi). unfold hight in U2. lia.
    + intros r Hr. rewrite !Ebt by lia. split.
      * destruct (Z.lt_ge_cases r (mlen u)) as [H|H]; [apply V2; lia|]. rewrite Hov, lb_zero by lia. lia.
      * destruct (Z.lt_ge_cases (r + 1) (mlen u)) as [H|H].
        -- specialize (V2 (r + 1) ltac:(lia)). unfold ob0 in V2. destruct (r + 1 =? 0) eqn:E0; [lia|].
           replace (r + 1 - 1) with r in V2 by lia. lia.
        -- rewrite Hov by lia. apply bt_nonneg.
    + intros i r Hi Hr Hpos. pose proof (bI_range i). rewrite Ebt in * by lia. rewrite Etc by auto.
      destruct (Z.lt_ge_cases r (mlen u)) as [H1|H1]; [|rewrite Hov in Hpos by lia; lia].
      specialize (V5 i r Hi ltac:(lia)). unfold UU in V5. lia.
    + intros i Hi Hlt. pose proof (bI_range i). rewrite Etc in Hlt by auto. rewrite Ebt by lia.
      specialize (V4 i Hi Hlt). lia.
  - intros (Hks & Hsz & R1 & R2 & R3 & R4). pose proof Hks as [[Hmp _] Hst].
    set (u := map (tc mu) (zrange 0 k)). set (l := map (bt mu) (zrange 0 (mlen u))).
    assert (Eu : forall i, 0 <= i < k -> gz u i = tc mu i) by (intros; apply gz_map_zrange; auto).
    assert (Lu : zlen u = k) by (apply zlen_map_zrange; auto).
    assert (Hu : Vtop u).
    { split; auto. split.
      - intros i Hi. rewrite Eu by auto. specialize (R1 i Hi). pose proof (tc_rows mu i Hks). unfold hight. lia.
      - intros i Hi Hi'. rewrite !Eu by lia. apply tc_mono. lia. }
    pose proof (mlen_eq u Hu) as Hme. pose proof (mlen_nonneg u) as Hm0. pose proof lb_nonneg as Hlb.
    assert (El : forall r, 0 <= r < mlen u -> gz l r = bt mu r) by (intros; apply gz_map_zrange; auto).
    assert (Ll : zlen l = mlen u) by (apply zlen_map_zrange; auto).
    assert (Hov : forall r, mlen u <= r -> bt mu r = 0).
    { intros r Hr. destruct (Z.eq_dec (bt mu r) 0) as [|Hne]; auto. exfalso.
      pose proof (bt_nonneg mu r). assert (Hpos : r < tc mu k) by (apply bt_pos; auto; lia).
      assert (tc mu k <= topk u).
      { unfold topk. destruct (k =? 0) eqn:Ek; [apply tc_rows; auto|]. rewrite Eu by lia. apply tc_mono. lia. }
      assert (Hl1 : lb + 1 < tc mu k \/ r < lb + 1) by lia. destruct Hl1 as [Hl1|Hl1]; [|lia].
      apply bt_pos in Hl1; auto; [|lia]. specialize (R2 lb ltac:(lia)). rewrite lb_zero in R2 by lia. lia. }
    assert (HV : Vbot u l).
    { split; auto. split; [|split; [|split]].
      - intros r Hr. rewrite El by auto. split; [apply R2; lia|]. unfold ob0. destruct (r =? 0) eqn:E0; [apply bt_n; auto|].
        specialize (R2 (r - 1) ltac:(lia)). replace (r - 1 + 1) with r in R2 by lia. lia.
      - intros r Hr Hr'. rewrite !El by lia. apply bt_dec; auto. pose proof (lb_pos r ltac:(lia)). specialize (R2 r Hr). lia.
      - intros i Hi Hlt. rewrite Eu in Hlt by auto. specialize (R4 i Hi Hlt). pose proof (bI_range i).
        assert (Hb : bI i < mlen u).
        { destruct (Z.lt_ge_cases (bI i) (mlen u)) as [|Hge]; auto. rewrite Hov in R4 by auto.
          destruct (low_case i Hi ltac:(lia)) as (_ & Hlow & _). specialize (R1 i Hi). lia. }
        split; auto. rewrite El by lia. lia.
      - intros i r Hi Hr. pose proof (bI_range i). rewrite El by lia. unfold UU. rewrite Eu by auto.
        destruct (Z.eq_dec (bt mu r) 0) as [E0|E0].
        + rewrite E0. pose proof (beta_U i (tc mu i) r Hi ltac:(apply R1; auto) ltac:(lia) ltac:(lia)).
          pose proof (bt_nonneg lam r). lia.
        + pose proof (bt_nonneg mu r). specialize (R3 i r Hi ltac:(lia) ltac:(lia)). lia. }
    pose proof (part2pair_pair_of k mu Hk Hmp) as Hpo.
    pose proof (pair_lam mu Hmp _ _ Hpo) as [E1 E2].
    assert (Ecl : part_clip l = snd (part2pair_inner mu k)).
    { pose proof (Vbot_pair u Hu l HV) as (_ & _ & _ & Hpc & _). apply partition_eq; auto; [apply Hpo|].
      intros j. rewrite part_clip_part. destruct Hpo as (_ & _ & _ & ->).
      assert (Ej : Z.max 0 (part mu j - k) = bt mu (Z.of_nat j)) by (unfold bt; rewrite Nat2Z.id; auto).
      assert (Ej' : part l j = gz l (Z.of_nat j)) by (unfold gz; rewrite Nat2Z.id; auto).
      rewrite Ej, Ej'. destruct (Z.lt_ge_cases (Z.of_nat j) (mlen u)) as [Hj|Hj].
      - apply El. lia.
      - rewrite Hov by auto. apply gz_over. lia. }
    exists u, l. split; auto. split; auto. split.
    + rewrite <- (zsum_clip l), Ecl. pose proof (size_pair k mu _ _ Hk Hmp Hpo) as Es. rewrite E1 in Es. fold u in Es. lia.
    + rewrite Ecl. symmetry. apply (glue_of_pair k mu u _ rows cols Hkc Hks). unfold u. rewrite <- E1. auto.
Qed.

End PS.
