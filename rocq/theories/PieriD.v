(** The coefficients of the Pieri rule of type D. *)

From Coq Require Import ZArith List Lia Bool Permutation QArith Qcanon Setoid Morphisms.
From Verif Require Import Py OrderFacts PyFacts ModelPart ModelQcalc ModelPoly ModelGr Spec SpecPieri
  PolyFacts SuppFacts Conv Enum FillFacts PartFacts ConjFacts PairFacts PieriA QPieriA PieriSet PieriBKT CompsFacts
  CompsBound WSum PieriCoef.
Import ListNotations.
Open Scope Z_scope.

(** ** a final zero does not matter *)
Lemma map_zero_end (f : Z -> Z) l : f 0 = 0 -> map f (l ++ [0]) = map f l ++ repz 0 1.
Proof. intros H. rewrite map_app. simpl. rewrite H. reflexivity. Qed.
Lemma pieri_set_zero p lam k n d : 0 <= k -> pieri_set p (lam ++ [0]) k n d = pieri_set p lam k n d.
Proof.
  intros Hk. unfold pieri_set.
  rewrite (map_zero_end (fun x => Z.min x k)), (map_zero_end (fun x => Z.max 0 (x - k))), part_conj_zeros, part_clip_app0 by lia.
  reflexivity.
Qed.
Lemma count_comps_zero lam mu s k d : 0 <= k -> count_comps (lam ++ [0]) mu s k d = count_comps lam mu s k d.
Proof.
  intros Hk. unfold count_comps.
  rewrite (map_zero_end (fun x => Z.min x k)), (map_zero_end (fun x => Z.max 0 (x - k))), part_conj_zeros, part_clip_app0 by lia.
  reflexivity.
Qed.

Lemma shape_partition l : is_partition l -> shape l = l.
Proof.
  intros [H _]. unfold shape. assert (HF : forall x, In x l -> 0 < x).
  { intros x Hx. destruct (In_nth _ _ 0 Hx) as (j & Hj & <-). apply (H j Hj). }
  clear H. induction l as [|x l IH]; simpl; auto. replace (0 <? x) with true by (specialize (HF x); simpl in HF; lia).
  f_equal. apply IH. intros; apply HF; simpl; auto.
Qed.
Lemma shape_app0 l : shape (l ++ [0]) = shape l.
Proof. unfold shape. rewrite filter_app. simpl. apply app_nil_r. Qed.
Lemma typed_shape k rows cols l : typed_in k rows cols l ->
  kstrict_in k rows cols (shape l) /\
  (l = shape l \/ (l = shape l ++ [0] /\ 0 < k /\ In k (shape l))).
Proof.
  intros [H|(mu & -> & Hk & Hin & H)].
  - rewrite shape_partition by apply H. auto.
  - rewrite shape_app0, shape_partition by apply H. auto.
Qed.
Lemma pieri_set_shape k rows cols p lam n d : 0 <= k -> typed_in k rows cols lam -> pieri_set p lam k n d = pieri_set p (shape lam) k n d.
Proof.
  intros Hk H. destruct (typed_shape _ _ _ _ H) as (_ & [E|(E & _)]); rewrite E at 1; auto. apply pieri_set_zero; auto.
Qed.
Lemma count_comps_shape k rows cols lam mu s d : 0 <= k -> typed_in k rows cols lam ->
  count_comps lam mu s k d = count_comps (shape lam) mu s k d.
Proof.
  intros Hk H. destruct (typed_shape _ _ _ _ H) as (_ & [E|(E & _)]); rewrite E at 1; auto. apply count_comps_zero; auto.
Qed.
Lemma size_shape k rows cols l : typed_in k rows cols l -> size (shape l) = size l.
Proof.
  intros H. destruct (typed_shape _ _ _ _ H) as (_ & [E|(E & _)]); rewrite E at 2; auto. rewrite !size_zsum, zsum_app. simpl. lia.
Qed.

(** ** the number of columns gaining a box *)
Lemma zsum_indicator a b lo hi :
  zsum (map (fun i => if (a <=? i) && (i <? b) then 1 else 0) (zrange lo hi)) = Z.max 0 (Z.min b hi - Z.max a lo).
Proof.
  destruct (Z.le_gt_cases lo hi) as [H|H].
  2:{ unfold zrange. replace (Z.to_nat (hi - lo)) with O by lia. simpl. lia. }
  replace hi with (lo + Z.of_nat (Z.to_nat (hi - lo))) by lia. generalize (Z.to_nat (hi - lo)). clear H.
  induction n as [|n IH].
  - unfold zrange. replace (Z.to_nat _) with O by lia. simpl. lia.
  - replace (lo + Z.of_nat (S n)) with (lo + Z.of_nat n + 1) by lia. rewrite zrange_snoc by lia.
    replace (lo + Z.of_nat n + 1 - 1) with (lo + Z.of_nat n) by lia.
    rewrite map_app, zsum_app, IH. cbn [map zsum fold_right]. destruct (Z.leb_spec a (lo + Z.of_nat n)), (Z.ltb_spec (lo + Z.of_nat n) b); cbn [andb]; lia.
Qed.
Lemma zsum_swap {A B} (f : A -> B -> Z) (la : list A) (lb : list B) :
  zsum (map (fun a => zsum (map (f a) lb)) la) = zsum (map (fun b => zsum (map (fun a => f a b) la)) lb).
Proof.
  induction la as [|a la IH]; simpl.
  - induction lb; simpl; auto.
  - rewrite IH, <- zsum_map_add. reflexivity.
Qed.
Definition gains (k : Z) (lam mu : list Z) : Z :=
  zsum (map (fun c => if count_ge lam c <? count_ge mu c then 1 else 0) (zrange 1 (k + 1))).
Lemma not_gaining_gains k lam mu : 0 <= k -> not_gaining k lam mu = k - gains k lam mu.
Proof.
  intros Hk. unfold not_gaining, gains. assert (E : zrange 1 (k + 1) = map Z.of_nat (seq 1 (Z.to_nat k))).
  { unfold zrange. replace (k + 1 - 1) with k by lia. rewrite <- (seq_shift (Z.to_nat k) 0), map_map. apply map_ext. intros; lia. }
  rewrite <- E. assert (El : k = zlen (zrange 1 (k + 1))) by (rewrite zlen_zrange; lia). transitivity (zlen (zrange 1 (k + 1)) - zsum (map (fun c => if count_ge lam c <? count_ge mu c then 1 else 0) (zrange 1 (k + 1)))); [|lia].
  clear. generalize (zrange 1 (k + 1)). intros l. induction l as [|c l IH]; [reflexivity|]. rewrite zlen_cons. cbn [filter map zsum fold_right].
  unfold zsum in IH. destruct (Z.leb_spec (count_ge mu c) (count_ge lam c)), (Z.ltb_spec (count_ge lam c) (count_ge mu c)); simpl length; lia.
Qed.
Lemma gains_rows k lam mu : 0 <= k -> is_partition lam -> is_partition mu ->
  (forall c, 1 <= c <= k -> count_ge mu c <= count_ge lam c + 1) ->
  zsum (map (fun i => Z.max 0 (Z.min (part mu (Z.to_nat i)) k - part lam (Z.to_nat i))) (zrange 0 (zlen mu))) = gains k lam mu.
Proof.
  intros Hk Hl Hm Hc. unfold gains.
  transitivity (zsum (map (fun i => zsum (map (fun c => if (part lam (Z.to_nat i) + 1 <=? c) && (c <? part mu (Z.to_nat i) + 1) then 1 else 0) (zrange 1 (k + 1)))) (zrange 0 (zlen mu)))).
  - f_equal. apply map_ext. intros i. rewrite zsum_indicator. pose proof (is_partition_nonneg lam (Z.to_nat i) Hl). lia.
  - rewrite zsum_swap. f_equal. apply map_ext_in. intros c Hcc. apply in_zrange in Hcc.
    transitivity (zsum (map (fun i => if (count_ge lam c <=? i) && (i <? count_ge mu c) then 1 else 0) (zrange 0 (zlen mu)))).
    + f_equal. apply map_ext_in. intros i Hi. apply in_zrange in Hi.
      pose proof (count_iff lam (Z.to_nat i) c Hl ltac:(lia)). pose proof (count_iff mu (Z.to_nat i) c Hm ltac:(lia)).
      assert (E1 : (part lam (Z.to_nat i) + 1 <=? c) = (count_ge lam c <=? i)) by lia.
      assert (E2 : (c <? part mu (Z.to_nat i) + 1) = (i <? count_ge mu c)) by lia.
      rewrite E1, E2. reflexivity.
    + rewrite zsum_indicator. pose proof (count_ge_nonneg lam c). pose proof (count_ge_le mu c). specialize (Hc c ltac:(lia)).
      destruct (Z.ltb_spec (count_ge lam c) (count_ge mu c)); lia.
Qed.

Lemma nth_app0 (l : list Z) j : nth j (l ++ [0]) 0 = nth j l 0.
Proof.
  destruct (Nat.lt_ge_cases j (length l)); [apply app_nth1; auto|]. rewrite app_nth2, (nth_overflow l) by auto.
  destruct (j - length l)%nat as [|[|i]]; reflexivity.
Qed.
Lemma dcoef_h_ok k lam mu h : 0 <= k -> is_partition lam -> is_partition mu ->
  (forall j, part mu (S j) <= part lam j) ->
  (forall c, 1 <= c <= k -> count_ge mu c <= count_ge lam c + 1) ->
  forall lam', lam' = lam \/ lam' = lam ++ [0] ->
  dcoef_h k lam' mu h = Ok (h - gains k lam mu).
Proof.
  intros Hk Hl Hm Hs Hc lam' Hlam'. rewrite <- gains_rows by auto. unfold dcoef_h.
  set (del := fun i => Z.max 0 (Z.min (part mu (Z.to_nat i)) k - part lam (Z.to_nat i))).
  set (body := fun (st : Z * Z) i => let '(h, pmu) := st in
             lami <- (if i <? zlen lam' then py_get lam' i else Ok 0) ;;
             mui <- py_get mu i ;;
             Ok (if lami <? Z.min mui k then h - (Z.min mui k - Z.max pmu lami) else h, mui)).
  assert (G : forall j, (Z.of_nat j <= zlen mu) -> forall h,
     exists z, foldM body (rev (zrange 0 (Z.of_nat j))) (h, part mu j) = Ok (h - zsum (map del (zrange 0 (Z.of_nat j))), z)).
  { induction j as [|j IH]; intros Hj h0.
    - exists (part mu 0). unfold zrange. simpl. do 2 f_equal. lia.
    - replace (Z.of_nat (S j)) with (Z.of_nat j + 1) by lia. rewrite zrange_snoc by lia.
      replace (Z.of_nat j + 1 - 1) with (Z.of_nat j) by lia. rewrite rev_app_distr, map_app, zsum_app.
      cbn [rev app foldM map zsum fold_right].
      assert (El : (if Z.of_nat j <? zlen lam' then py_get lam' (Z.of_nat j) else Ok 0) = Ok (part lam j)).
      { destruct (Z.ltb_spec (Z.of_nat j) (zlen lam')) as [H1|H1].
        - rewrite (py_get_in _ _ 0) by lia. rewrite Nat2Z.id. f_equal. unfold part. destruct Hlam' as [-> | ->]; auto.
          rewrite nth_app0. auto.
        - f_equal. unfold part. rewrite nth_overflow; auto. destruct Hlam' as [-> | ->]; rewrite ?zlen_app in H1; unfold zlen in H1; simpl in H1; lia. }
      assert (Em : py_get mu (Z.of_nat j) = Ok (part mu j)).
      { rewrite (py_get_in _ _ 0) by lia. rewrite Nat2Z.id. reflexivity. }
      assert (Eb : body (h0, part mu (S j)) (Z.of_nat j) = Ok (h0 - del (Z.of_nat j), part mu j)).
      { unfold body. rewrite El, Em. cbn [bind]. do 2 f_equal. unfold del. rewrite Nat2Z.id. specialize (Hs j).
        destruct (Z.ltb_spec (part lam j) (Z.min (part mu j) k)); lia. }
      rewrite Eb. cbn [bind]. destruct (IH ltac:(lia) (h0 - del (Z.of_nat j))) as (z & Ez). exists z. rewrite Ez. do 2 f_equal. unfold zsum. lia. }
  destruct (G (length mu) ltac:(unfold zlen; lia) h) as (z & Ez). fold (zlen mu) in Ez.
  replace (part mu (length mu)) with 0 in Ez by (unfold part; rewrite nth_overflow; auto). rewrite Ez. reflexivity.
Qed.

Lemma type_of_cases k rows cols lam : typed_in k rows cols lam ->
  (type_of k lam = 0 /\ ~ In k (shape lam) /\ lam = shape lam) \/
  (type_of k lam = 1 /\ In k (shape lam) /\ lam = shape lam) \/
  (type_of k lam = 2 /\ In k (shape lam) /\ lam = shape lam ++ [0]).
Proof.
  intros H. destruct (typed_shape _ _ _ _ H) as (H1 & H2). unfold type_of.
  assert (HE : existsb (Z.eqb k) lam = true <-> In k lam).
  { rewrite existsb_exists. split; [intros (x & Hx & E); apply Z.eqb_eq in E; subst; auto|].
    intros Hx. exists k. rewrite Z.eqb_refl. auto. }
  destruct H2 as [E|(E & Hk & Hin)].
  - rewrite <- E in *. destruct (existsb (Z.eqb k) lam) eqn:Ex.
    + right. left. pose proof (last_partition lam (proj1 (proj1 H1))). destruct (Z.eqb_spec (last lam 1) 0); [contradiction|]. tauto.
    + left. split; auto. split; auto. intros Hi. apply HE in Hi. discriminate.
  - right. right. rewrite (proj2 HE) by (rewrite E; apply in_app_iff; auto). rewrite E, last_last, <- E. auto.
Qed.
Lemma type_of_part k mu : is_partition mu -> type_of k mu = if zmem k mu then 1 else 0.
Proof.
  intros H. unfold type_of, zmem. destruct (existsb (Z.eqb k) mu); auto.
  pose proof (last_partition mu H). destruct (Z.eqb_spec (last mu 1) 0); auto. contradiction.
Qed.
Lemma zmem_iff k l : zmem k l = true <-> In k l.
Proof.
  unfold zmem. rewrite existsb_exists. split; [intros (x & Hx & E); apply Z.eqb_eq in E; subst; auto|].
  intros Hx. exists k. rewrite Z.eqb_refl. auto.
Qed.
Lemma type_of_app0 k mu : 0 < k -> In k mu -> type_of k (mu ++ [0]) = 2.
Proof.
  intros Hk H. unfold type_of. replace (existsb (Z.eqb k) (mu ++ [0])) with true; [rewrite last_last; reflexivity|].
  symmetry. apply (zmem_iff k (mu ++ [0])). apply in_app_iff. auto.
Qed.

Lemma arrow_cols k d lam mu : is_partition lam -> is_partition mu -> pieri_arrow k d lam mu ->
  (forall j, part mu (S j) <= part lam j) /\ (forall c, 1 <= c -> count_ge mu c <= count_ge lam c + 1).
Proof.
  intros Hl Hm ((nu & H1 & H2 & H3) & _).
  assert (G : forall j, part mu (S j) <= part lam j).
  { intros j. specialize (H2 j). specialize (H3 j). lia. }
  split; auto. intros c Hc. destruct (Z.le_gt_cases (count_ge mu c) (count_ge lam c + 1)) as [|Hgt]; auto. exfalso.
  pose proof (count_ge_nonneg lam c).
  pose proof (count_iff mu (S (Z.to_nat (count_ge lam c))) c Hm Hc) as [A _]. pose proof (count_iff lam (Z.to_nat (count_ge lam c)) c Hl Hc) as [_ B].
  specialize (G (Z.to_nat (count_ge lam c))). lia.
Qed.

Section D.
Variables (k n p : Z) (lam : list Z).
Hypothesis Hk : 0 <= k.
Hypothesis Hn : 0 <= n.
Hypothesis Hkn : k <= n + 1.
Hypothesis HL : typed_in k (n + 1 - k) (n + k) lam.
Notation sl := (shape lam).
Notation T := (type_of k lam).

Lemma coef_pS_eq a b : coef (pS a) [vS b] = if l_dec a b then 1%Qc else 0%Qc.
Proof. rewrite coef_pS. reflexivity. Qed.

(** the contribution of one shape *)
Lemma dcoef_ok mu : kstrict_in k (n + 1 - k) (n + k) mu -> size mu = size sl + Z.abs p -> prel k 1 sl mu ->
  exists N x, dcoef p lam mu T k n = Ok x /\
    component_count (free_box k 1 sl mu) (fun _ => True) N /\ (k < Z.abs p -> 1 <= N) /\
    (forall m, coef x m <> 0%Qc -> m = [vS mu] \/ m = [vS (mu ++ [0])] /\ In k mu) /\
    (T + type_of k mu <> 3 -> coef x [vS mu] = mult_D k p lam mu N) /\
    (T + type_of k mu = 3 -> coef x [vS mu] = 0%Qc) /\
    (In k mu -> T <> 1 -> coef x [vS (mu ++ [0])] = mult_D k p lam (mu ++ [0]) N) /\
    (In k mu -> T = 1 -> coef x [vS (mu ++ [0])] = 0%Qc).
Proof.
  intros HM Hs HP. destruct (typed_shape _ _ _ _ HL) as (HL1 & _).
  assert (HPl := proj1 (proj1 HL1)). assert (HPm := proj1 (proj1 HM)).
  destruct (count_comps_free k n 1 sl mu Hk (or_intror eq_refl) HL1 HM HP false) as (N & EN & HN).
  apply comps_any in HN.
  assert (Hpos : k < Z.abs p -> 1 <= N).
  { intros Hp. apply (comps_pos_B k n 1 sl mu Hk (or_intror eq_refl) HL1 HM HP); [|apply comps_any; auto].
    pose proof (size_zsum mu). pose proof (size_zsum sl). lia. }
  assert (HN0 : 0 <= N) by (eapply component_count_nonneg; eauto).
  exists N. unfold dcoef. rewrite (count_comps_shape k _ _ lam mu false 1 Hk HL), EN. cbn [bind].
  assert (Hsm : symbol (SP mu) = Ok (pS mu)) by (apply symbol_ok, part_nonneg; auto).
  assert (Hsm0 : symbol (SP (mu ++ [0])) = Ok (pS (mu ++ [0]))).
  { apply symbol_ok. apply Forall_app. split; [apply part_nonneg; auto|]. repeat constructor. lia. }
  assert (Hne : mu <> mu ++ [0]) by (intros E; apply (f_equal (@length Z)) in E; rewrite app_length in E; simpl in E; lia).
  assert (HT : T = 0 \/ T = 1 \/ T = 2) by (destruct (type_of_cases _ _ _ _ HL) as [(E & _)|[(E & _)|(E & _)]]; auto).
  assert (Hkpos : In k mu -> 0 < k).
  { intros Hi. destruct HPm as [Hpos' _]. destruct (In_nth _ _ 0 Hi) as (j & Hj & E). specialize (Hpos' j Hj). unfold part in Hpos'. lia. }
  set (cc := N - (if Z.abs p <? k then 0 else 1)).
  assert (Hc1 : coef (pS mu) [vS mu] = 1%Qc) by (rewrite coef_pS_eq; destruct (l_dec mu mu); congruence).
  assert (Hc2 : coef (pS mu) [vS (mu ++ [0])] = 0%Qc) by (rewrite coef_pS_eq; destruct (l_dec mu (mu ++ [0])); congruence).
  assert (Hc3 : coef (pS (mu ++ [0])) [vS mu] = 0%Qc) by (rewrite coef_pS_eq; destruct (l_dec (mu ++ [0]) mu); congruence).
  assert (Hc4 : coef (pS (mu ++ [0])) [vS (mu ++ [0])] = 1%Qc) by (rewrite coef_pS_eq; destruct (l_dec (mu ++ [0]) (mu ++ [0])); congruence).
  assert (Hsup : forall a m, coef (pS a) m <> 0%Qc -> m = [vS a]).
  { intros a m Hm. rewrite coef_pS in Hm. unfold wval in Hm. destruct m as [|[[l|t b]| | |] [|v m]]; try congruence.
    destruct (l_dec a l); [subst; reflexivity|congruence]. }
  assert (Hty : type_of k mu = if zmem k mu then 1 else 0) by (apply type_of_part; auto).
  destruct (Z.leb_spec 0 cc) as [Hcc|Hcc].
  - assert (Hmult : forall mu', mult_D k p lam mu' N = pow2 cc).
    { intros mu'. unfold mult_D. rewrite pow2_two by auto. unfold cc in *. destruct (Z.abs p <? k); [f_equal; lia|].
      replace (0 <? N) with true by lia. reflexivity. }
    rewrite !Hmult. rewrite Hsm. cbn [bind]. rewrite Hsm0. cbn [bind].
    destruct (zmem k mu) eqn:Ez; cbn [negb orb].
    + apply zmem_iff in Ez. destruct HT as [E|[E|E]]; rewrite E, Hty; simpl (0 =? 1); simpl (1 =? 1); simpl (2 =? 1); simpl (0 =? 2); simpl (2 =? 2); cbv iota; cbn [bind];
        (eexists; split; [reflexivity|]; split; [exact HN|]; split; [exact Hpos|]; split; [|split; [|split; [|split]]]);
        try (intros; exfalso; lia); intros; rewrite ?coef_pscale, ?coef_padd, ?Hc1, ?Hc2, ?Hc3, ?Hc4; try ring.
      * rewrite coef_pscale, coef_padd in H. destruct (Qc_eq_dec (coef (pS mu) m) 0%Qc) as [E0|E0]; [|left; apply Hsup; auto].
        right. split; auto. apply Hsup. intros E1. apply H. rewrite E0, E1. ring.
      * left. apply Hsup. intros E1. apply H. rewrite coef_pscale, E1. ring.
      * right. split; auto. apply Hsup. intros E1. apply H. rewrite coef_pscale, E1. ring.
    + assert (Hni : ~ In k mu) by (rewrite <- zmem_iff; congruence). rewrite Hty.
      eexists. split; [reflexivity|]. split; [exact HN|]. split; [exact Hpos|]. split; [|split; [|split; [|split]]];
        try (intros; exfalso; (lia || tauto)); intros; rewrite ?coef_pscale, ?Hc1; try ring.
      left. apply Hsup. intros E1. apply H. rewrite coef_pscale, E1. ring.
  - assert (Hp : Z.abs p <? k = false) by (unfold cc in Hcc; destruct (Z.abs p <? k); lia || auto).
    assert (HN1 : N = 0) by (unfold cc in Hcc; rewrite Hp in Hcc; lia).
    assert (HA : pieri_arrow k 1 sl mu) by (apply (arrow_prel k n 1); auto).
    destruct (arrow_cols k 1 sl mu HPl HPm HA) as (A1 & A2).
    rewrite (dcoef_h_ok k sl mu _ Hk HPl HPm A1) by (intros; auto; try apply A2; try lia;
      destruct (typed_shape _ _ _ _ HL) as (_ & [E|(E & _)]); auto).
    cbn [bind]. set (b := if p <? 0 then 1 else 0).
    assert (Hg : k + T + b - gains k sl mu = not_gaining k sl mu + T + b) by (rewrite not_gaining_gains by auto; lia).
    rewrite Hg.
    assert (Hmult : forall mu', shape mu' = mu -> mult_D k p lam mu' N = if Z.odd (not_gaining k sl mu + Z.max T (type_of k mu') + b) then 1%Qc else 0%Qc).
    { intros mu' E. unfold mult_D. rewrite Hp, HN1, E. reflexivity. }
    rewrite Hmult by (apply shape_partition; auto). rewrite Hmult by (rewrite shape_app0; apply shape_partition; auto).
    assert (Hodd : forall z, (z mod 2 =? 0) = negb (Z.odd z)).
    { intros z. rewrite Zmod_odd. destruct (Z.odd z); reflexivity. }
    rewrite Hodd, Hsm, Hsm0. set (G := not_gaining k sl mu) in *.
    assert (Ho1 : forall z, Z.odd (z + 1 + b) = negb (Z.odd (z + b))) by (intros z; replace (z + 1 + b) with (Z.succ (z + b)) by lia; rewrite Z.odd_succ; symmetry; apply Z.negb_odd).
    assert (Ho2 : forall z, Z.odd (z + 2 + b) = Z.odd (z + b)) by (intros z; replace (z + 2 + b) with (z + b + 2 * 1) by lia; apply Z.odd_add_mul_2).
    destruct (zmem k mu) eqn:Ez.
    + apply zmem_iff in Ez. rewrite (type_of_app0 k mu) by auto.
      destruct HT as [E|[E|E]]; rewrite E, Hty; simpl (0 =? 0); simpl (1 =? 0); simpl (2 =? 0); simpl (1 =? 2); simpl (2 =? 2); cbv iota; cbn [andb];
        simpl (Z.max _ _); rewrite ?Z.add_0_r, ?Ho1, ?Ho2; destruct (Z.odd (G + b)) eqn:Eo; cbn [negb]; rewrite ?Hsm, ?Hsm0;
        (eexists; split; [reflexivity|]; split; [exact HN|]; split; [exact Hpos|]; split; [|split; [|split; [|split]]]);
        try (intros; exfalso; lia); intros; rewrite ?Hc1, ?Hc2, ?Hc3, ?Hc4; auto; try (exfalso; apply H; reflexivity).
    + assert (Hni : ~ In k mu) by (rewrite <- zmem_iff; congruence). rewrite Hty, !andb_false_r. rewrite Z.max_l by (destruct HT as [E|[E|E]]; rewrite E; lia).
      destruct (Z.odd (G + T + b)) eqn:Eo; cbn [negb]; rewrite ?Hsm, ?Hsm0;
        (eexists; split; [reflexivity|]; split; [exact HN|]; split; [exact Hpos|]; split; [|split; [|split; [|split]]]);
        try (intros; exfalso; (lia || tauto)); intros; rewrite ?Hc1; auto; try (exfalso; apply H; reflexivity).
Qed.

Lemma pieriD_lincl : exists r W, pieriD_inner p lam k n = Ok r /\ lincl r W /\ forall mu, coef_D k n p lam mu (W mu).
Proof.
  destruct (typed_shape _ _ _ _ HL) as (HL1 & _).
  destruct (pieri_set_prel k n 1 sl Hk Hn (or_intror eq_refl) ltac:(lia) HL1 (Z.abs p)) as (ps & E & H1 & _ & H3).
  assert (Hst : (if negb (zmem k lam) then 0 else if last lam 1 =? 0 then 2 else 1) = T).
  { unfold type_of, zmem. destruct (existsb (Z.eqb k) lam); reflexivity. }
  unfold pieriD_inner. rewrite Hst, (pieri_set_shape k _ _ _ lam n 1 Hk HL), E. cbn [bind].
  set (e := fun mu => match dcoef p lam mu T k n with Ok x => x | _ => pzero end).
  assert (HD : forall mu, In mu ps -> kstrict_in k (n + 1 - k) (n + k) mu /\ size mu = size sl + Z.abs p /\ prel k 1 sl mu).
  { intros mu Hmu. apply H3 in Hmu. destruct Hmu as (A & B & C). rewrite !size_zsum. auto. }
  destruct (foldM_lincl (fun acc mu => x <- dcoef p lam mu T k n ;; Ok (padd acc x)) e shape ps H1) as (r & Er & Hr).
  - intros mu a Hmu. destruct (HD mu Hmu) as (A & B & C). destruct (dcoef_ok mu A B C) as (N & x & Ex & _).
    unfold e. rewrite Ex. cbn [bind]. eexists. split; [reflexivity|]. reflexivity.
  - intros mu m Hmu Hc. destruct (HD mu Hmu) as (A & B & C). destruct (dcoef_ok mu A B C) as (N & x & Ex & _ & _ & Hm & _).
    unfold e in Hc. rewrite Ex in Hc. destruct (Hm m Hc) as [->|(-> & _)]; eexists; (split; [reflexivity|]).
    + symmetry. apply shape_partition, A.
    + symmetry. rewrite shape_app0. apply shape_partition, A.
  - exists r. eexists. split; [exact Er|]. split; [exact Hr|]. intros mu. cbv beta.
    assert (HTm : pieri_term_D k n p lam mu -> In (shape mu) ps).
    { intros (A & B & C & _). destruct (typed_shape _ _ _ _ A) as (A1 & _). apply H3. split; [exact A1|]. split.
      - pose proof (size_shape _ _ _ _ A). pose proof (size_shape _ _ _ _ HL).
        pose proof (size_zsum (shape mu)). pose proof (size_zsum sl). lia.
      - apply (arrow_prel k n 1); auto. }
    destruct (in_dec l_dec (shape mu) ps) as [Hi|Hi].
    2:{ right. split; auto. }
    destruct (HD _ Hi) as (A & B & C). destruct (dcoef_ok _ A B C) as (N & x & Ex & HN & Hpos & Hm & K1 & K2 & K3 & K4).
    assert (Ee : e (shape mu) = x) by (unfold e; rewrite Ex; auto). rewrite Ee.
    assert (HA : pieri_arrow k 1 sl (shape mu)) by (apply (arrow_prel k n 1); auto).
    pose proof (size_shape _ _ _ _ HL) as Hsl.
    assert (HTi : typed_in k (n + 1 - k) (n + k) mu -> T + type_of k mu <> 3 -> pieri_term_D k n p lam mu).
    { intros Ht H9. split; auto. split; [|split; auto]. pose proof (size_shape _ _ _ _ Ht). lia. }
    assert (Hdec : typed_in k (n + 1 - k) (n + k) mu \/ ~ typed_in k (n + 1 - k) (n + k) mu).
    { destruct (l_dec mu (shape mu)) as [E1|E1]; [left; left; rewrite E1; auto|].
      destruct (l_dec mu (shape mu ++ [0])) as [E2|E2].
      - destruct (in_dec Z.eq_dec k (shape mu)) as [E3|E3].
        + destruct (Z.lt_ge_cases 0 k) as [E4|E4].
          * left. right. exists (shape mu). auto.
          * right. intros Ht. destruct (typed_shape _ _ _ _ Ht) as (_ & [|(_ & ? & _)]); [auto|lia].
        + right. intros Ht. destruct (typed_shape _ _ _ _ Ht) as (_ & [|(_ & _ & ?)]); auto.
      - right. intros Ht. destruct (typed_shape _ _ _ _ Ht) as (_ & [|(? & _)]); auto. }
    destruct Hdec as [Ht|Ht].
    + assert (Hmm : forall N, mult_D k p lam mu N = mult_D k p lam mu N) by auto.
      destruct (type_of_cases _ _ _ _ Ht) as [(E1 & E2 & E3)|[(E1 & E2 & E3)|(E1 & E2 & E3)]].
      * left. split; [apply HTi; auto; rewrite E1; destruct (type_of_cases _ _ _ _ HL) as [(E4 & _)|[(E4 & _)|(E4 & _)]]; lia|].
        exists N. split; auto. split; auto. rewrite <- E3 in *. apply K1. rewrite E1. destruct (type_of_cases _ _ _ _ HL) as [(E4 & _)|[(E4 & _)|(E4 & _)]]; lia.
      * rewrite <- E3 in *. destruct (Z.eq_dec (T + type_of k mu) 3) as [E5|E5].
        -- right. split; auto. intros (_ & _ & _ & H9). auto.
        -- left. split; auto. exists N. split; [rewrite <- E3; auto|split; auto].
      * destruct (Z.eq_dec (T + type_of k mu) 3) as [E5|E5].
        -- right. split; [intros (_ & _ & _ & H9); auto|]. rewrite E3. apply K4; auto. lia.
        -- left. split; auto. exists N. split; auto. split; auto. rewrite E3 at 2. rewrite E3 at 1. apply K3; auto. lia.
    + right. split; [intros (H9 & _); auto|].
      destruct (Qc_eq_dec (coef x [vS mu]) 0%Qc) as [E0|E0]; auto. exfalso. apply Ht.
      destruct (Hm _ E0) as [E1|(E1 & E2)]; injection E1 as E1.
      * left. rewrite E1. auto.
      * right. exists (shape mu). split; auto. split; [|auto].
        destruct (proj1 (proj1 A)) as [Hpos' _]. destruct (In_nth _ _ 0 E2) as (j & Hj & E3). specialize (Hpos' j Hj). unfold part in Hpos'. lia.
Qed.
End D.
