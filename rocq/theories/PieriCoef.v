(** The coefficients of the Pieri rules of types B and C. *)

From Coq Require Import ZArith List Lia Bool Permutation QArith Qcanon Setoid Morphisms.
From Verif Require Import Py OrderFacts PyFacts ModelPart ModelQcalc ModelPoly ModelGr Spec SpecPieri
  PolyFacts SuppFacts Conv Enum FillFacts PartFacts ConjFacts PairFacts PieriA QPieriA PieriSet PieriBKT CompsFacts CompsBound WSum.
Import ListNotations.
Open Scope Z_scope.

Lemma pow2_two e : 0 <= e -> pow2 e = two_to e.
Proof. intros H. unfold pow2. destruct (Z.leb_spec 0 e); [reflexivity|lia]. Qed.
Lemma two_to_nz e : 0 <= e -> two_to e <> 0%Qc.
Proof.
  intros He E. unfold two_to in E. apply Q2Qc_eq_iff in E. unfold Qeq in E. simpl in E.
  assert (0 < 2 ^ e) by (apply Z.pow_pos_nonneg; lia). lia.
Qed.
Lemma pow2_minus_1 e : 0 <= e -> (pow2 (-1) * two_to (e + 1))%Qc = two_to e.
Proof.
  intros H. change (pow2 (-1)) with (Q2Qc (1 # 2)). unfold two_to.
  rewrite Z.pow_add_r by lia. change (2 ^ 1) with 2. unfold Qcmult. apply q2qc_eq. unfold Q2Qc, this.
  rewrite !Qred_correct. unfold inject_Z, Qmult, Qeq. cbn [Qnum Qden]. generalize (2 ^ e). intros z. lia.
Qed.

Lemma symbol_ok l : nonneg l -> symbol (SP l) = Ok (pS l).
Proof.
  unfold nonneg. intros H. unfold symbol, schur_nonneg. replace (forallb (fun x => 0 <=? x) l) with true; auto.
  symmetry. apply forallb_forall. intros x Hx. rewrite Forall_forall in H. specialize (H x Hx). lia.
Qed.

Lemma part_nonneg l : is_partition l -> nonneg l.
Proof.
  intros H. apply Forall_forall. intros x Hx. destruct (In_nth _ _ 0 Hx) as (j & Hj & E). rewrite <- E.
  apply (is_partition_nonneg l j H).
Qed.
Lemma foldM_ext {A B} (f g : A -> B -> res A) l : (forall x a, In x l -> f a x = g a x) -> forall a, foldM f l a = foldM g l a.
Proof.
  induction l as [|x l IH]; intros H a; simpl; auto. rewrite H by (simpl; auto). destruct (g a x); simpl; auto.
  apply IH. intros; apply H; simpl; auto.
Qed.

(** the sum over the Pieri set, with weight 2^(N-s) *)
Lemma pieri_sum k n d lam p skip (s : Z) :
  0 <= k -> 0 <= n -> d = 0 \/ d = 1 -> k <= n + d -> kstrict_in k (n + d - k) (n + k) lam ->
  let term mu := kstrict_in k (n + d - k) (n + k) mu /\ size mu = size lam + p /\ pieri_arrow k d lam mu in
  exists ps r W, pieri_set p lam k n d = Ok ps /\
    foldM (fun acc x => cc <- count_comps lam x skip k d ;; add_term (pow2 (cc - s)) x acc) ps pzero = Ok r /\
    lincl r W /\
    forall mu, (term mu /\ exists N, component_count (free_box k d lam mu) (fun x => skip = true -> snd x <> k + 1) N /\ W mu = pow2 (N - s)) \/
               (~ term mu /\ W mu = 0%Qc).
Proof.
  intros Hk Hn Hd Hrc HL term. destruct (pieri_set_prel k n d lam Hk Hn Hd Hrc HL p) as (ps & E & H1 & H2 & H3).
  assert (HT : forall mu, In mu ps <-> term mu).
  { intros mu. unfold term. rewrite (H3 mu), (size_zsum mu), (size_zsum lam).
    split; intros (A & B & C); split; auto; split; auto; apply (arrow_prel k n d); auto. }
  set (w := fun x => match count_comps lam x skip k d with Ok cc => pow2 (cc - s) | _ => 0%Qc end).
  destruct (foldM_lincl (fun acc x => cc <- count_comps lam x skip k d ;; add_term (pow2 (cc - s)) x acc)
     (fun x => pscale (w x) (pS x)) (fun l => l) ps H1) as (r & Er & Hr).
  - intros x a Hx. apply H3 in Hx. destruct Hx as (A & B & C).
    destruct (count_comps_free k n d lam x Hk Hd HL A C skip) as (N & EN & HN).
    unfold w. rewrite EN. cbn [bind]. unfold add_term. rewrite symbol_ok.
    + cbn [bind]. eexists. split; [reflexivity|]. reflexivity.
    + destruct A as ((Hp & _) & _). apply part_nonneg. exact Hp.
  - intros x m Hx Hm. rewrite coef_pscale, coef_pS in Hm. unfold wval in Hm.
    destruct m as [|[[l|tt b]| | |] [|v m]]; try (exfalso; apply Hm; ring).
    exists l. split; auto. destruct (l_dec x l); auto. exfalso. apply Hm. ring.
  - exists ps, r. eexists. split; [exact E|]. split; [exact Er|]. split; [exact Hr|].
    intros mu. cbv beta. destruct (in_dec l_dec mu ps) as [Hi|Hi].
    + left. split; [apply HT; auto|]. apply H3 in Hi. destruct Hi as (A & B & C).
      destruct (count_comps_free k n d lam mu Hk Hd HL A C skip) as (N & EN & HN).
      exists N. split; auto. rewrite coef_pscale, coef_pS. unfold wval, vS. destruct (l_dec mu mu); [|congruence].
      unfold w. rewrite EN. ring.
    + right. split; auto. intros HH. apply Hi, HT, HH.
Qed.

Lemma comps_any k lam mu d N : component_count (free_box k d lam mu) (fun x => false = true -> snd x <> k + 1) N <->
  component_count (free_box k d lam mu) (fun _ => True) N.
Proof. split; apply component_count_ext; try tauto; intros; split; auto; discriminate. Qed.
Lemma comps_col k lam mu d N : component_count (free_box k d lam mu) (fun x => true = true -> snd x <> k + 1) N <->
  component_count (free_box k d lam mu) (fun x => snd x <> k + 1) N.
Proof. split; apply component_count_ext; try tauto; intros; split; auto. Qed.

Lemma pieriC_lincl k n lam p : 0 <= k <= n -> kstrict_in k (n - k) (n + k) lam ->
  exists r W, pieriC_inner p lam k n = Ok r /\ lincl r W /\ forall mu, coef_IG k n p 0 lam mu (W mu).
Proof.
  intros Hk HL. destruct (pieri_sum k n 0 lam p true 0) as (ps & r & W & E1 & E2 & H1 & H2); auto; try lia.
  { rewrite Z.add_0_r. auto. }
  exists r, W. unfold pieriC_inner. rewrite E1. cbn [bind]. split; [|split; auto].
  - rewrite <- E2. apply foldM_ext. intros x a _. destruct (count_comps lam x true k 0); auto. cbn [bind]. rewrite Z.sub_0_r. auto.
  - intros mu. unfold coef_IG, pieri_term. specialize (H2 mu). rewrite Z.add_0_r in H2.
    destruct H2 as [(A & N & B & C)|]; [left|right; auto]. split; auto. exists N. split; [apply comps_col; auto|].
    assert (0 <= N) by (eapply component_count_nonneg; eauto). split; [lia|]. rewrite C. apply pow2_two. lia.
Qed.
Lemma pieriB_lincl k n lam p : 0 <= k <= n -> kstrict_in k (n - k) (n + k) lam ->
  exists r W, pieriB_inner p lam k n = Ok r /\ lincl r W /\ forall mu, coef_OG k n p lam mu (W mu).
Proof.
  intros Hk HL. destruct (pieri_sum k n 0 lam p false (if p <=? k then 0 else 1)) as (ps & r & W & E1 & E2 & H1 & H2); auto; try lia.
  { rewrite Z.add_0_r. auto. }
  exists r, W. unfold pieriB_inner. rewrite E1. cbn [bind]. split; [exact E2|]. split; auto.
  intros mu. unfold coef_OG, pieri_term. specialize (H2 mu). rewrite Z.add_0_r in H2.
  destruct H2 as [(A & N & B & C)|]; [left|right; auto]. split; auto. exists N. split; [apply comps_any; auto|].
  cbv zeta. assert (Hs : (if p <=? k then 0 else 1) <= N).
  { destruct (Z.leb_spec p k) as [Hp|Hp]; [eapply component_count_nonneg; eauto|].
    destruct A as (A1 & A2 & A3).
    apply (comps_pos_B k n 0 lam mu); auto; try lia; try (rewrite Z.add_0_r; auto).
    - apply (arrow_prel k n 0); auto; try lia; rewrite Z.add_0_r; auto.
    - pose proof (size_zsum mu). pose proof (size_zsum lam). lia. }
  split; [lia|]. rewrite C. apply pow2_two. lia.
Qed.

(** ** removing the first row *)
Lemma star_lincl cols y W : lincl y W -> (forall l, W l <> 0%Qc -> nonneg l) ->
  exists z, star_lc cols y = Ok z /\ lincl z (fun l => W (cols :: l)).
Proof.
  intros Hy Hn. apply (apply_map _ (fun l => part_star l cols) (fun l => cols :: l)); auto.
  - intros l Hl. destruct (part_star l cols) as [t|] eqn:E; simpl; [|eexists; split; [reflexivity|reflexivity]].
    unfold part_star in E. specialize (Hn l Hl). destruct l as [|x l]; [discriminate|]. destruct (x =? cols); [|discriminate].
    injection E as <-. inversion Hn; subst. rewrite symbol_ok by auto. eexists. split; reflexivity.
  - intros l l' _. unfold part_star. destruct l as [|x l]; [split; discriminate|].
    destruct (Z.eqb_spec x cols) as [->|Hx]; simpl; split; intros H; try discriminate; try congruence.
Qed.

Lemma qpieriC_coefs k n lam p : 0 <= k <= n -> kstrict_in k (n - k) (n + k) lam -> p <= n + k ->
  exists r W, qpieriC_inner p lam k n = Ok r /\ qcoefs r W /\ quantum_IG k n p lam W.
Proof.
  intros Hk HL Hp. destruct (pieriC_lincl k n lam p Hk HL) as (a & Wa & Ea & Ha & HWa).
  assert (HL' : kstrict_in k (n + 1 - k) (n + 1 + k) lam).
  { destruct HL as ((H1 & H2 & H3) & H4). split; auto. split; auto. lia. }
  destruct (pieriC_lincl k (n + 1) lam p) as (b & Wb & Eb & Hb & HWb); auto; try lia.
  destruct (star_lincl (n + k + 1) b Wb Hb) as (z & Ez & Hz).
  { intros l Hl. destruct (HWb l) as [((((A & _) & _) & _) & _)|(_ & A)]; [apply part_nonneg; auto|congruence]. }
  unfold star_lc in Ez. unfold qpieriC_inner. rewrite Ea. cbn [bind]. rewrite Eb. cbn [bind]. rewrite Ez. cbn [bind].
  eexists. eexists. split; [reflexivity|].
  assert (Hq : qcoefs (pmul (pscale (pow2 (-1)) (pvar VQ)) z)
     (fun d l => if (1 <=? d)%nat then (pow2 (-1) * match (d - 1)%nat with O => Wb (n + k + 1 :: l)%Z | _ => 0 end)%Qc else 0%Qc)).
  { eapply qcoefs_ext; [|apply (qcoefs_mul (pow2 (-1) * 1)%Qc 1 z _ (lincl_qcoefs _ _ Hz))].
    intros d l. cbv beta. destruct (1 <=? d)%nat; [f_equal; ring|auto]. }
  split; [exact (qcoefs_padd _ _ _ _ (lincl_qcoefs _ _ Ha) Hq)|].
  split; [|split].
  - intros mu. cbv beta. simpl. rewrite Qcplus_0_r. apply HWa.
  - intros mu. cbv beta. simpl. rewrite Qcplus_0_l.
    destruct (HWb (n + k + 1 :: mu)) as [(HT & N & HN & Hs & Hc)|(HT & Hc)].
    + left. split; auto. exists N. split; auto. rewrite Hc.
      destruct HT as (A1 & A2 & A3).
      assert (Hpos : 1 <= N).
      { apply (comps_pos_C k (n + 1) 0 lam (n + k + 1 :: mu)); auto; try lia; try (rewrite Z.add_0_r; auto).
        - apply (arrow_prel k (n + 1) 0); auto; try lia; rewrite Z.add_0_r; auto.
        - replace (n + 1 - 1) with n by lia. auto.
        - unfold part. simpl. lia.
        - pose proof (size_zsum (n + k + 1 :: mu)). pose proof (size_zsum lam). lia.
        - apply comps_col. auto. }
      split; auto. replace (N - 0) with (N - 1 + 1) by lia. apply pow2_minus_1. lia.
    + right. split; auto. rewrite Hc. ring.
  - intros [|[|d]] mu Hd; try lia. cbv beta. simpl. ring.
Qed.

(** ** removing the first row and ones *)
Lemma clip_partition l : is_partition l -> part_clip l = l.
Proof.
  intros [H _]. apply part_clip_pos. apply Forall_forall. intros x Hx.
  destruct (In_nth _ _ 0 Hx) as (j & Hj & E). specialize (H j Hj). unfold part in H. lia.
Qed.
Lemma last_partition l : is_partition l -> last l 1 <> 0.
Proof.
  intros [H _]. destruct l as [|x l] using rev_ind; [discriminate|]. rewrite last_last.
  specialize (H (length l)). rewrite app_length in H. unfold part in H. rewrite nth_middle in H. simpl in H. lia.
Qed.
Lemma ones_tail l : is_partition l -> part l 0 <= 1 -> l = repeat 1 (length l).
Proof.
  intros [H1 H2] H0. apply nth_ext with 0 1; [rewrite repeat_length; auto|]. intros j Hj.
  rewrite nth_repeat. specialize (H1 j Hj). fold (part l j).
  assert (part l j <= part l 0); [|lia]. clear -H2. induction j; [lia|]. specialize (H2 j). lia.
Qed.
Lemma nth_skipn {A} j (l : list A) i d : nth i (skipn j l) d = nth (j + i) l d.
Proof. revert l. induction j as [|j IH]; intros l; [reflexivity|]. destruct l; [destruct i; reflexivity|]. apply IH. Qed.
Lemma partition_skipn l j : is_partition l -> is_partition (skipn j l).
Proof.
  intros [H1 H2]. assert (E : forall i, part (skipn j l) i = part l (j + i)).
  { intros i. unfold part. rewrite nth_skipn. reflexivity. }
  split; intros i; rewrite ?E.
  - intros Hi. rewrite skipn_length in Hi. apply H1. lia.
  - rewrite Nat.add_succ_r. apply H2.
Qed.
Lemma tilde_iff l rows cols : is_partition l -> zlen l <= rows -> 1 <= rows ->
  exists o, part_tilde l rows cols = Ok o /\
    forall l', o = Some l' <-> l = with_row_and_ones (cols - rows + 1) rows l'.
Proof.
  intros Hl Hlen Hr. unfold part_tilde, part_len. rewrite (clip_partition l Hl).
  assert (Hw : forall l', l = with_row_and_ones (cols - rows + 1) rows l' -> 
     zlen l' <= rows - 1 /\ zlen l = rows /\ l = (cols - rows + 1 + zlen l' :: l') ++ repeat 1 (Z.to_nat (rows - 1 - zlen l'))).
  { intros l' E. unfold with_row_and_ones in E. fold (zlen l') in E.
    assert (E1 : zlen l = 1 + zlen l' + Z.of_nat (Z.to_nat rows - 1 - length l')).
    { rewrite E. unfold zlen. rewrite app_length, repeat_length. simpl length. lia. }
    unfold zlen in *. split; [lia|]. split; [lia|]. rewrite E at 1. f_equal. f_equal. lia. }
  destruct (Z.eqb_spec (zlen l) rows) as [E|E].
  2:{ exists None. split; auto. intros l'. split; [discriminate|]. intros H. apply Hw in H. lia. }
  destruct l as [|x t]; [change (zlen (@nil Z)) with 0 in E; lia|]. cbn [negb orb].
  destruct (Z.ltb_spec cols x) as [Hx|Hx].
  { exists None. split; auto. intros l'. split; [discriminate|]. intros H. apply Hw in H. destruct H as (H1 & H2 & H3).
    injection H3. lia. }
  rewrite (py_get_in _ 0 0) by (rewrite zlen_cons in *; unfold zlen in *; lia). cbn [bind]. simpl (nth _ _ _).
  cbv zeta. destruct (Z.leb_spec (rows + x - cols) 0) as [Hr0|Hr0].
  { exists None. split; auto. intros l'. split; [discriminate|]. intros H. apply Hw in H. destruct H as (H1 & H2 & H3).
    injection H3. unfold zlen in *. lia. }
  set (r := rows + x - cols) in *.
  assert (Ec : (if (r <? rows) && (r <? zlen (x :: t)) then y <- py_get (x :: t) r ;; Ok (1 <? y) else Ok false) =
     Ok ((r <? rows) && (1 <? part t (Z.to_nat (r - 1))))).
  { rewrite E. destruct (Z.ltb_spec r rows) as [H|H]; cbn [andb]; auto. rewrite (py_get_in _ r 0) by lia. cbn [bind].
    unfold part. replace (Z.to_nat r) with (S (Z.to_nat (r - 1))) by lia. reflexivity. }
  rewrite Ec. cbn [bind]. clear Ec.
  assert (Esl : sl (x :: t) 1 r = firstn (Z.to_nat (r - 1)) t).
  { unfold sl, sl_to. rewrite !sl_bound_in by lia. change (Z.to_nat 1) with 1%nat.
    replace (Z.to_nat r) with (S (Z.to_nat (r - 1))) by lia. reflexivity. }
  assert (Hlt : length t = (Z.to_nat rows - 1)%nat) by (rewrite zlen_cons in E; unfold zlen in E; lia).
  assert (Htp : is_partition t) by (apply (partition_skipn (x :: t) 1); auto).
  rewrite Esl. replace (last (x :: t) 1 =? 0) with false by (pose proof (last_partition _ Hl); lia).
  destruct ((r <? rows) && (1 <? part t (Z.to_nat (r - 1)))) eqn:Eb.
  - exists None. split; auto. intros l'. split; [discriminate|]. intros H. exfalso. apply Hw in H. destruct H as (H1 & H2 & H3).
    injection H3 as Ex Et. assert (Er : r = zlen l' + 1) by (unfold r; lia).
    apply andb_true_iff in Eb. destruct Eb as [Eb1 Eb2].
    assert (part t (Z.to_nat (r - 1)) = 1); [|lia]. unfold part. rewrite Et, app_nth2 by (unfold zlen in *; lia).
    rewrite nth_indep with (d' := 1); [rewrite nth_repeat; reflexivity|]. rewrite repeat_length. unfold zlen in *. lia.
  - eexists. split; [reflexivity|]. intros l'. split.
    + intros H. injection H as <-. unfold with_row_and_ones. rewrite firstn_length_le by lia.
      replace (cols - rows + 1 + Z.of_nat (Z.to_nat (r - 1))) with x by (unfold r; lia).
      cbn [app]. f_equal. transitivity (firstn (Z.to_nat (r - 1)) t ++ skipn (Z.to_nat (r - 1)) t); [symmetry; apply firstn_skipn|].
      f_equal. rewrite (ones_tail (skipn (Z.to_nat (r - 1)) t)).
      * rewrite skipn_length, Hlt. reflexivity.
      * apply partition_skipn; auto.
      * unfold part. rewrite nth_skipn, Nat.add_0_r. apply andb_false_iff in Eb. destruct Eb as [Eb|Eb].
        -- rewrite nth_overflow by lia. lia.
        -- unfold part in Eb. lia.
    + intros H. apply Hw in H. destruct H as (H1 & H2 & H3). injection H3 as Ex Et. f_equal.
      assert (Er : r = zlen l' + 1) by (unfold r; lia). rewrite Et, Er.
      replace (Z.to_nat (zlen l' + 1 - 1)) with (length l') by (unfold zlen; lia).
      rewrite firstn_app, Nat.sub_diag, firstn_all. simpl. apply app_nil_r.
Qed.

Lemma tilde_lincl rows cols y W : 1 <= rows -> lincl y W ->
  (forall l, W l <> 0%Qc -> is_partition l /\ zlen l <= rows) ->
  exists z, tilde_lc rows cols y = Ok z /\ lincl z (fun l => W (with_row_and_ones (cols - rows + 1) rows l)).
Proof.
  intros Hr Hy Hn.
  apply (apply_map _ (fun l => match part_tilde l rows cols with Ok o => o | _ => None end)
           (with_row_and_ones (cols - rows + 1) rows)); auto.
  - intros l Hl. destruct (Hn l Hl) as [H1 H2]. destruct (tilde_iff l rows cols H1 H2 Hr) as (o & E & Ho).
    rewrite E. cbn [bind]. destruct o as [t|]; simpl; [|eexists; split; reflexivity].
    rewrite symbol_ok; [eexists; split; reflexivity|]. specialize (Ho t). destruct Ho as [Ho _]. specialize (Ho eq_refl).
    apply part_nonneg in H1. unfold nonneg in *. rewrite Ho in H1. unfold with_row_and_ones in H1. apply Forall_app in H1.
    destruct H1 as [H1 _]. inversion H1; auto.
  - intros l l' Hl. destruct (Hn l Hl) as [H1 H2]. destruct (tilde_iff l rows cols H1 H2 Hr) as (o & E & Ho).
    rewrite E. apply Ho.
Qed.

Lemma coef_OG_supp k n p lam mu c : coef_OG k n p lam mu c -> c <> 0%Qc -> pieri_term k n p lam mu.
Proof. intros [(H & _)|(_ & H)] Hc; auto. congruence. Qed.

Lemma head_is_part lam v : is_partition lam -> 0 < v -> head_is lam v = (part lam 0 =? v).
Proof. intros _ Hv. destruct lam as [|x t]; [|reflexivity]. symmetry. apply Z.eqb_neq. unfold part. simpl. lia. Qed.
Lemma kstrict_tl k rows cols lam : kstrict_in k rows cols lam -> kstrict_in k rows cols (tl lam).
Proof.
  destruct lam as [|x t]; auto. intros (((H1 & H2) & H3 & H4) & H5). cbn [tl].
  split; [split; [split|split]|].
  - intros j Hj. apply (H1 (S j)). simpl. lia.
  - intros j. apply (H2 (S j)).
  - simpl length in H3. lia.
  - specialize (H2 O). unfold part in *. simpl in *. lia.
  - intros j. apply (H5 (S j)).
Qed.

(** the q-term with a row removed before and after *)
Lemma qstar_lincl k n lam p : 0 <= k <= n -> 0 < n + k -> kstrict_in k (n - k) (n + k) lam -> part lam 0 = n + k ->
  exists y z W, pieriB_inner p (sl_from lam 1) k n = Ok y /\ star_lc (n + k) y = Ok z /\ lincl z W /\
    forall mu, coef_OG k n p (tl lam) (n + k :: mu) (W mu).
Proof.
  intros Hk Hnk HL Hh. destruct lam as [|x t]; [unfold part in Hh; simpl in Hh; lia|]. rewrite sl_from_1. cbn [tl].
  destruct (pieriB_lincl k n t p Hk) as (y & Wy & Ey & Hy & HWy); [apply (kstrict_tl k _ _ (x :: t)); auto|].
  destruct (star_lincl (n + k) y Wy Hy) as (z & Ez & Hz).
  { intros l Hl. apply (coef_OG_supp _ _ _ _ _ _ (HWy l)) in Hl. destruct Hl as (((Hl & _) & _) & _). apply part_nonneg; auto. }
  exists y, z, (fun l => Wy (n + k :: l)). split; auto. 
Qed.

Lemma qpieriB0_coefs n lam p : 1 <= n -> kstrict_in 0 n n lam ->
  exists r W, qpieriB_inner p lam 0 n = Ok r /\ qcoefs r W /\ quantum_OGmax n p lam W.
Proof.
  intros Hn HL. assert (HL' : kstrict_in 0 (n - 0) (n + 0) lam) by (rewrite Z.sub_0_r, Z.add_0_r; auto).
  destruct (pieriB_lincl 0 n lam p) as (r & Wr & Er & Hr & HWr); auto; try lia.
  unfold qpieriB_inner. rewrite Er. cbn [bind]. change (0 =? 0) with true. cbv iota.
  destruct HL as (HL1 & HL2). rewrite head_is_part by (try lia; apply HL1).
  destruct (Z.eqb_spec (part lam 0) (n + 0)) as [Eh|Eh].
  - destruct (qstar_lincl 0 n lam p) as (y & z & Wz & Ey & Ez & Hz & HWz); auto; try lia.
    rewrite Ey. cbn [bind]. rewrite Ez. cbn [bind]. eexists. eexists. split; [reflexivity|].
    split; [exact (qcoefs_padd _ _ _ _ (lincl_qcoefs _ _ Hr) (qcoefs_mul 1 1 z _ (lincl_qcoefs _ _ Hz)))|].
    split; [|split].
    + intros mu. cbv beta. simpl. rewrite Qcplus_0_r. auto.
    + intros mu. cbv beta. replace (part lam 0 =? n) with true by lia. simpl. rewrite Qcplus_0_l, Qcmult_1_l.
      specialize (HWz mu). rewrite Z.add_0_r in HWz. auto.
    + intros [|[|d]] mu Hd; try lia. cbv beta. simpl. ring.
  - eexists. eexists. split; [reflexivity|]. split; [exact (lincl_qcoefs _ _ Hr)|]. split; [|split].
    + intros mu. cbv beta. auto.
    + intros mu. replace (part lam 0 =? n) with false by lia. reflexivity.
    + intros [|[|d]] mu Hd; try lia. reflexivity.
Qed.

Lemma qpieriB_coefs k n lam p : 1 <= k <= n -> kstrict_in k (n - k) (n + k) lam -> 1 <= n - k ->
  exists r W, qpieriB_inner p lam k n = Ok r /\ qcoefs r W /\ quantum_OG k n p lam W.
Proof.
  intros Hk HL Hm.
  destruct (pieriB_lincl k n lam p) as (r & Wr & Er & Hr & HWr); auto; try lia.
  unfold qpieriB_inner. rewrite Er. cbn [bind]. replace (k =? 0) with false by lia.
  assert (Ec : (if zlen lam =? n - k then x <- py_get lam (n - k - 1) ;; Ok (0 <? x) else Ok false) = Ok (zlen lam =? n - k)).
  { destruct (Z.eqb_spec (zlen lam) (n - k)) as [E|E]; auto. rewrite (py_get_in _ _ 0) by lia. cbn [bind].
    destruct HL as (((H1 & _) & _) & _). specialize (H1 (Z.to_nat (n - k - 1))). unfold part, zlen in *. f_equal.
    assert (0 < nth (Z.to_nat (n - k - 1)) lam 0) by (apply H1; lia). lia. }
  rewrite Ec. cbn [bind]. clear Ec.
  assert (Hq1 : exists r1 W1, (if zlen lam =? n - k then
            y <- pieriB_inner p lam k (n + 1) ;;
            z <- tilde_lc (n - k + 1) (n + k) y ;;
            Ok (padd r (pmul (pvar VQ) z))
          else Ok r) = Ok r1 /\ qcoefs r1 W1 /\ (forall mu, W1 0%nat mu = Wr mu) /\
     (forall mu, if (Z.of_nat (length lam) =? n - k) && (Z.of_nat (length mu) <=? n - k)
              then coef_OG k (n + 1) p lam (with_row_and_ones (2 * k) (n + 1 - k) mu) (W1 1%nat mu) else W1 1%nat mu = 0%Qc) /\
     (forall d mu, (2 <= d)%nat -> W1 d mu = 0%Qc)).
  { fold (zlen lam). destruct (Z.eqb_spec (zlen lam) (n - k)) as [E|E].
    - assert (HL' : kstrict_in k (n + 1 - k) (n + 1 + k) lam).
      { destruct HL as ((H1 & H2 & H3) & H4). split; auto. split; auto. lia. }
      destruct (pieriB_lincl k (n + 1) lam p) as (y & Wy & Ey & Hy & HWy); auto; try lia.
      destruct (tilde_lincl (n - k + 1) (n + k) y Wy) as (z & Ez & Hz); auto; try lia.
      { intros l Hl. apply (coef_OG_supp _ _ _ _ _ _ (HWy l)) in Hl. destruct Hl as (((Hl & Hl2 & _) & _) & _).
        split; auto. unfold zlen. lia. }
      rewrite Ey. cbn [bind]. rewrite Ez. cbn [bind]. eexists. eexists. split; [reflexivity|].
      split; [exact (qcoefs_padd _ _ _ _ (lincl_qcoefs _ _ Hr) (qcoefs_mul 1 1 z _ (lincl_qcoefs _ _ Hz)))|].
      split; [|split].
      + intros mu. cbv beta. simpl. ring.
      + intros mu. cbv beta. cbn [andb]. replace (n + k - (n - k + 1) + 1) with (2 * k) by lia. replace (n - k + 1) with (n + 1 - k) by lia.
        simpl Nat.leb. cbv iota. change (1 - 1)%nat with 0%nat. cbv iota. rewrite Qcplus_0_l, Qcmult_1_l.
        destruct (Z.leb_spec (Z.of_nat (length mu)) (n - k)) as [Hmu|Hmu]; [apply HWy|].
        destruct (Qc_eq_dec (Wy (with_row_and_ones (2 * k) (n + 1 - k) mu)) 0%Qc) as [E0|E0]; auto. exfalso.
        apply (coef_OG_supp _ _ _ _ _ _ (HWy _)) in E0. destruct E0 as (((_ & E0 & _) & _) & _).
        unfold with_row_and_ones in E0. rewrite app_length in E0. simpl in E0. lia.
      + intros [|[|d]] mu Hd; try lia. cbv beta. simpl. ring.
    - exists r. eexists. split; [reflexivity|]. split; [exact (lincl_qcoefs _ _ Hr)|].
      split; [auto|]. split; [intros mu; reflexivity|]. intros [|[|d]] mu Hd; try lia; reflexivity. }
  destruct Hq1 as (r1 & W1 & Er1 & Hr1 & HA & HB & HC). rewrite Er1. cbn [bind]. clear Er1.
  destruct HL as (HL1 & HL2). rewrite head_is_part by (try lia; apply HL1).
  destruct (Z.eqb_spec (part lam 0) (n + k)) as [Eh|Eh].
  - destruct (qstar_lincl k n lam p) as (y & z & Wz & Ey & Ez & Hz & HWz); auto; try lia; [split; auto|].
    rewrite Ey. cbn [bind]. rewrite Ez. cbn [bind]. eexists. eexists. split; [reflexivity|].
    split; [exact (qcoefs_padd _ _ _ _ Hr1 (qcoefs_mul 1 2 z _ (lincl_qcoefs _ _ Hz)))|].
    split; [|split; [|split]].
    + intros mu. cbv beta. rewrite HA. simpl. rewrite Qcplus_0_r. auto.
    + intros mu. cbv beta. simpl Nat.leb. cbv iota. rewrite Qcplus_0_r. apply HB.
    + intros mu. cbv beta. rewrite Eh, Z.eqb_refl. rewrite HC by lia. simpl. rewrite Qcplus_0_l, Qcmult_1_l. auto.
    + intros [|[|[|d]]] mu Hd; try lia. cbv beta. rewrite HC by lia. simpl. ring.
  - eexists. eexists. split; [reflexivity|]. split; [exact Hr1|]. split; [|split; [|split]].
    + intros mu. rewrite HA. auto.
    + exact HB.
    + intros mu. replace (part lam 0 =? n + k) with false by lia. auto.
    + intros d mu Hd. apply HC. lia.
Qed.
