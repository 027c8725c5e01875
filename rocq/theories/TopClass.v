(** Products with the special class of the largest degree. *)

From Coq Require Import ZArith List Lia Bool Permutation QArith Qcanon Setoid Morphisms.
From Verif Require Import Py OrderFacts PyFacts ModelPart ModelQcalc ModelPoly ModelStr ModelGr Spec SpecRing
  SpecPieri PolyFacts SuppFacts OpTheory Enum FillFacts PartFacts ConjFacts PieriCoef PieriD QPieriD GrInv WSum Sys Sys2
  CoefSys RecBCD CommC CommB RingC RingB RingD RingD0 ApiRing ApiRingD ApiPieriQ RelBC.
Import ListNotations.
Open Scope Z_scope.

Lemma top_shape d k p lam mu : is_partition lam -> is_partition mu -> 0 < p -> pieri_arrow k d lam mu ->
  part mu 0 <= p -> size mu = size lam + p -> mu = p :: lam.
Proof.
  intros Hl Hm Hp ((nu & Hnu & Hr & Hs) & _) H0 Hsz. pose proof (size_nonneg lam Hl) as Hl0.
  destruct mu as [|x t]; [unfold size in Hsz at 1; cbn in Hsz; lia|]. destruct (partition_tl x t Hm) as (Ht & Hx & _).
  change (part (x :: t) 0) with x in H0. change (size (x :: t)) with (x + size t) in Hsz.
  destruct (size_le t lam) as [A B].
  { intros j. pose proof (is_partition_nonneg t j Ht). destruct (Hs j) as [S1 _]. destruct (Hr j) as [R1 _].
    change (part (x :: t) (S j)) with (part t j) in S1. lia. }
  assert (x = p) by lia. subst x. f_equal. apply partition_eq; auto. apply B. lia.
Qed.

Lemma kstrict_cons k r c p lam : kstrict_in k r c lam -> k < p <= c -> 0 <= k ->
  (kstrict_in k r c (p :: lam) <-> Z.of_nat (length lam) < r /\ part lam 0 < p).
Proof.
  intros (((H1 & H2) & H3 & H4) & H5) Hp Hk. assert (HP : forall j, part (p :: lam) (S j) = part lam j) by reflexivity.
  assert (HP0 : part (p :: lam) 0 = p) by reflexivity. split.
  - intros ((_ & G3 & _) & G5). cbn [length] in G3. specialize (G5 0%nat). rewrite HP, HP0 in G5. lia.
  - intros [G1 G2]. split; [split; [split|split]|].
    + intros [|j] Hj; [rewrite HP0; lia|]. rewrite HP. apply H1. cbn [length] in Hj. lia.
    + intros [|j]; [rewrite HP, HP0; lia|]. rewrite !HP. apply H2.
    + cbn [length]. lia.
    + rewrite HP0. lia.
    + intros [|j]; [rewrite HP, HP0; lia|]. rewrite !HP. apply H5.
Qed.

(** ** coefficients *)
Lemma top_B k n p lam mu c : 0 <= k <= n -> k < p <= n + k -> kstrict_in k (n - k) (n + k) lam ->
  (kstrict_in k (n - k) (n + k) mu -> part mu 0 <= p) -> coef_OG k n p lam mu c ->
  c = if (Z.of_nat (length lam) <? n - k) && (part lam 0 <? p) && eqbl mu (p :: lam) then 1%Qc else 0%Qc.
Proof.
  intros Hk Hp Hl Hm HC. pose proof (kstrict_cons k (n - k) (n + k) p lam Hl Hp ltac:(lia)) as HF.
  assert (HS : c <> 0%Qc -> mu = p :: lam /\ kstrict_in k (n - k) (n + k) (p :: lam)).
  { intros Hc. destruct (coef_OG_supp _ _ _ _ _ _ HC Hc) as (A & B & C). assert (mu = p :: lam); [|subst mu; auto].
    apply (top_shape 0 k); auto; try lia; [apply Hl|apply A]. }
  destruct (_ && _ && _) eqn:E.
  - rewrite !andb_true_iff, !Z.ltb_lt, eqbl_iff in E. destruct E as [E ->]. apply (coef_OG_tl k n p lam); auto. tauto.
  - destruct (Qc_eq_dec c 0%Qc) as [|Hc]; auto. exfalso. destruct (HS Hc) as [-> HV]. apply HF in HV. destruct HV as [V1 V2].
    apply Z.ltb_lt in V1, V2. rewrite V1, V2, (proj2 (eqbl_iff _ _) eq_refl) in E. discriminate.
Qed.

Lemma shape_cons p lam : 0 < p -> shape (p :: lam) = p :: shape lam.
Proof. intros H. unfold shape. cbn [filter]. destruct (Z.ltb_spec 0 p); [reflexivity|lia]. Qed.
Lemma type_cons k p lam : p <> k -> type_of k (p :: lam) = type_of k lam.
Proof.
  intros H. unfold type_of. cbn [existsb]. destruct (Z.eqb_spec k p); [lia|]. cbn [orb].
  destruct lam as [|x t]; [reflexivity|]. reflexivity.
Qed.
Lemma typed_cons k r c p lam : typed_in k r c lam -> k < p <= c -> 0 <= k -> Z.of_nat (length (shape lam)) < r -> part lam 0 < p -> typed_in k r c (p :: lam).
Proof.
  intros HV Hp Hk H1 H2. rewrite <- (typed_part _ _ _ _ _ HV) in H2. destruct (typed_shape _ _ _ _ HV) as (Hs & [E|(E & K & HI)]).
  - left. rewrite E. apply kstrict_cons; auto.
  - right. exists (p :: shape lam). split; [rewrite E at 1; reflexivity|]. split; auto. split; [right; auto|]. apply kstrict_cons; auto.
Qed.
Lemma top_D k n p lam mu c : 1 <= k <= n -> k < p <= n + k -> typed_in k (n + 1 - k) (n + k) lam ->
  (typed_in k (n + 1 - k) (n + k) mu -> part mu 0 <= p) -> coef_D k n p lam mu c ->
  c = if (Z.of_nat (length (shape lam)) <? n + 1 - k) && (part lam 0 <? p) && eqbl mu (p :: lam) then 1%Qc else 0%Qc.
Proof.
  intros Hk Hp Hl Hm HC. destruct ((Z.of_nat (length (shape lam)) <? n + 1 - k) && (part lam 0 <? p)) eqn:EF; cbn [andb].
  - rewrite andb_true_iff, !Z.ltb_lt in EF. destruct EF as [F1 F2].
    assert (HV : typed_in k (n + 1 - k) (n + k) (p :: lam)) by (apply typed_cons; auto; lia).
    assert (HH : headD k (p :: lam) p lam).
    { split; [rewrite Z.abs_eq by lia; apply shape_cons; lia|]. split; [lia|]. left. rewrite type_cons by lia. split; auto. split; lia. }
    destruct (coef_D_head k n false ltac:(split; [lia|discriminate]) (p :: lam) p lam mu c HV Hl HH HC) as [G1 G2].
    destruct (eqbl mu (p :: lam)) eqn:E; [apply G1; apply eqbl_iff; auto|].
    destruct (Qc_eq_dec c 0%Qc) as [|Hc]; auto. exfalso. destruct (G2 Hc) as (A & _ & B).
    + intros ->. rewrite (proj2 (eqbl_iff _ _) eq_refl) in E. discriminate.
    + specialize (Hm A). change (part (p :: lam) 0) with p in B. lia.
  - destruct (Qc_eq_dec c 0%Qc) as [|Hc]; auto. exfalso. destruct (coef_D_supp _ _ _ _ _ _ HC Hc) as (A & B & C & _).
    destruct (typed_shape _ _ _ _ A) as (As & _). destruct (typed_shape _ _ _ _ Hl) as (Ls & _).
    assert (E : shape mu = p :: shape lam).
    { apply (top_shape 1 k); auto; [apply Ls|apply As|lia|rewrite (typed_part _ _ _ _ _ A); auto|].
      rewrite (size_shape _ _ _ _ A), (size_shape _ _ _ _ Hl), B. lia. }
    rewrite E in As. apply kstrict_cons in As; auto; [|lia]. rewrite (typed_part _ _ _ _ _ Hl) in As. destruct As as [V1 V2].
    apply Z.ltb_lt in V1, V2. rewrite V1, V2 in EF. discriminate.
Qed.

(** ** swap_type *)
Lemma swap_typed k r c l : 0 < k -> typed_in k r c l -> typed_in k r c (swap_type k l) /\ shape (swap_type k l) = shape l /\ swap_type k (swap_type k l) = l.
Proof.
  intros Hk HV. destruct (typed_shape _ _ _ _ HV) as (Hs & [E|(E & _ & HI)]).
  - set (s := shape l) in *. clearbody s. subst l. clear HV. assert (L : last s 1 =? 0 = false) by (apply Z.eqb_neq; apply PieriCoef.last_partition; apply Hs).
    unfold swap_type. destruct (existsb (Z.eqb k) s) eqn:EX; [|rewrite EX; split; [left; auto|]; split; auto; apply shape_partition; apply Hs].
    rewrite L. rewrite existsb_app, EX. cbn [orb]. rewrite last_last, removelast_last. split; [|split; [rewrite shape_app0; apply shape_partition; apply Hs|reflexivity]].
    right. exists s. split; auto. split; auto. split; auto. apply existsb_exists in EX. destruct EX as (z & Hz & Ez). apply Z.eqb_eq in Ez. subst z. exact Hz.
  - set (s := shape l) in *. clearbody s. subst l. clear HV. assert (L : last s 1 =? 0 = false) by (apply Z.eqb_neq; apply PieriCoef.last_partition; apply Hs).
    assert (EX : existsb (Z.eqb k) s = true) by (apply existsb_exists; exists k; split; auto; apply Z.eqb_refl).
    unfold swap_type at 1 2 4. rewrite existsb_app, EX. cbn [orb]. rewrite last_last, removelast_last. change (0 =? 0) with true. cbv iota.
    split; [left; auto|]. split; [apply shape_partition; apply Hs|]. unfold swap_type. rewrite EX, L. reflexivity.
Qed.
Lemma with_row_top k n lam mu : 1 <= k <= n -> typed_in k (n + 1 - k) (n + k) lam -> typed_in k (n + 1 - k) (n + k) mu ->
  Z.of_nat (length (shape lam)) = n + 1 - k ->
  (with_row_and_ones_D (2 * k - 1) (n + 2 - k) mu = n + k :: lam <-> mu = lam).
Proof.
  intros Hk Hl Hm HL. unfold with_row_and_ones_D. destruct (typed_shape _ _ _ _ Hm) as (Hs & Hc).
  assert (L : last (shape mu) 1 =? 0 = false) by (apply Z.eqb_neq; apply PieriCoef.last_partition; apply Hs).
  assert (G : forall s, Z.of_nat (length s) = n + 1 - k -> with_row_and_ones (2 * k - 1) (n + 2 - k) s = n + k :: s).
  { intros s Es. unfold with_row_and_ones. replace (Z.to_nat (n + 2 - k) - 1 - length s)%nat with 0%nat by lia. cbn [repeat].
    rewrite app_nil_r. f_equal. lia. }
  assert (H0 : forall s r, with_row_and_ones (2 * k - 1) (n + 2 - k) s ++ r = n + k :: lam -> Z.of_nat (length s) = n + 1 - k).
  { intros s r E. assert (E' := f_equal (fun l => part l 0) E). change (2 * k - 1 + Z.of_nat (length s) = n + k) in E'. lia. }
  destruct Hc as [E|(E & _ & HI)].
  - rewrite E, L, <- E. split; intros H.
    + assert (Es : Z.of_nat (length mu) = n + 1 - k) by (apply (H0 mu []); rewrite app_nil_r; exact H). rewrite G in H by auto. congruence.
    + subst mu. apply G. rewrite E at 1. exact HL.
  - rewrite E. rewrite last_last, removelast_last. change (0 =? 0) with true. cbv iota. split; intros H.
    + pose proof (H0 _ _ H) as Es. rewrite G in H by auto. cbn [app] in H. congruence.
    + assert (Es : Z.of_nat (length (shape mu)) = n + 1 - k) by (rewrite <- HL; rewrite <- H; rewrite shape_app0, (shape_partition (shape mu)); auto; apply Hs).
      rewrite G by auto. cbn [app]. rewrite H. reflexivity.
Qed.

(** ** the API *)
Lemma expands0_qcoefs p c : expands0 p c -> qcoefs p (fun d l => match d with O => c l | _ => 0%Qc end).
Proof.
  intros [H1 H2]. split.
  - intros [|d] mu; [apply H1|]. destruct (Qc_eq_dec (coef p (qS (S d) mu)) 0%Qc) as [|E]; auto. exfalso. destruct (H2 _ E) as (nu & En). discriminate En.
  - intros m Hm. destruct (H2 m Hm) as (mu & ->). exists 0%nat, mu. reflexivity.
Qed.
Lemma qcoefs_pS0 l : qcoefs (pS l) (fun d mu => if (d =? 0)%nat && eqbl mu l then 1%Qc else 0%Qc).
Proof.
  apply qcoefs_single. unfold qS. cbn [repeat]. rewrite pscale_pmul. change (pmono [vS l]) with (pS l). change (pconst 1%Qc) with pone. ring.
Qed.
Lemma mono_kstrict k n lam : kstrict_in k (n - k) (n + k) lam -> kstrict_in k (n + 1 - k) (n + 1 + k) lam.
Proof. intros ((A & B & C) & D). split; auto. split; auto. lia. Qed.

Lemma lin_comb_pS1 (V : list Z -> Prop) l : V l -> lin_comb V (pS l).
Proof. intros Hl. apply lin_comb_iff, sys_lq_pS; auto. Qed.

Section Odd.
Variables (k n : Z) (lam : list Z).
Hypothesis Hk : 0 <= k <= n.
Hypothesis Hn : 1 <= n - k.
Hypothesis Hl : kstrict_in k (n - k) (n + k) lam.
Lemma oneB mu c : coef_OG k n (n + k) lam mu c ->
  c = if (Z.of_nat (length lam) <? n - k) && (part lam 0 <? n + k) && eqbl mu (n + k :: lam) then 1%Qc else 0%Qc.
Proof. apply top_B; auto; try lia. intros ((_ & _ & H) & _). exact H. Qed.
Lemma rowB mu c : (if (Z.of_nat (length lam) =? n - k) && (Z.of_nat (length mu) <=? n - k)
    then coef_OG k (n + 1) (n + k) lam (with_row_and_ones (2 * k) (n + 1 - k) mu) c else c = 0%Qc) ->
  c = if (Z.of_nat (length lam) =? n - k) && (part lam 0 <? n + k) && eqbl mu lam then 1%Qc else 0%Qc.
Proof.
  destruct (Z.eqb_spec (Z.of_nat (length lam)) (n - k)) as [E|E]; cbn [andb]; auto.
  destruct (Z.leb_spec (Z.of_nat (length mu)) (n - k)) as [L|L].
  2:{ intros ->. destruct (eqbl mu lam) eqn:EL; [apply eqbl_iff in EL; subst mu; lia|]. rewrite andb_false_r. reflexivity. }
  intros HC. apply top_B in HC; try lia; [|apply mono_kstrict; auto|].
  - rewrite HC. destruct (Z.ltb_spec (Z.of_nat (length lam)) (n + 1 - k)); [|lia]. cbn [andb].
    enough (EE : eqbl (with_row_and_ones (2 * k) (n + 1 - k) mu) (n + k :: lam) = eqbl mu lam) by (rewrite EE; reflexivity).
    apply eq_true_iff_eq. rewrite !eqbl_iff. unfold with_row_and_ones. split.
    + intros H'. assert (E' := f_equal (fun l => part l 0) H'). change (2 * k + Z.of_nat (length mu) = n + k) in E'.
      replace (Z.to_nat (n + 1 - k) - 1 - length mu)%nat with 0%nat in H' by lia. cbn [repeat] in H'. rewrite app_nil_r in H'. congruence.
    + intros ->. replace (Z.to_nat (n + 1 - k) - 1 - length lam)%nat with 0%nat by lia. cbn [repeat]. rewrite app_nil_r. f_equal. lia.
  - intros _. change (2 * k + Z.of_nat (length mu) <= n + k). lia.
Qed.
Lemma lastB mu c : (if part lam 0 =? n + k then coef_OG k n (n + k) (tl lam) (n + k :: mu) c else c = 0%Qc) ->
  c = if (part lam 0 =? n + k) && eqbl mu (tl lam) then 1%Qc else 0%Qc.
Proof.
  destruct (Z.eqb_spec (part lam 0) (n + k)) as [E|E]; cbn [andb]; auto. intros HC.
  destruct lam as [|x t] eqn:El; [unfold part in E; cbn in E; lia|]. change (part (x :: t) 0) with x in E. subst x. cbn [tl] in *.
  pose proof Hl as Hl'. assert (Ht : kstrict_in k (n - k) (n + k) t) by (apply (kstrict_tl k _ _ (n + k :: t)); auto).
  apply kstrict_cons in Hl'; auto; try lia. apply top_B in HC; auto; try lia; [|intros _; unfold part; cbn; lia].
  rewrite HC. destruct Hl' as [L1 L2]. apply Z.ltb_lt in L1, L2. rewrite L1, L2. cbn [andb].
  enough (EE : eqbl (n + k :: mu) (n + k :: t) = eqbl mu t) by (rewrite EE; reflexivity). apply eq_true_iff_eq. rewrite !eqbl_iff. split; congruence.
Qed.
End Odd.

Ltac bb := repeat (progress (cbn [andb orb]; rewrite ?andb_false_r, ?orb_false_r, ?andb_true_r)); reflexivity.
Lemma c68_odd m N g lam : OrthogonalGrassmannian m N = Ok g -> Z.odd N = true -> 1 <= m <= N / 2 -> class_OG m N lam ->
  exists x y, mult g (pS [N - 1 - m]) (pS lam) = Ok x /\ qmult g (pS [N - 1 - m]) (pS lam) = Ok y /\
    (part lam 0 < N - 1 - m -> Z.of_nat (length lam) < m -> peq x (pS (N - 1 - m :: lam)) /\ peq y (pS (N - 1 - m :: lam))) /\
    (part lam 0 < N - 1 - m -> Z.of_nat (length lam) = m -> peq x pzero /\ peq y (pmul (pvar VQ) (pS lam))) /\
    (part lam 0 = N - 1 - m -> peq x pzero /\
       peq y (if m =? N / 2 then pmul (pvar VQ) (pS (tl lam)) else pmul (pvar VQ) (pmul (pvar VQ) (pS (tl lam))))).
Proof.
  intros Hg HN Hm HL. assert (Ev : Z.even N = false) by (rewrite <- Z.negb_odd, HN; reflexivity).
  assert (HNm : exists n, N = 2 * n + 1 /\ N / 2 = n) by (destruct (og_inv m N g Hg ltac:(lia)) as [(n & EN & En & _)|(n & _ & _ & Ev' & _)]; [eauto|congruence]).
  destruct HNm as (n & EN & En).
  destruct (c45_OGodd m N g Hg HN Hm (N - 1 - m) (pS lam) ltac:(lia) (lin_comb_pS1 _ lam HL)) as [(x & x' & Ex & Ex' & Px) (y & y' & Ey & Ey' & Py)].
  destruct (c44_OG m N g (N - 1 - m) lam Hg ltac:(lia) ltac:(lia) HL) as (x0 & c & E0 & X0 & HC & _). rewrite Ex' in E0. inversion E0; subst x0. clear E0.
  destruct (c44_qOG_odd m N g (N - 1 - m) lam Hg HN Hm HL) as (y0 & W & E0 & Y0 & HW & _). rewrite Ey' in E0. inversion E0; subst y0. clear E0.
  exists x, y. split; auto. split; auto. rewrite Ev in HC. rewrite En in *. assert (Ek : exists k, k = n - m) by eauto. destruct Ek as [k Ek]. rewrite <- Ek in *.
  assert (EM : N - 1 - m = n + k) by lia. rewrite EM in *. clear EM.
  assert (HV : kstrict_in k (n - k) (n + k) lam).
  { unfold class_OG in HL. rewrite Ev, En in HL. replace (n - k) with m by lia. replace (n + k) with (N - 1 - m) by lia. rewrite Ek. exact HL. }
  assert (Hkn : 0 <= k <= n) by lia. assert (Hnk : 1 <= n - k) by lia.
  apply expands0_qcoefs in X0. apply (qcoefs_peq _ _ _ (fun mo => eq_sym (Px mo))) in X0. apply (qcoefs_peq _ _ _ (fun mo => eq_sym (Py mo))) in Y0.
  pose proof (proj1 (proj2 (proj1 HV))) as HV1. pose proof (proj2 (proj2 (proj1 HV))) as HV2.
  assert (GX : qcoefs x (fun d mu => if (d =? 0)%nat && ((Z.of_nat (length lam) <? n - k) && (part lam 0 <? n + k) && eqbl mu (n + k :: lam)) then 1%Qc else 0%Qc)).
  { eapply qcoefs_ext; [|exact X0]. intros [|d] mu; cbn [Nat.eqb andb]; auto. apply (oneB k n lam); auto. }
  assert (GY : qcoefs y (fun d mu => if ((d =? 0)%nat && ((Z.of_nat (length lam) <? n - k) && (part lam 0 <? n + k) && eqbl mu (n + k :: lam))) ||
       ((d =? 1)%nat && ((Z.of_nat (length lam) =? n - k) && (part lam 0 <? n + k) && eqbl mu lam)) ||
       ((d =? (if (m =? n)%Z then 1 else 2))%nat && ((part lam 0 =? n + k) && eqbl mu (tl lam))) then 1%Qc else 0%Qc)).
  { eapply qcoefs_ext; [|exact Y0]. destruct (Z.eqb_spec m n) as [Emn|Emn].
    - assert (k = 0) by lia. subst k. rewrite H in *. rewrite Z.add_0_r, Z.sub_0_r in *. destruct HW as (W0 & W1 & W2).
      assert (Hlen : (Z.of_nat (length lam) =? n) && (part lam 0 <? n) = false).
      { apply andb_false_iff. destruct (Z.ltb_spec (part lam 0) n) as [L|L]; auto. left. apply Z.eqb_neq. intros EL. destruct HV as (((V1 & V2) & _) & V3).
        assert (G : forall j, (j < length lam)%nat -> part lam j <= part lam 0 - Z.of_nat j).
        { induction j as [|j IH]; intros Hj; [lia|]. specialize (IH ltac:(lia)). specialize (V3 j ltac:(apply V1; lia)). lia. }
        specialize (G (length lam - 1)%nat ltac:(lia)). specialize (V1 (length lam - 1)%nat ltac:(lia)). lia. }
      intros [|[|d]] mu; cbn [Nat.eqb andb orb]; rewrite ?orb_false_r.
      + pose proof (oneB 0 n lam Hkn) as OB. rewrite Z.add_0_r, Z.sub_0_r in OB. apply OB; auto.
      + rewrite Hlen. cbn [andb orb]. pose proof (lastB 0 n lam Hkn) as OB. rewrite Z.add_0_r, Z.sub_0_r in OB. exact (OB Hnk HV mu _ (W1 mu)).
      + apply W2. lia.
    - destruct HW as (W0 & W1 & W2 & W3). intros [|[|[|d]]] mu; cbn [Nat.eqb andb orb]; rewrite ?orb_false_r.
      + apply (oneB k n lam); auto.
      + apply (rowB k n lam); auto. apply W1.
      + apply (lastB k n lam); auto. apply W2.
      + apply W3. lia. }
  clear X0 Y0 HC HW. replace (n - k) with m in * by lia. split; [|split].
  - intros A B. split; [apply (qcoefs_eq _ _ _ GX)|apply (qcoefs_eq _ _ _ GY)]; (eapply qcoefs_ext; [|apply qcoefs_pS0]); intros d mu;
      apply Z.ltb_lt in A; rewrite A; destruct (Z.ltb_spec (Z.of_nat (length lam)) m); try lia; cbn [andb]; auto.
    destruct (Z.eqb_spec (Z.of_nat (length lam)) m); [lia|]. apply Z.ltb_lt in A. destruct (Z.eqb_spec (part lam 0) (n + k)); [lia|]. bb.
  - intros A B. split; [apply (qcoefs_eq _ _ _ GX)|apply (qcoefs_eq _ _ _ GY)].
    + apply qcoefs_zero. intros d mu. destruct (Z.ltb_spec (Z.of_nat (length lam)) m); [lia|]. bb.
    + eapply qcoefs_ext; [|apply (qcoefs_single 1 lam 1%Qc); apply pmono_q1]. intros d mu. cbv beta.
      destruct (Z.ltb_spec (Z.of_nat (length lam)) m); [lia|]. destruct (Z.eqb_spec (Z.of_nat (length lam)) m); [|lia]. destruct (Z.eqb_spec (part lam 0) (n + k)); [lia|].
      destruct (Z.ltb_spec (part lam 0) (n + k)); [|lia]. bb.
  - intros A. split; [apply (qcoefs_eq _ _ _ GX)|apply (qcoefs_eq _ _ _ GY)].
    + apply qcoefs_zero. intros d mu. destruct (Z.ltb_spec (part lam 0) (n + k)); [lia|]. bb.
    + eapply qcoefs_ext; [|apply (qcoefs_single (if m =? n then 1 else 2) (tl lam) 1%Qc); destruct (m =? n); [apply pmono_q1|apply pmono_q2]]. intros d mu. cbv beta.
      destruct (Z.ltb_spec (part lam 0) (n + k)); [lia|]. destruct (Z.eqb_spec (part lam 0) (n + k)); [|lia]. bb.
Qed.

Section Even.
Variables (k n : Z) (lam : list Z).
Hypothesis Hk : 1 <= k <= n.
Hypothesis Hl : typed_in k (n + 1 - k) (n + k) lam.
Lemma oneD mu c : coef_D k n (n + k) lam mu c ->
  c = if (Z.of_nat (length (shape lam)) <? n + 1 - k) && (part lam 0 <? n + k) && eqbl mu (n + k :: lam) then 1%Qc else 0%Qc.
Proof.
  apply top_D; auto; try lia. intros H. rewrite <- (typed_part _ _ _ _ _ H). destruct (typed_shape _ _ _ _ H) as (((_ & _ & H') & _) & _). exact H'.
Qed.
Lemma mono_typed : typed_in k (n + 1 + 1 - k) (n + 1 + k) lam.
Proof.
  destruct Hl as [((A & B & C) & D)|(s & E & K & HI & ((A & B & C) & D))].
  - left. split; auto. split; auto. lia.
  - right. exists s. split; auto. split; auto. split; auto. split; auto. split; auto. lia.
Qed.
Lemma rowD mu c : typed_in k (n + 1 - k) (n + k) mu -> (if Z.of_nat (length (shape lam)) =? n + 1 - k
    then coef_D k (n + 1) (n + k) lam (with_row_and_ones_D (2 * k - 1) (n + 2 - k) (swap_type k mu)) c else c = 0%Qc) ->
  c = if (Z.of_nat (length (shape lam)) =? n + 1 - k) && (part lam 0 <? n + k) && eqbl mu (swap_type k lam) then 1%Qc else 0%Qc.
Proof.
  intros Hm. destruct (Z.eqb_spec (Z.of_nat (length (shape lam))) (n + 1 - k)) as [E|E]; cbn [andb]; auto.
  destruct (swap_typed k _ _ lam ltac:(lia) Hl) as (_ & _ & IL). destruct (swap_typed k _ _ mu ltac:(lia) Hm) as (HM & SM & IM).
  intros HC. apply top_D in HC; try lia; [|apply mono_typed|].
  - rewrite HC. destruct (Z.ltb_spec (Z.of_nat (length (shape lam))) (n + 1 + 1 - k)); [|lia]. cbn [andb].
    enough (EE : eqbl (with_row_and_ones_D (2 * k - 1) (n + 2 - k) (swap_type k mu)) (n + k :: lam) = eqbl mu (swap_type k lam)) by (rewrite EE; reflexivity).
    apply eq_true_iff_eq. rewrite !eqbl_iff, (with_row_top k n lam (swap_type k mu)); auto. split; [intros <-; auto|intros ->; auto].
  - intros _. unfold with_row_and_ones_D. destruct (typed_shape _ _ _ _ HM) as (((_ & L & _) & _) & HX).
    set (s := swap_type k mu) in *. clearbody s. destruct HX as [EX|(EX & _)].
    + rewrite <- EX in L.
      destruct (last s 1 =? 0).
      * change (2 * k - 1 + Z.of_nat (length (removelast s)) <= n + k). assert (length (removelast s) <= length s)%nat; [|lia].
        destruct s as [|a s']; [cbn; lia|]. rewrite removelast_firstn_len, firstn_length. lia.
      * change (2 * k - 1 + Z.of_nat (length s) <= n + k). lia.
    + rewrite EX, last_last, removelast_last. cbn [Z.eqb]. change (2 * k - 1 + Z.of_nat (length (shape s)) <= n + k). lia.
Qed.
Lemma tl_typed : part lam 0 = n + k -> typed_in k (n + 1 - k) (n + k) (tl lam) /\ lam = n + k :: tl lam /\
  Z.of_nat (length (shape (tl lam))) < n + 1 - k /\ part (tl lam) 0 < n + k.
Proof.
  intros E. assert (HX : lam = n + k :: tl lam) by (destruct lam; [unfold part in E; cbn in E; lia|change (z = n + k) in E; rewrite E; reflexivity]).
  assert (HT : typed_in k (n + 1 - k) (n + k) (tl lam)) by (apply typed_tl; auto; lia). split; auto. split; auto.
  destruct (typed_shape _ _ _ _ Hl) as (HS & _). rewrite HX, shape_cons in HS by lia. apply kstrict_cons in HS; try lia.
  - rewrite (typed_part _ _ _ _ _ HT) in HS. auto.
  - apply typed_shape in HT. apply HT.
Qed.
Lemma lastD mu c : (if part lam 0 =? n + k then coef_D k n (n + k) (tl lam) (n + k :: mu) c else c = 0%Qc) ->
  c = if (part lam 0 =? n + k) && eqbl mu (tl lam) then 1%Qc else 0%Qc.
Proof.
  destruct (Z.eqb_spec (part lam 0) (n + k)) as [E|E]; cbn [andb]; auto. intros HC.
  destruct (tl_typed E) as (HT & _ & L1 & L2). apply top_D in HC; auto; try lia; [|intros _; unfold part; cbn; lia].
  rewrite HC. apply Z.ltb_lt in L1, L2. rewrite L1, L2. cbn [andb].
  enough (EE : eqbl (n + k :: mu) (n + k :: tl lam) = eqbl mu (tl lam)) by (rewrite EE; reflexivity). apply eq_true_iff_eq. rewrite !eqbl_iff. split; congruence.
Qed.
End Even.

Lemma c68_even m N g lam : OrthogonalGrassmannian m N = Ok g -> Z.even N = true -> 4 <= N -> 1 <= m <= N / 2 -> class_OG m N lam ->
  exists x, mult g (pS [N - 1 - m]) (pS lam) = Ok x /\
    (part lam 0 < N - 1 - m -> Z.of_nat (length (shape lam)) < m -> peq x (pS (N - 1 - m :: lam))) /\
    (part lam 0 < N - 1 - m -> Z.of_nat (length (shape lam)) = m -> peq x pzero) /\
    (part lam 0 = N - 1 - m -> peq x pzero) /\
    (m <> N / 2 - 1 -> exists y, qmult g (pS [N - 1 - m]) (pS lam) = Ok y /\
    (part lam 0 < N - 1 - m -> Z.of_nat (length (shape lam)) < m -> peq y (pS (N - 1 - m :: lam))) /\
    (part lam 0 < N - 1 - m -> Z.of_nat (length (shape lam)) = m -> peq y (pmul (pvar VQ) (pS (swap_type (N / 2 - m) lam)))) /\
    (part lam 0 = N - 1 - m ->
       peq y (if m =? N / 2 then pmul (pvar VQ) (pS (tl lam)) else pmul (pvar VQ) (pmul (pvar VQ) (pS (tl lam)))))).
Proof.
  intros Hg HN H4 Hm HL.
  assert (HNm : exists n, N = 2 * n + 2 /\ N / 2 = n + 1) by (destruct (og_inv m N g Hg ltac:(lia)) as [(n & _ & _ & Ev' & _)|(n & EN & En & _)]; [congruence|eauto]).
  destruct HNm as (n & EN & En).
  destruct (c45_OGeven m N g Hg HN H4 Hm (N - 1 - m) (pS lam) ltac:(left; lia) (lin_comb_pS1 _ lam HL)) as [(x & x' & Ex & Ex' & Px) HQ].
  assert (ES : special_class (N - 1 - m) = [N - 1 - m]) by (unfold special_class; destruct (Z.ltb_spec 0 (N - 1 - m)); [reflexivity|lia]). rewrite ES in *. clear ES.
  destruct (c44_OG m N g (N - 1 - m) lam Hg ltac:(lia) ltac:(lia) HL) as (x0 & c & E0 & X0 & HC & _). rewrite Ex' in E0. inversion E0; subst x0. clear E0.
  exists x. split; auto. rewrite HN in HC.
  pose proof (fun h1 => c44_qOG_even m N g (N - 1 - m) lam Hg HN H4 Hm h1 HL) as HQP.
  rewrite En in *. assert (Ek : exists k, k = n + 1 - m) by eauto. destruct Ek as [k Ek]. rewrite <- Ek in *.
  assert (EM : N - 1 - m = n + k) by lia. rewrite EM in *. replace (n + 1 - 1) with n in * by lia.
  assert (HV : typed_in k (n + 1 - k) (n + k) lam).
  { unfold class_OG in HL. rewrite HN, En, <- Ek, EM in HL. replace (n + 1 - k) with m by lia. exact HL. }
  clear EM.
  apply expands0_qcoefs in X0. apply (qcoefs_peq _ _ _ (fun mo => eq_sym (Px mo))) in X0.
  destruct (typed_shape _ _ _ _ HV) as (((_ & HV1 & HV2) & _) & _). rewrite (typed_part _ _ _ _ _ HV) in HV2.
  assert (HK0 : k = 0 -> kstrict_in 0 (n - 0) (n + 0) lam /\ shape lam = lam /\ (Z.of_nat (length (shape lam)) =? n + 1) = false /\
     (part lam 0 < n -> Z.of_nat (length lam) < n)).
  { intros E. clear - E HV H4 EN. subst k. rewrite Z.sub_0_r, Z.add_0_r in HV. assert (HK := proj1 (typed0 n ltac:(lia) lam) HV). split; auto.
    destruct (type0 n lam HV) as (_ & ES). rewrite ES. split; auto. destruct HK as (((V1 & V2) & V4 & _) & V3). rewrite Z.sub_0_r in V4. split; [apply Z.eqb_neq; lia|]. intros L.
    destruct (Z.ltb_spec (Z.of_nat (length lam)) n) as [L'|L']; auto. exfalso.
    assert (G : forall j, (j < length lam)%nat -> part lam j <= part lam 0 - Z.of_nat j).
    { induction j as [|j IH]; intros Hj; [lia|]. specialize (IH ltac:(lia)). specialize (V3 j ltac:(apply V1; lia)). lia. }
    specialize (G (length lam - 1)%nat ltac:(lia)). specialize (V1 (length lam - 1)%nat ltac:(lia)). lia. }
  assert (G1 : forall mu c, coef_D k n (n + k) lam mu c -> c = if (Z.of_nat (length (shape lam)) <? n + 1 - k) && (part lam 0 <? n + k) && eqbl mu (n + k :: lam) then 1%Qc else 0%Qc).
  { intros mu c0 H0. destruct (Z.eqb_spec k 0) as [K0|K0]; [|apply (oneD k n lam); auto; lia].
    destruct (HK0 K0) as (KV & ES & LL & LS). rewrite ES. clear - K0 H0 KV ES LL LS HV H4 EN HV1 HV2. subst k. rewrite Z.add_0_r, Z.sub_0_r in *.
    apply coef0 in H0; try lia; auto. pose proof (oneB 0 n lam ltac:(lia)) as OB. rewrite Z.add_0_r, Z.sub_0_r in OB. rewrite (OB ltac:(lia) KV mu c0 H0).
    destruct (Z.ltb_spec (part lam 0) n) as [L|L]; bb || idtac.
    specialize (LS L). destruct (Z.ltb_spec (Z.of_nat (length lam)) n); [|lia]. destruct (Z.ltb_spec (Z.of_nat (length lam)) (n + 1)); [|lia]. reflexivity. }
  assert (GX : qcoefs x (fun d mu => if (d =? 0)%nat && ((Z.of_nat (length (shape lam)) <? n + 1 - k) && (part lam 0 <? n + k) && eqbl mu (n + k :: lam)) then 1%Qc else 0%Qc)).
  { eapply qcoefs_ext; [|exact X0]. intros [|d] mu; cbn [Nat.eqb andb]; auto. }
  replace (n + 1 - k) with m in * by lia. split; [|split; [|split]].
  - intros A B. apply (qcoefs_eq _ _ _ GX). eapply qcoefs_ext; [|apply qcoefs_pS0]. intros d mu.
    apply Z.ltb_lt in A, B. rewrite A, B. bb.
  - intros A B. apply (qcoefs_eq _ _ _ GX). apply qcoefs_zero. intros d mu. destruct (Z.ltb_spec (Z.of_nat (length (shape lam))) m); [lia|]. bb.
  - intros A. apply (qcoefs_eq _ _ _ GX). apply qcoefs_zero. intros d mu. destruct (Z.ltb_spec (part lam 0) (n + k)); [lia|]. bb.
  - intros M1. destruct (HQ ltac:(lia)) as (y & y' & Ey & Ey' & Py). exists y. split; auto.
    destruct (HQP ltac:(lia)) as (y0 & W & E0 & Y0 & HW & _). rewrite Ey' in E0. inversion E0; subst y0. clear E0.
    apply (qcoefs_peq _ _ _ (fun mo => eq_sym (Py mo))) in Y0.
    assert (GY : qcoefs y (fun d mu => if ((d =? 0)%nat && ((Z.of_nat (length (shape lam)) <? m) && (part lam 0 <? n + k) && eqbl mu (n + k :: lam))) ||
       ((d =? 1)%nat && ((Z.of_nat (length (shape lam)) =? m) && (part lam 0 <? n + k) && eqbl mu (swap_type k lam))) ||
       ((d =? (if (m =? n + 1)%Z then 1 else 2))%nat && ((part lam 0 =? n + k) && eqbl mu (tl lam))) then 1%Qc else 0%Qc)).
    { eapply qcoefs_ext; [|exact Y0]. destruct (Z.eqb_spec m (n + 1)) as [Emn|Emn].
      - assert (K0 : k = 0) by lia. destruct (HK0 K0) as (KV & ES & LL & LS). destruct HW as (W0 & W1 & W2).
        intros [|[|d]] mu; cbn [Nat.eqb andb orb]; rewrite ?orb_false_r.
        + apply G1. rewrite K0, Z.add_0_r in *. apply W0.
        + rewrite Emn, LL. cbn [andb orb]. specialize (W1 mu). rewrite K0 in *. pose proof (lastB 0 n lam ltac:(lia)) as OB. rewrite Z.add_0_r in *. rewrite Z.sub_0_r in *.
          apply (OB ltac:(lia) KV). clear OB. destruct (Z.eqb_spec (part lam 0) n) as [E|E]; auto. apply coef0 in W1; auto; try lia.
          rewrite Emn in HV. apply typed_tl; auto; lia.
        + apply W2. lia.
      - destruct HW as (W0 & W1 & W2 & W3). assert (Hk1 : 1 <= k <= n) by lia. assert (HV' := HV). replace m with (n + 1 - k) in HV' by lia.
        intros [|[|[|d]]] mu; cbn [Nat.eqb andb orb]; rewrite ?orb_false_r.
        + apply G1. apply W0.
        + pose proof (rowD k n lam Hk1 HV' mu (W 1%nat mu)) as RD. pose proof (W3 1%nat mu) as W31. specialize (W1 mu). replace (n + 1 - k) with m in * by lia.
          destruct (Qc_eq_dec (W 1%nat mu) 0%Qc) as [Z0|Z0].
          * destruct (eqbl mu (swap_type k lam)) eqn:EQ; [|rewrite Z0; bb]. apply RD; [|apply W1]; apply eqbl_iff in EQ; rewrite EQ; apply swap_typed; auto; lia.
          * apply W31 in Z0. apply RD; [apply Z0|apply W1; apply Z0].
        + apply (lastD k n lam Hk1 HV'). apply W2.
        + destruct (Qc_eq_dec (W (S (S (S d))) mu) 0%Qc) as [Z0|Z0]; auto. apply W3 in Z0. lia. }
    split; [|split].
    + intros A B. apply (qcoefs_eq _ _ _ GY). eapply qcoefs_ext; [|apply qcoefs_pS0]. intros d mu.
      destruct (Z.eqb_spec (Z.of_nat (length (shape lam))) m); [lia|]. destruct (Z.eqb_spec (part lam 0) (n + k)); [lia|].
      apply Z.ltb_lt in A, B. rewrite A, B. bb.
    + intros A B. apply (qcoefs_eq _ _ _ GY). eapply qcoefs_ext; [|apply (qcoefs_single 1 (swap_type k lam) 1%Qc); apply pmono_q1]. intros d mu. cbv beta.
      destruct (Z.ltb_spec (Z.of_nat (length (shape lam))) m); [lia|]. destruct (Z.eqb_spec (Z.of_nat (length (shape lam))) m); [|lia]. destruct (Z.eqb_spec (part lam 0) (n + k)); [lia|].
      destruct (Z.ltb_spec (part lam 0) (n + k)); [|lia]. bb.
    + intros A. apply (qcoefs_eq _ _ _ GY).
      eapply qcoefs_ext; [|apply (qcoefs_single (if m =? n + 1 then 1 else 2) (tl lam) 1%Qc); destruct (m =? n + 1); [apply pmono_q1|apply pmono_q2]]. intros d mu. cbv beta.
      destruct (Z.ltb_spec (part lam 0) (n + k)); [lia|]. destruct (Z.eqb_spec (part lam 0) (n + k)); [|lia]. bb.
Qed.
