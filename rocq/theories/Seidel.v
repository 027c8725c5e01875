(** Products with rectangles of full width or height on Gr(m,n): the lemmas behind
    PropsSeidel.v. *)

From Coq Require Import ZArith List Lia Bool Permutation QArith Qcanon Setoid Morphisms.
From Verif Require Import Py OrderFacts PyFacts ModelPart ModelQcalc ModelPoly ModelStr ModelGr Spec SpecMisc
  PolyFacts SuppFacts OpTheory Enum FillFacts PartFacts PieriA QPieriA CylA WSum Sys Sys2 SysMap RingA FactsA
  SysApi ApiA ApiLR ConjFacts VertA ConjRing GrInv ApiConvA ApiVert.
Import ListNotations.
Open Scope Z_scope.

(** [a] is in the index set of [lam] *)
Definition Ix (m k : Z) (lam : list Z) (a : Z) : Prop :=
  exists i, Z.of_nat i < m /\ a = k + Z.of_nat i + 1 - part lam i.

Lemma single_term r d mu : is_sum_of r (fun e nu => e = d /\ nu = mu) <-> peq r (pmono (qS d mu)).
Proof.
  assert (H : is_sum_of (pmono (qS d mu)) (fun e nu => e = d /\ nu = mu)).
  { split.
    - intros e nu [-> ->]. unfold pmono, coef. cbn. rewrite (proj2 (mono_eqb_perm _ _) (Permutation_refl _)). ring.
    - intros mo Hmo. exists d, mu. split; auto. unfold pmono, coef in Hmo. cbn in Hmo. destruct (mono_eqb (qS d mu) mo) eqn:E.
      + apply mono_eqb_perm in E. symmetry. auto.
      + exfalso. apply Hmo. reflexivity. }
  split; intros HH; [eapply is_sum_unique; eauto|eapply is_sum_peq; [symmetry; exact HH|exact H]].
Qed.
Lemma pmono_qS_add d e mu : peq (pmul (pmono (repeat VQ d)) (pmono (qS e mu))) (pmono (qS (d + e) mu)).
Proof.
  rewrite <- pmono_app. apply pmono_perm. unfold qS. rewrite repeat_app. rewrite Permutation_app_comm. cbn [app]. constructor.
  apply Permutation_app_comm.
Qed.
Lemma Forall_repeat_VQ d : Forall (eq VQ) (repeat VQ d).
Proof. apply Forall_forall. intros x H. symmetry. eapply repeat_spec; eauto. Qed.

Section S.
Context (m n : Z) (g : gr) (Hg : Grassmannian m n = Ok g) (Hm : 1 <= m < n).
Let k := n - m.
Let Hm1 : 1 <= m. Proof. lia. Qed.
Let Hk : 0 <= k. Proof. unfold k; lia. Qed.
Notation MM := (MA m k true).
Notation SY := (sysA m k Hm1 Hk true).
Notation box := (in_box m k).
Notation I := (Ix m k).

Lemma g_eq : g = gA m k.
Proof. destruct (gr_inv m n g Hg) as (_ & _ & ->). reflexivity. Qed.

Lemma MM_of a b r R : box a -> box b -> qmult g (pS a) (pS b) = Ok r -> is_sum_of r R -> is_sum_of (MM (pS a) (pS b)) R.
Proof.
  intros Ha Hb E S. rewrite g_eq in E. destruct (qmult_MA m k Hm1 Hk a b Ha Hb) as (r' & E' & P & _).
  rewrite E in E'. injection E' as <-. eapply is_sum_peq; eauto.
Qed.
Lemma part_repeat c t i : part (repeat c t) i = if (i <? t)%nat then c else 0.
Proof.
  unfold part. revert i. induction t as [|t IH]; intros [|i]; cbn [repeat nth]; auto. rewrite IH. reflexivity.
Qed.
Lemma rect_box c t : 0 < c <= k -> Z.of_nat t <= m -> box (repeat c t).
Proof.
  intros Hc Ht. split; [split|split].
  - intros j Hj. rewrite repeat_length in Hj. rewrite part_repeat. destruct (Nat.ltb_spec j t); lia.
  - intros j. rewrite !part_repeat. destruct (Nat.ltb_spec j t), (Nat.ltb_spec (S j) t); lia.
  - rewrite repeat_length. lia.
  - rewrite part_repeat. destruct (Nat.ltb_spec 0 t); lia.
Qed.
Lemma row_box : box [k].
Proof. apply (rect_box k 1); unfold k; lia. Qed.

Lemma row_step lam : box lam -> exists mu e, box mu /\ peq (MM (pS [k]) (pS lam)) (pmono (qS e mu)) /\
  (forall a, I mu a <-> 1 <= a <= n /\ I lam (if a =? 1 then n else a - 1)) /\
  (I lam n /\ e = 0%nat \/ ~ I lam n /\ e = 1%nat).
Proof.
  intros Hl. destruct (c54_row m n g lam Hg Hm Hl) as (r & E & R1 & R2). pose proof Hl as (Pl & Ll & Bl).
  assert (LN : I lam n <-> Z.of_nat (length lam) < m).
  { split.
    - intros (i & Hi & Ei). destruct (Z.lt_ge_cases (Z.of_nat (length lam)) m) as [|HL]; auto. exfalso.
      assert (0 < part lam i) by (apply Pl; lia). unfold k in Ei. lia.
    - intros HL. exists (Z.to_nat (m - 1)). split; [lia|]. unfold part. rewrite nth_overflow by lia. unfold k. lia. }
  assert (RG : forall nu i, box nu -> Z.of_nat i < m -> 1 <= k + Z.of_nat i + 1 - part nu i <= n).
  { intros nu i (Pn & Ln & Bn) Hi. pose proof (is_partition_nonneg nu i Pn).
    assert (part nu i <= k); [|unfold k in *; lia]. clear -Pn Bn. induction i; [exact Bn|]. destruct Pn as [_ Pn]. specialize (Pn i). lia. }
  destruct (Z.lt_ge_cases (Z.of_nat (length lam)) m) as [HL|HL].
  - specialize (R1 HL). exists (k :: lam), 0%nat. assert (HB : box (k :: lam)).
    { split; [split|split].
      - intros [|j] Hj; [unfold part; cbn; unfold k; lia|]. apply Pl. cbn [length] in Hj. lia.
      - intros [|j]; [exact Bl|apply Pl].
      - cbn [length]. lia.
      - unfold part. cbn. lia. }
    split; auto. split; [apply single_term; eapply MM_of; eauto using row_box|]. split; [|left; split; auto; apply LN; auto].
    intros a. split.
    + intros (i & Hi & ->). split; [apply RG; auto|]. destruct i as [|i].
      * change (part (k :: lam) 0) with k. replace (k + Z.of_nat 0 + 1 - k =? 1) with true by (symmetry; apply Z.eqb_eq; lia). apply LN; auto.
      * change (part (k :: lam) (S i)) with (part lam i). pose proof (RG lam i Hl ltac:(lia)).
        replace (k + Z.of_nat (S i) + 1 - part lam i =? 1) with false by (symmetry; apply Z.eqb_neq; lia). exists i. split; lia.
    + intros [Ha HI]. destruct (Z.eqb_spec a 1) as [->|Na].
      * exists 0%nat. change (part (k :: lam) 0) with k. lia.
      * destruct HI as (i & Hi & Ei). destruct (Z.eq_dec (Z.of_nat (S i)) m) as [Em|].
        -- exfalso. assert (part lam i = 0) by (unfold part; apply nth_overflow; lia). unfold k in Ei. lia.
        -- exists (S i). change (part (k :: lam) (S i)) with (part lam i). lia.
  - destruct (R2 ltac:(lia)) as (mu & HB & PM & RS). exists mu, 1%nat. split; auto.
    split; [apply single_term; eapply MM_of; eauto using row_box|]. split; [|right; split; auto; rewrite LN; lia].
    intros a. split.
    + intros (i & Hi & ->). split; [apply RG; auto|]. rewrite PM by auto. pose proof (RG lam i Hl Hi).
      replace (k + Z.of_nat i + 1 - (part lam i - 1) =? 1) with false by (symmetry; apply Z.eqb_neq; lia). exists i. split; lia.
    + intros [Ha HI]. destruct (Z.eqb_spec a 1) as [->|Na]; [apply LN in HI; lia|]. destruct HI as (i & Hi & Ei). exists i.
      rewrite PM by auto. lia.
Qed.

Lemma box_nil : box [].
Proof. apply (rect_box k 0); unfold k; lia. Qed.
Lemma row_pow j : Z.of_nat j < m -> peq (MM (pS [k]) (pS (repeat k j))) (pS (repeat k (S j))).
Proof.
  intros Hj. assert (HB : box (repeat k j)) by (apply rect_box; unfold k; lia).
  destruct (c54_row m n g _ Hg Hm HB) as (r & E & R1 & _). rewrite repeat_length in R1. specialize (R1 Hj).
  assert (H : is_sum_of (MM (pS [k]) (pS (repeat k j))) (fun d nu => d = 0%nat /\ nu = repeat k (S j))) by (eapply MM_of; eauto using row_box).
  apply single_term in H. exact H.
Qed.

(** iterating a single-term operator *)
Lemma iterate G (GG : nat -> list Z) (J : nat -> list Z -> list Z -> nat -> Prop) N :
  box G -> (forall j, (j <= N)%nat -> box (GG j)) -> GG O = [] ->
  (forall j, (j < N)%nat -> peq (MM (pS G) (pS (GG j))) (pS (GG (S j)))) ->
  (forall lam, box lam -> J O lam lam O) ->
  (forall j lam nu d, (j < N)%nat -> box lam -> box nu -> J j lam nu d ->
     exists mu e, box mu /\ peq (MM (pS G) (pS nu)) (pmono (qS e mu)) /\ J (S j) lam mu (d + e)%nat) ->
  forall j lam, (j <= N)%nat -> box lam -> exists mu d, box mu /\ peq (MM (pS (GG j)) (pS lam)) (pmono (qS d mu)) /\ J j lam mu d.
Proof.
  intros HG HGG H0 HS J0 JS.
  induction j as [|j IH]; intros lam Hj Hl.
  - exists lam, O. split; auto. split; [|apply J0; auto]. rewrite H0.
    rewrite (sys_comm SY _ _ (sys_lq_pS _ box_nil) (sys_lq_pS _ Hl)), (sys_one SY _ (sys_lq_pS _ Hl)). reflexivity.
  - destruct (IH lam ltac:(lia) Hl) as (nu & d & Hn & E & HJ). destruct (JS j lam nu d ltac:(lia) Hl Hn HJ) as (mu & e & Hmu & E2 & HJ2).
    exists mu, (d + e)%nat. split; auto. split; auto.
    assert (L1 := sys_lq_pS _ HG). assert (L2 := sys_lq_pS _ (HGG j ltac:(lia))). assert (L3 := sys_lq_pS _ Hl). assert (L4 := sys_lq_pS _ Hn).
    assert (A : peq (MM (pS (GG (S j))) (pS lam)) (MM (MM (pS G) (pS (GG j))) (pS lam))).
    { unfold MA in HS |- *. rewrite (HS j ltac:(lia)). reflexivity. }
    rewrite A, (sys_assoc SY _ _ _ L1 L2 L3). unfold MA. rewrite E.
    rewrite <- (pmono_qS_add d e). rewrite <- E2.
    assert (B : peq (pmono (qS d nu)) (pmul (pmono (repeat VQ d)) (pS nu))).
    { rewrite <- (pmono_app (repeat VQ d) [vS nu]). apply pmono_perm. unfold qS. apply Permutation_cons_append. }
    rewrite B. apply (sys_q_r SY); auto using Forall_repeat_VQ.
Qed.

Lemma Ix_range nu a : box nu -> I nu a -> 1 <= a <= n.
Proof.
  intros (Pn & Ln & Bn) (i & Hi & ->). pose proof (is_partition_nonneg nu i Pn).
  assert (part nu i <= k); [|unfold k in *; lia]. clear -Pn Bn. induction i; [exact Bn|]. destruct Pn as [_ Pn]. specialize (Pn i). lia.
Qed.
Lemma col_box' : box (repeat 1 (Z.to_nat m)).
Proof. apply rect_box; unfold k; lia. Qed.
Lemma col_step lam : box lam -> exists mu e, box mu /\ peq (MM (pS (repeat 1 (Z.to_nat m))) (pS lam)) (pmono (qS e mu)) /\
  (forall a, I mu a <-> 1 <= a <= n /\ I lam (if a =? n then 1 else a + 1)) /\
  (I lam 1 /\ e = 1%nat \/ ~ I lam 1 /\ e = 0%nat).
Proof.
  intros Hl. destruct (c54_col m n g lam Hg Hm Hl) as (r & E & R1 & R2). pose proof Hl as (Pl & Ll & Bl).
  assert (L1 : I lam 1 <-> part lam 0 = k).
  { split.
    - intros (i & Hi & Ei). assert (part lam i <= part lam 0 /\ (i = 0%nat \/ part lam i <= part lam 0)) as [A _].
      { clear -Pl. assert (part lam i <= part lam 0) by (induction i; [lia|]; destruct Pl as [_ Pl]; specialize (Pl i); lia). auto. }
      change (part lam 0 <= k) in Bl. lia.
    - intros HL. exists 0%nat. split; lia. }
  destruct (Z.eq_dec (part lam 0) k) as [HK|HK].
  - specialize (R2 HK). exists (tl lam), 1%nat. assert (PT : forall i, part (tl lam) i = part lam (S i)).
    { intros i. destruct lam; [destruct i; reflexivity|reflexivity]. }
    assert (HB : box (tl lam)).
    { split; [split|split].
      - intros j Hj. rewrite PT. apply Pl. destruct lam; cbn [length tl] in *; lia.
      - intros j. rewrite !PT. apply Pl.
      - destruct lam; cbn [length tl] in *; lia.
      - rewrite PT. destruct Pl as [_ Pl]. specialize (Pl 0%nat). change (part lam 0 <= k) in Bl. lia. }
    split; auto. split; [apply single_term; eapply MM_of; eauto using col_box'|]. split; [|left; split; auto; apply L1; auto].
    intros a. split.
    + intros HI. pose proof (Ix_range _ _ HB HI) as HA. split; auto. destruct HI as (i & Hi & Ei). rewrite PT in Ei. destruct (Z.eqb_spec a n) as [->|Na].
      * apply L1; auto.
      * exists (S i). split; [|lia]. destruct (Z.eq_dec (Z.of_nat (S i)) m) as [Em|]; [|lia]. exfalso.
        assert (part lam (S i) = 0) by (unfold part; apply nth_overflow; lia). unfold k in Ei. lia.
    + intros [Ha HI]. destruct (Z.eqb_spec a n) as [->|Na].
      * exists (Z.to_nat (m - 1)). split; [lia|]. rewrite PT. unfold part. rewrite nth_overflow by lia. unfold k. lia.
      * destruct HI as ([|i] & Hi & Ei); [lia|]. exists i. rewrite PT. lia.
  - destruct R1 as (mu & HB & PM & RS); [change (part lam 0 <= k) in Bl; unfold k in *; lia|]. exists mu, 0%nat. split; auto.
    split; [apply single_term; eapply MM_of; eauto using col_box'|]. split; [|right; split; auto; rewrite L1; auto].
    intros a. split.
    + intros HI. pose proof (Ix_range _ _ HB HI) as HA. split; auto. destruct HI as (i & Hi & Ei). rewrite PM in Ei by auto.
      assert (HJ : I lam (a + 1)) by (exists i; split; lia). pose proof (Ix_range _ _ Hl HJ).
      destruct (Z.eqb_spec a n); [lia|auto].
    + intros [Ha HI]. destruct (Z.eqb_spec a n) as [->|Na]; [apply L1 in HI; lia|]. destruct HI as (i & Hi & Ei). exists i.
      rewrite PM by auto. lia.
Qed.
Definition rect (j : nat) : list Z := if (j =? 0)%nat then [] else repeat (Z.of_nat j) (Z.to_nat m).
Lemma rect_in j : Z.of_nat j <= k -> box (rect j).
Proof. intros H. unfold rect. destruct (Nat.eqb_spec j 0); [apply box_nil|apply rect_box; lia]. Qed.
Lemma part_rect j i : part (rect j) i = if Z.of_nat i <? m then Z.of_nat j else 0.
Proof.
  unfold rect. destruct (Nat.eqb_spec j 0) as [->|].
  - rewrite part_nil. destruct (_ <? _); reflexivity.
  - rewrite part_repeat. destruct (Nat.ltb_spec i (Z.to_nat m)), (Z.ltb_spec (Z.of_nat i) m); lia.
Qed.
Lemma col_pow j : Z.of_nat j < k -> peq (MM (pS (repeat 1 (Z.to_nat m))) (pS (rect j))) (pS (rect (S j))).
Proof.
  intros Hj. assert (HB : box (rect j)) by (apply rect_in; lia).
  destruct (c54_col m n g _ Hg Hm HB) as (r & E & R1 & _). rewrite part_rect in R1.
  destruct R1 as (mu & Hmu & PM & RS); [destruct (_ <? _); unfold k in *; lia|].
  assert (mu = rect (S j)).
  { apply (box_eq m k); auto; try lia; [apply rect_in; lia|]. intros i Hi. rewrite PM, !part_rect by auto. destruct (Z.ltb_spec (Z.of_nat i) m); lia. }
  subst mu.
  assert (H : is_sum_of (MM (pS (repeat 1 (Z.to_nat m))) (pS (rect j))) (fun d nu => d = 0%nat /\ nu = rect (S j))) by (eapply MM_of; eauto using col_box').
  apply single_term in H. exact H.
Qed.

(** ** the statements *)
Lemma Ix_idx lam idx : index_set m n idx -> (forall j, Z.of_nat j < m -> part idx j = (n - m) + Z.of_nat j + 1 - part lam j) ->
  NoDup idx /\ (forall a, In a idx <-> I lam a).
Proof.
  intros (H1 & H2 & H3) HP. split.
  - apply NoDup_nth with (d := 0). intros i j Hi Hj E. destruct (Nat.lt_trichotomy i j) as [L|[L|L]]; auto; exfalso.
    + specialize (H3 i j ltac:(lia)). unfold part in H3. lia.
    + specialize (H3 j i ltac:(lia)). unfold part in H3. lia.
  - intros a. split.
    + intros H. apply (In_nth _ _ 0) in H. destruct H as (i & Hi & <-). exists i. split; [lia|]. change (nth i idx 0) with (part idx i). rewrite HP by lia. unfold k. lia.
    + intros (i & Hi & ->). unfold k. rewrite <- (HP i Hi). unfold part. apply nth_In. lia.
Qed.
Lemma filter_none (f : Z -> bool) l : (forall a, In a l -> f a = false) -> filter f l = [].
Proof. induction l as [|x l IH]; intros H; auto. cbn [filter]. rewrite (H x) by (left; auto). apply IH. intros; apply H; right; auto. Qed.
Lemma filter_count (f h : Z -> bool) c l : NoDup l -> (forall a, h a = f a || (a =? c)) -> f c = false ->
  (length (filter h l) = length (filter f l) + (if existsb (Z.eqb c) l then 1 else 0))%nat.
Proof.
  intros HN H Hc. induction l as [|x l IH]; [reflexivity|]. apply NoDup_cons_iff in HN. destruct HN as [Hx HN]. specialize (IH HN).
  cbn [filter existsb]. rewrite H. destruct (Z.eqb_spec x c) as [->|Nx].
  - rewrite Hc, Z.eqb_refl. cbn [orb length]. rewrite IH.
    assert (existsb (Z.eqb c) l = false) as ->; [|lia]. apply not_true_is_false. intros HE. apply existsb_exists in HE.
    destruct HE as (y & Hy & E). apply Z.eqb_eq in E. subst. contradiction.
  - rewrite orb_false_r. destruct (Z.eqb_spec c x) as [->|_]; [congruence|]. cbn [orb]. destruct (f x); cbn [length]; rewrite IH; lia.
Qed.
Lemma existsb_in c l : existsb (Z.eqb c) l = true <-> In c l.
Proof. rewrite existsb_exists. split; [intros (y & Hy & E); apply Z.eqb_eq in E; subst; auto|intros H; exists c; split; auto; apply Z.eqb_refl]. Qed.

Lemma c73_row jj lam : 0 <= jj <= m -> box lam ->
  exists r mu d x y idx idx', qmult g (pS (repeat (n - m) (Z.to_nat jj))) (pS lam) = Ok r /\ box mu /\
    is_sum_of r (fun e nu => e = d /\ nu = mu) /\
    part2index g (pS lam) = Ok x /\ peq x (pS idx) /\ part2index g (pS mu) = Ok y /\ peq y (pS idx') /\
    (forall a, In a idx' <-> 1 <= a <= n /\ In (if a <=? jj then a - jj + n else a - jj) idx) /\
    Z.of_nat d = jj - Z.of_nat (length (filter (fun a => n - jj <? a) idx)).
Proof.
  intros Hjj Hl. destruct (c15_class m n g lam Hg Hl) as (idx & x & Ex & Px & HIX & HPX). destruct (Ix_idx lam idx HIX HPX) as [ND II].
  pose (J := fun (j : nat) (lam0 nu : list Z) (d : nat) => lam0 = lam -> 
    (forall a, I nu a <-> 1 <= a <= n /\ I lam (if a <=? Z.of_nat j then a - Z.of_nat j + n else a - Z.of_nat j)) /\
    Z.of_nat d = Z.of_nat j - Z.of_nat (length (filter (fun a => n - Z.of_nat j <? a) idx))).
  destruct (iterate [k] (fun j => repeat k j) J (Z.to_nat m) row_box) with (j := Z.to_nat jj) (lam := lam) as (mu & d & Hmu & E & HJ);
    auto; try lia.
  - intros j Hj. apply rect_box; unfold k; lia.
  - intros j Hj. apply row_pow. lia.
  - intros l _ ->. split.
    + intros a. change (Z.of_nat 0) with 0. rewrite Z.sub_0_r. split.
      * intros HI. pose proof (Ix_range _ _ Hl HI). split; auto. destruct (Z.leb_spec a 0); [lia|auto].
      * intros [Ha HI]. destruct (Z.leb_spec a 0); [lia|auto].
    + rewrite filter_none; [reflexivity|]. intros a Ha. apply II, (Ix_range _ _ Hl) in Ha. apply Z.ltb_ge. lia.
  - intros j lam0 nu d Hj _ Hn HJ. destruct (row_step nu Hn) as (mu & e & Hmu & E & HI & HE). exists mu, e. split; auto. split; auto.
    intros ->. destruct (HJ eq_refl) as [J1 J2]. split.
    + intros a. rewrite HI, J1. destruct (Z.eqb_spec a 1) as [->|Na].
      * destruct (Z.leb_spec n (Z.of_nat j)); [lia|]. destruct (Z.leb_spec 1 (Z.of_nat (S j))); [|lia].
        replace (1 - Z.of_nat (S j) + n) with (n - Z.of_nat j) by lia. intuition lia.
      * destruct (Z.leb_spec (a - 1) (Z.of_nat j)), (Z.leb_spec a (Z.of_nat (S j))); try lia.
        -- replace (a - 1 - Z.of_nat j + n) with (a - Z.of_nat (S j) + n) by lia. intuition lia.
        -- replace (a - 1 - Z.of_nat j) with (a - Z.of_nat (S j)) by lia. intuition lia.
    + rewrite (filter_count (fun a => n - Z.of_nat j <? a) _ (n - Z.of_nat j) idx ND).
      * assert (HQ : existsb (Z.eqb (n - Z.of_nat j)) idx = true <-> I nu n).
        { rewrite existsb_in, II, J1. destruct (Z.leb_spec n (Z.of_nat j)); [lia|]. intuition lia. }
        destruct (existsb _ idx).
        -- destruct HE as [[_ ->]|[HE _]]; [lia|]. exfalso. apply HE, HQ. reflexivity.
        -- destruct HE as [[HE _]|[_ ->]]; [apply HQ in HE; discriminate|lia].
      * intros a. destruct (Z.ltb_spec (n - Z.of_nat (S j)) a), (Z.ltb_spec (n - Z.of_nat j) a), (Z.eqb_spec a (n - Z.of_nat j)); lia || reflexivity.
      * apply Z.ltb_ge. lia.
  - destruct (HJ eq_refl) as [J1 J2]. rewrite Z2Nat.id in J1, J2 by lia.
    destruct (c15_class m n g mu Hg Hmu) as (idx' & y & Ey & Py & HIY & HPY). destruct (Ix_idx mu idx' HIY HPY) as [_ II'].
    rewrite g_eq. destruct (qmult_MA m k Hm1 Hk (repeat k (Z.to_nat jj)) lam) as (r & Er & Pr & _); auto; [apply rect_box; unfold k; lia|].
    rewrite g_eq in Ex, Ey.
    exists r, mu, d, x, y, idx, idx'. split; auto. split; auto. split; [apply single_term; rewrite Pr; exact E|]. repeat (split; [auto; fail|]).
    split; [|exact J2]. intros a. rewrite II', II. apply J1.
Qed.
Lemma c73_col jj lam : 0 < jj <= n - m -> box lam ->
  exists r mu d x y idx idx', qmult g (pS (repeat jj (Z.to_nat m))) (pS lam) = Ok r /\ box mu /\
    is_sum_of r (fun e nu => e = d /\ nu = mu) /\
    part2index g (pS lam) = Ok x /\ peq x (pS idx) /\ part2index g (pS mu) = Ok y /\ peq y (pS idx') /\
    (forall a, In a idx' <-> 1 <= a <= n /\ In (if n - jj <? a then a + jj - n else a + jj) idx) /\
    Z.of_nat d = Z.of_nat (length (filter (fun a => a <=? jj) idx)).
Proof.
  intros Hjj Hl. destruct (c15_class m n g lam Hg Hl) as (idx & x & Ex & Px & HIX & HPX). destruct (Ix_idx lam idx HIX HPX) as [ND II].
  pose (J := fun (j : nat) (lam0 nu : list Z) (d : nat) => lam0 = lam -> 
    (forall a, I nu a <-> 1 <= a <= n /\ I lam (if n - Z.of_nat j <? a then a + Z.of_nat j - n else a + Z.of_nat j)) /\
    d = length (filter (fun a => a <=? Z.of_nat j) idx)).
  destruct (iterate (repeat 1 (Z.to_nat m)) rect J (Z.to_nat k) col_box') with (j := Z.to_nat jj) (lam := lam) as (mu & d & Hmu & E & HJ);
    auto; try (unfold k; lia).
  - intros j Hj. apply rect_in; unfold k in *; lia.
  - intros j Hj. apply col_pow. lia.
  - intros l _ ->. split.
    + intros a. change (Z.of_nat 0) with 0. rewrite Z.sub_0_r, Z.add_0_r. split.
      * intros HI. pose proof (Ix_range _ _ Hl HI). split; auto. destruct (Z.ltb_spec n a); [lia|auto].
      * intros [Ha HI]. destruct (Z.ltb_spec n a); [lia|auto].
    + rewrite filter_none; [reflexivity|]. intros a Ha. apply II, (Ix_range _ _ Hl) in Ha. apply Z.leb_gt. lia.
  - intros j lam0 nu d Hj _ Hn HJ. destruct (col_step nu Hn) as (mu & e & Hmu & E & HI & HE). exists mu, e. split; auto. split; auto.
    intros ->. destruct (HJ eq_refl) as [J1 J2]. assert (Hjn : Z.of_nat j < n) by (unfold k in *; lia). split.
    + intros a. rewrite HI, J1. destruct (Z.eqb_spec a n) as [->|Na].
      * destruct (Z.ltb_spec (n - Z.of_nat j) 1); [lia|]. destruct (Z.ltb_spec (n - Z.of_nat (S j)) n); [|lia].
        replace (n + Z.of_nat (S j) - n) with (1 + Z.of_nat j) by lia. intuition lia.
      * destruct (Z.ltb_spec (n - Z.of_nat j) (a + 1)), (Z.ltb_spec (n - Z.of_nat (S j)) a); try lia.
        -- replace (a + 1 + Z.of_nat j - n) with (a + Z.of_nat (S j) - n) by lia. intuition lia.
        -- replace (a + 1 + Z.of_nat j) with (a + Z.of_nat (S j)) by lia. intuition lia.
    + rewrite (filter_count (fun a => a <=? Z.of_nat j) _ (Z.of_nat j + 1) idx ND).
      * assert (HQ : existsb (Z.eqb (Z.of_nat j + 1)) idx = true <-> I nu 1).
        { rewrite existsb_in, II, J1. destruct (Z.ltb_spec (n - Z.of_nat j) 1); [lia|]. rewrite (Z.add_comm 1). intuition lia. }
        destruct (existsb _ idx).
        -- destruct HE as [[_ ->]|[HE _]]; [lia|]. exfalso. apply HE, HQ. reflexivity.
        -- destruct HE as [[HE _]|[_ ->]]; [apply HQ in HE; discriminate|lia].
      * intros a. destruct (Z.leb_spec a (Z.of_nat (S j))), (Z.leb_spec a (Z.of_nat j)), (Z.eqb_spec a (Z.of_nat j + 1)); lia || reflexivity.
      * apply Z.leb_gt. lia.
  - destruct (HJ eq_refl) as [J1 J2]. rewrite Z2Nat.id in J1, J2 by lia.
    destruct (c15_class m n g mu Hg Hmu) as (idx' & y & Ey & Py & HIY & HPY). destruct (Ix_idx mu idx' HIY HPY) as [_ II'].
    assert (ER : rect (Z.to_nat jj) = repeat jj (Z.to_nat m)).
    { unfold rect. destruct (Nat.eqb_spec (Z.to_nat jj) 0); [lia|]. rewrite Z2Nat.id by lia. reflexivity. }
    rewrite <- ER. rewrite g_eq. destruct (qmult_MA m k Hm1 Hk (rect (Z.to_nat jj)) lam) as (r & Er & Pr & _); auto; [apply rect_in; unfold k; lia|].
    rewrite g_eq in Ex, Ey.
    exists r, mu, d, x, y, idx, idx'. split; auto. split; auto. split; [apply single_term; rewrite Pr; exact E|]. repeat (split; [auto; fail|]).
    split; [|f_equal; exact J2]. intros a. rewrite II', II. apply J1.
Qed.

(** ** rotations permute the structure constants *)
Lemma pmono_coef mo mo' : coef (pmono mo) mo' = if mono_eqb mo mo' then 1%Qc else 0%Qc.
Proof. unfold pmono, coef. cbn. destruct (mono_eqb mo mo'); ring. Qed.
Lemma mono_qS d a e b : mono_eqb (qS d a) (qS e b) = true <-> d = e /\ a = b.
Proof. rewrite mono_eqb_perm. split; [apply Sys.qS_inj|intros [-> ->]; reflexivity]. Qed.
Lemma pmono_qS_inj d a e b : peq (pmono (qS d a)) (pmono (qS e b)) -> d = e /\ a = b.
Proof.
  intros H. specialize (H (qS d a)). rewrite !pmono_coef in H. rewrite (proj2 (mono_qS d a d a)) in H by auto.
  destruct (mono_eqb (qS e b) (qS d a)) eqn:E; [|discriminate]. apply mono_qS in E. destruct E; auto.
Qed.

Lemma pS_inj a b : peq (pS a) (pS b) -> a = b.
Proof. intros H. apply (pmono_qS_inj 0 a 0 b) in H. apply H. Qed.

Section Rot.
Context (R : list Z) (HR : box R).
Context (Hterm : forall l, box l -> exists mu e, box mu /\ peq (MM (pS R) (pS l)) (pmono (qS e mu))).
Context (Hinj : forall l l' mu e e', box l -> box l' -> peq (MM (pS R) (pS l)) (pmono (qS e mu)) ->
  peq (MM (pS R) (pS l')) (pmono (qS e' mu)) -> l = l').

Lemma rot_coef nu nu' b : box nu -> peq (MM (pS R) (pS nu)) (pmono (qS b nu')) ->
  forall x, supp (linm box (eq VQ)) x -> forall t, coef (MM (pS R) x) (qS t nu') = if (b <=? t)%nat then coef x (qS (t - b) nu) else 0%Qc.
Proof.
  intros Hn En.
  apply (lin_ind box (eq VQ) (fun x => forall t, coef (MM (pS R) x) (qS t nu') = if (b <=? t)%nat then coef x (qS (t - b) nu) else 0%Qc)).
  - intros p r E Hp t. rewrite <- (E _), <- Hp. unfold MA. apply M_Proper; [reflexivity|symmetry; exact E].
  - intros t. assert (E : peq (MM (pS R) pzero) pzero).
    { transitivity (MM (pS R) (pscale 0 pzero)); [unfold MA; apply M_Proper; [reflexivity|]; intros mo; reflexivity|].
      unfold MA. rewrite sys_scale_r. intros mo. rewrite coef_pscale. cbn. ring. }
    rewrite (E _). destruct (b <=? t)%nat; reflexivity.
  - intros qm l c p Hl Hq Hp IH t. 
    assert (E0 : peq (MM (pS R) (padd (pscale c (pmul (pmono qm) (pS l))) p)) (padd (pscale c (MM (pS R) (pmul (pmono qm) (pS l)))) (MM (pS R) p)))
      by (unfold MA; rewrite sys_add_r, sys_scale_r; reflexivity).
    rewrite (E0 _), coef_padd, IH, coef_pscale.
    assert (EQ : exists d, qm = repeat VQ d).
    { exists (length qm). clear -Hq. induction Hq; [reflexivity|]. cbn. congruence. }
    destruct EQ as [d ->].
    rewrite ((sys_q_r SY _ _ _ Hq (sys_lq_pS _ HR) (sys_lq_pS _ Hl)) _). destruct (Hterm l Hl) as (mu & e & Hmu & El).
    assert (E1 : peq (pmul (pmono (repeat VQ d)) (MM (pS R) (pS l))) (pmono (qS (d + e) mu))) by (rewrite El; apply pmono_qS_add).
    rewrite (E1 _), pmono_coef.
    assert (E2 : peq (pmul (pmono (repeat VQ d)) (pS l)) (pmono (qS d l))).
    { rewrite <- (pmono_app (repeat VQ d) [vS l]). apply pmono_perm. unfold qS. symmetry. apply Permutation_cons_append. }
    destruct (Nat.leb_spec b t) as [Hbt|Hbt].
    + rewrite coef_padd, coef_pscale, (E2 _), pmono_coef. f_equal. f_equal.
      assert (HE : mono_eqb (qS (d + e) mu) (qS t nu') = mono_eqb (qS d l) (qS (t - b) nu)); [|rewrite HE; reflexivity].
      apply eq_true_iff_eq. rewrite !mono_qS. split.
      * intros [<- ->]. assert (l = nu) by (eapply Hinj; eauto). subst l. rewrite El in En. apply pmono_qS_inj in En. destruct En as [-> _]. split; auto. lia.
      * intros [-> ->]. rewrite El in En. apply pmono_qS_inj in En. destruct En as [-> ->]. split; auto. lia.
    + destruct (mono_eqb (qS (d + e) mu) (qS t nu')) eqn:HE; [|ring]. exfalso. apply mono_qS in HE. destruct HE as [<- ->].
      assert (l = nu) by (eapply Hinj; eauto). subst l. rewrite El in En. apply pmono_qS_inj in En. destruct En as [-> _]. lia.
Qed.

Lemma pmono_q_coef a x e nu : coef (pmul (pmono (repeat VQ a)) x) (qS (a + e) nu) = coef x (qS e nu).
Proof.
  rewrite coef_pmul, coef_phi. unfold pmono, phi at 1. cbn [fold_right fst snd]. rewrite Qcmult_1_l, Qcplus_0_r.
  apply phi_ext. intros mo c _.
  assert (HE : mono_eqb (repeat VQ a ++ mo) (qS (a + e) nu) = mono_eqb mo (qS e nu)); [|rewrite HE; reflexivity].
  apply eq_true_iff_eq. rewrite !mono_eqb_perm.
  assert (P : Permutation (qS (a + e) nu) (repeat VQ a ++ qS e nu)).
  { unfold qS. rewrite repeat_app. apply Permutation_middle. }
  rewrite P. split; [apply Permutation_app_inv_l|apply Permutation_app_head].
Qed.
Lemma pmono_q_coef0 a x d nu : supp (linm box (eq VQ)) x -> (d < a)%nat -> coef (pmul (pmono (repeat VQ a)) x) (qS d nu) = 0%Qc.
Proof.
  intros Hx Hd. rewrite coef_pmul. unfold pmono, phi at 1. cbn [fold_right fst snd]. rewrite Qcmult_1_l, Qcplus_0_r.
  apply phi_zero. intros mo c _. destruct (mono_eqb (repeat VQ a ++ mo) (qS d nu)) eqn:E; [|reflexivity]. exfalso.
  apply mono_eqb_perm in E. assert (H : (count_occ var_eq_dec (repeat VQ a ++ mo) VQ <= d)%nat).
  { rewrite (Permutation_count_occ var_eq_dec) in E. rewrite E. unfold qS. rewrite count_occ_cons_neq by discriminate.
    clear. induction d; [reflexivity|]. cbn [repeat]. rewrite count_occ_cons_eq by auto. lia. }
  rewrite count_occ_app in H. assert (count_occ var_eq_dec (repeat VQ a) VQ = a); [|lia].
  clear. induction a; [reflexivity|]. cbn [repeat]. rewrite count_occ_cons_eq by auto. lia.
Qed.

Lemma rot_sym lam mu nu lam' nu' a b : box lam -> box mu -> box nu -> box lam' ->
  peq (MM (pS R) (pS lam)) (pmono (qS a lam')) -> peq (MM (pS R) (pS nu)) (pmono (qS b nu')) ->
  (forall d e, (a + e = d + b)%nat -> coef (MM (pS lam) (pS mu)) (qS d nu) = coef (MM (pS lam') (pS mu)) (qS e nu')) /\
  (forall d, (d + b < a)%nat -> coef (MM (pS lam) (pS mu)) (qS d nu) = 0%Qc) /\
  (forall e, (a + e < b)%nat -> coef (MM (pS lam') (pS mu)) (qS e nu') = 0%Qc).
Proof.
  intros Hl Hm' Hn Hl' El En. pose proof (sys_lq_pS _ Hl) as L1. pose proof (sys_lq_pS _ Hm') as L2. pose proof (sys_lq_pS _ Hl') as L3.
  assert (LX := sys_lin SY _ _ (sys_lq_vp _ L1) L2). assert (LY := sys_lin SY _ _ (sys_lq_vp _ L3) L2).
  assert (E : peq (MM (pS R) (MM (pS lam) (pS mu))) (pmul (pmono (repeat VQ a)) (MM (pS lam') (pS mu)))).
  { rewrite <- (sys_assoc SY _ _ _ (sys_lq_pS _ HR) L1 L2). unfold MA in *. rewrite El.
    assert (B : peq (pmono (qS a lam')) (pmul (pmono (repeat VQ a)) (pS lam'))).
    { rewrite <- (pmono_app (repeat VQ a) [vS lam']). apply pmono_perm. unfold qS. apply Permutation_cons_append. }
    rewrite B. apply (sys_q_l SY); auto using Forall_repeat_VQ. }
  pose proof (rot_coef nu nu' b Hn En _ LX) as HC. split; [|split].
  - intros d e H. rewrite <- (pmono_q_coef a (MM (pS lam') (pS mu))), <- (E _), HC. destruct (Nat.leb_spec b (a + e)); [|lia]. f_equal. f_equal. lia.
  - intros d H. specialize (HC (d + b)%nat). destruct (Nat.leb_spec b (d + b)); [|lia]. replace (d + b - b)%nat with d in HC by lia.
    unfold MA in *. rewrite <- HC, (E _). apply pmono_q_coef0; auto.
  - intros e H. rewrite <- (pmono_q_coef a (MM (pS lam') (pS mu))), <- (E _), HC. destruct (Nat.leb_spec b (a + e)); [lia|reflexivity].
Qed.
End Rot.

(** the rectangles satisfy the hypotheses *)
Lemma Ix_inj l l' : box l -> box l' -> (forall a, I l a <-> I l' a) -> l = l'.
Proof.
  intros Hl Hl' H. destruct (c15_class m n g l Hg Hl) as (idx & x & Ex & Px & HIX & HPX). destruct (Ix_idx l idx HIX HPX) as [ND II].
  destruct (c15_class m n g l' Hg Hl') as (idx' & x' & Ex' & Px' & HIX' & HPX'). destruct (Ix_idx l' idx' HIX' HPX') as [ND' II'].
  assert (E : idx = idx').
  { assert (IN : forall a, In a idx <-> In a idx') by (intros a; rewrite II, II'; apply H).
    clear -HIX HIX' IN. destruct HIX as (_ & _ & S1). destruct HIX' as (_ & _ & S2). revert idx' IN S1 S2.
    induction idx as [|a l IH]; intros [|b l'] IN S1 S2; auto; [exfalso; destruct (proj2 (IN b)); simpl; auto|exfalso; destruct (proj1 (IN a)); simpl; auto|].
    assert (M1 : forall c, In c l -> a < c). { intros c Hc. apply (In_nth _ _ 0) in Hc. destruct Hc as (i & Hi & <-). apply (S1 0%nat (S i)). cbn [length]. lia. }
    assert (M2 : forall c, In c l' -> b < c). { intros c Hc. apply (In_nth _ _ 0) in Hc. destruct Hc as (i & Hi & <-). apply (S2 0%nat (S i)). cbn [length]. lia. }
    assert (a = b).
    { destruct (proj1 (IN a) (or_introl eq_refl)) as [->|H1]; auto. destruct (proj2 (IN b) (or_introl eq_refl)) as [->|H2]; auto.
      apply M1 in H2. apply M2 in H1. lia. }
    subst b. f_equal. apply IH.
    - intros c. split; intros Hc.
      + destruct (proj1 (IN c) (or_intror Hc)) as [->|]; auto. apply M1 in Hc. lia.
      + destruct (proj2 (IN c) (or_intror Hc)) as [->|]; auto. apply M2 in Hc. lia.
    - intros i j Hij. apply (S1 (S i) (S j)). cbn [length]. lia.
    - intros i j Hij. apply (S2 (S i) (S j)). cbn [length]. lia. }
  subst idx'. apply (box_eq m k); auto; try lia. intros j Hj. specialize (HPX j Hj). specialize (HPX' j Hj). lia.
Qed.

Definition full_rectangle (R : list Z) : Prop :=
  (exists j, 0 <= j <= m /\ R = repeat k (Z.to_nat j)) \/ (exists j, 0 < j <= k /\ R = repeat j (Z.to_nat m)).
Lemma full_box R : full_rectangle R -> box R.
Proof. intros [(j & Hj & ->)|(j & Hj & ->)]; apply rect_box; unfold k in *; lia. Qed.
Lemma full_rot R : full_rectangle R -> exists h, (forall c, 1 <= c <= n -> exists a, 1 <= a <= n /\ h a = c) /\
  forall lam, box lam -> exists r mu d, qmult g (pS R) (pS lam) = Ok r /\ box mu /\ is_sum_of r (fun e nu => e = d /\ nu = mu) /\
    forall a, I mu a <-> 1 <= a <= n /\ I lam (h a).
Proof.
  intros [(j & Hj & ->)|(j & Hj & ->)].
  - exists (fun a => if a <=? j then a - j + n else a - j). split.
    + intros c Hc. destruct (Z.le_gt_cases c (n - j)) as [H|H].
      * exists (c + j). split; [lia|]. destruct (Z.leb_spec (c + j) j); lia.
      * exists (c + j - n). split; [lia|]. destruct (Z.leb_spec (c + j - n) j); lia.
    + intros lam Hl. destruct (c73_row j lam Hj Hl) as (r & mu & d & x & y & idx & idx' & E & Hmu & RS & Ex & Px & Ey & Py & HI & _).
      exists r, mu, d. split; auto. split; auto. split; auto.
      destruct (c15_class m n g lam Hg Hl) as (i1 & x1 & Ex1 & Px1 & HIX & HPX). destruct (Ix_idx lam i1 HIX HPX) as [_ II].
      destruct (c15_class m n g mu Hg Hmu) as (i2 & y1 & Ey1 & Py1 & HIY & HPY). destruct (Ix_idx mu i2 HIY HPY) as [_ II'].
      rewrite Ex in Ex1. injection Ex1 as <-. rewrite Ey in Ey1. injection Ey1 as <-.
      assert (idx = i1) by (apply pS_inj; rewrite <- Px, <- Px1; reflexivity). assert (idx' = i2) by (apply pS_inj; rewrite <- Py, <- Py1; reflexivity).
      subst. intros a. rewrite <- II', <- II. apply HI.
  - exists (fun a => if n - j <? a then a + j - n else a + j). split.
    + intros c Hc. destruct (Z.le_gt_cases c j) as [H|H].
      * exists (c - j + n). split; [lia|]. destruct (Z.ltb_spec (n - j) (c - j + n)); lia.
      * exists (c - j). split; [lia|]. destruct (Z.ltb_spec (n - j) (c - j)); lia.
    + intros lam Hl. destruct (c73_col j lam Hj Hl) as (r & mu & d & x & y & idx & idx' & E & Hmu & RS & Ex & Px & Ey & Py & HI & _).
      exists r, mu, d. split; auto. split; auto. split; auto.
      destruct (c15_class m n g lam Hg Hl) as (i1 & x1 & Ex1 & Px1 & HIX & HPX). destruct (Ix_idx lam i1 HIX HPX) as [_ II].
      destruct (c15_class m n g mu Hg Hmu) as (i2 & y1 & Ey1 & Py1 & HIY & HPY). destruct (Ix_idx mu i2 HIY HPY) as [_ II'].
      rewrite Ex in Ex1. injection Ex1 as <-. rewrite Ey in Ey1. injection Ey1 as <-.
      assert (idx = i1) by (apply pS_inj; rewrite <- Px, <- Px1; reflexivity). assert (idx' = i2) by (apply pS_inj; rewrite <- Py, <- Py1; reflexivity).
      subst. intros a. rewrite <- II', <- II. apply HI.
Qed.

Lemma c73_sym R lam mu nu lam' nu' a b rl rn : full_rectangle R -> box lam -> box mu -> box nu ->
  qmult g (pS R) (pS lam) = Ok rl -> is_sum_of rl (fun e kap => e = a /\ kap = lam') ->
  qmult g (pS R) (pS nu) = Ok rn -> is_sum_of rn (fun e kap => e = b /\ kap = nu') ->
  exists r r', qmult g (pS lam) (pS mu) = Ok r /\ qmult g (pS lam') (pS mu) = Ok r' /\
    (forall d e, (a + e = d + b)%nat -> coef r (qS d nu) = coef r' (qS e nu')) /\
    (forall d, (d + b < a)%nat -> coef r (qS d nu) = 0%Qc) /\
    (forall e, (a + e < b)%nat -> coef r' (qS e nu') = 0%Qc).
Proof.
  intros HF Hl Hmu Hn El Sl En Sn. pose proof (full_box R HF) as HR.
  destruct (full_rot R HF) as (h & Hh & HT).
  assert (TM : forall l, box l -> exists mu e, box mu /\ peq (MM (pS R) (pS l)) (pmono (qS e mu)) /\ forall a, I mu a <-> 1 <= a <= n /\ I l (h a)).
  { intros l Hbl. destruct (HT l Hbl) as (r & mu1 & d & E & Hm' & S & HI). exists mu1, d. split; auto. split; auto. apply single_term. eapply MM_of; eauto. }
  assert (El' : peq (MM (pS R) (pS lam)) (pmono (qS a lam'))) by (apply single_term; eapply MM_of; eauto).
  assert (En' : peq (MM (pS R) (pS nu)) (pmono (qS b nu'))) by (apply single_term; eapply MM_of; eauto).
  assert (Hl' : box lam').
  { destruct (TM lam Hl) as (x & e & Hx & Ex & _). rewrite El' in Ex. apply pmono_qS_inj in Ex. destruct Ex as [_ ->]. auto. }
  destruct (rot_sym R HR) with (lam := lam) (mu := mu) (nu := nu) (lam' := lam') (nu' := nu') (a := a) (b := b) as (A & B & C); auto.
  - intros l Hbl. destruct (TM l Hbl) as (x & e & Hx & Ex & _). eauto.
  - intros l l' kap e e' H1 H2 E1 E2. destruct (TM l H1) as (x & ex & Hx & Ex & Ix1). destruct (TM l' H2) as (y & ey & Hy & Ey & Iy1).
    rewrite E1 in Ex. apply pmono_qS_inj in Ex. destruct Ex as [_ <-]. rewrite E2 in Ey. apply pmono_qS_inj in Ey. destruct Ey as [_ <-].
    apply Ix_inj; auto. intros c. split; intros HI.
    + pose proof (Ix_range _ _ H1 HI) as Hc. destruct (Hh c Hc) as (z & Hz & <-). apply (Iy1 z). apply Ix1. auto.
    + pose proof (Ix_range _ _ H2 HI) as Hc. destruct (Hh c Hc) as (z & Hz & <-). apply (Ix1 z). apply Iy1. auto.
  - rewrite g_eq. destruct (qmult_MA m k Hm1 Hk lam mu Hl Hmu) as (r & Er & Pr & _). destruct (qmult_MA m k Hm1 Hk lam' mu Hl' Hmu) as (r' & Er' & Pr' & _).
    exists r, r'. split; auto. split; auto. split; [intros; rewrite (Pr _), (Pr' _); auto|]. split; intros; [rewrite (Pr _); auto|rewrite (Pr' _); auto].
Qed.
End S.
