(** The number of Schubert classes. *)

From Coq Require Import ZArith List Lia Bool Permutation.
From Verif Require Import Py OrderFacts PyFacts ModelPart ModelQcalc ModelPoly ModelStr ModelGr Spec
  PartFacts Schub Word Transfer CommC WordD RingD0 GrInv ApiGr CoefSys.
Import ListNotations.
Open Scope Z_scope.

Lemma count_words N : forall k, 0 <= k <= Z.of_nat N ->
  Z.of_nat (length (filter (fun w => cE w =? k) (allw N))) = 2 ^ (Z.of_nat N - k) * binom N (N - Z.to_nat k).
Proof.
  assert (B0 : forall n, binom n 0 = 1) by (destruct n; reflexivity).
  assert (FM : forall x k l, filter (fun w => cE w =? k) (map (cons x) l) = map (cons x) (filter (fun w => cE w =? k - isE x) l)).
  { intros x k. induction l as [|w l IH]; [reflexivity|]. cbn [map filter cE]. rewrite IH.
    destruct (Z.eqb_spec (isE x + cE w) k), (Z.eqb_spec (cE w) (k - isE x)); try lia; reflexivity. }
  assert (Z0 : forall n k, k < 0 -> filter (fun w => cE w =? k) (allw n) = []).
  { intros n k Hk. induction (allw n) as [|w l IH]; [reflexivity|]. cbn [filter]. pose proof (cE_range w). destruct (Z.eqb_spec (cE w) k); [lia|exact IH]. }
  assert (Z1 : forall n k, Z.of_nat n < k -> filter (fun w => cE w =? k) (allw n) = []).
  { intros n k Hk. assert (G : forall l, (forall w, In w l -> In w (allw n)) -> filter (fun w => cE w =? k) l = []).
    { induction l as [|w l IH]; intros H; [reflexivity|]. cbn [filter]. pose proof (cE_range w) as R. specialize (H w (or_introl eq_refl)) as Hw. apply in_allw in Hw. unfold zlen in R.
      destruct (Z.eqb_spec (cE w) k); [lia|]. apply IH. intros v Hv. apply H. right. auto. }
    apply G; auto. }
  unfold word in *. induction N as [|N IH]; intros k Hk.
  - assert (k = 0) by lia. subst. reflexivity.
  - cbn [allw]. rewrite !filter_app, !FM, !app_length, !map_length, !Nat2Z.inj_add. change (isE LE) with 1. change (isE LR) with 0. change (isE LL) with 0. rewrite !Z.sub_0_r.
    destruct (Z.eq_dec k (Z.of_nat (S N))) as [E|E].
    + rewrite (Z1 N k) by lia. rewrite IH by lia. replace (Z.of_nat (S N) - k) with 0 by lia. replace (Z.of_nat N - (k - 1)) with 0 by lia.
      replace (S N - Z.to_nat k)%nat with 0%nat by lia. replace (N - Z.to_nat (k - 1))%nat with 0%nat by lia. rewrite !B0. reflexivity.
    + rewrite !(IH k) by lia. replace (Z.of_nat (S N) - k) with (1 + (Z.of_nat N - k)) by lia. rewrite Z.pow_add_r by lia.
      destruct (Z.eq_dec k 0) as [->|Hk0].
      * rewrite (Z0 N (0 - 1)) by lia. cbn [length]. rewrite !Nat.sub_0_r. change (binom (S N) (S N)) with (binom N N + binom N (S N)). rewrite (binom_0 N (S N)) by lia. lia.
      * rewrite IH by lia. replace (N - Z.to_nat (k - 1))%nat with (S (N - Z.to_nat k)) by lia. replace (S N - Z.to_nat k)%nat with (S (N - Z.to_nat k)) by lia.
        replace (Z.of_nat N - (k - 1)) with (1 + (Z.of_nat N - k)) by lia. rewrite Z.pow_add_r by lia. cbn [binom]. lia.
Qed.

Lemma lex_irr a : ~ lex_lt a a.
Proof.
  intros (pre & [(y & t & E1 & E2)|(x & y & t & u & E1 & E2 & L)]).
  - rewrite E1 in E2. rewrite <- (app_nil_r pre) in E2 at 1. apply app_inv_head in E2. discriminate.
  - rewrite E1 in E2. apply app_inv_head in E2. injection E2 as -> ->. lia.
Qed.
Lemma increasing_nodup L : strictly_increasing L -> NoDup L.
Proof.
  intros H. apply (NoDup_nth L []). intros i j Hi Hj E. destruct (Nat.lt_trichotomy i j) as [Hl|[Hl|Hl]]; auto; exfalso.
  - specialize (H i j ltac:(lia)). rewrite E in H. exact (lex_irr _ H).
  - specialize (H j i ltac:(lia)). rewrite E in H. exact (lex_irr _ H).
Qed.
Lemma same_length {A B} (f : A -> B) (l : list A) (L : list B) : NoDup l -> NoDup L -> (forall x y, In x l -> In y l -> f x = f y -> x = y) ->
  (forall z, In z L <-> exists x, In x l /\ f x = z) -> length L = length l.
Proof.
  intros Hl HL Hf HI. rewrite <- (map_length f l). apply Nat.le_antisymm.
  - apply NoDup_incl_length; auto. intros z Hz. apply HI in Hz. destruct Hz as (x & Hx & <-). apply in_map; auto.
  - apply NoDup_incl_length; [apply FinFun_nodup_map; auto|]. intros z Hz. apply in_map_iff in Hz. destruct Hz as (x & <- & Hx). apply HI. eauto.
Qed.

Lemma count_BC k n L : 0 <= k <= n -> strictly_increasing L -> (forall l, In l L <-> kstrict_in k (n - k) (n + k) l) ->
  zlen L = 2 ^ (n - k) * binom (Z.to_nat n) (Z.to_nat (n - k)).
Proof.
  intros Hk HL HI. unfold zlen. rewrite (same_length (wp 0) (wset k n) L (wset_nodup k n) (increasing_nodup L HL) (wset_inj k n Hk)).
  - unfold wset. rewrite count_words by lia. rewrite Z2Nat.id by lia. do 2 f_equal. lia.
  - intros z. rewrite HI. apply wset_V; auto.
Qed.
Lemma count_D k n L : 1 <= k <= n -> strictly_increasing L -> (forall l, In l L <-> typed_in k (n + 1 - k) (n + k) l) ->
  zlen L = 2 ^ (n + 1 - k) * binom (Z.to_nat (n + 1)) (Z.to_nat (n + 1 - k)).
Proof.
  intros Hk HL HI. unfold zlen. rewrite (same_length encD (wset k (n + 1)) L (wset_nodup k (n + 1)) (increasing_nodup L HL) (encD_inj k n Hk)).
  - unfold wset. rewrite count_words by lia. rewrite Z2Nat.id by lia. do 2 f_equal. lia.
  - intros z. rewrite HI. split; [apply encD_ex; auto|]. intros (w & Hw & <-). apply encD_V; auto.
Qed.

Lemma c61_IG m N g : IsotropicGrassmannian m N = Ok g ->
  exists L, schub_classes g = Ok L /\ zlen L = 2 ^ m * binom (Z.to_nat (N / 2)) (Z.to_nat m).
Proof.
  intros Hg. destruct (c13_IG m N g Hg) as (L & E & HL & HI). exists L. split; auto.
  apply ig_inv in Hg. destruct Hg as (n & EN & En & Hm & _). rewrite En. pose proof (count_BC (n - m) n L) as HC. replace (n - (n - m)) with m in HC by lia.
  apply HC; [lia|auto|]. intros l. rewrite HI. unfold class_IG. rewrite En. replace (n + (n - m)) with (N - m) by lia. reflexivity.
Qed.
Lemma c61_OG m N g : OrthogonalGrassmannian m N = Ok g -> m <= N / 2 -> 1 <= N ->
  exists L, schub_classes g = Ok L /\
    zlen L = (if 2 * m =? N then 2 ^ (m - 1) else 2 ^ m * binom (Z.to_nat (N / 2)) (Z.to_nat m)).
Proof.
  intros Hg Hm HN. destruct (c13_OG m N g Hg Hm HN) as (L & E & HL & HI). exists L. split; auto.
  destruct (og_inv m N g Hg Hm) as [(n & EN & En & Ev & Hm' & _)|(n & EN & En & Ev & Hm' & _)].
  - destruct (Z.eqb_spec (2 * m) N) as [E2|E2]; [lia|]. rewrite En. pose proof (count_BC (n - m) n L) as HC. replace (n - (n - m)) with m in HC by lia.
    apply HC; [lia|auto|]. intros l. rewrite HI. unfold class_OG. rewrite Ev, En. replace (n + (n - m)) with (N - 1 - m) by lia. reflexivity.
  - assert (HI' : forall l, In l L <-> typed_in (n + 1 - m) (n + 1 - (n + 1 - m)) (n + (n + 1 - m)) l).
    { intros l. rewrite HI. unfold class_OG. rewrite Ev, En. replace (n + 1 - (n + 1 - m)) with m by lia. replace (n + (n + 1 - m)) with (N - 1 - m) by lia. reflexivity. }
    destruct (Z.eqb_spec (2 * m) N) as [E2|E2].
    + assert (Em : m = n + 1) by lia. rewrite Em in HI'. replace (n + 1 - (n + 1)) with 0 in HI' by lia. rewrite Z.sub_0_r, Z.add_0_r in HI'.
      rewrite (count_BC 0 n L); [|lia|auto|].
      * rewrite !Z.sub_0_r, binom_n. replace (m - 1) with n by lia. lia.
      * intros l. rewrite HI'. apply typed0. lia.
    + rewrite En. destruct (Z.eq_dec m 0) as [E0|E0].
      { rewrite E0, Z.mul_1_l. replace (binom (Z.to_nat (n + 1)) (Z.to_nat 0)) with 1 by (destruct (Z.to_nat (n + 1)); reflexivity).
        assert (HM : forall mu, kstrict_in (n + 1 - m) m (N - 1 - m) mu -> mu = []).
        { intros mu ((_ & H & _) & _). destruct mu; auto. simpl length in H. lia. }
        assert (HS : forall l, In l L <-> In l [[]]).
        { intros l. rewrite HI. unfold class_OG. rewrite Ev, En. split.
          - intros [H|(mu & _ & _ & H & H')]; [left; symmetry; apply (HM l H)|]. rewrite (HM mu H') in H. destruct H.
          - intros [<-|[]]. left. split; [split; [|split]|].
            + split; [intros i Hi; simpl in Hi; lia|]. intros i. unfold part. destruct i; simpl; lia.
            + simpl. lia.
            + unfold part. simpl. lia.
            + intros i. unfold part. destruct i; simpl; lia. }
        unfold zlen. rewrite (same_length (fun l : list Z => l) [[]] L); auto.
        - constructor; auto. constructor.
        - apply increasing_nodup; auto.
        - intros z. rewrite HS. split; [intros H; exists z; auto|intros (x & H & <-); auto]. }
      pose proof (count_D (n + 1 - m) n L) as HC. replace (n + 1 - (n + 1 - m)) with m in HC, HI' by lia.
      apply HC; [lia|auto|exact HI'].
Qed.
