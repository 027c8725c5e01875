(** Classes of OG(n+1-k,2n+2) as words of n+1 letters.  The first n letters give
    the shape.  The last one is [LE] if no row has length k; otherwise it gives
    the type. *)

From Coq Require Import ZArith List Lia Bool Permutation QArith Qcanon.
From Verif Require Import Py OrderFacts PyFacts ModelPart ModelQcalc Spec SpecPieri
  Enum FillFacts PartFacts ConjFacts PieriSet PieriBKT CompsFacts PieriD QPieriD WArrow Word Transfer TransD WordArrow WordPieri CommC.
Import ListNotations.
Open Scope Z_scope.

Notation D1 := (@or_intror (1 = 0) (1 = 1) eq_refl).

Definition lastl (w : word) : letter := last w LE.
Lemma lastl_cons x y w : lastl (x :: y :: w) = lastl (y :: w).
Proof. reflexivity. Qed.
Lemma skipn_last m : forall w : word, length w = S m -> skipn m w = [lastl w].
Proof.
  induction m as [|m IH]; intros w H.
  - destruct w as [|x [|y w]]; try discriminate. reflexivity.
  - destruct w as [|x w]; [discriminate|]. injection H as H. cbn [skipn]. rewrite IH by auto. destruct w; [discriminate|]. reflexivity.
Qed.
Lemma split_last m w : length w = S m -> w = firstn m w ++ [lastl w].
Proof. intros H. rewrite <- (skipn_last m w H). symmetry. apply firstn_skipn. Qed.
Lemma lastl_snoc w x : lastl (w ++ [x]) = x.
Proof. apply last_last. Qed.

Notation wp1 := (wp 1).
Lemma wp1_kstrict w : (1 <= length w)%nat -> kstrict_in (cE w) (zlen w - cE w) (zlen w - 1 + cE w) (wp1 w).
Proof. intros H. apply (wp_kstrict 1 D1 w). unfold zlen. lia. Qed.

(** the rows of length k *)
Lemma row_k w : (1 <= length w)%nat ->
  (exists j, 0 <= j < zlen w - cE w /\ part (wp1 w) (Z.to_nat j) = cE w) <-> lastl w <> LE.
Proof.
  induction w as [|x w IH]; intros Hl; [cbn in Hl; lia|]. destruct w as [|y w].
  - rewrite (wp_one 1 x eq_refl). change (zlen [x]) with 1. cbn [cE lastl last]. split.
    + intros (j & Hj & _) ->. cbn [isE] in Hj. lia.
    + intros Hx. exists 0. destruct x; cbn [isE]; try congruence; split; try lia; reflexivity.
  - rewrite lastl_cons. set (u := y :: w) in *. assert (Hu : (1 <= length u)%nat) by (cbn; lia). specialize (IH Hu).
    destruct (wp1_kstrict u Hu) as ((Hp & Hr & Hc) & Hk). pose proof (cE_range u) as HE. pose proof (zlen_nonneg u). fold (zlen (wp1 u)) in Hr.
    rewrite zlen_cons. assert (Hz : 1 <= zlen u) by (unfold zlen; lia). rewrite <- IH. destruct x; cbn [cE isE].
    + cbn [wp]. split.
      * intros (j & Hj & E). exists j. rewrite part_map_succ in E by (auto; lia). destruct (Z.ltb_spec j (zlen u - cE u)); lia.
      * intros (j & Hj & E). exists j. rewrite part_map_succ by (auto; lia). destruct (Z.ltb_spec j (zlen u - cE u)); lia.
    + cbn [wp]. cbv zeta. destruct (Z.eqb_spec (zlen u + 1 - 1 + cE u) 0); [lia|]. split.
      * intros (j & Hj & E). destruct (Z.eq_dec j 0) as [->|Hj0]; [change (Z.to_nat 0) with 0%nat in E; unfold part in E; cbn [nth] in E; lia|].
        exists (j - 1). split; [lia|]. replace (Z.to_nat j) with (S (Z.to_nat (j - 1))) in E by lia. unfold part in *. cbn [nth] in E. lia.
      * intros (j & Hj & E). exists (j + 1). split; [lia|]. replace (Z.to_nat (j + 1)) with (S (Z.to_nat j)) by lia. unfold part in *. cbn [nth]. lia.
    + cbn [wp]. split.
      * intros (j & Hj & E). destruct (Z.eq_dec j (zlen u - cE u)) as [->|Hj0]; [|exists j; split; [lia|]; lia].
        rewrite part_over_z in E by lia. apply IH. intros El.
        assert (G : forall v : word, (1 <= length v)%nat -> lastl v = LE -> 1 <= cE v).
        { clear. induction v as [|a v IHv]; intros Hl He; [cbn in Hl; lia|]. destruct v as [|b v]; [cbn in *; subst; cbn; lia|].
          rewrite lastl_cons in He. specialize (IHv ltac:(cbn; lia) He). change (cE (a :: b :: v)) with (isE a + cE (b :: v)). destruct a; cbn [isE]; lia. }
        specialize (G u Hu El). lia.
      * intros (j & Hj & E). exists j. split; [lia|]. lia.
Qed.
Lemma in_row_k w : (1 <= length w)%nat -> 1 <= cE w -> (In (cE w) (wp1 w) <-> lastl w <> LE).
Proof.
  intros Hl Hk. rewrite <- row_k by auto. destruct (wp1_kstrict w Hl) as ((Hp & Hr & Hc) & _). split.
  - intros H. destruct (In_nth _ _ 0 H) as (j & Hj & E). exists (Z.of_nat j). rewrite Nat2Z.id. unfold part. unfold zlen in *. split; [lia|auto].
  - intros (j & Hj & E). rewrite <- E. apply nth_In. destruct (Nat.lt_ge_cases (Z.to_nat j) (length (wp1 w))) as [|Hge]; auto.
    rewrite part_over in E by auto. lia.
Qed.

(** ** the class of a word *)
Definition encD (w : word) : list Z := match lastl w with LR => wp1 w ++ [0] | _ => wp1 w end.
Definition tyl (x : letter) : Z := match x with LE => 0 | LL => 1 | LR => 2 end.

Section S.
Variables (k n : Z).
Hypothesis Hk : 1 <= k <= n.
Notation ws := (wset k (n + 1)).
Notation V := (typed_in k (n + 1 - k) (n + k)).

Lemma ws_len w : In w ws -> length w = S (Z.to_nat n) /\ zlen w = n + 1 /\ cE w = k.
Proof. intros H. apply in_wset in H. unfold zlen. lia. Qed.
Lemma ws_kstrict w : In w ws -> kstrict_in k (n + 1 - k) (n + k) (wp1 w).
Proof.
  intros H. destruct (ws_len w H) as (H1 & H2 & H3). pose proof (wp1_kstrict w ltac:(lia)) as G. rewrite H2, H3 in G.
  replace (n + 1 - 1 + k) with (n + k) in G by lia. exact G.
Qed.
Lemma shape_encD w : In w ws -> shape (encD w) = wp1 w.
Proof.
  intros H. assert (Hp : is_partition (wp1 w)) by apply (ws_kstrict w H). unfold encD. destruct (lastl w); rewrite ?shape_app0; apply shape_partition; auto.
Qed.
Lemma ws_in_k w : In w ws -> (In k (wp1 w) <-> lastl w <> LE).
Proof. intros H. destruct (ws_len w H) as (H1 & H2 & H3). rewrite <- (in_row_k w) by lia. rewrite H3. reflexivity. Qed.
Lemma type_encD w : In w ws -> type_of k (encD w) = tyl (lastl w).
Proof.
  intros H. assert (Hp : is_partition (wp1 w)) by apply (ws_kstrict w H). pose proof (ws_in_k w H) as HI. unfold encD. destruct (lastl w) eqn:E; cbn [tyl].
  - rewrite type_of_part by auto. destruct (zmem k (wp1 w)) eqn:Ez; auto. apply zmem_iff in Ez. tauto.
  - apply type_of_app0; [lia|]. apply HI. discriminate.
  - rewrite type_of_part by auto. destruct (zmem k (wp1 w)) eqn:Ez; auto. exfalso.
    assert (Hz : zmem k (wp1 w) = true) by (apply zmem_iff, HI; discriminate). congruence.
Qed.
Lemma encD_V w : In w ws -> V (encD w).
Proof.
  intros H. pose proof (ws_kstrict w H) as HK. pose proof (ws_in_k w H) as HI. unfold encD. destruct (lastl w) eqn:E; try (left; exact HK).
  right. exists (wp1 w). split; auto. split; [lia|]. split; auto. apply HI. discriminate.
Qed.
Lemma size_encD w : In w ws -> size (encD w) = size (wp1 w).
Proof. intros H. rewrite <- (shape_encD w H). symmetry. apply (size_shape k (n + 1 - k) (n + k)). apply encD_V; auto. Qed.
Lemma encD_inj w v : In w ws -> In v ws -> encD w = encD v -> w = v.
Proof.
  intros Hw Hv E. destruct (ws_len w Hw) as (L1 & L2 & L3). destruct (ws_len v Hv) as (M1 & M2 & M3).
  assert (El : lastl w = lastl v).
  { pose proof (type_encD w Hw) as T1. pose proof (type_encD v Hv) as T2. rewrite E in T1. rewrite T1 in T2. destruct (lastl w), (lastl v); cbn in T2; congruence. }
  assert (Ep : wp1 w = wp1 v) by (rewrite <- (shape_encD w Hw), <- (shape_encD v Hv), E; auto).
  assert (Ef : firstn (Z.to_nat n) w = firstn (Z.to_nat n) v).
  { apply (wp_inj 1 D1 (Z.to_nat n)); auto; try lia. unfold Word.wn. lia. }
  rewrite (split_last _ w L1), (split_last _ v M1), El, Ef. reflexivity.
Qed.

(** changing the last letter does not change the shape *)
Lemma cE_app a b : cE (a ++ b) = cE a + cE b.
Proof. induction a as [|x a IH]; cbn [app cE]; lia. Qed.
Lemma wp_last a x y : isE x = isE y -> wp1 (a ++ [x]) = wp1 (a ++ [y]).
Proof.
  intros E. induction a as [|z a IH]; cbn [app].
  - rewrite !wp_one; auto.
  - assert (Ez : zlen (a ++ [x]) = zlen (a ++ [y])) by (unfold zlen; rewrite !app_length; reflexivity).
    assert (Ec : cE (a ++ [x]) = cE (a ++ [y])) by (rewrite !cE_app; cbn [cE]; lia).
    cbn [wp]. rewrite Ez, Ec, IH. reflexivity.
Qed.
Definition swl (w : word) : word := match w with [] => [] | _ => removelast w ++ [match lastl w with LE => LE | LR => LL | LL => LR end] end.
Lemma swl_snoc a x : swl (a ++ [x]) = a ++ [match x with LE => LE | LR => LL | LL => LR end].
Proof. unfold swl. rewrite removelast_last, lastl_snoc. destruct a; reflexivity. Qed.
Lemma swl_cons x y w : swl (x :: y :: w) = x :: swl (y :: w).
Proof. reflexivity. Qed.
Lemma swl_swl w : swl (swl w) = w.
Proof. destruct w as [|x a _] using rev_ind; [reflexivity|]. rewrite !swl_snoc. destruct x; reflexivity. Qed.
Lemma swl_len w : length (swl w) = length w.
Proof. destruct w as [|x a _] using rev_ind; [reflexivity|]. rewrite swl_snoc, !app_length. reflexivity. Qed.
Lemma swl_cE w : cE (swl w) = cE w.
Proof. destruct w as [|x a _] using rev_ind; [reflexivity|]. rewrite swl_snoc, !cE_app. destruct x; reflexivity. Qed.
Lemma swl_ws w : In w ws -> In (swl w) ws.
Proof. rewrite !in_wset, swl_len, swl_cE. auto. Qed.
Lemma wp_swl w : wp1 (swl w) = wp1 w.
Proof. destruct w as [|x a _] using rev_ind; [reflexivity|]. rewrite swl_snoc. apply wp_last. destruct x; reflexivity. Qed.
Lemma lastl_swl w : lastl (swl w) = match lastl w with LE => LE | LR => LL | LL => LR end.
Proof. destruct w as [|x a _] using rev_ind; [reflexivity|]. rewrite swl_snoc, !lastl_snoc. reflexivity. Qed.

Lemma encD_ex l : V l -> exists w, In w ws /\ encD w = l.
Proof.
  intros H. destruct (typed_shape _ _ _ _ H) as (HS & _).
  destruct (word_exists 1 D1 (n + 1) ltac:(lia) k (shape l) ltac:(lia) ltac:(lia)) as (w & W1 & W2 & W3).
  { replace (n + 1 - 1 + k) with (n + k) by lia. exact HS. }
  assert (Hw : In w ws) by (apply in_wset; unfold zlen in W1; lia).
  pose proof (ws_in_k w Hw) as HI. rewrite W3 in HI.
  destruct (type_of_cases k _ _ l H) as [(_ & T2 & T3)|[(_ & T2 & T3)|(_ & T2 & T3)]].
  - exists w. split; auto. unfold encD. destruct (lastl w) eqn:E; [congruence| |congruence]. exfalso. apply T2, HI. discriminate.
  - destruct (lastl w) eqn:E.
    + exfalso. apply HI in T2. congruence.
    + exists (swl w). split; [apply swl_ws; auto|]. unfold encD. rewrite lastl_swl, E, wp_swl. congruence.
    + exists w. split; auto. unfold encD. rewrite E. congruence.
  - destruct (lastl w) eqn:E.
    + exfalso. apply HI in T2. congruence.
    + exists w. split; auto. unfold encD. rewrite E. congruence.
    + exists (swl w). split; [apply swl_ws; auto|]. unfold encD. rewrite lastl_swl, E, wp_swl. congruence.
Qed.
Lemma swap_encD w : In w ws -> swap_type k (encD w) = encD (swl w).
Proof.
  intros H. assert (Hp : is_partition (wp1 w)) by apply (ws_kstrict w H). pose proof (ws_in_k w H) as HI.
  unfold encD at 2. rewrite lastl_swl, wp_swl. unfold swap_type, encD.
  assert (HM : forall l, existsb (Z.eqb k) l = true <-> In k l) by (intros l; apply (zmem_iff k l)).
  pose proof (PieriCoef.last_partition (wp1 w) Hp) as Hlast.
  destruct (lastl w) eqn:E.
  - destruct (existsb (Z.eqb k) (wp1 w)) eqn:Ex; auto. apply HM, HI in Ex. congruence.
  - rewrite (proj2 (HM (wp1 w ++ [0]))) by (apply in_app_iff; left; apply HI; discriminate). rewrite last_last, removelast_last. reflexivity.
  - rewrite (proj2 (HM (wp1 w))) by (apply HI; discriminate). destruct (Z.eqb_spec (last (wp1 w) 1) 0); [congruence|reflexivity].
Qed.
End S.
