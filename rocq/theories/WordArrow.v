(** The automaton recognises the relation of the Pieri rules: the path of a run
    exists exactly for related partitions, it counts the boxes added and the
    components of the free boxes. *)

From Coq Require Import ZArith List Lia Bool QArith Qcanon.
From Verif Require Import Py PyFacts Spec SpecPieri Enum FillFacts PartFacts PieriSet CompsFacts WArrow Word Transfer.
Import ListNotations.
Open Scope Z_scope.

Definition chR (a : st) : Z := match a with S0 => 0 | S1 => 1 | S2 => 0 | S3 => 1 end.
Definition chE (a : st) : Z := match a with S0 => 0 | S1 => -1 | S2 => 1 | S3 => 0 end.

Lemma nxt_charge a x y a' : nxt a x y = Some a' ->
  chR a' = chR a + isR y - isR x /\ chE a' = chE a + isE y - isE x /\
  (a = S1 -> a' = S1 -> isR x = 0) /\ (a = S2 -> a' = S2 -> isR x = 0 -> isE x = 0 -> False).
Proof. destruct a, x, y; cbn; intros E; try discriminate; injection E as <-; repeat split; intros; try discriminate; cbn; lia. Qed.
Lemma charge_nxt a x y a' : chR a' = chR a + isR y - isR x -> chE a' = chE a + isE y - isE x ->
  (a = S1 -> a' = S1 -> isR x = 0) -> (a = S2 -> a' = S2 -> isR x = 0 -> isE x = 0 -> False) -> nxt a x y = Some a'.
Proof.
  destruct a, x, y, a'; cbn; intros H1 H2 H3 H4; try lia; auto.
  - specialize (H3 eq_refl eq_refl). lia.
  - exfalso. auto.
Qed.
Lemma charge_state r e : (r = 0 /\ e = 0) \/ (r = 1 /\ e = -1) \/ (r = 0 /\ e = 1) \/ (r = 1 /\ e = 0) -> exists a, chR a = r /\ chE a = e.
Proof. intros [[-> ->]|[[-> ->]|[[-> ->]|[-> ->]]]]; [exists S0|exists S1|exists S2|exists S3]; auto. Qed.
Lemma state_charge a : (chR a = 0 /\ chE a = 0) \/ (chR a = 1 /\ chE a = -1) \/ (chR a = 0 /\ chE a = 1) \/ (chR a = 1 /\ chE a = 0).
Proof. destruct a; cbn; lia. Qed.

Section WW.
Variable d : Z.
Hypothesis Hd : d = 0 \/ d = 1.
Notation wn := (wn d).
Notation wR := (wR d).
Notation wE := (wE d).
Notation wp := (wp d).

(** validity with a state at the top *)
Definition DR (a : st) (w v : word) (c : Z) : Z := chR a + wR v c - wR w c.
Definition DE (a : st) (w v : word) (c : Z) : Z := chE a + wE v c - wE w c.
Definition gvalid (a : st) (w v : word) : Prop :=
  (forall c, 0 <= c <= wn w -> (DR a w v c = 0 /\ DE a w v c = 0) \/ (DR a w v c = 1 /\ DE a w v c = -1) \/
     (DR a w v c = 0 /\ DE a w v c = 1) \/ (DR a w v c = 1 /\ DE a w v c = 0)) /\
  (forall c, 0 < c <= wn w -> DR a w v c = 1 -> DE a w v c = -1 -> DR a w v (c - 1) = 1 -> DE a w v (c - 1) = -1 -> wR w (c - 1) = wR w c) /\
  (forall c, 0 < c <= wn w -> DR a w v c = 0 -> DE a w v c = 1 -> DR a w v (c - 1) = 0 -> DE a w v (c - 1) = 1 ->
     wR w (c - 1) = wR w c -> wE w (c - 1) = wE w c -> False).

Lemma gvalid_0 w v : gvalid S0 w v <-> wvalid (wn w) (wR w) (wE w) (wR v) (wE v).
Proof. unfold gvalid, wvalid, DR, DE, dR, dE. cbn [chR chE]. reflexivity. Qed.

Lemma DR_cons a a' x w y v c : length w = length v -> nxt a x y = Some a' -> c <= wn w -> DR a (x :: w) (y :: v) c = DR a' w v c.
Proof.
  intros Hl Ha Hc. destruct (nxt_charge _ _ _ _ Ha) as (H1 & _). unfold DR.
  assert (wn w = wn v) by (unfold Word.wn, zlen; lia). rewrite !wR_cons by lia. lia.
Qed.
Lemma DE_cons a a' x w y v c : length w = length v -> nxt a x y = Some a' -> c <= wn w -> DE a (x :: w) (y :: v) c = DE a' w v c.
Proof.
  intros Hl Ha Hc. destruct (nxt_charge _ _ _ _ Ha) as (_ & H1 & _). unfold DE.
  assert (wn w = wn v) by (unfold Word.wn, zlen; lia). rewrite !wE_cons by lia. lia.
Qed.
Lemma D_top a w v : length w = length v -> DR a w v (wn w) = chR a /\ DE a w v (wn w) = chE a.
Proof.
  intros Hl. assert (wn w = wn v) by (unfold Word.wn, zlen; lia). unfold DR, DE. rewrite wR_top, wE_top.
  rewrite H, wR_top, wE_top. lia.
Qed.
Lemma ch_eq a a' : chR a = chR a' -> chE a = chE a' -> a = a'.
Proof. destruct a, a'; cbn; intros; auto; lia. Qed.

Lemma gvalid_cons a x w y v : length w = length v -> 0 <= wn w ->
  (gvalid a (x :: w) (y :: v) <-> exists a', nxt a x y = Some a' /\ gvalid a' w v).
Proof.
  intros Hl Hn. assert (Ewn : wn v = wn w) by (unfold Word.wn, zlen; lia).
  destruct (D_top a (x :: w) (y :: v) ltac:(cbn; lia)) as [T1 T2]. rewrite wn_cons in T1, T2.
  assert (ERt : wR (x :: w) (wn w + 1) = 0) by (rewrite <- (wn_cons d x w); apply wR_top).
  assert (EEt : wE (x :: w) (wn w + 1) = 0) by (rewrite <- (wn_cons d x w); apply wE_top).
  assert (ERn : wR (x :: w) (wn w) = isR x) by (rewrite wR_cons, wR_top by lia; lia).
  assert (EEn : wE (x :: w) (wn w) = isE x) by (rewrite wE_cons, wE_top by lia; lia).
  unfold gvalid at 1. rewrite wn_cons. split.
  - intros (V1 & V2 & V3). destruct (charge_state _ _ (V1 (wn w) ltac:(lia))) as (a' & A1 & A2).
    assert (Ha : nxt a x y = Some a').
    { assert (C1 : DR a (x :: w) (y :: v) (wn w) = chR a + isR y - isR x).
      { unfold DR. rewrite ERn, wR_cons by lia. rewrite <- Ewn, wR_top. lia. }
      assert (C2 : DE a (x :: w) (y :: v) (wn w) = chE a + isE y - isE x).
      { unfold DE. rewrite EEn, wE_cons by lia. rewrite <- Ewn, wE_top. lia. }
      specialize (V2 (wn w + 1) ltac:(lia)). specialize (V3 (wn w + 1) ltac:(lia)).
      replace (wn w + 1 - 1) with (wn w) in V2, V3 by lia. rewrite T1, T2, ERt in V2. rewrite T1, T2, ERt, EEt in V3.
      rewrite ERn in V2, V3. rewrite EEn in V3. rewrite <- A1, <- A2 in V2, V3.
      apply charge_nxt; [lia|lia| |]; intros -> ->; cbn [chR chE] in *; lia. }
    exists a'. split; auto. split; [|split].
    + intros c Hc. specialize (V1 c ltac:(lia)). rewrite (DR_cons a a'), (DE_cons a a') in V1 by (auto; lia). auto.
    + intros c Hc. specialize (V2 c ltac:(lia)). rewrite !(DR_cons a a'), !(DE_cons a a'), !wR_cons in V2 by (auto; lia). lia.
    + intros c Hc. specialize (V3 c ltac:(lia)). rewrite !(DR_cons a a'), !(DE_cons a a'), !wR_cons, !wE_cons in V3 by (auto; lia). lia.
  - intros (a' & Ha & V1 & V2 & V3). destruct (nxt_charge _ _ _ _ Ha) as (C1 & C2 & C3 & C4).
    destruct (D_top a' w v Hl) as [T3 T4]. split; [|split].
    + intros c Hc. destruct (Z.eq_dec c (wn w + 1)) as [->|Hne]; [rewrite T1, T2; apply state_charge|].
      rewrite (DR_cons a a'), (DE_cons a a') by (auto; lia). apply V1. lia.
    + intros c Hc. destruct (Z.eq_dec c (wn w + 1)) as [->|Hne].
      * replace (wn w + 1 - 1) with (wn w) by lia. rewrite T1, T2, (DR_cons a a'), (DE_cons a a'), T3, T4, ERt, ERn by (auto; lia).
        intros H1 H2 H3 H4. apply C3; apply ch_eq; cbn; lia.
      * rewrite !(DR_cons a a'), !(DE_cons a a'), !wR_cons by (auto; lia). specialize (V2 c ltac:(lia)). lia.
    + intros c Hc. destruct (Z.eq_dec c (wn w + 1)) as [->|Hne].
      * replace (wn w + 1 - 1) with (wn w) by lia. rewrite T1, T2, (DR_cons a a'), (DE_cons a a'), T3, T4, ERt, ERn, EEt, EEn by (auto; lia).
        intros H1 H2 H3 H4 H5 H6. apply C4; auto; apply ch_eq; cbn; lia.
      * rewrite !(DR_cons a a'), !(DE_cons a a'), !wR_cons, !wE_cons by (auto; lia). specialize (V3 c ltac:(lia)). lia.
Qed.

Definition ff (a : st) (w v : word) (j : Z) : bool := (DR a w v j =? 1) && (DE a w v j =? 0).
Lemma ff_cons a a' x w y v c : length w = length v -> nxt a x y = Some a' -> c <= wn w -> ff a (x :: w) (y :: v) c = ff a' w v c.
Proof. intros. unfold ff. rewrite (DR_cons a a'), (DE_cons a a') by auto. reflexivity. Qed.
Lemma ff_top a w v : length w = length v -> ff a w v (wn w) = match a with S3 => true | _ => false end.
Proof. intros Hl. unfold ff. destruct (D_top a w v Hl) as [-> ->]. destruct a; reflexivity. Qed.
Lemma ex_next a x y a' : nxt a x y = Some a' ->
  Z.of_nat (ex a x y) = if (match a with S3 => true | _ => false end) && negb (match a' with S3 => true | _ => false end) then 1 else 0.
Proof. destruct a, x, y; cbn; intros E; try discriminate; injection E as <-; reflexivity. Qed.

Definition corr (a : st) (w v : word) : Z :=
  match a with
  | S0 => 0
  | S1 => cE v + cE w - d
  | S2 => wn w + d - 1 - cE v
  | S3 => wn w + cE w
  end.

Lemma walk_spec m : forall a w v, length w = length v -> d <= zlen w -> wn w = Z.of_nat m ->
  (gvalid a w v <-> exists g x b, walk m a w v = Some (g, x, b)) /\
  (forall g x b skip, walk m a w v = Some (g, x, b) ->
     zlen (filter (starts (ff a w v) skip) (zrange 0 (wn w + 1))) =
       Z.of_nat x + (match b with S3 => if skip then 0 else 1 | _ => 0 end) /\
     chE b + cE (skipn m v) - cE (skipn m w) = chE a + cE v - cE w /\
     (chE a + cE v - cE w = 0 ->
      Z.of_nat g + (corr b (skipn m w) (skipn m v)) = size (wp v) - size (wp w) + corr a w v)).
Proof.
  induction m as [|m IH]; intros a w v Hl Hw Hm.
  - cbn [walk skipn]. rewrite Hm. change (Z.of_nat 0) with 0. split.
    + split; [intros _; eauto|]. intros _. split; [|split]; intros c Hc; try lia.
      replace c with (wn w) by lia. destruct (D_top a w v Hl) as [-> ->]. apply state_charge.
    + intros g x b skip E. injection E as <- <- <-. split; [|split; [lia|]].
      * rewrite (zrange_cons 0) by lia. rewrite zrange_nil by lia. cbn [filter]. unfold starts. cbn [Z.eqb].
        assert (Hf0 : ff a w v 0 = match a with S3 => true | _ => false end) by (rewrite <- (ff_top a w v Hl); f_equal; lia).
        rewrite Hf0. destruct a; cbn [andb]; try reflexivity.
        destruct skip; reflexivity.
      * intros _. rewrite !size_wp_base; auto; unfold Word.wn, zlen in *; lia.
  - destruct w as [|x w]; [unfold Word.wn in Hm; change (zlen (@nil letter)) with 0 in *; lia|].
    destruct v as [|y v]; [discriminate|]. rewrite wn_cons in Hm. rewrite zlen_cons in Hw. injection Hl as Hl.
    assert (Hw' : d <= zlen w) by (unfold Word.wn in *; lia).
    assert (Hv' : d <= zlen v) by (unfold zlen in *; lia).
    assert (Hn : wn w = Z.of_nat m) by lia. assert (Ewn : wn v = wn w) by (unfold Word.wn, zlen; lia).
    assert (Ezl : zlen v = zlen w) by (unfold zlen; lia).
    cbn [walk skipn]. split.
    + rewrite gvalid_cons by (auto; lia). split.
      * intros (a' & Ha & HV). rewrite Ha. apply (IH a' w v Hl Hw' Hn) in HV. destruct HV as (g & x0 & b & ->). eauto.
      * intros (g & x0 & b & E). destruct (nxt a x y) as [a'|]; [|discriminate]. exists a'. split; auto.
        apply (IH a' w v Hl Hw' Hn). destruct (walk m a' w v) as [[[g' x'] b']|]; [eauto|discriminate].
    + intros g x0 b skip E. destruct (nxt a x y) as [a'|] eqn:Ha; [|discriminate].
      destruct (walk m a' w v) as [[[g' x'] b']|] eqn:Ew; [|discriminate]. injection E as <- <- <-.
      destruct (proj2 (IH a' w v Hl Hw' Hn) _ _ _ skip Ew) as (I1 & I2 & I3).
      destruct (nxt_charge _ _ _ _ Ha) as (C1 & C2 & _).
      split; [|split].
      * rewrite wn_cons. rewrite (zrange_snoc 0 (wn w + 1 + 1)) by lia. replace (wn w + 1 + 1 - 1) with (wn w + 1) by lia.
        rewrite filter_app, zlen_app. cbn [filter].
        assert (Est : starts (ff a (x :: w) (y :: v)) skip (wn w + 1) = (match a with S3 => true | _ => false end) && negb (match a' with S3 => true | _ => false end)).
        { unfold starts. destruct (Z.eqb_spec (wn w + 1) 0); [lia|]. replace (wn w + 1 - 1) with (wn w) by lia.
          rewrite (ff_cons a a' x w y v (wn w)) by (auto; lia). rewrite ff_top by auto. rewrite <- (wn_cons d x w). rewrite ff_top by (cbn [length]; lia). reflexivity. }
        rewrite Est. rewrite (filter_ext_in _ (starts (ff a' w v) skip)).
        { rewrite I1. rewrite Nat2Z.inj_add, (ex_next a x y a' Ha). destruct (_ && _); [change (zlen [wn w + 1]) with 1|change (zlen (@nil Z)) with 0]; lia. }
        intros j Hj. apply in_zrange in Hj. unfold starts. rewrite !(ff_cons a a') by (auto; lia). destruct (j =? 0); auto;
          rewrite (ff_cons a a') by (auto; lia); reflexivity.
      * cbn [cE]. lia.
      * cbn [cE]. intros H0. rewrite Nat2Z.inj_add. specialize (I3 ltac:(lia)).
        rewrite !size_wp by auto. rewrite Ewn, Ezl. pose proof (cE_range w). pose proof (cE_range v).
        assert (Ezw : zlen w = wn w + d) by (unfold Word.wn; lia).
        clear IH Ew I1 I2 C1. revert I3. unfold corr. rewrite !wn_cons. rewrite Ezw.
        destruct a, x, y; try discriminate Ha; injection Ha as <-; cbn [dg isE chE cE] in *; intros I3; lia.
Qed.

End WW.
