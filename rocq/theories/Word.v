(** k-strict partitions as words in three letters.

    A word of [n + d] letters with [k] letters [E] describes a k-strict partition
    with at most [n + d - k] rows and [n + k] columns: read from the top, a letter
    [R] is a row of the greatest possible length, a letter [E] a column (among the
    first [k]) of the greatest possible height, a letter [L] is neither. *)

From Coq Require Import ZArith List Lia Bool.
From Verif Require Import Py PyFacts ModelPart Spec SpecPieri Enum FillFacts PartFacts ConjFacts PieriSet WArrow.
Import ListNotations.
Open Scope Z_scope.

Inductive letter := LE | LR | LL.
Definition word := list letter.
Definition isE (x : letter) : Z := match x with LE => 1 | _ => 0 end.
Definition isR (x : letter) : Z := match x with LR => 1 | _ => 0 end.
Fixpoint cE (w : word) : Z := match w with [] => 0 | x :: w' => isE x + cE w' end.
Fixpoint cR (w : word) : Z := match w with [] => 0 | x :: w' => isR x + cR w' end.

Lemma cE_range w : 0 <= cE w <= zlen w.
Proof. induction w as [|x w IH]; [cbn; lia|]. rewrite zlen_cons. cbn [cE]. destruct x; cbn [isE]; lia. Qed.
Lemma cR_range w : 0 <= cR w <= zlen w.
Proof. induction w as [|x w IH]; [cbn; lia|]. rewrite zlen_cons. cbn [cR]. destruct x; cbn [isR]; lia. Qed.

Section W.
Variable d : Z.
Hypothesis Hd : d = 0 \/ d = 1.

Fixpoint wp (w : word) : list Z :=
  match w with
  | [] => []
  | LR :: w' => let v := zlen w' + 1 - d + cE w' in if v =? 0 then wp w' else v :: wp w'
  | LE :: w' => map (fun j => part (wp w') (Z.to_nat j) + 1) (zrange 0 (zlen w' - cE w'))
  | LL :: w' => wp w'
  end.

Lemma part_map_succ l m j : is_partition l -> zlen l <= m -> 0 <= j ->
  part (map (fun j => part l (Z.to_nat j) + 1) (zrange 0 m)) (Z.to_nat j) = if j <? m then part l (Z.to_nat j) + 1 else 0.
Proof.
  intros Hl Hm Hj. destruct (Z.ltb_spec j m).
  - rewrite part_map_zrange by lia. rewrite Z2Nat.id by lia. reflexivity.
  - apply part_over. rewrite map_length, length_zrange. lia.
Qed.
Lemma partition_intro l : (forall j, 0 <= j < zlen l -> 0 < part l (Z.to_nat j)) ->
  (forall j, 0 <= j -> part l (Z.to_nat (j + 1)) <= part l (Z.to_nat j)) -> is_partition l.
Proof.
  intros H1 H2. split.
  - intros j Hj. specialize (H1 (Z.of_nat j)). rewrite Nat2Z.id in H1. apply H1. unfold zlen. lia.
  - intros j. specialize (H2 (Z.of_nat j) ltac:(lia)). replace (Z.to_nat (Z.of_nat j + 1)) with (S j) in H2 by lia.
    rewrite Nat2Z.id in H2. auto.
Qed.
Lemma kstrict_intro k l : (forall j, 0 <= j -> k < part l (Z.to_nat j) -> part l (Z.to_nat (j + 1)) < part l (Z.to_nat j)) -> kstrict k l.
Proof.
  intros H j Hj. specialize (H (Z.of_nat j) ltac:(lia)). replace (Z.to_nat (Z.of_nat j + 1)) with (S j) in H by lia.
  rewrite Nat2Z.id in H. auto.
Qed.
Lemma part_over_z l j : zlen l <= j -> part l (Z.to_nat j) = 0.
Proof. intros H. apply part_over. unfold zlen in H. lia. Qed.
Lemma part_dec_z l j : is_partition l -> 0 <= j -> part l (Z.to_nat (j + 1)) <= part l (Z.to_nat j).
Proof. intros [_ H] Hj. replace (Z.to_nat (j + 1)) with (S (Z.to_nat j)) by lia. apply H. Qed.
Lemma part_nn_z l j : is_partition l -> 0 <= part l (Z.to_nat j).
Proof. apply is_partition_nonneg. Qed.

Lemma wp_one x : d = 1 -> wp [x] = [].
Proof. intros E. destruct x; auto. cbn [wp cE]. cbv zeta. change (zlen (@nil letter)) with 0. rewrite E. reflexivity. Qed.

Definition wn (w : word) : Z := zlen w - d.

Lemma wp_E w : kstrict_in (cE w) (zlen w - cE w) (wn w + cE w) (wp w) ->
  kstrict_in (cE w + 1) (zlen w - cE w) (wn w + 1 + (cE w + 1)) (wp (LE :: w)).
Proof.
  intros ((Hp & Hr & Hc) & Hk). pose proof (cE_range w) as HE. cbn [wp]. set (l := wp w) in *. set (m := zlen w - cE w) in *.
  assert (Hlen : zlen (map (fun j => part l (Z.to_nat j) + 1) (zrange 0 m)) = m) by (apply zlen_map_zrange; lia).
  split; [split; [|split]|].
  - apply partition_intro.
    + rewrite Hlen. intros j Hj. rewrite part_map_succ by (auto; unfold zlen in *; lia). destruct (Z.ltb_spec j m); [|lia].
      pose proof (part_nn_z l j Hp). lia.
    + intros j Hj. rewrite !part_map_succ by (auto; unfold zlen in *; lia).
      pose proof (part_dec_z l j Hp Hj). pose proof (part_nn_z l j Hp). destruct (Z.ltb_spec (j + 1) m), (Z.ltb_spec j m); lia.
  - unfold zlen in Hlen. lia.
  - pose proof (part_map_succ l m 0 Hp ltac:(unfold zlen in *; lia) ltac:(lia)) as E0. change (Z.to_nat 0) with 0%nat in E0. rewrite E0.
    unfold wn in *. destruct (0 <? m); lia.
  - apply kstrict_intro. intros j Hj. rewrite !part_map_succ by (auto; unfold zlen in *; lia).
    specialize (Hk (Z.to_nat j)). replace (S (Z.to_nat j)) with (Z.to_nat (j + 1)) in Hk by lia.
    destruct (Z.ltb_spec (j + 1) m), (Z.ltb_spec j m); lia.
Qed.

Lemma wp_kstrict w : d <= zlen w -> kstrict_in (cE w) (zlen w - cE w) (wn w + cE w) (wp w).
Proof.
  induction w as [|x w IH]; intros Hw.
  - unfold wn. change (zlen (@nil letter)) with 0 in *. cbn [cE wp]. split; [split; [|split]|].
    + split; [simpl; lia|]. intros j. unfold part. destruct j; simpl; lia.
    + simpl. lia.
    + unfold part. simpl. lia.
    + intros j. unfold part. destruct j; simpl; lia.
  - rewrite zlen_cons in Hw. pose proof (cE_range w) as HE. pose proof (zlen_nonneg w) as Hz.
    destruct (Z_lt_le_dec (zlen w) d) as [Hlt|Hge].
    { assert (w = []) by (destruct w; auto; rewrite zlen_cons in Hlt; pose proof (zlen_nonneg w); lia). subst w.
      change (zlen (@nil letter)) with 0 in *.
      assert (d = 1) by lia. assert (E1 : wp [x] = []) by (apply wp_one; auto).
      rewrite E1. unfold wn. cbn [cE]. change (zlen [x]) with 1. destruct x; cbn [isE]; (split; [split; [|split]|]).
      all: try (split; [simpl; lia|]); try (intros j; unfold part; destruct j; simpl; lia); unfold part; cbn [nth length]; lia. }
    specialize (IH Hge). rewrite zlen_cons. unfold wn in *. rewrite zlen_cons. destruct x; cbn [cE isE].
    + pose proof (wp_E w IH) as H. unfold wn in H. 
      replace (1 + cE w) with (cE w + 1) by lia. replace (zlen w + 1 - (cE w + 1)) with (zlen w - cE w) by lia.
      replace (zlen w + 1 - d + (cE w + 1)) with (zlen w - d + 1 + (cE w + 1)) by lia. exact H.
    + cbn [wp]. cbv zeta. destruct (Z.eqb_spec (zlen w + 1 - d + cE w) 0); [lia|].
      destruct IH as ((Hp & Hr & Hc) & Hk). set (l := wp w) in *. pose proof (fun j => is_partition_nonneg l j Hp) as Hnn.
      split; [split; [|split]|].
      * split.
        -- intros [|j] Hj; unfold part in *; simpl in *; [lia|]. apply Hp. lia.
        -- intros [|j]; unfold part in *; simpl in *; [lia|]. apply Hp.
      * cbn [length]. lia.
      * unfold part. simpl. lia.
      * intros [|j] Hj; unfold part in *; cbn [nth] in *; [lia|]. apply (Hk j). unfold part. lia.
    + cbn [wp]. destruct IH as ((Hp & Hr & Hc) & Hk). split; [split; [auto|split; lia]|auto].
Qed.

(** ** the bonds of a word *)
Definition wR (w : word) (c : Z) : Z := cR (firstn (Z.to_nat (wn w - c)) w).
Definition wE (w : word) (c : Z) : Z := cE (firstn (Z.to_nat (wn w - c)) w).

Lemma wR_cons x w c : c <= wn w -> wR (x :: w) c = isR x + wR w c.
Proof. intros H. unfold wR, wn in *. rewrite zlen_cons. replace (Z.to_nat (zlen w + 1 - d - c)) with (S (Z.to_nat (zlen w - d - c))) by lia. reflexivity. Qed.
Lemma wE_cons x w c : c <= wn w -> wE (x :: w) c = isE x + wE w c.
Proof. intros H. unfold wE, wn in *. rewrite zlen_cons. replace (Z.to_nat (zlen w + 1 - d - c)) with (S (Z.to_nat (zlen w - d - c))) by lia. reflexivity. Qed.
Lemma wR_top w : wR w (wn w) = 0.
Proof. unfold wR. rewrite Z.sub_diag. reflexivity. Qed.
Lemma wE_top w : wE w (wn w) = 0.
Proof. unfold wE. rewrite Z.sub_diag. reflexivity. Qed.
Lemma wn_cons x w : wn (x :: w) = wn w + 1.
Proof. unfold wn. rewrite zlen_cons. lia. Qed.

Lemma tc_cons v l i : is_partition l -> 0 <= i -> tc (v :: l) i = tc l i + (if i <? v then 1 else 0).
Proof. intros _ _. unfold tc, count_ge. cbn [filter]. destruct (Z.leb_spec (i + 1) v), (Z.ltb_spec i v); cbn [length]; lia. Qed.

Lemma tc_eq l i m : is_partition l -> 0 <= i -> 0 <= m -> (forall r, 0 <= r -> (r < m <-> i < part l (Z.to_nat r))) -> tc l i = m.
Proof.
  intros Hl Hi Hm H. pose proof (tc_nonneg l i) as H0.
  pose proof (tc_iff 0 0 0 l i (tc l i) Hl Hi ltac:(lia)) as H1. pose proof (tc_iff 0 0 0 l i m Hl Hi ltac:(lia)) as H2.
  pose proof (H (tc l i) ltac:(lia)). pose proof (H m ltac:(lia)). lia.
Qed.

Lemma wbonds_base x w : zlen w < d -> bonds (cE (x :: w)) (wn (x :: w)) d (wp (x :: w)) (wR (x :: w)) (wE (x :: w)).
Proof.
  intros Hlt. pose proof (zlen_nonneg w).
  assert (w = []) by (destruct w; auto; rewrite zlen_cons in Hlt; pose proof (zlen_nonneg w); lia). subst w.
  change (zlen (@nil letter)) with 0 in *. assert (d = 1) by lia.
  assert (E1 : wp [x] = []) by (apply wp_one; auto).
  rewrite E1. assert (En : wn [x] = 0) by (unfold wn; change (zlen [x]) with 1; lia). rewrite En.
  assert (ER : forall c, 0 <= c -> wR [x] c = 0 /\ wE [x] c = 0).
  { intros c Hc. unfold wR, wE. rewrite En. replace (Z.to_nat (0 - c)) with 0%nat by lia. split; reflexivity. }
  assert (Eb : forall k r, 0 <= k -> bt k [] r = 0) by (intros k r Hk; unfold bt, part; destruct (Z.to_nat r); simpl; lia).
  assert (Hk : 0 <= cE [x] <= 1) by (destruct x; cbn; lia).
  split; [|split; [|split; [|split]]].
  - intros c r Hc Hr. destruct (ER c ltac:(lia)) as [-> _]. rewrite Eb by lia. lia.
  - intros c i Hc Hi. destruct (ER c ltac:(lia)) as [-> ->]. unfold TT. change (tc [] i) with 0. lia.
  - intros c Hc. destruct (ER c ltac:(lia)) as [-> ->]. lia.
  - intros c Hc. lia.
  - apply ER. lia.
Qed.

Lemma wbonds w : d <= zlen w -> bonds (cE w) (wn w) d (wp w) (wR w) (wE w).
Proof.
  induction w as [|x w IH]; intros Hw.
  - assert (d = 0) by (change (zlen (@nil letter)) with 0 in Hw; lia). assert (En : wn [] = 0) by (unfold wn; change (zlen (@nil letter)) with 0; lia). rewrite En. cbn [cE wp].
    assert (E0 : forall c, wR [] c = 0 /\ wE [] c = 0).
    { intros c. unfold wR, wE. rewrite firstn_nil. split; reflexivity. }
    split; [|split; [|split; [|split]]].
    + intros c r Hc Hr. destruct (E0 c) as [-> _]. unfold bt, part. destruct (Z.to_nat r); simpl; lia.
    + intros c i Hc Hi. lia.
    + intros c Hc. destruct (E0 c) as [-> ->]. lia.
    + intros c Hc. lia.
    + apply E0.
  - destruct (Z_lt_le_dec (zlen w) d) as [Hlt|Hge]; [apply wbonds_base; auto|].
    specialize (IH Hge). pose proof (wp_kstrict w Hge) as HK. pose proof (cE_range w) as HE.
    set (n' := wn w) in *. assert (Hn' : 0 <= n') by (unfold n', wn; lia).
    assert (Hzl : zlen w = n' + d) by (unfold n', wn; lia).
    destruct HK as ((Hp & Hr & Hc) & Hk). destruct IH as (I1 & I2 & I3 & I4 & I5 & I6).
    assert (Hbt : forall r, 0 <= r -> bt (cE w) (wp w) r <= n').
    { intros r Hr0. specialize (I1 n' r ltac:(lia) Hr0). lia. }
    assert (HT : forall i, 0 <= i < cE w -> TT (cE w) d (wp w) i < n').
    { intros i Hi. specialize (I2 n' i ltac:(lia) Hi). lia. }
    assert (Etop : forall c, c <= n' + 1 -> (c <= n' -> wR (x :: w) c = isR x + wR w c /\ wE (x :: w) c = isE x + wE w c) /\
       (c = n' + 1 -> wR (x :: w) c = 0 /\ wE (x :: w) c = 0)).
    { intros c Hc0. split.
      - intros H. split; [apply wR_cons|apply wE_cons]; auto.
      - intros ->. unfold n'. rewrite <- (wn_cons x w). split; [apply wR_top|apply wE_top]. }
    assert (Hx : 0 <= isR x /\ 0 <= isE x /\ isR x + isE x <= 1) by (destruct x; cbn; lia).
    rewrite wn_cons. fold n'.
    assert (G3 : forall c, 0 <= c <= n' + 1 -> 0 <= wR (x :: w) c /\ 0 <= wE (x :: w) c <= cE (x :: w)).
    { intros c Hc0. destruct (Etop c ltac:(lia)) as [Q1 Q2]. cbn [cE]. destruct (Z.eq_dec c (n' + 1)) as [E|E].
      - destruct (Q2 E) as [-> ->]. lia.
      - destruct (Q1 ltac:(lia)) as [-> ->]. specialize (I3 c ltac:(lia)). lia. }
    assert (G4 : forall c, 0 < c <= n' + 1 -> 0 <= wR (x :: w) (c - 1) - wR (x :: w) c /\ 0 <= wE (x :: w) (c - 1) - wE (x :: w) c /\
      (wR (x :: w) (c - 1) - wR (x :: w) c) + (wE (x :: w) (c - 1) - wE (x :: w) c) <= 1).
    { intros c Hc0. destruct (Etop c ltac:(lia)) as [Q1 Q2]. destruct (Etop (c - 1) ltac:(lia)) as [Q3 _].
      destruct (Q3 ltac:(lia)) as [-> ->]. destruct (Z.eq_dec c (n' + 1)) as [E|E].
      - destruct (Q2 E) as [-> ->]. replace (c - 1) with n' by lia. lia.
      - destruct (Q1 ltac:(lia)) as [-> ->]. specialize (I4 c ltac:(lia)). lia. }
    assert (G5 : wR (x :: w) (n' + 1) = 0 /\ wE (x :: w) (n' + 1) = 0) by (apply (Etop (n' + 1)); lia).
    assert (Hmono : forall c, 0 <= c <= n' -> c + wR w c <= n').
    { intros c Hc0. assert (G : forall m, 0 <= m -> m <= n' -> n' - m + wR w (n' - m) <= n').
      { apply (natlike_ind (fun m => m <= n' -> n' - m + wR w (n' - m) <= n')).
        - intros _. replace (n' - 0) with n' by lia. lia.
        - intros m Hm IHm Hle. specialize (IHm ltac:(lia)). specialize (I4 (n' - m) ltac:(lia)).
          replace (n' - m - 1) with (n' - Z.succ m) in I4 by lia. lia. }
      specialize (G (n' - c) ltac:(lia) ltac:(lia)). replace (n' - (n' - c)) with c in G by lia. auto. }
    assert (GG : (forall c r, 0 <= c <= n' + 1 -> 0 <= r -> c < bt (cE (x :: w)) (wp (x :: w)) r <-> r < wR (x :: w) c) /\
                 (forall c i, 0 <= c <= n' + 1 -> 0 <= i < cE (x :: w) -> c + wR (x :: w) c <= TT (cE (x :: w)) d (wp (x :: w)) i <-> i < wE (x :: w) c)).
    { destruct x; cbn [cE isE isR] in *.
      - (* E *)
        set (m := zlen w - cE w). assert (Hrm : zlen (wp w) <= m) by (exact Hr). assert (Hpart : forall j, 0 <= j -> part (wp (LE :: w)) (Z.to_nat j) = if j <? m then part (wp w) (Z.to_nat j) + 1 else 0).
        { intros j Hj. cbn [wp]. apply part_map_succ; auto. }
        assert (Hover : forall j, m <= j -> part (wp w) (Z.to_nat j) = 0) by (intros j Hj; apply part_over_z; lia).
        assert (Hbte : forall r, 0 <= r -> bt (1 + cE w) (wp (LE :: w)) r = bt (cE w) (wp w) r).
        { intros r Hr0. unfold bt. rewrite Hpart by auto. destruct (Z.ltb_spec r m); [lia|]. rewrite (Hover r) by lia. lia. }
        pose proof (wp_E w (conj (conj Hp (conj Hr Hc)) Hk)) as ((HpE & _ & _) & _).
        assert (Htc0 : tc (wp (LE :: w)) 0 = m).
        { apply tc_eq; auto; [lia|unfold m; lia|]. intros r Hr0. rewrite Hpart by auto. pose proof (part_nn_z (wp w) r Hp). destruct (Z.ltb_spec r m); lia. }
        assert (HtcS : forall i, 0 <= i -> tc (wp (LE :: w)) (i + 1) = tc (wp w) i).
        { intros i Hi. apply tc_eq; auto; [lia|apply tc_nonneg|]. intros r Hr0. rewrite Hpart by auto. rewrite (tc_iff 0 0 0 (wp w) i r Hp Hi Hr0).
          destruct (Z.ltb_spec r m); [lia|]. rewrite (Hover r) by lia. lia. }
        split.
        + intros c r Hc0 Hr0. rewrite Hbte by auto. destruct (Etop c ltac:(lia)) as [Q1 Q2]. destruct (Z.eq_dec c (n' + 1)) as [E|E].
          * destruct (Q2 E) as [-> _]. specialize (Hbt r Hr0). lia.
          * destruct (Q1 ltac:(lia)) as [-> _]. rewrite I1 by lia. reflexivity.
        + intros c i Hc0 Hi. destruct (Etop c ltac:(lia)) as [Q1 Q2].
          assert (ETT : TT (1 + cE w) d (wp (LE :: w)) i = if i =? 0 then n' else TT (cE w) d (wp w) (i - 1)).
          { unfold TT. destruct (Z.eqb_spec i 0) as [->|Hi0]; [rewrite Htc0; unfold m; lia|].
            replace i with (i - 1 + 1) at 1 by lia. rewrite HtcS by lia. lia. }
          rewrite ETT. destruct (Z.eqb_spec i 0) as [->|Hi0].
          * destruct (Z.eq_dec c (n' + 1)) as [E|E]; [destruct (Q2 E) as [-> ->]; lia|].
            destruct (Q1 ltac:(lia)) as [-> ->]. specialize (Hmono c ltac:(lia)). specialize (I3 c ltac:(lia)). lia.
          * destruct (Z.eq_dec c (n' + 1)) as [E|E]; [destruct (Q2 E) as [-> ->]; specialize (HT (i - 1) ltac:(lia)); lia|].
            destruct (Q1 ltac:(lia)) as [-> ->]. specialize (I2 c (i - 1) ltac:(lia) ltac:(lia)). lia.
      - (* R *)
        assert (Ew : wp (LR :: w) = (n' + 1 + cE w) :: wp w).
        { cbn [wp]. cbv zeta. destruct (Z.eqb_spec (zlen w + 1 - d + cE w) 0); [lia|]. f_equal. lia. }
        rewrite Ew. split.
        + intros c r Hc0 Hr0. destruct (Etop c ltac:(lia)) as [Q1 Q2].
          assert (Eb : bt (0 + cE w) (n' + 1 + cE w :: wp w) r = if r =? 0 then n' + 1 else bt (cE w) (wp w) (r - 1)).
          { unfold bt, part. destruct (Z.eqb_spec r 0) as [->|]; [simpl; lia|].
            replace (Z.to_nat r) with (S (Z.to_nat (r - 1))) by lia. simpl nth. lia. }
          rewrite Eb. destruct (Z.eq_dec c (n' + 1)) as [E|E].
          * destruct (Q2 E) as [-> _]. destruct (Z.eqb_spec r 0); [lia|]. specialize (Hbt (r - 1) ltac:(lia)). lia.
          * destruct (Q1 ltac:(lia)) as [-> _]. specialize (I3 c ltac:(lia)). destruct (Z.eqb_spec r 0) as [->|]; [lia|].
            specialize (I1 c (r - 1) ltac:(lia) ltac:(lia)). lia.
        + intros c i Hc0 Hi. destruct (Etop c ltac:(lia)) as [Q1 Q2].
          assert (ETT : TT (0 + cE w) d (n' + 1 + cE w :: wp w) i = TT (cE w) d (wp w) i + 1).
          { unfold TT. rewrite tc_cons by (auto; lia). destruct (Z.ltb_spec i (n' + 1 + cE w)); lia. }
          rewrite ETT. destruct (Z.eq_dec c (n' + 1)) as [E|E].
          * destruct (Q2 E) as [-> ->]. specialize (HT i ltac:(lia)). lia.
          * destruct (Q1 ltac:(lia)) as [-> ->]. specialize (I2 c i ltac:(lia) ltac:(lia)). lia.
      - (* L *)
        cbn [wp]. change (0 + cE w) with (cE w). split.
        + intros c r Hc0 Hr0. destruct (Etop c ltac:(lia)) as [Q1 Q2]. destruct (Z.eq_dec c (n' + 1)) as [E|E].
          * destruct (Q2 E) as [-> _]. specialize (Hbt r Hr0). lia.
          * destruct (Q1 ltac:(lia)) as [-> _]. rewrite I1 by lia. reflexivity.
        + intros c i Hc0 Hi. destruct (Etop c ltac:(lia)) as [Q1 Q2]. destruct (Z.eq_dec c (n' + 1)) as [E|E].
          * destruct (Q2 E) as [-> ->]. specialize (HT i ltac:(lia)). lia.
          * destruct (Q1 ltac:(lia)) as [-> ->]. specialize (I2 c i ltac:(lia) ltac:(lia)). lia. }
    destruct GG as [G1 G2]. exact (conj G1 (conj G2 (conj G3 (conj G4 G5)))).
Qed.

(** ** sizes *)
Lemma size_map_succ l m : is_partition l -> zlen l <= m -> size (map (fun j => part l (Z.to_nat j) + 1) (zrange 0 m)) = size l + m.
Proof.
  intros _ Hm. pose proof (zlen_nonneg l) as H0.
  assert (G : forall (l : list Z) a m, zlen l <= m -> size (map (fun j => part l (Z.to_nat (j - a)) + 1) (zrange a (a + m))) = size l + m).
  { clear. induction l as [|x l IH]; intros a m Hm.
    - change (zlen (@nil Z)) with 0 in Hm. change (size []) with 0. revert a. pattern m. apply natlike_ind; auto; clear.
      + intros a. rewrite zrange_nil by lia. reflexivity.
      + intros m Hm IH a. rewrite zrange_cons by lia. cbn [map size fold_right]. fold (size (map (fun j : Z => part [] (Z.to_nat (j - a)) + 1) (zrange (a + 1) (a + Z.succ m)))).
        replace (a + Z.succ m) with (a + 1 + m) by lia. specialize (IH (a + 1)).
        rewrite <- (map_ext_in (fun j => part [] (Z.to_nat (j - (a + 1))) + 1)) by (intros j _; unfold part; destruct (Z.to_nat (j - a)), (Z.to_nat (j - (a + 1))); reflexivity).
        rewrite IH. unfold part. destruct (Z.to_nat (a - a)); cbn [nth]; lia.
    - rewrite zlen_cons in Hm. pose proof (zlen_nonneg l). rewrite zrange_cons by lia. cbn [map size fold_right].
      fold (size l). fold (size (map (fun j : Z => part (x :: l) (Z.to_nat (j - a)) + 1) (zrange (a + 1) (a + m)))).
      specialize (IH (a + 1) (m - 1) ltac:(lia)). replace (a + 1 + (m - 1)) with (a + m) in IH by lia.
      rewrite <- (map_ext_in (fun j => part l (Z.to_nat (j - (a + 1))) + 1)).
      + rewrite IH. replace (part (x :: l) (Z.to_nat (a - a))) with x by (rewrite Z.sub_diag; reflexivity). lia.
      + intros j Hj. apply in_zrange in Hj. replace (Z.to_nat (j - a)) with (S (Z.to_nat (j - (a + 1)))) by lia. reflexivity. }
  specialize (G l 0 m Hm). rewrite (map_ext_in _ (fun j => part l (Z.to_nat (j - 0)) + 1)); [exact G|].
  intros j _. rewrite Z.sub_0_r. reflexivity.
Qed.
Lemma size_wp x w : d <= zlen w ->
  size (wp (x :: w)) = size (wp w) + match x with LE => zlen w - cE w | LR => wn w + 1 + cE w | LL => 0 end.
Proof.
  intros Hw. pose proof (wp_kstrict w Hw) as ((Hp & Hr & _) & _). pose proof (cE_range w). destruct x; cbn [wp].
  - rewrite size_map_succ by (auto; unfold zlen in *; lia). reflexivity.
  - cbv zeta. destruct (Z.eqb_spec (zlen w + 1 - d + cE w) 0); [lia|]. cbn [size fold_right]. fold (size (wp w)). unfold wn. lia.
  - lia.
Qed.
Lemma size_wp_base w : zlen w = d -> size (wp w) = 0.
Proof.
  intros H. destruct w as [|x w]; [reflexivity|]. rewrite zlen_cons in H. pose proof (zlen_nonneg w).
  assert (w = []) by (destruct w; auto; rewrite zlen_cons in H; pose proof (zlen_nonneg w); lia). subst w.
  change (zlen (@nil letter)) with 0 in *. rewrite wp_one by lia. reflexivity.
Qed.

(** ** every partition has a word *)
Lemma strict_len l : is_partition l -> kstrict 0 l -> zlen l <= part l 0.
Proof.
  induction l as [|x l IH]; intros Hp Hk; [unfold part; cbn; lia|].
  rewrite zlen_cons. 
  assert (Hp' : is_partition l).
  { destruct Hp as [A B]. split; [intros j Hj; apply (A (S j)); simpl; lia|intros j; apply (B (S j))]. }
  assert (Hk' : kstrict 0 l) by (intros j Hj; apply (Hk (S j)); auto).
  specialize (IH Hp' Hk'). specialize (Hk 0%nat). destruct Hp as [A _]. specialize (A 0%nat ltac:(cbn; lia)).
  change (part (x :: l) 1) with (part l 0) in Hk. lia.
Qed.

Lemma word_exists m : 0 <= m -> forall k l, d <= m -> 0 <= k <= m -> kstrict_in k (m - k) (m - d + k) l ->
  exists w, zlen w = m /\ cE w = k /\ wp w = l.
Proof.
  intros Hm. pattern m. apply natlike_ind; auto; clear m Hm.
  - intros k l H0 Hk ((Hp & Hr & _) & _). exists []. split; [reflexivity|]. split; [cbn; lia|]. destruct l; auto. cbn [length] in Hr. lia.
  - intros m Hm IH k l Hdm Hk ((Hp & Hr & Hc) & Hs).
    destruct (Z_lt_le_dec m d) as [Hlt|Hge].
    { assert (Hm0 : m = 0) by lia. assert (Hd1 : d = 1) by lia. subst m. assert (l = []).
      { destruct l as [|x l]; auto. cbn [length] in Hr. destruct Hp as [A _]. specialize (A 0%nat ltac:(simpl; lia)). assert (k = 0) by lia. lia. }
      subst l. destruct (Z.eq_dec k 0) as [->|]; [exists [LL]|exists [LE]]; (split; [reflexivity|split; [cbn; lia|apply wp_one; auto]]). }
    destruct (Z.eq_dec (part l 0) (Z.succ m - d + k)) as [Etop|Etop].
    + destruct l as [|x l]; [unfold part in Etop; simpl in Etop; lia|]. change (part (x :: l) 0) with x in Etop.
      assert (Hp' : is_partition l).
      { destruct Hp as [A B]. split; [intros j Hj; apply (A (S j)); simpl; lia|intros j; apply (B (S j))]. }
      destruct (IH k l Hge) as (w & W1 & W2 & W3).
      { cbn [length] in Hr. lia. }
      { split; [split; [auto|split; [cbn [length] in Hr; lia|]]|intros j Hj; apply (Hs (S j)); auto].
        specialize (Hs 0%nat). unfold part in *. simpl in *. lia. }
      exists (LR :: w). rewrite zlen_cons. split; [lia|]. split; [cbn; lia|]. cbn [wp]. cbv zeta.
      destruct (Z.eqb_spec (zlen w + 1 - d + cE w) 0); [lia|]. rewrite W3. f_equal. lia.
    + destruct (Z.eq_dec k 0) as [->|Hk0].
      * destruct (IH 0 l Hge ltac:(lia)) as (w & W1 & W2 & W3).
        { split; [split; [auto|split; [|lia]]|auto]. pose proof (strict_len l Hp Hs). unfold zlen in *. lia. }
        exists (LL :: w). rewrite zlen_cons. split; [lia|]. split; [cbn; lia|]. auto.
      * destruct (Z.eq_dec (zlen l) (Z.succ m - k)) as [El|El].
        -- (* remove a column *)
           set (l' := part_clip (map (fun x => x - 1) l)).
           assert (Hpart : forall j, 0 <= j -> part l' (Z.to_nat j) = if j <? zlen l then part l (Z.to_nat j) - 1 else 0).
           { intros j Hj. unfold l'. rewrite part_clip_part. unfold part. destruct (Z.ltb_spec j (zlen l)).
             - rewrite (nth_indep _ 0 (0 - 1)) by (rewrite map_length; unfold zlen in *; lia). rewrite (map_nth (fun x => x - 1)). reflexivity.
             - apply nth_overflow. rewrite map_length. unfold zlen in *. lia. }
           assert (Hpos : forall j, 0 <= j < zlen l -> 1 <= part l (Z.to_nat j)).
           { intros j Hj. destruct Hp as [A _]. specialize (A (Z.to_nat j)). unfold zlen in *. lia. }
           assert (Hl' : is_partition l').
           { apply (decp_is_partition (part l 0)); [apply is_partition_nonneg; auto|].
             apply decp_part; [apply is_partition_nonneg; auto|].
             assert (Ej : forall j, part (map (fun x => x - 1) l) j = if Z.of_nat j <? zlen l then part l j - 1 else 0).
             { intros j. specialize (Hpart (Z.of_nat j) ltac:(lia)). unfold l' in Hpart. rewrite part_clip_part, Nat2Z.id in Hpart. auto. }
             split; [|split].
             - intros j _. rewrite Ej. specialize (Hpos (Z.of_nat j)). rewrite Nat2Z.id in Hpos. destruct (Z.ltb_spec (Z.of_nat j) (zlen l)); lia.
             - intros j. left. rewrite !Ej. specialize (Hpos (Z.of_nat j)). rewrite Nat2Z.id in Hpos. destruct Hp as [_ B]. specialize (B j).
               destruct (Z.ltb_spec (Z.of_nat j) (zlen l)), (Z.ltb_spec (Z.of_nat (S j)) (zlen l)); lia.
             - rewrite Ej. pose proof (is_partition_nonneg l 0%nat Hp). destruct (Z.ltb_spec (Z.of_nat 0) (zlen l)); lia. }
           assert (Hlen' : zlen l' <= zlen l).
           { unfold l'. pose proof (zlen_clip (map (fun x => x - 1) l)) as H9. unfold zlen in *. rewrite map_length in H9. lia. }
           destruct (IH (k - 1) l' Hge ltac:(lia)) as (w & W1 & W2 & W3).
           { split; [split; [auto|split]|].
             - unfold zlen in *. lia.
             - specialize (Hpart 0 ltac:(lia)). change (Z.to_nat 0) with 0%nat in Hpart. rewrite Hpart. destruct (0 <? zlen l); lia.
             - apply kstrict_intro. intros j Hj. rewrite !Hpart by lia. specialize (Hs (Z.to_nat j)).
               replace (S (Z.to_nat j)) with (Z.to_nat (j + 1)) in Hs by lia. pose proof (Hpos j).
               destruct (Z.ltb_spec (j + 1) (zlen l)), (Z.ltb_spec j (zlen l)); try lia. }
           exists (LE :: w). rewrite zlen_cons. split; [lia|]. split; [cbn [cE isE]; lia|]. cbn [wp]. rewrite W3.
           apply (nth_ext _ _ 0 0).
           { rewrite map_length, length_zrange. unfold zlen in *. lia. }
           intros j Hj. rewrite map_length, length_zrange in Hj. fold (part l j).
           change (nth j (map (fun j => part l' (Z.to_nat j) + 1) (zrange 0 (zlen w - cE w))) 0) with (part (map (fun j => part l' (Z.to_nat j) + 1) (zrange 0 (zlen w - cE w))) j).
           rewrite part_map_zrange by lia. rewrite Hpart by lia. rewrite Nat2Z.id. destruct (Z.ltb_spec (Z.of_nat j) (zlen l)); [lia|unfold zlen in *; lia].
        -- destruct (IH k l Hge) as (w & W1 & W2 & W3).
           { unfold zlen in *. lia. }
           { split; [split; [auto|split; [unfold zlen in *; lia|lia]]|auto]. }
           exists (LL :: w). rewrite zlen_cons. split; [lia|]. split; [cbn; lia|]. auto.
Qed.

End W.
