(** [count_comps] counts connected components. *)

From Coq Require Import ZArith List Lia Bool.
From Verif Require Import Py PyFacts ModelPart ModelQcalc Spec SpecPieri Enum FillFacts PartFacts ConjFacts
  PairFacts BetwFacts PieriSet PieriBKT.
Import ListNotations.
Open Scope Z_scope.

(** ** assignments along a range *)
Lemma set_range_ok v m : forall a b c, Z.to_nat (b - a) = m -> 0 <= a -> b <= zlen c ->
  exists c', set_range v c (zrange a b) = Ok c' /\ zlen c' = zlen c /\
    forall j, 0 <= j < zlen c -> gz c' j = if (a <=? j) && (j <? b) then v else gz c j.
Proof.
  induction m as [|m IH]; intros a b c Hm Ha Hb.
  - rewrite zrange_nil by lia. exists c. split; [reflexivity|]. split; auto. intros j Hj.
    destruct (a <=? j) eqn:E1, (j <? b) eqn:E2; simpl; auto; lia.
  - rewrite zrange_cons by lia. unfold set_range. cbn [foldM].
    destruct (gz_set c a v ltac:(lia)) as (c1 & E1 & L1 & G1). rewrite E1. cbn [bind].
    destruct (IH (a + 1) b c1 ltac:(lia) ltac:(lia) ltac:(lia)) as (c2 & E2 & L2 & G2).
    exists c2. split; [exact E2|]. split; [lia|]. intros j Hj. rewrite G2 by lia. rewrite G1 by lia.
    destruct (Z.leb_spec (a + 1) j), (Z.leb_spec a j), (Z.ltb_spec j b), (Z.eqb_spec j a); simpl; auto; lia.
Qed.

(** ** counting the beginnings of runs of ones *)
Definition starts (f : Z -> bool) (skip : bool) (j : Z) : bool :=
  f j && negb (if j =? 0 then skip else f (j - 1)).
Lemma count_ones_ok comps skip len : 0 <= len <= zlen comps ->
  count_ones comps skip len = Ok (zlen (filter (starts (fun j => gz comps j =? 1) skip) (zrange 0 len))).
Proof.
  intros Hlen. unfold count_ones. set (f := fun j => gz comps j =? 1).
  set (body := fun st j => let '(r, incomp) := st in c <- py_get comps j ;;
             Ok (if (c =? 1) && negb incomp then r + 1 else r, c =? 1)).
  assert (G : forall m, 0 <= m -> m <= len ->
    foldM body (zrange 0 m) (0, skip) =
    Ok (zlen (filter (starts f skip) (zrange 0 m)), if m =? 0 then skip else f (m - 1))).
  { apply (natlike_ind (fun m => m <= len -> foldM body (zrange 0 m) (0, skip) =
      Ok (zlen (filter (starts f skip) (zrange 0 m)), if m =? 0 then skip else f (m - 1)))).
    - intros _. reflexivity.
    - intros m Hm IH Hle. rewrite (zrange_snoc 0 (Z.succ m)) by lia. replace (Z.succ m - 1) with m by lia.
      rewrite foldM_app, IH by lia. cbn [bind foldM]. unfold body at 1.
      rewrite gz_get by lia. cbn [bind]. rewrite filter_app, zlen_app. cbn [filter].
      change (gz comps m =? 1) with (f m). destruct (Z.eqb_spec (Z.succ m) 0); [lia|].
      change (f m && negb (if m =? 0 then skip else f (m - 1))) with (starts f skip m).
      replace (Z.succ m - 1) with m by lia.
      destruct (starts f skip m); [rewrite zlen_one|change (zlen (@nil Z)) with 0]; f_equal; f_equal; lia. }
  rewrite (G len) by lia. reflexivity.
Qed.

Section CC.
Variables (k n d : Z) (lam mu : list Z).
Hypothesis Hk : 0 <= k.
Hypothesis Hd : d = 0 \/ d = 1.
Hypothesis HL : kstrict_in k (n + d - k) (n + k) lam.
Hypothesis HM : kstrict_in k (n + d - k) (n + k) mu.
Hypothesis HP : prel k d lam mu.

Notation t := (tc lam).
Notation u := (tc mu).
Notation bl := (bt k lam).
Notation bm := (bt k mu).
Notation T := (TT k d lam).
Notation b := (bI k d lam).
Notation L := (lb k lam).
Notation L2 := (lb k mu).
Let pl : is_partition lam := proj1 (proj1 HL).
Let pm : is_partition mu := proj1 (proj1 HM).

Definition bc (i : Z) : Z := Z.min (b i) (L2 - 1).
Definition U (i : Z) : Z := u i + k - (i + 1) - d.
Definition rowcol (j : Z) : Prop := exists r, 0 <= r < L2 /\ bl r <= j < bm r.
Definition marked (m j : Z) : Prop := exists i, 0 <= i < m /\ u i <= t i /\ U i - bc i <= j <= T i - bc i.

Lemma bm_pos r : 0 <= r -> (0 < bm r <-> r < L2).
Proof. intros. apply (bt_pos k n d); auto. Qed.
Lemma bl_pos r : 0 <= r -> (0 < bl r <-> r < L).
Proof. intros. apply (bt_pos k n d); auto. Qed.
Lemma bm_mono r s : 0 <= r <= s -> bm s <= bm r.
Proof.
  intros H. assert (G : forall x, 0 <= x -> bm (r + x) <= bm r).
  { apply natlike_ind; [replace (r + 0) with r by lia; lia|]. intros x Hx IH.
    pose proof (bt_weak k n d mu (r + x) pm ltac:(lia)). replace (r + Z.succ x) with (r + x + 1) by lia. lia. }
  specialize (G (s - r) ltac:(lia)). replace (r + (s - r)) with s in G by lia. auto.
Qed.
Lemma bl_mono' r s : 0 <= r <= s -> bl s <= bl r.
Proof.
  intros H. assert (G : forall x, 0 <= x -> bl (r + x) <= bl r).
  { apply natlike_ind; [replace (r + 0) with r by lia; lia|]. intros x Hx IH.
    pose proof (bt_weak k n d lam (r + x) pl ltac:(lia)). replace (r + Z.succ x) with (r + x + 1) by lia. lia. }
  specialize (G (s - r) ltac:(lia)). replace (r + (s - r)) with s in G by lia. auto.
Qed.
Lemma HB r : 0 <= r -> bl r <= bm r /\ bm (r + 1) <= bl r.
Proof. apply HP. Qed.
Lemma L2_range : L <= L2 <= L + 1.
Proof.
  pose proof (lb_nonneg k lam). pose proof (lb_nonneg k mu). split.
  - destruct (Z.le_gt_cases L L2) as [|H1]; auto. exfalso. pose proof (bl_pos L2 ltac:(lia)). pose proof (bm_pos L2 ltac:(lia)).
    pose proof (HB L2 ltac:(lia)). lia.
  - destruct (Z.le_gt_cases L2 (L + 1)) as [|H1]; auto. exfalso. pose proof (bm_pos (L + 1) ltac:(lia)).
    pose proof (bl_pos L ltac:(lia)). pose proof (HB L ltac:(lia)). lia.
Qed.
Lemma u_L2 i : i < k -> L2 <= u i.
Proof. intros Hi. apply (tc_mono 0 0 0). lia. Qed.

(** the row used for column [i] *)
Lemma shift_comps fuel : forall i b0, 0 < L2 -> 0 <= b0 <= L2 - 1 -> b0 <= L ->
  (forall r, 0 <= r < b0 -> T i < bl r + r) -> L2 - b0 < Z.of_nat fuel ->
  shift_b fuel (botl k lam) L2 (T i) b0 = Ok (bc i).
Proof.
  induction fuel as [|f IH]; intros i b0 HL2 Hb0 HbL H Hf; [lia|]. cbn [shift_b].
  pose proof (bI_reach k n d lam i) as HR. destruct HR as (R1 & R2 & R3). pose proof L2_range as HL2r.
  assert (b0 <= b i).
  { destruct (Z.le_gt_cases b0 (b i)) as [|Hg]; auto. specialize (H (b i) ltac:(lia)).
    assert (Hlt : b i < L) by lia. specialize (R3 Hlt). lia. }
  destruct (Z.ltb_spec (b0 + 1) L2) as [E|E].
  - rewrite gz_get by (rewrite (zlen_botl k n d); lia). cbn [bind].
    rewrite (gz_botl k n d) by (auto; lia).
    destruct (Z.ltb_spec (T i) (bl b0 + (b0 + 1) - 1)) as [E2|E2].
    + apply IH; auto; try lia. intros r Hr. destruct (Z.eq_dec r b0) as [->|]; [lia|]. apply H. lia.
    + f_equal. unfold bc. assert (b0 = b i); [|lia].
      destruct (Z.eq_dec b0 (b i)); auto. specialize (R2 b0 ltac:(lia)). lia.
  - f_equal. unfold bc. lia.
Qed.

Definition botm : list Z := map bm (zrange 0 L2).
Lemma zlen_botm : zlen botm = L2.
Proof. apply zlen_map_zrange, lb_nonneg. Qed.
Lemma gz_botm r : 0 <= r < L2 -> gz botm r = bm r.
Proof. apply gz_map_zrange. Qed.

Lemma rows_ok m : 0 <= m <= L2 -> 0 < L2 ->
  exists c, foldM (fun c i => x <- py_get (botl k lam) i ;; y <- py_get botm i ;; set_range 1 c (zrange x y))
                  (zrange 0 m) (repz 0 (bm 0)) = Ok c /\ zlen c = bm 0 /\
    forall j, 0 <= j < bm 0 -> (gz c j = 1 <-> exists r, 0 <= r < m /\ bl r <= j < bm r).
Proof.
  intros Hm HL2. revert m Hm.
  assert (G : forall m, 0 <= m -> m <= L2 ->
   exists c, foldM (fun c i => x <- py_get (botl k lam) i ;; y <- py_get botm i ;; set_range 1 c (zrange x y))
                  (zrange 0 m) (repz 0 (bm 0)) = Ok c /\ zlen c = bm 0 /\
    forall j, 0 <= j < bm 0 -> (gz c j = 1 <-> exists r, 0 <= r < m /\ bl r <= j < bm r)).
  { apply (natlike_ind (fun m => m <= L2 ->
     exists c, foldM (fun c i => x <- py_get (botl k lam) i ;; y <- py_get botm i ;; set_range 1 c (zrange x y))
                  (zrange 0 m) (repz 0 (bm 0)) = Ok c /\ zlen c = bm 0 /\
     forall j, 0 <= j < bm 0 -> (gz c j = 1 <-> exists r, 0 <= r < m /\ bl r <= j < bm r))).
    - intros _. exists (repz 0 (bm 0)). split; [reflexivity|]. pose proof (bt_nonneg k 0 0 mu 0).
      split; [apply zlen_repz; auto|]. intros j Hj. unfold gz, part. rewrite nth_repz0.
      split; [lia|]. intros (r & Hr & _). lia.
    - intros m Hm IH Hle. destruct (IH ltac:(lia)) as (c & E & Lc & Gc). pose proof L2_range as HR.
      rewrite (zrange_snoc 0 (Z.succ m)) by lia. replace (Z.succ m - 1) with m by lia.
      rewrite foldM_app, E. cbn [bind foldM].
      rewrite (gz_get (botl k lam)) by (rewrite (zlen_botl k n d); lia). cbn [bind].
      rewrite (gz_get botm) by (rewrite zlen_botm; lia). cbn [bind].
      rewrite (gz_botl k n d) by (auto; lia). rewrite gz_botm by lia.
      pose proof (bt_nonneg k 0 0 lam m). pose proof (bm_mono 0 m ltac:(lia)).
      destruct (set_range_ok 1 _ (bl m) (bm m) c eq_refl ltac:(lia) ltac:(lia)) as (c' & E' & L' & G').
      rewrite E'. cbn [bind]. exists c'. split; auto. split; [lia|]. intros j Hj. rewrite G' by lia.
      destruct (Z.leb_spec (bl m) j) as [Q1|Q1], (Z.ltb_spec j (bm m)) as [Q2|Q2]; cbn [andb].
      1: { split; auto. intros _. exists m. lia. }
      all: rewrite Gc by lia; split; intros (r & Hr1 & Hr2); exists r; (destruct (Z.eq_dec r m) as [->|]; [lia|]); lia. }
  intros m Hm. apply G; lia.
Qed.

Lemma cols_ok c0 : 0 < L2 -> zlen c0 = bm 0 ->
  exists c bb, foldM (fun st i =>
             let '(c, b) := st in
             t2 <- py_get (topl k mu) i ;;
             t1 <- py_get (topl k lam) i ;;
             if t2 <=? t1 then
               b <- shift_b (S (length botm)) (botl k lam) L2 (t1 + k - (i + 1) - d) b ;;
               let minj := t2 + k - (i + 1) - (b + 1) + 2 - d in
               let maxj := Z.min (t1 + k - (i + 1) - (b + 1) + 2 - d) (bm 0) in
               c' <- set_range (-1) c (zrange (minj - 1) (maxj - 1 + 1)) ;;
               Ok (c', b)
             else Ok (c, b))
          (zrange 0 k) (c0, 0) = Ok (c, bb) /\ zlen c = bm 0 /\
    forall j, 0 <= j < bm 0 -> (gz c j = 1 <-> gz c0 j = 1 /\ ~ marked k j).
Proof.
  intros HL2 Hc0.
  set (body := fun st i => _).
  assert (G : forall m, 0 <= m -> m <= k -> exists c bb, foldM body (zrange 0 m) (c0, 0) = Ok (c, bb) /\ zlen c = bm 0 /\
     (0 <= bb <= L2 - 1 /\ bb <= L /\ forall i r, m <= i -> 0 <= r < bb -> T i < bl r + r) /\
     forall j, 0 <= j < bm 0 -> (gz c j = 1 <-> gz c0 j = 1 /\ ~ marked m j)).
  { apply (natlike_ind (fun m => m <= k -> exists c bb, foldM body (zrange 0 m) (c0, 0) = Ok (c, bb) /\ zlen c = bm 0 /\
     (0 <= bb <= L2 - 1 /\ bb <= L /\ forall i r, m <= i -> 0 <= r < bb -> T i < bl r + r) /\
     forall j, 0 <= j < bm 0 -> (gz c j = 1 <-> gz c0 j = 1 /\ ~ marked m j))).
    - intros _. exists c0, 0. split; [reflexivity|]. split; auto. pose proof (lb_nonneg k lam).
      split; [split; [lia|split; [lia|intros; lia]]|]. intros j Hj. split; [|tauto]. intros Hg. split; auto.
      intros (i & Hi & _). lia.
    - intros m Hm IH Hle. destruct (IH ltac:(lia)) as (c & bb & E & Lc & (B1 & B2 & B3) & Gc). pose proof L2_range as HR.
      rewrite (zrange_snoc 0 (Z.succ m)) by lia. replace (Z.succ m - 1) with m by lia.
      rewrite foldM_app, E. cbn [bind foldM]. unfold body at 1.
      rewrite (gz_get (topl k mu)) by (rewrite zlen_topl; lia). cbn [bind].
      rewrite (gz_get (topl k lam)) by (rewrite zlen_topl; lia). cbn [bind].
      rewrite !gz_topl by lia.
      assert (Hkeep : forall j, ~ (u m <= t m /\ U m - bc m <= j <= T m - bc m) -> (marked (Z.succ m) j <-> marked m j)).
      { intros j Hn. split; intros (i & Hi & Hi2); exists i; [|split; [lia|auto]].
        destruct (Z.eq_dec i m) as [->|]; [tauto|]. split; [lia|auto]. }
      destruct (Z.leb_spec (u m) (t m)) as [Hu|Hu].
      + change (t m + k - (m + 1) - d) with (T m).
        assert (Hbot : zlen botm = L2) by apply zlen_botm. unfold zlen in Hbot.
        rewrite (shift_comps (S (length botm)) m bb HL2 B1 B2 (fun r => B3 m r ltac:(lia)) ltac:(lia)).
        cbn [bind]. pose proof (u_L2 m ltac:(lia)) as Hu2. pose proof (b_range k n d lam m) as Hbr.
        set (a := u m + k - (m + 1) - (bc m + 1) + 2 - d - 1).
        set (e := Z.min (t m + k - (m + 1) - (bc m + 1) + 2 - d) (bm 0) - 1 + 1).
        assert (Ea : a = U m - bc m) by (unfold a, U; lia).
        assert (Ee : e = Z.min (T m - bc m + 1) (bm 0)) by (unfold e, TT; lia).
        assert (Ha : 0 <= a) by (rewrite Ea; unfold U, bc; lia).
        destruct (set_range_ok (-1) _ a e c eq_refl Ha ltac:(lia)) as (c' & E' & L' & G').
        rewrite E'. cbn [bind]. exists c', (bc m). split; auto. split; [lia|]. split.
        * unfold bc. split; [lia|]. split; [lia|]. intros i r Hi Hr. pose proof (TT_mono k n d lam m i ltac:(lia)).
          pose proof (b_below k n d lam m r ltac:(lia)). lia.
        * intros j Hj. rewrite G' by lia.
          destruct (Z.leb_spec a j) as [Q1|Q1], (Z.ltb_spec j e) as [Q2|Q2]; cbn [andb].
          { split; [lia|]. intros [_ Hx]. exfalso. apply Hx. exists m. lia. }
          all: rewrite Gc by lia; rewrite Hkeep by lia; tauto.
      + exists c, bb. split; auto. split; auto. split.
        * split; auto. split; auto. intros i r Hi Hr. apply B3; lia.
        * intros j Hj. rewrite Gc by lia. rewrite Hkeep by lia. tauto. }
  destruct (G k Hk ltac:(lia)) as (c & bb & E & Lc & _ & Gc). exists c, bb. auto.
Qed.

Lemma comps_ok : 0 < L2 -> exists c, calc_comps (topl k lam) (botl k lam) (topl k mu) botm L2 k d = Ok c /\
  zlen c = bm 0 /\ forall j, 0 <= j < bm 0 -> (gz c j = 1 <-> rowcol j /\ ~ marked k j).
Proof.
  intros HL2. unfold calc_comps. rewrite (gz_get botm 0) by (rewrite zlen_botm; lia). cbn [bind].
  rewrite gz_botm by lia. destruct (rows_ok L2 ltac:(pose proof (lb_nonneg k mu); lia) HL2) as (c0 & E0 & L0 & G0).
  rewrite E0. cbn [bind]. destruct (cols_ok c0 HL2 L0) as (c & bb & E & Lc & Gc). cbv zeta in E |- *. rewrite E. cbn [bind].
  exists c. split; auto. split; auto. intros j Hj. rewrite Gc, G0 by lia. reflexivity.
Qed.

(** ** boxes *)
Definition cb (j : Z) : box := bottom_box mu (k + 1 + j).

Lemma right_box x : added lam mu x -> k < snd x ->
  exists r j, x = (r + 1, k + 1 + j) /\ 0 <= r < L2 /\ bl r <= j < bm r.
Proof.
  intros Hx Hc. unfold added, in_diagram in Hx. destruct x as [x1 x2]. cbn [fst snd] in *.
  exists (x1 - 1), (x2 - k - 1). split; [f_equal; lia|].
  assert (H : bl (x1 - 1) <= x2 - k - 1 < bm (x1 - 1)) by (unfold bt; lia).
  pose proof (bm_pos (x1 - 1) ltac:(lia)). pose proof (bt_nonneg k 0 0 lam (x1 - 1)). lia.
Qed.
Lemma right_cb r j : 0 <= r < L2 -> bl r <= j < bm r -> cb j = (r + 1, k + 1 + j).
Proof.
  intros Hr Hj. unfold cb, bottom_box. f_equal. pose proof (bt_nonneg k 0 0 lam r).
  replace (k + 1 + j) with (k + j + 1) by lia. change (count_ge mu (k + j + 1)) with (tc mu (k + j)).
  pose proof (tcI k n d mu (k + j) r pm ltac:(lia) ltac:(lia)) as H1.
  pose proof (tcI k n d mu (k + j) (r + 1) pm ltac:(lia) ltac:(lia)) as H2.
  pose proof (HB r ltac:(lia)) as H3. unfold bt in *. lia.
Qed.
Lemma right_added r j : 0 <= r < L2 -> bl r <= j < bm r -> added lam mu (r + 1, k + 1 + j).
Proof.
  intros Hr Hj. pose proof (bt_nonneg k 0 0 lam r). unfold added, in_diagram. cbn [fst snd].
  replace (r + 1 - 1) with r by lia. unfold bt in *. lia.
Qed.
Lemma mentioned_iff r j : 0 <= r < L2 -> bl r <= j < bm r ->
  (mentioned k d lam mu (r + 1, k + 1 + j) <-> marked k j).
Proof.
  intros Hr Hj. pose proof (bt_nonneg k 0 0 lam r). pose proof L2_range as HR. destruct HP as (_ & _ & P3 & _). split.
  - intros (c & s & Hc & Hs & Hrel). exists (c - 1). split; [lia|].
    unfold related in Hrel. cbn [fst snd] in Hrel. replace c with (c - 1 + 1) in Hs by lia.
    change (count_ge mu (c - 1 + 1)) with (u (c - 1)) in Hs. change (count_ge lam (c - 1 + 1)) with (t (c - 1)) in Hs.
    split; [lia|]. set (i := c - 1) in *. assert (Es : s + k - (i + 1) - d = j + r) by lia.
    assert (Eb : r = b i).
    { destruct (Z.lt_trichotomy r (b i)) as [H9|[H9|H9]]; auto; exfalso.
      - pose proof (b_below k n d lam i r ltac:(lia)). unfold TT in *. lia.
      - specialize (P3 i r ltac:(lia) H9 ltac:(lia)). lia. }
    unfold U, TT, bc. lia.
  - intros (i & Hi & Hu & Hm). pose proof (b_range k n d lam i) as Hb.
    assert (Eb : r = bc i).
    { unfold bc in *. destruct (Z.lt_trichotomy r (b i)) as [H9|[H9|H9]]; try lia.
      - pose proof (b_below k n d lam i r ltac:(lia)). lia.
      - specialize (P3 i r ltac:(lia) H9 ltac:(lia)). unfold U in *. lia. }
    exists (i + 1), (j + r - k + (i + 1) + d). split; [lia|].
    change (count_ge mu (i + 1)) with (u i). change (count_ge lam (i + 1)) with (t i).
    unfold U, TT, related in *. cbn [fst snd]. lia.
Qed.

Definition fcol (j : Z) : Prop := rowcol j /\ ~ marked k j.
Lemma rowcol_range j : rowcol j -> 0 <= j < bm 0.
Proof.
  intros (r & Hr & Hj). pose proof (bt_nonneg k 0 0 lam r). pose proof (bm_mono 0 r ltac:(lia)). lia.
Qed.
Lemma free_fcol x : free_box k d lam mu x -> exists j, x = cb j /\ fcol j.
Proof.
  intros (H1 & H2 & H3). destruct (right_box x H1 H2) as (r & j & -> & Hr & Hj). exists j.
  split; [symmetry; apply right_cb; auto|]. split; [exists r; auto|]. intros Hm. apply H3, mentioned_iff; auto.
Qed.
Lemma fcol_free j : fcol j -> free_box k d lam mu (cb j).
Proof.
  intros ((r & Hr & Hj) & H3). rewrite (right_cb r j) by auto. split; [apply right_added; auto|].
  pose proof (bt_nonneg k 0 0 lam r). split; [cbn [snd]; lia|]. intros Hm. apply H3. apply mentioned_iff in Hm; auto.
Qed.
Lemma snd_cb j : snd (cb j) = k + 1 + j. Proof. reflexivity. Qed.
Lemma cb_inj i j : cb i = cb j -> i = j.
Proof. intros H. apply (f_equal snd) in H. rewrite !snd_cb in H. lia. Qed.

Lemma touch_next j : rowcol j -> rowcol (j + 1) -> touching (cb j) (cb (j + 1)).
Proof.
  intros (r & Hr & Hj) (r' & Hr' & Hj'). rewrite (right_cb r j), (right_cb r' (j + 1)) by auto.
  unfold touching. cbn [fst snd]. pose proof (bt_nonneg k 0 0 lam r). pose proof (bt_nonneg k 0 0 lam r'). split; [|lia].
  assert (r' <= r).
  { destruct (Z.le_gt_cases r' r) as [|Hg]; auto. pose proof (bm_mono (r + 1) r' ltac:(lia)). pose proof (HB r ltac:(lia)). lia. }
  assert (r <= r' + 1); [|lia]. destruct (Z.le_gt_cases r (r' + 1)) as [|Hg]; auto. exfalso.
  pose proof (bm_mono (r' + 2) r ltac:(lia)). pose proof (HB (r' + 1) ltac:(lia)) as H9. replace (r' + 1 + 1) with (r' + 2) in H9 by lia.
  pose proof (bt_dec k n d lam r' ltac:(apply HL) ltac:(lia)). pose proof (bl_mono' r' (r' + 1) ltac:(lia)). lia.
Qed.

Notation F := (free_box k d lam mu).
Lemma con_free x y : connected F x y -> F x /\ F y.
Proof. induction 1; tauto. Qed.
Lemma con_trans x y z : connected F x y -> connected F y z -> connected F x z.
Proof. intros H1 H2. revert H1. induction H2 as [|y y1 z H2 IH Hz Ht]; intros H1; auto. apply con_step with y1; auto. Qed.
Lemma touching_sym x y : touching x y -> touching y x.
Proof. unfold touching. lia. Qed.
Lemma con_sym x y : connected F x y -> connected F y x.
Proof.
  induction 1 as [x Hx|x y z H IH Hz Ht]; [constructor; auto|].
  apply con_trans with y; auto. apply con_step with z; [constructor; auto| |apply touching_sym; auto].
  apply con_free in H. tauto.
Qed.
(** the columns between two connected boxes are free *)
Lemma con_between x y : connected F x y -> forall i j, x = cb i -> y = cb j ->
  forall c, i <= c <= j \/ j <= c <= i -> fcol c.
Proof.
  induction 1 as [x Hx|x y z H IH Hz Ht]; intros i j Ei Ej c Hc.
  - destruct (free_fcol x Hx) as (j0 & E0 & H0). rewrite Ei in E0, Ej. apply cb_inj in E0, Ej.
    replace c with j0 by lia. auto.
  - destruct (con_free _ _ H) as [_ Hy]. destruct (free_fcol y Hy) as (jy & Ey & Hfy).
    destruct (free_fcol z Hz) as (jz & Ez & Hfz). rewrite Ez in Ej. apply cb_inj in Ej. subst jz.
    rewrite Ey, Ez in Ht. destruct Ht as [_ Ht]. rewrite !snd_cb in Ht.
    destruct (Z.eq_dec c j) as [->|]; auto. apply (IH i jy Ei Ey). lia.
Qed.
Lemma con_run i j : i <= j -> (forall c, i <= c <= j -> fcol c) -> connected F (cb i) (cb j).
Proof.
  intros Hij H.
  assert (G : forall x, 0 <= x -> i + x <= j -> connected F (cb i) (cb (i + x))).
  { apply (natlike_ind (fun x => i + x <= j -> connected F (cb i) (cb (i + x)))).
    - intros _. replace (i + 0) with i by lia. constructor. apply fcol_free, H. lia.
    - intros x Hx IH Hle. apply con_step with (cb (i + x)); [apply IH; lia|apply fcol_free, H; lia|].
      replace (i + Z.succ x) with (i + x + 1) by lia. apply touch_next; apply H; lia. }
  specialize (G (j - i) ltac:(lia) ltac:(lia)). replace (i + (j - i)) with j in G by lia. auto.
Qed.

(** the components are the maximal runs of free columns *)
Lemma starts_count skip (f : Z -> bool) len : (forall j, fcol j -> 0 <= j < len) ->
  (forall j, 0 <= j < len -> (f j = true <-> fcol j)) ->
  component_count F (fun x => skip = true -> snd x <> k + 1) (zlen (filter (starts f skip) (zrange 0 len))).
Proof.
  intros Hrange Hf.
  assert (Hst : forall j, In j (filter (starts f skip) (zrange 0 (len))) <->
     fcol j /\ ~ fcol (j - 1) /\ (j = 0 -> skip = false)).
  { intros j. rewrite filter_In, in_zrange. unfold starts. rewrite andb_true_iff, negb_true_iff. split.
    - intros (H1 & H2 & H3). rewrite Hf in H2 by lia. split; auto. destruct (Z.eqb_spec j 0) as [->|Hj].
      + split; auto. intros HH. apply Hrange in HH. lia.
      + split; [|lia]. intros H4. rewrite <- Hf in H4 by lia. congruence.
    - intros (H1 & H2 & H3). pose proof (Hrange j H1) as Hj. split; auto. split; [apply Hf; auto|].
      destruct (Z.eqb_spec j 0) as [Ej|Ej]; auto. destruct (f (j - 1)) eqn:Ef; auto. exfalso. apply H2, Hf; auto. lia. }
  exists (map cb (filter (starts f skip) (zrange 0 (len)))). split; [rewrite map_length; reflexivity|].
  assert (Hpw : forall i j, fcol i -> ~ fcol (i - 1) -> fcol j -> ~ fcol (j - 1) -> connected F (cb i) (cb j) -> i = j).
  { intros i j Hi Hi' Hj Hj' Hc. destruct (Z.lt_trichotomy i j) as [H|[H|H]]; auto; exfalso.
    - apply Hj'. apply (con_between _ _ Hc i j eq_refl eq_refl). lia.
    - apply Hi'. apply (con_between _ _ Hc i j eq_refl eq_refl). lia. }
  split; [|split; [|split]].
  + apply FinFun.Injective_map_NoDup; [intros i j; apply cb_inj|]. apply NoDup_filter, zrange_nodup.
  + intros x Hx. apply in_map_iff in Hx. destruct Hx as (j & <- & Hj). apply Hst in Hj. destruct Hj as (H1 & H2 & H3).
    split; [apply fcol_free; auto|]. intros y Hy Hs Hcol. destruct (con_free _ _ Hy) as [_ Hfy].
    destruct (free_fcol y Hfy) as (jy & -> & Hjy). rewrite snd_cb in Hcol. assert (jy = 0) by lia. subst jy.
    pose proof (Hrange j H1). destruct (Z.eq_dec j 0) as [->|Hj0]; [rewrite H3 in Hs by auto; discriminate|].
    apply H2. apply (con_between _ _ Hy j 0 eq_refl eq_refl). lia.
  + intros x y Hx Hy Hc. apply in_map_iff in Hx, Hy. destruct Hx as (i & <- & Hi). destruct Hy as (j & <- & Hj).
    apply Hst in Hi, Hj. f_equal. apply Hpw; tauto.
  + intros x (Hx & Hgood). destruct (free_fcol x Hx) as (j & -> & Hj).
    assert (Hleft : exists s, s <= j /\ (forall c, s <= c <= j -> fcol c) /\ ~ fcol (s - 1)).
    { assert (G : forall m, 0 <= m -> forall i, 0 <= i <= m -> fcol i -> exists s, s <= i /\ (forall c, s <= c <= i -> fcol c) /\ ~ fcol (s - 1)).
      { apply (natlike_ind (fun m => forall i, 0 <= i <= m -> fcol i -> exists s, s <= i /\ (forall c, s <= c <= i -> fcol c) /\ ~ fcol (s - 1))).
        - intros i Hi Hfi. exists i. split; [lia|]. split; [intros c' Hc'; replace c' with i by lia; auto|].
          intros HH. apply Hrange in HH. lia.
        - intros m Hm IH i Hi Hfi. destruct (Z.eq_dec i 0) as [->|Hi0]; [apply IH; auto; lia|].
          destruct (f (i - 1)) eqn:Ef.
          + pose proof (Hrange i Hfi) as Hri. apply Hf in Ef; [|lia].
            destruct (IH (i - 1) ltac:(lia) Ef) as (s & S1 & S2 & S3). exists s. split; [lia|]. split; auto.
            intros c' Hc'. destruct (Z.eq_dec c' i) as [->|]; auto. apply S2. lia.
          + exists i. split; [lia|]. split; [intros c' Hc'; replace c' with i by lia; auto|].
            intros HH. pose proof (Hrange _ HH). apply Hf in HH; auto. congruence. }
      pose proof (Hrange j Hj). apply (G j); auto; lia. }
    destruct Hleft as (s & S1 & S2 & S3). exists (cb s). pose proof (con_run s j S1 S2) as Hc. split; auto.
    apply in_map. apply Hst. split; [apply S2; lia|]. split; auto. intros ->.
    destruct skip; auto. exfalso. apply (Hgood (cb 0)); auto; [apply con_sym; auto|rewrite snd_cb; lia].
Qed.

Lemma count_comps_free skip : exists N, count_comps lam mu skip k d = Ok N /\
  component_count F (fun x => skip = true -> snd x <> k + 1) N.
Proof.
  unfold count_comps. cbv zeta.
  rewrite (start_top k n d lam Hk HL), (start_bot k n d lam Hk HL), (start_top k n d mu Hk HM).
  assert (Eb : part_clip (map (fun x => Z.max 0 (x - k)) mu) = botm).
  { pose proof (start_bot k n d mu Hk HM) as E. unfold botl in E. apply app_inv_tail in E. exact E. }
  rewrite Eb, zlen_botm. destruct (Z.eqb_spec L2 0) as [Hz|Hz].
  - exists 0. split; auto. exists []. split; [reflexivity|]. split; [constructor|]. split; [simpl; tauto|].
    split; [simpl; tauto|]. intros x (Hx & _). exfalso. destruct (free_fcol x Hx) as (j & _ & (r & Hr & _) & _). lia.
  - pose proof (lb_nonneg k mu) as Hn2. destruct (comps_ok ltac:(lia)) as (c & E & Lc & Gc). rewrite E. cbn [bind].
    rewrite (gz_get botm 0) by (rewrite zlen_botm; lia). cbn [bind]. rewrite gz_botm by lia.
    rewrite count_ones_ok by (pose proof (bt_nonneg k 0 0 mu 0); lia).
    set (f := fun j => gz c j =? 1). eexists. split; [reflexivity|].
    assert (Hf : forall j, 0 <= j < bm 0 -> (f j = true <-> fcol j)).
    { intros j Hj. unfold f, fcol. rewrite <- Gc by auto. apply Z.eqb_eq. }
    apply starts_count; auto. intros j Hj. apply rowcol_range, Hj.
Qed.

End CC.
