(** Lower bounds for the number of components, and its uniqueness. *)

From Coq Require Import ZArith List Lia Bool.
From Verif Require Import Py PyFacts ModelPart ModelQcalc Spec SpecPieri Enum FillFacts PartFacts ConjFacts
  PairFacts BetwFacts PieriSet PieriBKT CompsFacts.
Import ListNotations.
Open Scope Z_scope.

(** ** the number of components is determined by the set *)
Section Unique.
Variable A : box -> Prop.
Lemma cn_in x y : connected A x y -> A x /\ A y.
Proof. induction 1; tauto. Qed.
Lemma cn_trans x y z : connected A x y -> connected A y z -> connected A x z.
Proof. intros H1 H2. revert H1. induction H2 as [|y y1 z H2 IH Hz Ht]; intros H1; auto. apply con_step with y1; auto. Qed.
Lemma cn_sym x y : connected A x y -> connected A y x.
Proof.
  induction 1 as [x Hx|x y z H IH Hz Ht]; [constructor; auto|].
  apply cn_trans with y; auto. apply con_step with z; [constructor; auto| |apply touching_sym; auto].
  apply cn_in in H. tauto.
Qed.
Lemma reps_le (l : list box) : forall l', NoDup l ->
  (forall x y, In x l -> In y l -> connected A x y -> x = y) ->
  (forall x, In x l -> exists y, In y l' /\ connected A y x) -> (length l <= length l')%nat.
Proof.
  induction l as [|x l IH]; intros l' Hnd Hpw Hc; simpl; [lia|]. inversion Hnd as [|? ? Hx Hl]; subst.
  destruct (Hc x (or_introl eq_refl)) as (y & Hy & Hyx). destruct (in_split _ _ Hy) as (l1 & l2 & ->).
  assert (H : (length l <= length (l1 ++ l2))%nat).
  { apply IH; auto; [intros; apply Hpw; simpl; auto|]. intros z Hz. destruct (Hc z (or_intror Hz)) as (w & Hw & Hwz).
    exists w. split; auto. apply in_app_iff in Hw. apply in_app_iff. destruct Hw as [Hw|[->|Hw]]; auto. exfalso.
    apply Hx. rewrite (Hpw x z); simpl; auto. apply cn_trans with w; auto. apply cn_sym; auto. }
  rewrite app_length in *. simpl. lia.
Qed.
Lemma component_count_unique P N N' : component_count A P N -> component_count A P N' -> N = N'.
Proof.
  intros (l & El & A1 & A2 & A3 & A4) (l' & El' & B1 & B2 & B3 & B4).
  pose proof (reps_le l l' A1 A3). pose proof (reps_le l' l B1 B3). assert ((length l <= length l')%nat /\ (length l' <= length l)%nat); [|lia].
  split; [apply H|apply H0]; auto.
Qed.
Lemma component_count_nonneg P N : component_count A P N -> 0 <= N.
Proof. intros (l & El & _). lia. Qed.
End Unique.

Lemma component_count_ext (A A' P P' : box -> Prop) N : (forall x, A x <-> A' x) -> (forall x, P x <-> P' x) ->
  component_count A P N -> component_count A' P' N.
Proof.
  intros HA HP (l & El & A1 & A2 & A3 & A4).
  assert (Hc : forall x y, connected A x y <-> connected A' x y).
  { intros x y. split; induction 1; [constructor; apply HA; auto|econstructor; eauto; apply HA; auto| |].
    - constructor; apply HA; auto.
    - econstructor; eauto. apply HA; auto. }
  exists l. split; auto. split; auto. split; [|split].
  - intros x Hx. destruct (A2 x Hx) as [H1 H2]. split; [apply HA; auto|]. intros y Hy. apply HP, H2, Hc, Hy.
  - intros x y Hx Hy H. apply A3; auto. apply Hc; auto.
  - intros x [H1 H2]. destruct (A4 x) as (y & Hy & Hyx).
    + split; [apply HA; auto|]. intros y Hy. apply HP, H2, Hc, Hy.
    + exists y. split; auto. apply Hc; auto.
Qed.

Lemma zlen_flat {A B} (f : A -> list B) l : zlen (flat_map f l) = zsum (map (fun x => zlen (f x)) l).
Proof. induction l as [|x l IH]; [reflexivity|]. simpl. rewrite zlen_app, IH. reflexivity. Qed.
Lemma nodup_flat {A B} (f : A -> list B) l : NoDup l -> (forall x, In x l -> NoDup (f x)) ->
  (forall x y z, In x l -> In y l -> In z (f x) -> In z (f y) -> x = y) -> NoDup (flat_map f l).
Proof.
  induction l as [|x l IH]; intros Hl Hf Hd; simpl; [constructor|]. inversion Hl; subst. apply nodup_app.
  - apply Hf. simpl; auto.
  - apply IH; auto; [intros; apply Hf; simpl; auto|]. intros a b c Ha Hb. apply Hd; simpl; auto.
  - intros z Hz Hz'. apply in_flat_map in Hz'. destruct Hz' as (y & Hy & Hz'). assert (x = y) by (apply (Hd x y z); simpl; auto).
    subst. auto.
Qed.
Lemma zsum_map_le {A} (f g : A -> Z) l : (forall x, In x l -> f x <= g x) -> zsum (map f l) <= zsum (map g l).
Proof. induction l as [|x l IH]; intros H; simpl; [lia|]. pose proof (H x (or_introl eq_refl)). assert (zsum (map f l) <= zsum (map g l)) by (apply IH; intros; apply H; simpl; auto). lia. Qed.
Lemma zsum_map_add {A} (f g : A -> Z) l : zsum (map (fun x => f x + g x) l) = zsum (map f l) + zsum (map g l).
Proof. induction l as [|x l IH]; simpl; lia. Qed.
Lemma zsum_map_sub {A} (f g : A -> Z) l : zsum (map (fun x => f x - g x) l) = zsum (map f l) - zsum (map g l).
Proof. induction l as [|x l IH]; simpl; lia. Qed.
Lemma zsum_map_const {A} c (l : list A) : zsum (map (fun _ => c) l) = c * zlen l.
Proof. induction l as [|x l IH]; [unfold zlen; simpl; lia|]. rewrite zlen_cons. simpl. lia. Qed.

Section CB.
Variables (k n d : Z) (lam mu : list Z).
Hypothesis Hk : 0 <= k.
Hypothesis Hd : d = 0 \/ d = 1.
Hypothesis HL : kstrict_in k (n + d - k) (n + k) lam.
Hypothesis HM : kstrict_in k (n + d - k) (n + k) mu.
Hypothesis HP : prel k d lam mu.

Notation t := (tc lam).
Notation u := (tc mu).
Notation bl := (bt k lam).
Notation bm := (bt k mu).
Notation T := (TT k d lam).
Notation b := (bI k d lam).
Notation L := (lb k lam).
Notation L2 := (lb k mu).
Let pl : is_partition lam := proj1 (proj1 HL).
Let pm : is_partition mu := proj1 (proj1 HM).
Notation fcol := (fcol k d lam mu).
Notation marked := (marked k d lam mu k).
Notation rowcol := (rowcol k lam mu).
Notation bc := (bc k d lam mu).
Notation UU := (U k d mu).

Lemma zsum_pair mu0 : is_partition mu0 -> zsum mu0 = zsum (map (tc mu0) (zrange 0 k)) + zsum (map (bt k mu0) (zrange 0 (lb k mu0))).
Proof.
  intros Hm. pose proof (part2pair_pair_of k mu0 Hk Hm) as Hp.
  pose proof (size_pair k mu0 _ _ Hk Hm Hp) as E. rewrite E.
  destruct (pair_lam k n d Hk mu0 Hm _ _ Hp) as [E1 E2]. rewrite E1, E2. reflexivity.
Qed.

Definition addedcols : list Z := flat_map (fun r => zrange (bl r) (bm r)) (zrange 0 L2).
Lemma addedcols_in j : In j addedcols <-> rowcol j.
Proof.
  unfold addedcols. rewrite in_flat_map. split; intros (r & H1 & H2); exists r.
  - apply in_zrange in H1, H2. split; auto.
  - rewrite !in_zrange. auto.
Qed.
Lemma addedcols_nodup : NoDup addedcols.
Proof.
  apply nodup_flat; [apply zrange_nodup|intros; apply zrange_nodup|]. intros x y z Hx Hy H1 H2.
  apply in_zrange in Hx, Hy, H1, H2.
  pose proof (right_cb k n d lam mu Hk HM HP x z ltac:(lia) ltac:(lia)) as E1.
  pose proof (right_cb k n d lam mu Hk HM HP y z ltac:(lia) ltac:(lia)) as E2.
  rewrite E1 in E2. injection E2. lia.
Qed.
Lemma addedcols_len : zlen addedcols = zsum (map bm (zrange 0 L2)) - zsum (map bl (zrange 0 L)).
Proof.
  unfold addedcols. rewrite zlen_flat.
  transitivity (zsum (map (fun r => bm r - bl r) (zrange 0 L2))).
  - f_equal. apply map_ext_in. intros r Hr. apply in_zrange in Hr. rewrite zlen_zrange.
    pose proof (HB k d lam mu HP r ltac:(lia)). lia.
  - rewrite zsum_map_sub. f_equal. pose proof (L2_range k n d lam mu Hk HL HM HP) as HR. pose proof (lb_nonneg k lam).
    destruct (Z.eq_dec L2 L) as [->|]; auto. replace L2 with (L + 1) by lia. rewrite zrange_snoc by lia.
    replace (L + 1 - 1) with L by lia. rewrite map_app, zsum_app. simpl.
    pose proof (lb_zero k n d lam Hk HL L ltac:(lia)). lia.
Qed.

Definition markedcols : list Z :=
  flat_map (fun i => if u i <=? t i then zrange (UU i - bc i) (T i - bc i + 1) else []) (zrange 0 k).
Lemma markedcols_in j : In j markedcols <-> marked j.
Proof.
  unfold markedcols. rewrite in_flat_map. split.
  - intros (i & H1 & H2). apply in_zrange in H1. destruct (Z.leb_spec (u i) (t i)) as [H3|H3]; [|contradiction].
    apply in_zrange in H2. exists i. lia.
  - intros (i & H1 & H2 & H3). exists i. rewrite in_zrange. split; auto. destruct (Z.leb_spec (u i) (t i)); [|lia].
    apply in_zrange. lia.
Qed.
Lemma markedcols_len : zlen markedcols <= k + (zsum (map t (zrange 0 k)) - zsum (map u (zrange 0 k))).
Proof.
  unfold markedcols. rewrite zlen_flat, <- zsum_map_sub.
  replace k with (1 * zlen (zrange 0 k)) at 2 by (rewrite zlen_zrange; lia). rewrite <- zsum_map_const, <- zsum_map_add.
  apply zsum_map_le. intros i Hi. apply in_zrange in Hi. destruct (Z.leb_spec (u i) (t i)) as [H3|H3].
  - rewrite zlen_zrange. unfold U, TT. lia.
  - change (zlen (@nil Z)) with 0. destruct HP as (P1 & _). specialize (P1 i Hi). lia.
Qed.

(** more than [k] boxes added: some box is free *)
Lemma free_exists : zsum lam + k < zsum mu -> exists j, fcol j.
Proof.
  intros Hp.
  assert (Hc : ~ incl addedcols markedcols).
  { intros Hi. pose proof (NoDup_incl_length addedcols_nodup Hi) as Hlen.
    assert (Hz : zlen addedcols <= zlen markedcols) by (unfold zlen; lia).
    pose proof markedcols_len. rewrite addedcols_len in Hz. rewrite (zsum_pair lam pl), (zsum_pair mu pm) in Hp. lia. }
  assert (Hx : exists j, In j addedcols /\ ~ In j markedcols).
  { clear -Hc. revert Hc. generalize addedcols markedcols. intros ac mc Hc. induction ac as [|x l IH]; [exfalso; apply Hc; intros y []|].
    destruct (in_dec Z.eq_dec x mc) as [H|H]; [|exists x; simpl; auto].
    destruct IH as (j & Hj & Hj'); [|exists j; simpl; auto]. intros Hi. apply Hc. intros y [<-|Hy]; auto. }
  destruct Hx as (j & H1 & H2). exists j. split; [apply addedcols_in; auto|].
  intros H. apply H2, markedcols_in, H.
Qed.
Lemma comps_pos_B N : zsum lam + k < zsum mu ->
  component_count (free_box k d lam mu) (fun x => false = true -> snd x <> k + 1) N -> 1 <= N.
Proof.
  intros Hp (l & El & _ & _ & _ & H4). destruct (free_exists Hp) as (j & Hj).
  destruct (H4 (cb k mu j)) as (y & Hy & _).
  - split; [apply (fcol_free k n d lam mu Hk Hd HL HM HP); auto|]. intros; discriminate.
  - destruct l; [contradiction|]. simpl in El. lia.
Qed.

(** in type C: if the first row of [mu] is too long for the next smaller space,
    at most [n] boxes in the rectangle are added, and there is a component
    without a box in column k+1 *)
Lemma comps_pos_C N : d = 0 -> kstrict_in k (n - 1 - k) (n - 1 + k) lam -> part mu 0 = n + k ->
  zsum mu < zsum lam + (n + k) ->
  component_count (free_box k d lam mu) (fun x => true = true -> snd x <> k + 1) N -> 1 <= N.
Proof.
  intros Hd0 HL' Hm0 Hp (l & El & _ & _ & _ & H4).
  assert (Hbm : bm 0 = n) by (unfold bt; change (Z.to_nat 0) with 0%nat; rewrite Hm0; pose proof (proj1 (proj2 (proj1 HM))); lia).
  assert (Hbl : bl 0 < n).
  { destruct HL' as ((_ & H1 & H2) & _). unfold bt. change (Z.to_nat 0) with 0%nat. lia. }
  assert (HL2 : 0 < L2).
  { pose proof (lb_zero k n d mu Hk HM 0). pose proof (bt_nonneg k n d lam 0). pose proof (lb_nonneg k mu). destruct (Z.eq_dec L2 0); lia. }
  assert (HT : forall i, 0 <= i < k -> u i <= t i -> 0 <= T i - bc i < n - 1).
  { intros i Hi Hui. assert (t i <= n - 1 - k).
    { destruct HL' as ((_ & H1 & _) & _). pose proof (count_ge_le lam (i + 1)). unfold tc, zlen in *. lia. }
    pose proof (u_L2 k mu i ltac:(lia)). pose proof (b_range k n d lam i). unfold CompsFacts.bc, TT. lia. }
  assert (Hdec : forall c, {fcol c} + {~ fcol c}).
  { intros c. destruct (in_dec Z.eq_dec c addedcols) as [H1|H1].
    - destruct (in_dec Z.eq_dec c markedcols) as [H2|H2].
      + right. intros [_ H3]. apply H3, markedcols_in, H2.
      + left. split; [apply addedcols_in; auto|]. intros H3. apply H2, markedcols_in, H3.
    - right. intros [H3 _]. apply H1, addedcols_in, H3. }
  assert (Hlast : fcol (n - 1)).
  { split.
    - exists 0. split; [|lia]. pose proof (bm_pos k n d mu Hk HM 0 ltac:(lia)). lia.
    - intros (i & Hi & Hu & Hm). specialize (HT i Hi Hu). lia. }
  assert (Hall : (forall c, In c (zrange 0 n) -> fcol c) \/ exists c, In c (zrange 0 n) /\ ~ fcol c).
  { clear -Hdec. induction (zrange 0 n) as [|x xs IH]; [left; intros c []|].
    destruct (Hdec x) as [Hx|Hx]; [|right; exists x; simpl; auto].
    destruct IH as [IH|(c & Hc & Hc')]; [left; intros c [<-|Hc]; auto|right; exists c; simpl; auto]. }
  destruct Hall as [Hall|(c & Hc & Hnc)].
  - exfalso.
    assert (Hu : forall i, 0 <= i < k -> u i = t i + 1).
    { intros i Hi. destruct HP as (P1 & _). specialize (P1 i Hi). destruct (Z.le_gt_cases (u i) (t i)) as [Hui|]; [|lia].
      exfalso. specialize (HT i Hi Hui). destruct (Hall (T i - bc i)) as [_ Hnm]; [apply in_zrange; lia|].
      apply Hnm. exists i. unfold U, TT. lia. }
    assert (Hlen : zlen addedcols = n).
    { assert (H1 : zlen (zrange 0 n) <= zlen addedcols).
      { unfold zlen. apply inj_le. apply NoDup_incl_length; [apply zrange_nodup|]. intros x Hx. apply addedcols_in, Hall, Hx. }
      assert (H2 : zlen addedcols <= zlen (zrange 0 n)).
      { unfold zlen. apply inj_le. apply NoDup_incl_length; [apply addedcols_nodup|]. intros x Hx. apply addedcols_in in Hx.
        apply (rowcol_range k n d lam mu HM) in Hx. apply in_zrange. lia. }
      rewrite zlen_zrange in H1, H2. pose proof (bt_nonneg k n d lam 0). lia. }
    rewrite addedcols_len in Hlen. rewrite (zsum_pair lam pl), (zsum_pair mu pm) in Hp.
    assert (zsum (map u (zrange 0 k)) = zsum (map t (zrange 0 k)) + k); [|lia].
    transitivity (zsum (map (fun i => t i + 1) (zrange 0 k))).
    + f_equal. apply map_ext_in. intros i Hi. apply in_zrange in Hi. auto.
    + rewrite zsum_map_add, zsum_map_const, zlen_zrange. lia.
  - destruct (H4 (cb k mu (n - 1))) as (y & Hy & _).
    + split; [apply (fcol_free k n d lam mu Hk Hd HL HM HP); auto|]. intros y Hy _ Hcol.
      destruct (con_free k d lam mu Hd _ _ Hy) as [_ Hfy]. destruct (free_fcol k n d lam mu Hk Hd HL HM HP y Hfy) as (j & -> & Hj).
      rewrite snd_cb in Hcol. assert (j = 0) by lia. subst j. apply Hnc. apply in_zrange in Hc.
      apply (con_between k n d lam mu Hk Hd HL HM HP _ _ Hy (n - 1) 0 eq_refl eq_refl). lia.
    + destruct l; [contradiction|]. simpl in El. lia.
Qed.
End CB.
