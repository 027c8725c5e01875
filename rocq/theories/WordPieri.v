(** The relation of the Pieri rules and its multiplicities, read off the walk
    through two words; words of a given length and number of letters [LE] are the
    same thing as k-strict partitions. *)

From Coq Require Import ZArith List Lia Bool QArith Qcanon.
From Verif Require Import Py PyFacts ModelPart ModelQcalc Spec SpecPieri Enum FillFacts PartFacts ConjFacts
  PairFacts BetwFacts PieriSet PieriBKT CompsFacts WArrow Word Transfer WordArrow.
Import ListNotations.
Open Scope Z_scope.

Section WP.
Variable d : Z.
Hypothesis Hd : d = 0 \/ d = 1.
Notation wp := (wp d).
Notation wn := (wn d).

Lemma word_arrow m w v : length w = length v -> cE w = cE v -> d <= zlen w -> wn w = Z.of_nat m ->
  (pieri_arrow (cE w) d (wp w) (wp v) <-> exists g x b, walk m S0 w v = Some (g, x, b)) /\
  (forall g x b, walk m S0 w v = Some (g, x, b) ->
    chE b + cE (skipn m v) - cE (skipn m w) = 0 /\
    Z.of_nat g + corr d b (skipn m w) (skipn m v) = size (wp v) - size (wp w) /\
    forall skip, component_count (free_box (cE w) d (wp w) (wp v)) (fun x => skip = true -> snd x <> cE w + 1)
      (Z.of_nat x + match b with S3 => if skip then 0 else 1 | _ => 0 end)).
Proof.
  intros Hl HE Hw Hm.
  pose proof (cE_range w) as Hk. assert (Hlz : zlen v = zlen w) by (unfold zlen; lia).
  assert (Hnv : wn v = wn w) by (unfold Word.wn; lia).
  pose proof (wp_kstrict d Hd w Hw) as HL. pose proof (wp_kstrict d Hd v ltac:(lia)) as HM.
  pose proof (wbonds d Hd w Hw) as BL. pose proof (wbonds d Hd v ltac:(lia)) as BM.
  rewrite <- HE, Hlz, Hnv in HM. rewrite <- HE, Hnv in BM.
  assert (E1 : zlen w - cE w = wn w + d - cE w) by (unfold Word.wn; lia). rewrite E1 in HL, HM.
  pose proof (arrow_wvalid (cE w) (wn w) d (wp w) ltac:(lia) ltac:(lia) Hd HL (wp v) HM _ _ _ _ BL BM) as HA.
  destruct (walk_spec d Hd m S0 w v Hl Hw Hm) as [HV HS]. rewrite gvalid_0 in HV.
  split; [rewrite HA, HV; reflexivity|]. intros g x b Hwk.
  assert (HVV : wvalid (wn w) (wR d w) (wE d w) (wR d v) (wE d v)) by (apply HV; eauto).
  destruct (HS g x b true Hwk) as (_ & H2 & H3). cbn [chE corr] in *. split; [lia|]. split; [rewrite H3; lia|].
  intros skip. destruct (HS g x b skip Hwk) as (H1 & _). rewrite <- H1.
  pose proof (comps_bond (cE w) (wn w) d (wp w) ltac:(lia) ltac:(lia) Hd HL (wp v) HM _ _ _ _ BL BM HVV skip) as HC.
  assert (EQ : zlen (filter (starts (ff d S0 w v) skip) (zrange 0 (wn w + 1))) =
    zlen (filter (starts (fun j => (dR (wR d w) (wR d v) j =? 1) && (dE (wE d w) (wE d v) j =? 0)) skip) (zrange 0 (wn w)))).
  { rewrite (zrange_snoc 0 (wn w + 1)) by lia. replace (wn w + 1 - 1) with (wn w) by lia. rewrite filter_app. unfold zlen. rewrite app_length.
    cbn [filter].
    assert (Et : starts (ff d S0 w v) skip (wn w) = false) by (unfold starts; rewrite ff_top by auto; reflexivity). rewrite Et. cbn [length]. rewrite Nat.add_0_r.
    reflexivity. }
  rewrite EQ. exact HC.
Qed.

(** *** a word is determined by its partition *)
Lemma bonds_unique k n l R E R' E' : bonds k n d l R E -> bonds k n d l R' E' ->
  forall c, 0 <= c <= n -> R c = R' c /\ E c = E' c.
Proof.
  intros (A1 & A2 & A3 & _) (B1 & B2 & B3 & _) c Hc.
  pose proof (A3 c Hc) as (H1 & H2). pose proof (B3 c Hc) as (H3 & H4).
  assert (ER : R c = R' c).
  { pose proof (A1 c (R c) Hc ltac:(lia)). pose proof (A1 c (R' c) Hc ltac:(lia)).
    pose proof (B1 c (R c) Hc ltac:(lia)). pose proof (B1 c (R' c) Hc ltac:(lia)). lia. }
  split; auto. destruct (Z.lt_trichotomy (E c) (E' c)) as [Hlt|[|Hlt]]; auto.
  - pose proof (A2 c (E c) Hc ltac:(lia)). pose proof (B2 c (E c) Hc ltac:(lia)). rewrite ER in *. lia.
  - pose proof (A2 c (E' c) Hc ltac:(lia)). pose proof (B2 c (E' c) Hc ltac:(lia)). rewrite ER in *. lia.
Qed.
Lemma prefix_counts m : forall w v : word, (m <= length w)%nat -> (m <= length v)%nat ->
  (forall j, (j <= m)%nat -> cR (firstn j w) = cR (firstn j v) /\ cE (firstn j w) = cE (firstn j v)) -> firstn m w = firstn m v.
Proof.
  induction m as [|m IH]; intros w v Hw Hv H; [reflexivity|].
  destruct w as [|x w]; [cbn in Hw; lia|]. destruct v as [|y v]; [cbn in Hv; lia|]. cbn [length] in *.
  assert (Exy : x = y).
  { destruct (H 1%nat ltac:(lia)) as [H1 H2]. cbn [firstn cR cE] in H1, H2. destruct x, y; cbn [isR isE] in *; auto; lia. }
  subst y. cbn [firstn]. f_equal. apply IH; try lia. intros j Hj. destruct (H (S j) ltac:(lia)) as [H1 H2]. cbn [firstn cR cE] in H1, H2. lia.
Qed.
Lemma wp_inj m w v : length w = length v -> cE w = cE v -> d <= zlen w -> wn w = Z.of_nat m -> wp w = wp v -> firstn m w = firstn m v.
Proof.
  intros Hl HE Hw Hm Hp. assert (Hlz : zlen v = zlen w) by (unfold zlen; lia).
  assert (Hnv : wn v = wn w) by (unfold Word.wn; lia).
  pose proof (wbonds d Hd w Hw) as BL. pose proof (wbonds d Hd v ltac:(lia)) as BM. rewrite <- HE, Hnv, <- Hp in BM.
  assert (Hml : Z.of_nat m <= zlen w) by (unfold Word.wn in *; lia). unfold zlen in Hml.
  apply prefix_counts; try lia. intros j Hj.
  destruct (bonds_unique _ _ _ _ _ _ _ BL BM (Z.of_nat m - Z.of_nat j) ltac:(lia)) as [H1 H2].
  unfold wR, wE in H1, H2. rewrite Hnv, Hm in H1, H2. replace (Z.to_nat (Z.of_nat m - (Z.of_nat m - Z.of_nat j))) with j in H1, H2 by lia. auto.
Qed.
End WP.
