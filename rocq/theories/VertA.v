(** Products with the classes of columns S[1,...,1] on Gr(m,n): the vertical Pieri
    rule, classical and quantum terms. *)

From Coq Require Import ZArith List Lia Bool Permutation QArith Qcanon Setoid Morphisms.
From Verif Require Import Py OrderFacts PyFacts ModelPart ModelQcalc ModelPoly ModelStr ModelGr Spec SpecMisc
  PolyFacts SuppFacts OpTheory Enum FillFacts PartFacts PieriA QPieriA CylA WSum Sys Sys2 RingA FactsA
  Transfer CommC CoefSys CommD2 Schub SysApi ApiA ApiPart
  ConjFacts RimFacts DualSys LRCore LRSum LRMult LRQuant LRTab ApiLR RimQ ApiRim.
Import ListNotations.
Open Scope Z_scope.

Definition wdec (y : list Z) : Prop := forall j, (S j < length y)%nat -> nth (S j) y 0 <= nth j y 0.
Lemma wdec_tl x y : wdec (x :: y) -> wdec y.
Proof. intros H j Hj. apply (H (S j)). cbn [length]. lia. Qed.
Lemma wdec_dup y : wdec y -> sdecb y = false -> exists u a v, y = u ++ a :: a :: v.
Proof.
  induction y as [|x y IH]; intros HW HS; [discriminate|]. destruct y as [|z y]; [discriminate|].
  rewrite sdecb_cons in HS. destruct (Z.ltb_spec z x) as [H|H].
  - destruct (IH (wdec_tl _ _ HW) HS) as (u & a & v & E). exists (x :: u), a, v. rewrite E. reflexivity.
  - pose proof (HW 0%nat ltac:(cbn [length]; lia)) as H0. cbn [nth] in H0. assert (z = x) by lia. subst z. exists [], x, y. reflexivity.
Qed.
Lemma domb_zero c : forall e, 0 <= e -> Forall (fun x => 0 <= x <= 1) c -> domb e c (repeat 0 (length c)) = true.
Proof.
  induction c as [|x c IH]; intros e He HF; [reflexivity|]. inversion HF as [|? ? Hx HF']; subst. cbn [length repeat domb].
  rewrite IH by (auto; lia). destruct (Z.leb_spec 0 (e + x - 0)); auto; lia.
Qed.
Lemma qsum_one {A} (f : A -> Qc) L c0 : NoDup L -> In c0 L -> f c0 = 1%Qc -> (forall c, In c L -> c <> c0 -> f c = 0%Qc) -> qsum f L = 1%Qc.
Proof.
  intros Hn Hi H1 H0. induction Hn as [|x L Hx Hn IH]; [contradiction|]. rewrite qsum_cons. destruct Hi as [->|Hi].
  - rewrite H1, qsum_zero; [ring|]. intros c Hc. apply H0; [right; auto|]. intros ->. contradiction.
  - rewrite IH; auto; [|intros; apply H0; auto; right; auto]. rewrite H0; [ring|left; auto|]. intros ->. contradiction.
Qed.

Lemma qsum_nonzero {A} (f : A -> Qc) L : qsum f L <> 0%Qc -> exists c, In c L /\ f c <> 0%Qc.
Proof.
  induction L as [|x L IH]; [rewrite qsum_nil; congruence|]. rewrite qsum_cons. intros H. destruct (Qc_eq_dec (f x) 0%Qc) as [E|E].
  - rewrite E, Qcplus_0_l in H. destruct (IH H) as (c & H1 & H2). exists c. split; auto. right; auto.
  - exists x. split; auto. left; auto.
Qed.
Lemma part_le_first' p i : is_partition p -> part p i <= part p 0.
Proof. intros [_ H]. induction i as [|i IH]; [lia|]. specialize (H i). lia. Qed.

Section V.
Variables m k : Z.
Hypothesis Hm : 1 <= m.
Hypothesis Hk : 1 <= k.
Notation Mn := (Z.to_nat m).
Notation VB := (in_box m k).
Notation X l := (vadd (rho Mn) (padm m l)).
Notation chiq := (chiq m k).
Notation MM := (MA m k true).
Let Hk0 : 0 <= k. lia. Qed.

Definition col (j : Z) : list Z := repeat 1 (Z.to_nat j).
Lemma part_col j i : part (col j) i = if Z.of_nat i <? j then 1 else 0.
Proof.
  unfold col, part. destruct (Z.ltb_spec (Z.of_nat i) j).
  - assert (Hi : (i < Z.to_nat j)%nat) by lia. revert i Hi H. generalize (Z.to_nat j) as n. clear. induction n as [|n IH]; intros [|i] Hi H; cbn [repeat nth]; try lia; auto. apply IH; lia.
  - apply nth_overflow. rewrite repeat_length. lia.
Qed.
Lemma col_box j : 0 <= j <= m -> VB (col j).
Proof.
  intros Hj. split; [split|split].
  - intros i Hi. unfold col in Hi. rewrite repeat_length in Hi. rewrite part_col. destruct (Z.ltb_spec (Z.of_nat i) j); lia.
  - intros i. rewrite !part_col. destruct (Z.ltb_spec (Z.of_nat i) j), (Z.ltb_spec (Z.of_nat (S i)) j); lia.
  - unfold col. rewrite repeat_length. lia.
  - rewrite part_col. destruct (Z.ltb_spec (Z.of_nat 0) j); lia.
Qed.
Lemma col_size j : 0 <= j -> size (col j) = j.
Proof.
  intros Hj. unfold size, col. rewrite <- (Z2Nat.id j) at 2 by auto. induction (Z.to_nat j) as [|n IH]; [reflexivity|].
  cbn [repeat fold_right]. rewrite IH. lia.
Qed.
Lemma cols_col j : 1 <= j -> cols (col j) = [Z.to_nat j].
Proof.
  intros Hj. unfold cols. rewrite part_col. destruct (Z.ltb_spec (Z.of_nat 0) j); [|lia].
  change (rev (zrange 0 1)) with [0]. cbn [map]. f_equal. unfold colsz, col. induction (Z.to_nat j) as [|n IH]; [reflexivity|].
  cbn [repeat filter]. change (0 <? 1) with true. cbn [length]. auto.
Qed.

Lemma chiq_weak nu y : VB nu -> length y = Mn -> (forall x, In x y -> 0 <= x < m + k) -> wdec y ->
  chiq nu y = if list_eq_dec Z.eq_dec y (X nu) then 1%Qc else 0%Qc.
Proof.
  intros Hnu Ly HI HW. pose proof (rho_padm_sdec m k Hm nu Hnu) as SN.
  destruct (sdecb y) eqn:HS.
  - destruct (X_build m Hm k y Hk0 Ly HS HI) as (l & Hl & <-). rewrite chiq_box by auto.
    destruct (WSum.l_dec l nu) as [->|Hne], (list_eq_dec Z.eq_dec _ _) as [E|E]; auto; exfalso; [apply E; auto|].
    apply Hne. apply (X_inj m Hm k); auto.
  - destruct (wdec_dup y HW HS) as (u & a & v & E).
    destruct (list_eq_dec Z.eq_dec y (X nu)) as [E'|_].
    { rewrite <- E' in SN. congruence. }
    subst y. apply Qc_self_opp. apply (proj1 (chiq_good m k Hm Hk0 nu) (length u) u a a v); auto.
Qed.

(** adding a 0-1 vector *)
Lemma Xc_nth lam c j : VB lam -> length c = Mn -> (j < Mn)%nat -> nth j (vadd (X lam) c) 0 = Z.of_nat Mn - 1 - Z.of_nat j + part lam j + nth j c 0.
Proof. intros Hl Hc Hj. rewrite nth_vadd by (rewrite (X_len m Hm k); auto). rewrite (X_nth m Hm k) by auto. reflexivity. Qed.
Lemma bits_nth c j : In c (bits Mn) -> 0 <= nth j c 0 <= 1.
Proof.
  intros H. apply in_alll in H. destruct H as [_ H]. rewrite Forall_forall in H.
  destruct (Nat.lt_ge_cases j (length c)) as [Hj|Hj]; [apply H, nth_In; auto|rewrite nth_overflow by auto; lia].
Qed.

Lemma chiq_bits nu lam c : VB nu -> VB lam -> In c (bits Mn) ->
  chiq nu (vadd (X lam) c) =
    if list_eq_dec Z.eq_dec (vadd (X lam) c) (X nu) then 1%Qc
    else if list_eq_dec Z.eq_dec (tl (vadd (X lam) c) ++ [hd 0 (vadd (X lam) c) - (m + k)]) (X nu) then 1%Qc else 0%Qc.
Proof.
  intros Hnu Hl Hc. pose proof (bits_len _ _ Hc) as Lc. set (y := vadd (X lam) c).
  assert (NY : forall j, (j < Mn)%nat -> nth j y 0 = Z.of_nat Mn - 1 - Z.of_nat j + part lam j + nth j c 0) by (intros; apply Xc_nth; auto).
  assert (Ly : length y = Mn) by (unfold y; rewrite vadd_len; rewrite (X_len m Hm k); auto).
  pose proof Hl as (Hp & _ & H0).
  assert (HB : forall j, (j < Mn)%nat -> 0 <= nth j y 0 <= m + k - Z.of_nat j).
  { intros j Hj. rewrite NY by auto. pose proof (bits_nth c j Hc). pose proof (is_partition_nonneg lam j Hp).
    pose proof (part_le_first' lam j Hp). lia. }
  assert (HW : wdec y).
  { intros j Hj. rewrite Ly in Hj. rewrite !NY by lia. pose proof (bits_nth c j Hc). pose proof (bits_nth c (S j) Hc). destruct Hp as [_ Hp]. specialize (Hp j). lia. }
  assert (HN : forall x, In x (X nu) -> 0 <= x < m + k) by (apply X_in; auto).
  destruct y as [|y0 t] eqn:EY; [cbn [length] in Ly; lia|]. cbn [hd tl].
  pose proof (HB 0%nat ltac:(lia)) as HB0. cbn [nth] in HB0.
  assert (HT : forall x, In x t -> 0 <= x < m + k).
  { intros x Hx. destruct (In_nth _ _ 0 Hx) as (j & Hj & <-). cbn [length] in Ly. specialize (HB (S j) ltac:(lia)). cbn [nth] in HB. lia. }
  destruct (Z.lt_ge_cases y0 (m + k)) as [Hy|Hy].
  - rewrite chiq_weak; auto.
    + destruct (list_eq_dec Z.eq_dec (y0 :: t) (X nu)); auto. destruct (list_eq_dec Z.eq_dec (t ++ _) (X nu)) as [E|]; auto. exfalso.
      assert (0 <= y0 - (m + k)); [|lia]. apply HN. rewrite <- E. apply in_or_app. right. left. auto.
    + intros x [<-|Hx]; auto. lia.
  - rewrite (wrap m k Hm _ _ _ (chiq_good m k Hm Hk0 nu) Ly). assert (y0 = m + k) by lia. subst y0.
    destruct (list_eq_dec Z.eq_dec (m + k :: t) (X nu)) as [E|_].
    { exfalso. specialize (HN (m + k)). rewrite <- E in HN. specialize (HN (or_introl eq_refl)). lia. }
    apply chiq_weak; auto.
    + rewrite app_length. cbn [length] in *. lia.
    + intros x Hx. apply in_app_or in Hx. destruct Hx as [Hx|[<-|[]]]; auto. lia.
    + intros j Hj. rewrite app_length in Hj. cbn [length] in Hj.
      destruct (Nat.eq_dec (S j) (length t)) as [E|E].
      * rewrite (app_nth2 _ _ _ (Nat.eq_le_incl _ _ (eq_sym E))). rewrite E, Nat.sub_diag. cbn [nth]. rewrite app_nth1 by lia.
        assert (0 <= nth j t 0); [|lia]. apply HT, nth_In. lia.
      * rewrite !app_nth1 by lia. apply (wdec_tl _ _ HW). lia.
Qed.

Lemma evq_vert nu lam j : VB nu -> VB lam -> 1 <= j <= m ->
  evq m (chiq nu) (MM (pS lam) (pS (col j))) = qsum (fun c => if zsum c =? j then chiq nu (vadd (X lam) c) else 0%Qc) (bits Mn).
Proof.
  intros Hnu Hl Hj. etransitivity; [exact (lrq_main m k Hm Hk0 lam Hl (chiq nu) (col j) (chiq_good m k Hm Hk0 nu) (col_box j ltac:(lia)))|].
  unfold val, tsum. rewrite cols_col by lia. cbn [map]. rewrite V_cons. apply qsum_ext. intros c Hc. rewrite Z2Nat.id by lia.
  apply in_alll in Hc. destruct Hc as [Lc HF].
  replace (domb 0 c (repeat 0 Mn)) with true by (symmetry; rewrite <- Lc; apply domb_zero; auto; lia). rewrite andb_true_r. reflexivity.
Qed.

(** the two kinds of terms *)
Definition vterm (lam : list Z) (j : Z) (d : nat) (nu : list Z) : Prop :=
  VB nu /\ ((d = 0%nat /\ adds_vertical_strip lam nu /\ size nu = size lam + j) \/
            (d = 1%nat /\ bertram_columns k lam nu /\ size nu = size lam + j - (m + k))).

Lemma nth_ext0 (a b : list Z) : length a = length b -> (forall j, (j < length a)%nat -> nth j a 0 = nth j b 0) -> a = b.
Proof. intros. apply nth_ext with (d := 0) (d' := 0); auto. Qed.

Lemma strip_eq lam nu c : VB lam -> VB nu -> In c (bits Mn) -> vadd (X lam) c = X nu -> adds_vertical_strip lam nu.
Proof.
  intros Hl Hn Hc E j. pose proof (bits_len _ _ Hc) as Lc. destruct (Nat.lt_ge_cases j Mn) as [Hj|Hj].
  - pose proof (Xc_nth lam c j Hl Lc Hj) as H. rewrite E, (X_nth m Hm k) in H by auto. pose proof (bits_nth c j Hc). lia.
  - destruct Hl as (_ & L1 & _), Hn as (_ & L2 & _). unfold part. rewrite !nth_overflow by lia. lia.
Qed.
Lemma strip_bits lam nu : VB lam -> VB nu -> adds_vertical_strip lam nu ->
  exists c, In c (bits Mn) /\ vadd (X lam) c = X nu /\ zsum c = size nu - size lam.
Proof.
  intros Hl Hn HA. set (c := map (fun j => part nu j - part lam j) (seq 0 Mn)).
  assert (Lc : length c = Mn) by (unfold c; rewrite map_length, seq_length; auto).
  assert (NC : forall j, (j < Mn)%nat -> nth j c 0 = part nu j - part lam j).
  { intros j Hj. unfold c. rewrite (nth_indep _ 0 ((fun j => part nu j - part lam j) O)) by (rewrite map_length, seq_length; auto).
    rewrite (map_nth (fun j => part nu j - part lam j)), seq_nth by auto. reflexivity. }
  assert (E : vadd (X lam) c = X nu).
  { apply nth_ext0; [rewrite vadd_len; rewrite !(X_len m Hm k); auto|]. rewrite vadd_len by (rewrite (X_len m Hm k); auto). rewrite (X_len m Hm k) by auto.
    intros j Hj. rewrite Xc_nth, (X_nth m Hm k), NC by auto. lia. }
  exists c. split; [|split; auto].
  - apply in_alll. split; auto. apply Forall_forall. intros x Hx. destruct (In_nth _ _ 0 Hx) as (j & Hj & <-). rewrite NC by lia. specialize (HA j). lia.
  - apply (f_equal zsum) in E. rewrite zsum_vadd in E by (rewrite (X_len m Hm k); auto). rewrite !(X_zsum m Hm k) in E by auto. lia.
Qed.
Lemma tl_app_nth (y : list Z) z j : (1 <= length y)%nat -> (j < length y)%nat -> nth j (tl y ++ [z]) 0 = if (S j =? length y)%nat then z else nth (S j) y 0.
Proof.
  destruct y as [|a y]; cbn [length tl]; intros H1 Hj; [lia|]. destruct (Nat.eqb_spec (S j) (S (length y))) as [E|E].
  - rewrite app_nth2 by lia. replace (j - length y)%nat with 0%nat by lia. reflexivity.
  - rewrite app_nth1 by lia. reflexivity.
Qed.
Notation wr y := (tl y ++ [hd 0 y - (m + k)]).
Lemma wr_len y : length y = Mn -> length (wr y) = Mn.
Proof. intros H. destruct y; [cbn [length] in H; lia|]. cbn [tl hd]. rewrite app_length. cbn [length] in *. lia. Qed.
Lemma wr_zsum y : length y = Mn -> zsum (wr y) = zsum y - (m + k).
Proof. intros H. destruct y; [cbn [length] in H; lia|]. cbn [tl hd]. rewrite zsum_app. unfold zsum. cbn [fold_right]. lia. Qed.
Lemma wr_inj y y' : length y = Mn -> length y' = Mn -> wr y = wr y' -> y = y'.
Proof.
  intros H H' E. destruct y as [|a y], y' as [|b y']; try (cbn [length] in *; lia). cbn [tl hd] in E. apply app_inj_tail in E. destruct E as [-> E].
  f_equal. lia.
Qed.
Lemma wrap_eq lam nu c : VB lam -> VB nu -> In c (bits Mn) -> wr (vadd (X lam) c) = X nu -> bertram_columns k lam nu.
Proof.
  intros Hl Hn Hc E. pose proof (bits_len _ _ Hc) as Lc. set (y := vadd (X lam) c) in *.
  assert (Ly : length y = Mn) by (unfold y; rewrite vadd_len; rewrite (X_len m Hm k); auto).
  assert (NY : forall j, (j < Mn)%nat -> nth j y 0 = Z.of_nat Mn - 1 - Z.of_nat j + part lam j + nth j c 0) by (intros; apply Xc_nth; auto).
  assert (H0 : hd 0 y = nth 0 y 0) by (destruct y; reflexivity).
  assert (HX : forall j, (j < Mn)%nat -> Z.of_nat Mn - 1 - Z.of_nat j + part nu j = if (S j =? Mn)%nat then hd 0 y - (m + k) else nth (S j) y 0).
  { intros j Hj. rewrite <- (X_nth m Hm k nu j Hn Hj), <- E. rewrite tl_app_nth by lia. rewrite Ly. reflexivity. }
  destruct Hl as (P1 & L1 & B1), Hn as (P2 & L2 & B2).
  assert (HL : part lam 0 = k /\ part nu (Mn - 1) = 0).
  { specialize (HX (Mn - 1)%nat ltac:(lia)). replace (S (Mn - 1)) with Mn in HX by lia. rewrite Nat.eqb_refl, H0, NY in HX by lia.
    pose proof (bits_nth c 0 Hc). pose proof (is_partition_nonneg nu (Mn - 1) P2). lia. }
  split; [tauto|]. intros j. destruct (Nat.lt_ge_cases (S j) Mn) as [Hj|Hj].
  - specialize (HX j ltac:(lia)). destruct (Nat.eqb_spec (S j) Mn); [lia|]. rewrite NY in HX by lia. pose proof (bits_nth c (S j) Hc). lia.
  - assert (part lam (S j) = 0) by (unfold part; apply nth_overflow; lia).
    assert (part nu j = 0); [|lia]. destruct (Nat.eq_dec j (Mn - 1)) as [->|]; [tauto|]. unfold part. apply nth_overflow. lia.
Qed.
Lemma wrap_bits lam nu : VB lam -> VB nu -> bertram_columns k lam nu ->
  exists c, In c (bits Mn) /\ wr (vadd (X lam) c) = X nu /\ zsum c = size nu - size lam + (m + k).
Proof.
  intros Hl Hn [HA HB]. set (f := fun j => match j with O => 1 | S i => part nu i - part lam (S i) + 1 end). set (c := map f (seq 0 Mn)).
  assert (Lc : length c = Mn) by (unfold c; rewrite map_length, seq_length; auto).
  assert (NC : forall j, (j < Mn)%nat -> nth j c 0 = f j).
  { intros j Hj. unfold c. rewrite (nth_indep _ 0 (f O)) by (rewrite map_length, seq_length; auto).
    rewrite (map_nth f), seq_nth by auto. reflexivity. }
  assert (Ly : length (vadd (X lam) c) = Mn) by (rewrite vadd_len; rewrite (X_len m Hm k); auto).
  assert (E : wr (vadd (X lam) c) = X nu).
  { apply nth_ext0; [rewrite wr_len, (X_len m Hm k); auto|]. rewrite wr_len by auto. intros j Hj.
    rewrite tl_app_nth by lia. rewrite Ly. rewrite (X_nth m Hm k) by auto. destruct (Nat.eqb_spec (S j) Mn) as [Ej|Ej].
    - replace (hd 0 (vadd (X lam) c)) with (nth 0 (vadd (X lam) c) 0) by (destruct (vadd (X lam) c); reflexivity).
      rewrite Xc_nth, NC by (auto; lia). cbn [f]. pose proof (HB j) as H. pose proof (is_partition_nonneg nu j (proj1 Hn)).
      assert (part lam (S j) = 0) by (destruct Hl as (_ & L1 & _); unfold part; apply nth_overflow; lia). lia.
    - rewrite Xc_nth, NC by (auto; lia). cbn [f]. lia. }
  exists c. split; [|split; auto].
  - apply in_alll. split; auto. apply Forall_forall. intros x Hx. destruct (In_nth _ _ 0 Hx) as (j & Hj & <-). rewrite NC by lia.
    destruct j as [|j]; cbn [f]; [lia|]. specialize (HB j). lia.
  - apply (f_equal zsum) in E. rewrite wr_zsum, zsum_vadd in E by (rewrite ?(X_len m Hm k); auto). rewrite !(X_zsum m Hm k) in E by auto. lia.
Qed.

Lemma vert_coef lam j d nu : VB lam -> VB nu -> 1 <= j <= m -> size lam + j = size nu + Z.of_nat d * (m + k) ->
  (vterm lam j d nu -> coef (MM (pS lam) (pS (col j))) (qS d nu) = 1%Qc) /\
  (coef (MM (pS lam) (pS (col j))) (qS d nu) <> 0%Qc -> vterm lam j d nu).
Proof.
  intros Hl Hn Hj HD. pose proof (col_box j ltac:(lia)) as Hc. destruct (M_hom m k Hm Hk0 true lam (col j) Hl Hc) as [Hh _].
  rewrite col_size in Hh by lia. rewrite <- (evq_coef m k Hm Hk0 _ _ d nu Hh Hn HD), evq_vert by auto.
  assert (HX : forall c, In c (bits Mn) -> length (vadd (X lam) c) = Mn).
  { intros c Hi. pose proof (bits_len _ _ Hi). rewrite vadd_len; rewrite (X_len m Hm k); auto. }
  assert (HZ : forall c, In c (bits Mn) -> zsum (vadd (X lam) c) = zsum (rho Mn) + size lam + zsum c).
  { intros c Hi. pose proof (bits_len _ _ Hi). rewrite zsum_vadd, (X_zsum m Hm k); auto. rewrite (X_len m Hm k); auto. }
  pose proof (X_zsum m Hm k nu Hn) as ZN.
  assert (ND : NoDup (bits Mn)) by apply alll_nodup.
  assert (IJ : forall c c', In c (bits Mn) -> In c' (bits Mn) -> vadd (X lam) c = vadd (X lam) c' -> c = c').
  { intros c c' H1 H2 E. pose proof (bits_len _ _ H1). pose proof (bits_len _ _ H2). apply vadd_inj in E; auto; rewrite (X_len m Hm k); auto. }
  split.
  - intros [_ [(-> & HA & HS)|(-> & HA & HS)]].
    + destruct (strip_bits lam nu Hl Hn HA) as (c0 & C1 & C2 & C3). apply (qsum_one _ _ c0); auto.
      * rewrite chiq_bits by auto. destruct (list_eq_dec Z.eq_dec _ _); [|contradiction]. destruct (Z.eqb_spec (zsum c0) j); auto; lia.
      * intros c Hi Hne. destruct (Z.eqb_spec (zsum c) j) as [Ez|]; auto. rewrite chiq_bits by auto.
        destruct (list_eq_dec Z.eq_dec (vadd (X lam) c) _) as [E|_]; [exfalso; apply Hne; apply IJ; auto; congruence|].
        destruct (list_eq_dec Z.eq_dec _ _) as [E|_]; auto. exfalso. apply (f_equal zsum) in E. rewrite wr_zsum, HZ in E by auto. lia.
    + destruct (wrap_bits lam nu Hl Hn HA) as (c0 & C1 & C2 & C3). apply (qsum_one _ _ c0); auto.
      * rewrite chiq_bits by auto. destruct (Z.eqb_spec (zsum c0) j); [|lia]. destruct (list_eq_dec Z.eq_dec (vadd (X lam) c0) _); auto.
        destruct (list_eq_dec Z.eq_dec _ _); [auto|contradiction].
      * intros c Hi Hne. destruct (Z.eqb_spec (zsum c) j) as [Ez|]; auto. rewrite chiq_bits by auto.
        destruct (list_eq_dec Z.eq_dec (vadd (X lam) c) _) as [E|_]; [exfalso; apply (f_equal zsum) in E; rewrite HZ in E by auto; lia|].
        destruct (list_eq_dec Z.eq_dec _ _) as [E|_]; auto. exfalso. apply Hne, IJ; auto. apply wr_inj; auto. congruence.
  - intros HN. destruct (qsum_nonzero _ _ HN) as (c & Hi & HF). clear HN. destruct (Z.eqb_spec (zsum c) j) as [Ez|]; [|congruence]. rewrite chiq_bits in HF by auto.
    destruct (list_eq_dec Z.eq_dec (vadd (X lam) c) _) as [E|_].
    { split; auto. left. pose proof (strip_eq lam nu c Hl Hn Hi E). apply (f_equal zsum) in E. rewrite HZ in E by auto.
      split; [nia|]. split; auto. lia. }
    destruct (list_eq_dec Z.eq_dec _ _) as [E|_]; [|congruence].
    split; auto. right. pose proof (wrap_eq lam nu c Hl Hn Hi E). apply (f_equal zsum) in E. rewrite wr_zsum, HZ in E by auto.
    split; [nia|]. split; auto. lia.
Qed.

Theorem vertical lam j : VB lam -> 1 <= j <= m -> is_sum_of (MM (pS lam) (pS (col j))) (vterm lam j).
Proof.
  intros Hl Hj. pose proof (col_box j ltac:(lia)) as Hc. destruct (M_hom m k Hm Hk0 true lam (col j) Hl Hc) as [Hh _].
  rewrite col_size in Hh by lia. split.
  - intros d nu H. assert (Hn : VB nu) by apply H. apply (vert_coef lam j d nu); auto. destruct H as [_ [(-> & _ & H)|(-> & _ & H)]]; lia.
  - intros mo Hmo. destruct (Hh mo Hmo) as (d & nu & HP & Hn & HD). exists d, nu. split; auto.
    apply (vert_coef lam j d nu Hl Hn Hj (eq_sym HD)). rewrite <- (coef_perm _ _ _ HP). auto.
Qed.
End V.
