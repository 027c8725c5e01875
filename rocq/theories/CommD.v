(** The Pieri operators of OG(n+1-k,2n+2), 1 <= k <= n, commute; the quantum
    ones for k > 1. *)

From Coq Require Import ZArith List Lia Bool Permutation QArith Qcanon.
From Verif Require Import Py OrderFacts PyFacts ModelPart ModelQcalc ModelPoly ModelStr ModelGr Spec SpecPieri
  PolyFacts SuppFacts Enum FillFacts PartFacts ConjFacts PairFacts BetwFacts PieriSet PieriBKT CompsFacts CompsBound PieriA QPieriA WSum PieriCoef PieriD QPieriD
  OpTheory Sys WArrow Word Transfer TransD WordArrow WordPieri Extract CoefSys CommC RecBCD ApiPieriQ CommB WordD CoefD.
Import ListNotations.
Open Scope Z_scope.

(** ** first letters *)
Definition dcl (e : nat) (x y : letter) : option (st * Qc) := match e with O => dn S0 x y | _ => None end.
Definition dB (e : nat) (x y : letter) : option (st * Qc) :=
  match e, x, y with
  | O, _, _ => dn S0 x y
  | S O, LE, LL => Some (S1, 1%Qc)
  | S O, LR, LE => Some (S2, 1%Qc)
  | _, _, _ => None
  end.
Definition bwalk (tab : nat -> letter -> letter -> option (st * nat)) (m e : nat) (w v : word) : option (nat * nat * st) :=
  match w, v with
  | x :: w', y :: v' => match tab e x y with
      | Some (a, sh) => match walk m a w' v' with Some (g, x0, b) => Some ((sh + g)%nat, x0, b) | None => None end
      | None => None end
  | _, _ => None
  end.
Definition kT tab m e w v : mlist := tfin (bwalk tab m e w v) w v.
Definition kS (dtab : nat -> letter -> letter -> option (st * Qc)) (m e : nat) (w v : word) : Qc :=
  match w, v with
  | x :: w', y :: v' => match dtab e x y with Some (a, s) => (s * drun m a w' v')%Qc | None => 0%Qc end
  | _, _ => 0%Qc
  end.
Lemma bwalk_0 tab m w v : (forall x y, tab 0%nat x y = match nxt S0 x y with Some a => Some (a, dg S0 x y) | None => None end) ->
  bwalk tab m 0 w v = walk (S m) S0 w v.
Proof.
  intros Ht. destruct w as [|x w]; [reflexivity|]. destruct v as [|y v]; [reflexivity|]. cbn [bwalk walk]. rewrite Ht.
  destruct (nxt S0 x y) as [a|] eqn:En; [|reflexivity]. destruct (walk m a w v) as [[[g x0] b]|]; [|reflexivity].
  assert (H : ex S0 x y = 0%nat) by (destruct x, y; reflexivity). rewrite H. reflexivity.
Qed.

(** ** rows *)
Definition fullD (w : word) : Prop := zlen (wp 1 w) = zlen w - cE w.
Lemma rows_leD w : (1 <= length w)%nat -> zlen (wp 1 w) <= zlen w - cE w.
Proof. intros H. destruct (wp1_kstrict w H) as ((_ & H1 & _) & _). unfold zlen in *. lia. Qed.
Lemma fullD_E w : fullD (LE :: w).
Proof. unfold fullD. cbn [wp cE isE]. pose proof (cE_range w). rewrite zlen_map_zrange, zlen_cons by lia. lia. Qed.
Lemma wpD_LR w : (1 <= length w)%nat -> wp 1 (LR :: w) = zlen w + cE w :: wp 1 w.
Proof. intros H. cbn [wp]. cbv zeta. pose proof (cE_range w). assert (1 <= zlen w) by (unfold zlen; lia). destruct (Z.eqb_spec (zlen w + 1 - 1 + cE w) 0); [lia|]. f_equal. lia. Qed.
Lemma fullD_R w : (1 <= length w)%nat -> (fullD (LR :: w) <-> fullD w).
Proof. intros H. unfold fullD. rewrite wpD_LR, !zlen_cons by auto. cbn [cE isE]. lia. Qed.
Lemma fullD_S2 m : forall w v g x b h c, walk m S2 w v = Some (g, x, b) -> length w = S m -> length v = S m -> fm b (lastl w) (lastl v) = Some (h, c) -> fullD w.
Proof.
  induction m as [|m IH]; intros w v g x b h c H Hl Hv Hf.
  - destruct w as [|y [|? ?]]; try discriminate. destruct v as [|z [|? ?]]; try discriminate. cbn [walk] in H. injection H as <- <- <-. cbn [lastl last] in Hf.
    destruct y, z; try discriminate; reflexivity.
  - destruct w as [|y w]; [discriminate|]. destruct v as [|z v]; [discriminate|]. injection Hl as Hl. injection Hv as Hv. cbn [walk] in H. rewrite !lastl_tl in Hf by lia.
    destruct y; [apply fullD_E| |destruct z; discriminate].
    destruct z; cbn [nxt] in H; try discriminate. destruct (walk m S2 w v) as [[[g' x'] b']|] eqn:E; [|discriminate]. injection H as <- <- <-. apply fullD_R; [lia|]. eapply IH; eauto.
Qed.
Lemma wpD_Ls a v : wp 1 (repeat LL a ++ v) = wp 1 v.
Proof. induction a; auto. Qed.
Lemma lastl_Ls a v : (1 <= length v)%nat -> lastl (repeat LL a ++ v) = lastl v.
Proof. intros H. induction a as [|a IH]; [reflexivity|]. cbn [repeat app]. rewrite lastl_tl, IH; auto. rewrite app_length. lia. Qed.

Section R.
Variables (k n : Z).
Hypothesis Hk : 2 <= k <= n.
Notation ws := (wset k (n + 1)).

Lemma row_onesD a B : In (repeat LL a ++ LE :: B) ws ->
  with_row_and_ones_D (2 * k - 1) (n + 2 - k) (encD (repeat LL a ++ LE :: B)) = encD (LE :: repeat LL a ++ LR :: B) /\
  In (LE :: repeat LL a ++ LR :: B) (wset k (n + 1 + 1)) /\ (1 <= length B)%nat.
Proof.
  intros Hin. pose proof (ws_len k n ltac:(lia) _ Hin) as (Hl & Hz & HE). pose proof (ws_kstrict k n ltac:(lia) _ Hin) as HK.
  rewrite zlen_Ls, zlen_cons in Hz. rewrite cE_Ls in HE. cbn [cE isE] in HE.
  pose proof (cE_range B) as HcB. assert (HlB : (1 <= length B)%nat) by (unfold zlen in HcB; lia).
  pose proof (rows_leD B HlB) as HB. pose proof (zlen_nonneg (wp 1 B)) as HnB.
  assert (G : with_row_and_ones (2 * k - 1) (n + 2 - k) (wp 1 (repeat LL a ++ LE :: B)) = wp 1 (LE :: repeat LL a ++ LR :: B)).
  { rewrite wpD_Ls. cbn [wp]. rewrite wpD_Ls, cE_Ls, zlen_Ls, zlen_cons, wpD_LR by auto. cbn [cE isE].
    unfold with_row_and_ones.
    set (mu := map (fun j => part (wp 1 B) (Z.to_nat j) + 1) (zrange 0 (zlen B - cE B))).
    assert (Hmu : Z.of_nat (length mu) = zlen B - cE B) by (change (Z.of_nat (length mu)) with (zlen mu); unfold mu; apply zlen_map_zrange; lia).
    replace (Z.of_nat a + (zlen B + 1) - (0 + cE B)) with (Z.of_nat a + 1 + (zlen B - cE B)) by lia.
    rewrite (zrange_cons 0) by lia. cbn [map app]. f_equal; [change (part (zlen B + cE B :: wp 1 B) (Z.to_nat 0)) with (zlen B + cE B); lia|].
    replace (Z.of_nat a + 1 + (zlen B - cE B)) with (Z.of_nat a + (zlen B - cE B) + 1) by lia. rewrite zrange_shift, map_map.
    rewrite (map_ext_in _ (fun j => part (wp 1 B) (Z.to_nat j) + 1)).
    2:{ intros j Hj. apply in_zrange in Hj. replace (Z.to_nat (j + 1)) with (S (Z.to_nat j)) by lia. reflexivity. }
    rewrite (Schub.zrange_split 0 (zlen B - cE B)) by lia. rewrite map_app. fold mu. f_equal.
    replace (Z.to_nat (n + 2 - k) - 1 - length mu)%nat with a by lia.
    rewrite (map_ext_in _ (fun _ => 1)).
    2:{ intros j Hj. apply in_zrange in Hj. rewrite part_over_z by lia. lia. }
    rewrite map_cst, length_zrange. f_equal. lia. }
  assert (L1 : lastl (repeat LL a ++ LE :: B) = lastl B) by (rewrite lastl_Ls by (cbn; lia); apply lastl_tl; auto).
  assert (L2 : lastl (LE :: repeat LL a ++ LR :: B) = lastl B).
  { rewrite lastl_tl by (rewrite app_length; cbn; lia). rewrite lastl_Ls by (cbn; lia). apply lastl_tl; auto. }
  split; [|split; auto].
  - unfold encD. rewrite L1, L2. unfold with_row_and_ones_D. pose proof (PieriCoef.last_partition _ (proj1 (proj1 HK))) as Hla.
    destruct (lastl B).
    + replace (last _ 1 =? 0) with false by lia. exact G.
    + rewrite last_last, removelast_last, G. reflexivity.
    + replace (last _ 1 =? 0) with false by lia. exact G.
  - apply in_wset. cbn [length cE isE]. rewrite app_length, repeat_length, cE_Ls in *. cbn [length cE isE] in *.
    replace (Z.to_nat (n + 1 + 1)) with (S (S (Z.to_nat n))) by lia. lia.
Qed.
Lemma shape_row_D c rows mu : 0 < c -> typed_in k (n + 1 - k) (n + k) mu ->
  shape (with_row_and_ones_D c rows mu) = with_row_and_ones c rows (shape mu).
Proof.
  intros Hc H. destruct (typed_shape _ _ _ _ H) as (((HP & _) & _) & HE). pose proof (partition_pos _ HP) as Hpos.
  assert (Hr : Forall (fun x => 0 < x) (with_row_and_ones c rows (shape mu))).
  { unfold with_row_and_ones. apply Forall_app. split; [constructor; auto; lia|]. apply Forall_forall. intros x Hx. apply repeat_spec in Hx. lia. }
  assert (Hf : forall l, Forall (fun x => 0 < x) l -> shape l = l).
  { induction 1 as [|x l Hx _ IH]; [reflexivity|]. unfold shape in *. cbn [filter]. replace (0 <? x) with true by lia. congruence. }
  unfold with_row_and_ones_D. destruct HE as [E|(E & _)].
  - pose proof (PieriCoef.last_partition _ HP) as Hla. rewrite <- E in Hla. replace (last mu 1 =? 0) with false by lia. rewrite E at 1. apply Hf; auto.
  - clear - E Hr Hf. revert E Hr. generalize (shape mu). intros s -> Hr. rewrite last_last. change (0 =? 0) with true. cbv iota. rewrite removelast_last.
    unfold shape. rewrite filter_app. cbn [filter]. change (0 <? 0) with false. cbv iota. rewrite app_nil_r. apply Hf; auto.
Qed.
Lemma row_onesD_not a B : In (repeat LL a ++ LR :: B) ws ->
  ~ typed_in k (n + 1 + 1 - k) (n + 1 + k) (with_row_and_ones_D (2 * k - 1) (n + 2 - k) (encD (repeat LL a ++ LR :: B))).
Proof.
  intros Hin H. destruct (typed_shape _ _ _ _ H) as ((_ & Hs) & _). clear H.
  rewrite shape_row_D in Hs by (try lia; apply encD_V; auto; lia). rewrite (shape_encD k n ltac:(lia) _ Hin) in Hs.
  pose proof (ws_len k n ltac:(lia) _ Hin) as (Hl & Hz & HE).
  rewrite zlen_Ls, zlen_cons in Hz. rewrite cE_Ls in HE. cbn [cE isE] in HE.
  pose proof (cE_range B) as HcB. assert (HlB : (1 <= length B)%nat) by (unfold zlen in HcB; lia). pose proof (rows_leD B HlB) as HB.
  rewrite wpD_Ls, wpD_LR in Hs by auto. specialize (Hs 0%nat). unfold with_row_and_ones, part in Hs. cbn [app nth] in Hs.
  cbn [length] in Hs. unfold zlen in *. lia.
Qed.
End R.

(** ** the terms with q *)
Lemma drun_S1 m a B : forall w, (a < m)%nat -> drun m S0 w (repeat LL a ++ LR :: B) = drun m S1 w (repeat LL a ++ LE :: B).
Proof.
  revert m. induction a as [|a IH]; intros m w Hm; destruct m as [|m]; try lia; (destruct w as [|x w]; [reflexivity|]); cbn [repeat app drun].
  - destruct x; reflexivity.
  - destruct x; try reflexivity. cbn [dn]. rewrite IH by lia. reflexivity.
Qed.
Lemma drun_S1_R m a B : forall w, (a < m)%nat -> drun m S1 w (repeat LL a ++ LR :: B) = 0%Qc.
Proof.
  revert m. induction a as [|a IH]; intros m w Hm; destruct m as [|m]; try lia; (destruct w as [|x w]; [reflexivity|]); cbn [repeat app drun].
  - destruct x; reflexivity.
  - destruct x; try reflexivity. cbn [dn]. rewrite IH by lia. ring.
Qed.
Lemma bwalk_1 m a B w : length w = S (S m) -> (a <= m)%nat ->
  bwalk bB m 1 w (repeat LL a ++ LE :: B) = walk (S (S m)) S0 (LL :: w) (LE :: repeat LL a ++ LR :: B).
Proof.
  intros Hw Ha. destruct w as [|x w]; [discriminate|]. change (walk (S (S m)) S0 (LL :: x :: w) (LE :: repeat LL a ++ LR :: B))
    with (match walk (S m) S2 (x :: w) (repeat LL a ++ LR :: B) with Some (g, x0, b) => Some ((1 + g)%nat, (0 + x0)%nat, b) | None => None end).
  destruct a as [|a]; cbn [repeat app bwalk bB walk].
  - destruct x; cbn [nxt dg ex]; try reflexivity;
      match goal with |- context [walk m ?s w B] => destruct (walk m s w B) as [[[g x0] b]|]; reflexivity end.
  - destruct x; cbn [nxt dg ex]; try reflexivity. rewrite walk_S1 by lia.
    destruct (walk m S1 w (repeat LL a ++ LE :: B)) as [[[g x0] b]|]; reflexivity.
Qed.
Lemma bwalk_1_R m a B w : (a <= m)%nat -> bwalk bB m 1 w (repeat LL a ++ LR :: B) = None.
Proof.
  intros Ha. destruct w as [|x w]; [reflexivity|]. destruct a as [|a]; cbn [repeat app bwalk bB].
  - destruct x; reflexivity.
  - destruct x; try reflexivity. rewrite walk_S1_R by lia. reflexivity.
Qed.
Lemma kS_1 m a B w : length w = S (S m) -> (a <= m)%nat ->
  kS dB m 1 w (repeat LL a ++ LE :: B) = drun (S (S m)) S0 (LL :: w) (LE :: repeat LL a ++ LR :: B).
Proof.
  intros Hw Ha. destruct w as [|x w]; [discriminate|]. change (drun (S (S m)) S0 (LL :: x :: w) (LE :: repeat LL a ++ LR :: B))
    with (1 * drun (S m) S2 (x :: w) (repeat LL a ++ LR :: B))%Qc.
  destruct a as [|a]; cbn [repeat app kS dB drun].
  - destruct x; cbn [dn]; ring.
  - destruct x; cbn [dn]; try ring. rewrite drun_S1 by lia. ring.
Qed.
Lemma kS_1_R m a B w : (a <= m)%nat -> kS dB m 1 w (repeat LL a ++ LR :: B) = 0%Qc.
Proof.
  intros Ha. destruct w as [|x w]; [reflexivity|]. destruct a as [|a]; cbn [repeat app kS dB].
  - destruct x; reflexivity.
  - destruct x; try reflexivity. rewrite drun_S1_R by lia. ring.
Qed.
Lemma tfin_full m w v p : length w = S (S m) -> length v = S (S m) -> co (kT bB m 1 w v) p <> 0%Qc -> fullD w.
Proof.
  intros Hw Hv H. destruct w as [|x w]; [discriminate|]. destruct v as [|y v]; [discriminate|]. injection Hw as Hw. injection Hv as Hv.
  unfold kT in H. rewrite co_tfin in H. destruct x; [apply fullD_E| |destruct y; cbn in H; congruence].
  destruct y; cbn [bwalk bB] in H; try congruence. destruct (walk m S2 w v) as [[[g x0] b]|] eqn:E; [|congruence].
  rewrite !lastl_tl in H by lia. destruct (fm b (lastl w) (lastl v)) as [[h c]|] eqn:Ef; [|congruence]. apply fullD_R; [lia|]. eapply fullD_S2; eauto.
Qed.
Lemma kS_full m w v : length w = S (S m) -> length v = S (S m) -> kS dB m 1 w v <> 0%Qc -> fullD w.
Proof.
  intros Hw Hv H. destruct w as [|x w]; [discriminate|]. destruct v as [|y v]; [discriminate|]. injection Hw as Hw. injection Hv as Hv.
  destruct x; [apply fullD_E| |destruct y; cbn in H; congruence].
  destruct y; cbn [kS dB] in H; try congruence. destruct (drun_walk m S2 w v Hw Hv (mul_ne0 _ _ H)) as (g & b & h & c & E & _ & Ef & _).
  apply fullD_R; [lia|]. eapply fullD_S2; eauto.
Qed.

Definition swe (e : nat) (v : word) : word := if Nat.odd e then swl v else v.
Definition kD (tab : nat -> letter -> letter -> option (st * nat)) (dtab : nat -> letter -> letter -> option (st * Qc)) (k n p : Z) (e : nat) (w v : word) : Qc :=
  (cD k p * co (kT tab (Nat.pred (Z.to_nat n)) e w (swe e v)) (Z.to_nat (Z.abs p)) + dD k p * kS dtab (Nat.pred (Z.to_nat n)) e w (swe e v))%Qc.

Section Q.
Variables (k n : Z).
Hypothesis Hk : 1 <= k <= n.
Notation ws := (wset k (n + 1)).

Lemma coef_D0 tab dtab w v p c : (forall x y, tab 0%nat x y = match nxt S0 x y with Some a => Some (a, dg S0 x y) | None => None end) ->
  (forall x y, dtab 0%nat x y = dn S0 x y) ->
  In w ws -> In v ws -> coef_D k n p (encD w) (encD v) c -> c = kD tab dtab k n p 0 w v.
Proof.
  intros Ht Hd Hw Hv H. rewrite (coefD_gen k n Hk w v p c Hw Hv H). unfold kD. set (m := Nat.pred (Z.to_nat n)) in *. assert (Em : Z.to_nat n = S m) by (unfold m; lia). rewrite Em.
  unfold kT, swe. cbn [Nat.odd Nat.even negb]. rewrite (bwalk_0 tab) by auto. f_equal. f_equal.
  destruct (ws_len k n Hk w Hw) as (L1 & _). destruct (ws_len k n Hk v Hv) as (M1 & _).
  destruct w as [|x w]; [discriminate|]. destruct v as [|y v]; [discriminate|]. cbn [kS drun]. rewrite Hd. reflexivity.
Qed.
Lemma coef_D1 w v p c : 2 <= k -> In w ws -> In v ws ->
  (if Z.of_nat (length (shape (encD w))) =? n + 1 - k
     then coef_D k (n + 1) p (encD w) (with_row_and_ones_D (2 * k - 1) (n + 2 - k) (swap_type k (encD v))) c
     else c = 0%Qc) -> c = kD bB dB k n p 1 w v.
Proof.
  intros H2 Hw Hv H. destruct (ws_len k n Hk w Hw) as (L1 & L2 & L3). pose proof (swl_ws k n v Hv) as Hv1. rewrite (swap_encD k n Hk v Hv) in H. rewrite (shape_encD k n Hk w Hw) in H.
  unfold kD. change (swe 1 v) with (swl v). set (v1 := swl v) in *. clearbody v1. clear v Hv. destruct (ws_len k n Hk v1 Hv1) as (M1 & M2 & M3).
  set (m := Nat.pred (Z.to_nat n)) in *. assert (Em : Z.to_nat n = S m) by (unfold m; lia). rewrite Em in L1, M1.
  assert (Hf : fullD w <-> Z.of_nat (length (wp 1 w)) = n + 1 - k) by (unfold fullD, zlen in *; lia).
  destruct (Z.eqb_spec (Z.of_nat (length (wp 1 w))) (n + 1 - k)) as [Ef|Ef].
  2:{ subst c. destruct (Qc_eq_dec (co (kT bB m 1 w v1) (Z.to_nat (Z.abs p))) 0%Qc) as [E0|E0]; [|exfalso; apply Ef, Hf; eapply tfin_full; eauto].
      destruct (Qc_eq_dec (kS dB m 1 w v1) 0%Qc) as [E1|E1]; [|exfalso; apply Ef, Hf; eapply kS_full; eauto]. rewrite E0, E1. ring. }
  destruct (word_cases v1 ltac:(lia)) as (a & B & Hc).
  assert (HlB : (1 <= length B)%nat /\ (a <= m)%nat).
  { destruct Hc as [-> | ->]; rewrite cE_Ls in M3; rewrite app_length, repeat_length in M1; cbn [cE isE length] in M1, M3; pose proof (cE_range B) as HB; unfold zlen in HB; lia. }
  destruct HlB as [HlB Ha]. destruct Hc as [-> | ->].
  - destruct (row_onesD k n ltac:(lia) a B Hv1) as (Er & Hz & _). rewrite Er in H.
    assert (EL : encD w = encD (LL :: w)) by (unfold encD; rewrite lastl_tl by lia; reflexivity). rewrite EL in H.
    pose proof (wset_cons k (n + 1) LL w ltac:(lia) Hw) as Hw'. cbn [isE] in Hw'. rewrite Z.add_0_r in Hw'.
    rewrite (coefD_gen k (n + 1) ltac:(lia) _ _ p c Hw' Hz H).
    replace (Z.to_nat (n + 1)) with (S (S m)) by lia. unfold kT. rewrite bwalk_1, kS_1 by lia. f_equal. f_equal. rewrite !co_tfin.
    rewrite (lastl_tl LL w) by lia. rewrite (lastl_tl LE), !lastl_Ls, !lastl_tl by (rewrite ?app_length; cbn [length]; lia). reflexivity.
  - unfold kT. rewrite bwalk_1_R, kS_1_R by auto. pose proof (row_onesD_not k n ltac:(lia) a B Hv1) as Hn.
    destruct H as [((H & _) & _)|(_ & ->)]; [contradiction|]. rewrite co_tfin. ring.
Qed.

Lemma first_rowD w : In w ws -> (part (encD w) 0 = n + k <-> exists w', w = LR :: w').
Proof.
  intros Hw. rewrite <- (typed_part k (n + 1 - k) (n + k)) by (apply encD_V; auto). rewrite (shape_encD k n Hk w Hw).
  destruct (ws_len k n Hk w Hw) as (L1 & L2 & L3).
  destruct w as [|x w]; [discriminate|]. rewrite zlen_cons in L2. assert (Hl : (1 <= length w)%nat) by (cbn [length] in L1; lia).
  destruct (wp1_kstrict w Hl) as ((Hp & Hr & Hc) & _). pose proof (cE_range w). split.
  - intros E. destruct x; [exfalso|eauto|exfalso]; cbn [wp cE isE] in *.
    + destruct (Z.eq_dec (zlen w - cE w) 0) as [E0|E0].
      * rewrite E0, zrange_nil in E by lia. unfold part in E. cbn in E. lia.
      * rewrite (zrange_cons 0) in E by lia. cbn [map] in E. unfold part at 1 in E. cbn [nth] in E. change (Z.to_nat 0) with 0%nat in E. lia.
    + lia.
  - intros (w' & E). injection E as -> ->. rewrite wpD_LR by auto. unfold part. cbn [nth]. cbn [cE isE] in L3. lia.
Qed.
Lemma enc_R w : (1 <= length w)%nat -> encD (LR :: w) = zlen w + cE w :: encD (LL :: w).
Proof. intros H. unfold encD. rewrite !lastl_tl, wpD_LR by auto. cbn [wp]. destruct (lastl w); reflexivity. Qed.
Lemma coef_D2 w v p c : In w ws -> In v ws ->
  (if part (encD w) 0 =? n + k then coef_D k n p (tl (encD w)) (n + k :: encD v) c else c = 0%Qc) -> c = kD bB dB k n p 2 w v.
Proof.
  intros Hw Hv H. set (m := Nat.pred (Z.to_nat n)) in *. assert (Em : Z.to_nat n = S m) by (unfold m; lia).
  pose proof (first_rowD w Hw) as F. destruct (ws_len k n Hk w Hw) as (L1 & L2 & L3). destruct (ws_len k n Hk v Hv) as (M1 & M2 & M3).
  unfold kD. fold m. change (swe 2 v) with v.
  destruct w as [|x w]; [discriminate|]. destruct v as [|y v]; [discriminate|]. rewrite zlen_cons in L2, M2. rewrite Em in *. injection L1 as L1. injection M1 as M1.
  replace (kS dB m 2 (x :: w) (y :: v)) with 0%Qc by (destruct x, y; reflexivity). rewrite Qcmult_0_r, Qcplus_0_r.
  destruct (Z.eqb_spec (part (encD (x :: w)) 0) (n + k)) as [E|E].
  2:{ subst c. unfold kT. rewrite co_tfin. destruct x; [destruct y; cbn [bwalk bB]; ring| |destruct y; cbn [bwalk bB]; ring]. exfalso. apply E, F. eauto. }
  destruct (proj1 F E) as (w' & E'). injection E' as -> ->. cbn [cE isE] in L3.
  rewrite enc_R in H by lia. cbn [tl] in H.
  assert (Hw0 : In (LL :: w') ws) by (apply in_wset; cbn [length cE isE]; lia).
  assert (HT : forall c, coef_D k n p (encD (LL :: w')) (n + k :: encD (y :: v)) c -> c <> 0%Qc -> kstrict_in k (n + 1 - k) (n + k) (n + k :: wp 1 (y :: v))).
  { intros c0 H0 Hc. apply coef_D_supp in H0; auto. destruct H0 as (H0 & _). apply typed_shape in H0. destruct H0 as (H0 & _).
    replace (shape (n + k :: encD (y :: v))) with (n + k :: wp 1 (y :: v)) in H0; [exact H0|]. unfold shape. cbn [filter]. replace (0 <? n + k) with true by lia.
    f_equal. symmetry. apply (shape_encD k n Hk (y :: v) Hv). }
  specialize (HT c H). unfold kT. rewrite co_tfin. destruct y; cbn [bwalk bB].
  - destruct (Qc_eq_dec c 0%Qc) as [->|Hc]; [ring|]. exfalso. specialize (HT Hc). destruct HT as ((_ & HR & _) & _). cbn [length] in HR.
    pose proof (fullD_E v) as Hf. unfold fullD in Hf. rewrite zlen_cons in Hf. unfold zlen in *. lia.
  - destruct (Qc_eq_dec c 0%Qc) as [->|Hc]; [ring|]. exfalso. specialize (HT Hc). destruct HT as (_ & Hs). specialize (Hs 0%nat). rewrite wpD_LR in Hs by lia. unfold part in Hs. cbn [nth] in Hs. cbn [cE isE] in M3. lia.
  - assert (Hz : In (LR :: v) ws) by (apply in_wset; cbn [length cE isE] in *; lia).
    replace (n + k) with (zlen v + cE v) in H by (cbn [cE isE] in M3; lia). rewrite <- enc_R in H by lia.
    rewrite (coefD_gen k n Hk _ _ p c Hw0 Hz H). rewrite Em. rewrite co_tfin. cbn [walk nxt dg ex drun dn]. rewrite Qcmult_0_r, Qcplus_0_r. f_equal.
    rewrite !lastl_tl by lia. destruct (walk m S3 w' v) as [[[g x0] b]|]; reflexivity.
Qed.
End Q.
