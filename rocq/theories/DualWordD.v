(** Poincare duality of OG(m,2n+2): the dual class of a word, and the symmetry of
    the transfer matrices. *)

From Coq Require Import ZArith List Lia Bool Permutation QArith Qcanon.
From Verif Require Import Py OrderFacts IndexC IndexB IndexD DualFacts ApiIndex PyFacts ModelPart ModelQcalc ModelPoly ModelStr ModelGr Spec SpecPieri
  PolyFacts SuppFacts Enum FillFacts PartFacts ConjFacts PairFacts CompsFacts CompsBound PieriA QPieriA WSum PieriCoef PieriD QPieriD OpTheory Sys Sys2
  Word Transfer Extract CoefSys CommC CommB RecBCD RingC RingB TransD WordD CoefD CommD CommD2 RingD DualWord.
Import ListNotations.
Open Scope Z_scope.

(** ** shapes with d = 0 and with d = 1 *)
Lemma wp_down u : forall j, part (wp 1 u) j = part (wp 0 u) j - (if cE u <? part (wp 0 u) j then 1 else 0).
Proof.
  induction u as [|x u IH]; intros j; [cbn [wp cE]; rewrite !part_nil; reflexivity|].
  pose proof (cE_range u) as HE. destruct (wp0_kstrict u) as ((Hp & Hr & Hc) & Hs).
  destruct x; cbn [cE isE].
  - cbn [wp]. destruct (Nat.lt_ge_cases j (Z.to_nat (zlen u - cE u))) as [Hj|Hj].
    + rewrite !part_map_zrange by auto. rewrite Nat2Z.id, IH.
      destruct (Z.ltb_spec (cE u) (part (wp 0 u) j)), (Z.ltb_spec (1 + cE u) (part (wp 0 u) j + 1)); lia.
    + rewrite !part_over by (rewrite map_length, length_zrange; lia). destruct (Z.ltb_spec (1 + cE u) 0); lia.
  - rewrite wp_LR. cbn [wp]. cbv zeta. destruct (Z.eqb_spec (zlen u + 1 - 1 + cE u) 0) as [E|E].
    + assert (u = []) by (destruct u; auto; rewrite zlen_cons in E; pose proof (zlen_nonneg u); pose proof (cE_range u); cbn [cE] in E; destruct l; cbn [isE] in E; lia).
      subst u. change (zlen (@nil letter)) with 0. cbn [cE wp]. destruct j as [|j]; [reflexivity|]. rewrite part_cons_S, !part_nil. reflexivity.
    + destruct j as [|j]; [|rewrite !part_cons_S; apply IH]. unfold part. cbn [nth]. destruct (Z.ltb_spec (0 + cE u) (zlen u + 1 + cE u)); lia.
  - cbn [wp]. apply IH.
Qed.
Lemma cnt_R u : forall M, zlen u - cE u <= Z.of_nat M -> cnt (fun j => cE u <? part (wp 0 u) j) M = cR u.
Proof.
  induction u as [|x u IH]; intros M HM.
  - cbn [cR]. rewrite (cnt_ext _ (fun _ => false)); [clear; induction M; cbn [cnt] in *; lia|]. intros i Hi. cbn [cE wp]. rewrite part_nil. reflexivity.
  - pose proof (cE_range u) as HE. rewrite zlen_cons in HM. destruct x; cbn [cE isE cR isR] in *.
    + rewrite <- (IH M) by lia. rewrite Z.add_0_l. apply cnt_ext. intros i Hi. cbn [wp].
      destruct (Nat.lt_ge_cases i (Z.to_nat (zlen u - cE u))) as [Hj|Hj].
      * rewrite !part_map_zrange by auto. rewrite Nat2Z.id.
        destruct (Z.ltb_spec (cE u) (part (wp 0 u) i)), (Z.ltb_spec (1 + cE u) (part (wp 0 u) i + 1)); auto; lia.
      * rewrite !part_over; [| |rewrite map_length, length_zrange; lia].
        -- destruct (Z.ltb_spec (1 + cE u) 0), (Z.ltb_spec (cE u) 0); auto; lia.
        -- pose proof (rows_le u). unfold zlen in *. lia.
    + destruct M as [|M]; [lia|]. rewrite cnt_S, wp_LR. rewrite <- (IH M) by lia. f_equal.
      unfold part. cbn [nth]. destruct (Z.ltb_spec (0 + cE u) (zlen u + 1 + cE u)); lia.
    + cbn [wp]. rewrite !Z.add_0_l. apply IH. lia.
Qed.

(** ** the middle of an index set *)
Lemma sw_succ n p : sw (n + 1) (map Z.succ p) = map Z.succ (sw n p).
Proof.
  unfold sw. rewrite !map_map. apply map_ext. intros x. unfold swf.
  destruct (Z.eqb_spec (Z.succ x) (n + 1 + 1)), (Z.eqb_spec (Z.succ x) (n + 1 + 2)), (Z.eqb_spec x (n + 1)), (Z.eqb_spec x (n + 2)); lia.
Qed.
Lemma sw_ixw u : (1 <= length u)%nat -> sw (zlen u - 1) (ixw u) = ixw (swl u).
Proof.
  induction u as [|x u IH]; intros Hl; [cbn in Hl; lia|]. destruct u as [|y u]; [destruct x; reflexivity|].
  specialize (IH ltac:(cbn; lia)). set (v := y :: u) in *. assert (Hv : (1 <= length v)%nat) by (cbn; lia). rewrite swl_tl by auto.
  assert (Zv : 1 <= zlen v) by (unfold zlen; lia). assert (Zs : zlen (swl v) = zlen v) by (unfold zlen; rewrite swl_len; auto).
  rewrite zlen_cons. replace (zlen v + 1 - 1) with (zlen v - 1 + 1) by lia. destruct x; cbn [ixw].
  - rewrite sw_succ, IH. reflexivity.
  - change (1 :: map Z.succ (ixw v)) with ([1] ++ map Z.succ (ixw v)). unfold sw at 1. rewrite map_app. fold (sw (zlen v - 1 + 1) (map Z.succ (ixw v))). rewrite sw_succ, IH.
    cbn [map app]. f_equal. unfold swf. destruct (Z.eqb_spec 1 (zlen v - 1 + 1 + 1)), (Z.eqb_spec 1 (zlen v - 1 + 1 + 2)); lia.
  - unfold sw at 1. rewrite map_app. fold (sw (zlen v - 1 + 1) (map Z.succ (ixw v))). rewrite sw_succ, IH, Zs.
    cbn [map app]. f_equal. f_equal. unfold swf. destruct (Z.eqb_spec (2 * zlen v + 2) (zlen v - 1 + 1 + 1)), (Z.eqb_spec (2 * zlen v + 2) (zlen v - 1 + 1 + 2)); lia.
Qed.

(** ** the class of an index set *)
Definition zet (u : word) : word :=
  removelast u ++ [match lastl u with LE => LE | _ => if Z.odd (zlen u - cR u) then LR else LL end].
Lemma zet_snoc a x : zet (a ++ [x]) = a ++ [match x with LE => LE | _ => if Z.odd (zlen a + 1 - (cR a + isR x)) then LR else LL end].
Proof.
  unfold zet. rewrite removelast_last, lastl_snoc.
  assert (E1 : zlen (a ++ [x]) = zlen a + 1) by (unfold zlen; rewrite app_length; cbn; lia).
  assert (E2 : cR (a ++ [x]) = cR a + isR x) by (induction a as [|y a IH]; cbn [app cR]; [lia|]; rewrite IH; [lia|]; rewrite ?zlen_cons in *; cbn [app] in E1; rewrite zlen_cons in E1; lia).
  rewrite E1, E2. reflexivity.
Qed.

Section D.
Variables (k n : Z).
Notation m := (n + 1 - k).
Notation ws := (wset k (n + 1)).

Lemma dnl_word u : 0 <= k <= n + 1 -> 0 <= n -> In u ws -> dnl k m (wp 0 u) = wp 1 u.
Proof.
  intros Hk Hn Hu. pose proof (wset_zlen k (n + 1) Hk u Hu) as Hz. apply in_wset in Hu. destruct Hu as [Hl HE].
  pose proof (wp0_kstrict u) as HK. rewrite Hz, HE in HK. assert (HL : (1 <= length u)%nat) by lia.
  pose proof (wp1_kstrict u HL) as HK1. apply partition_eq.
  - apply (dn_in n k m ltac:(lia) ltac:(lia) ltac:(lia) Hn (wp 0 u)). exact HK.
  - apply HK1.
  - intros j. rewrite wp_down, HE. destruct (Nat.lt_ge_cases j (Z.to_nat m)) as [Hj|Hj].
    + rewrite part_dnl by auto. reflexivity.
    + rewrite part_dnl_over by auto. rewrite part_over; [destruct (Z.ltb_spec k 0); lia|].
      destruct HK as ((_ & Hr & _) & _). unfold zlen in *. lia.
Qed.
Lemma LD_word u : 0 <= k <= n + 1 -> In u ws -> LD k m (wp 0 u) = cR u.
Proof.
  intros Hk Hu. pose proof (wset_zlen k (n + 1) Hk u Hu) as Hz. apply in_wset in Hu. destruct Hu as [Hl HE].
  unfold LD. pose proof (cnt_R u (Z.to_nat m) ltac:(lia)) as E. rewrite HE in E. exact E.
Qed.

(** the index set of the word [u], dualized *)
Definition rword (u : word) : word := if Z.odd (n + 1) then swl (wdual u) else wdual u.
Lemma wdual_snoc a x : wdual (a ++ [x]) = wdual a ++ [swq x].
Proof. unfold wdual. apply map_app. Qed.
Lemma wdual_swl w : wdual (swl w) = swl (wdual w).
Proof. destruct w as [|x a _] using rev_ind; [reflexivity|]. rewrite swl_snoc, !wdual_snoc, swl_snoc. destruct x; reflexivity. Qed.
Lemma rword_ws u : In u ws -> In (rword u) ws.
Proof. intros H. apply wdual_ws in H. unfold rword. destruct (Z.odd (n + 1)); auto. rewrite in_wset in *. rewrite swl_len, swl_cE. auto. Qed.
Lemma rd_word u : 0 <= k <= n + 1 -> 0 <= n -> In u ws ->
  prtC (n + 1) k m (rdD n (idxC (n + 1) k m (wp 0 u))) = wp 0 (rword u).
Proof.
  intros Hk Hn Hu. pose proof (wset_zlen k (n + 1) Hk u Hu) as Hz. pose proof (rword_ws u Hu) as Hr. pose proof (wset_zlen k (n + 1) Hk _ Hr) as Hzr.
  pose proof (wdual_ws k (n + 1) u Hu) as Hd. pose proof (wset_zlen k (n + 1) Hk _ Hd) as Hzd. apply in_wset in Hu, Hr, Hd.
  pose proof (idxC_ixw u) as E1. pose proof (idxC_ixw (rword u)) as E2. rewrite Hz in E1. rewrite Hzr in E2.
  destruct Hu as [Lu Eu]. destruct Hr as [Lr Er]. destruct Hd as [Ld Ed]. rewrite Eu in E1. rewrite Er in E2. rewrite E1.
  assert (E : rdD n (ixw u) = ixw (rword u)).
  { unfold rdD, rword. replace (2 * n + 2) with (2 * zlen u) by lia. rewrite rd_ixw. destruct (Z.odd (n + 1)); auto.
    replace n with (zlen (wdual u) - 1) by lia. apply sw_ixw. lia. }
  rewrite E, <- E2. apply prtC_idxC; try lia. pose proof (wp0_kstrict (rword u)) as HK. rewrite Hzr, Er in HK. exact HK.
Qed.

(** *** m <= n: classes with types *)
Definition dualW (w : word) : word := if Z.odd k then wdual w else swl (wdual w).
Definition dualD (l : list Z) : list Z := dz (idxD n k m) (prtD n k m) (rdD n) l.
Section K1.
Hypothesis Hk : 1 <= k <= n.
Notation V := (typed_in k (n + 1 - k) (n + k)).
Lemma zet_ws u : In u ws -> In (zet u) ws.
Proof.
  intros H. apply in_wset in H. apply in_wset. destruct u as [|x a _] using rev_ind; [cbn in H; lia|]. rewrite zet_snoc. rewrite app_length in *. rewrite cE_app in *.
  cbn [length cE] in *. split; [lia|]. destruct H as [_ H]. rewrite <- H. f_equal. destruct x; cbn [isE]; auto; destruct (Z.odd _); reflexivity.
Qed.
Lemma dnD_word u : In u ws -> dnD n k m (wp 0 u) = encD (zet u).
Proof.
  intros Hu. unfold dnD. rewrite dnl_word, LD_word by (auto; lia). pose proof (zet_ws u Hu) as Hzu. pose proof (wset_zlen k (n + 1) ltac:(lia) u Hu) as Hz.
  pose proof (ws_in_k k n Hk u Hu) as HI. cbv zeta.
  assert (EL : lastl (zet u) = match lastl u with LE => LE | _ => if Z.odd (n + 1 - cR u) then LR else LL end).
  { unfold zet. rewrite lastl_snoc, Hz. reflexivity. }
  assert (E1 : wp 1 (zet u) = wp 1 u).
  { destruct u as [|x a _] using rev_ind; [cbn in Hz; lia|]. rewrite zet_snoc. apply wp_last. destruct x; cbn [isE]; auto; match goal with |- context [Z.odd ?z] => destruct (Z.odd z) end; reflexivity. }
  unfold encD. rewrite E1, EL. destruct (zmem k (wp 1 u)) eqn:Em.
  - apply zmem_iff, HI in Em. cbn [andb]. destruct (lastl u); [congruence| |]; destruct (Z.odd (n + 1 - cR u)); reflexivity.
  - cbn [andb]. destruct (lastl u) eqn:El; [reflexivity| |]; exfalso; (assert (Hin : In k (wp 1 u)) by (apply HI; discriminate)); apply zmem_iff in Hin; congruence.
Qed.
Lemma dualD_word w : In w ws -> dualD (encD w) = encD (dualW w).
Proof.
  intros Hw. pose proof (encD_V k n Hk w Hw) as HV. pose proof (upD_in n k m ltac:(lia) ltac:(lia) ltac:(lia) ltac:(lia) (encD w) HV) as HU.
  assert (Hu : exists u, In u ws /\ wp 0 u = upD n k m (encD w)) by (apply (wset_V k (n + 1) ltac:(lia)); exact HU).
  destruct Hu as (u & Hu & Eu).
  assert (Ez : encD (zet u) = encD w).
  { rewrite <- dnD_word by auto. rewrite Eu. apply dnD_upD; auto; lia. }
  apply (encD_inj k n Hk) in Ez; auto using zet_ws. subst w.
  unfold dualD, dz, prtD, idxD. rewrite <- Eu, rd_word by (auto; lia). rewrite dnD_word by (apply rword_ws; auto). f_equal.
  pose proof (wset_zlen k (n + 1) ltac:(lia) u Hu) as Hz. apply in_wset in Hu. destruct Hu as [_ HE].
  destruct u as [|x a _] using rev_ind; [cbn in Hz; lia|]. unfold rword, dualW. rewrite zet_snoc, !wdual_snoc, !swl_snoc.
  assert (Za : zlen a = n) by (unfold zlen in *; rewrite app_length in Hz; cbn in Hz; lia).
  assert (Zd : zlen (wdual a) = n) by (unfold zlen in *; rewrite wdual_len; auto).
  assert (ER : cR (wdual a) + cR a + cE a = zlen a).
  { clear. induction a as [|y a IH]; [reflexivity|]. rewrite zlen_cons. cbn [wdual map cR cE]. fold (wdual a). destruct y; cbn [swq isR isE]; lia. }
  rewrite cE_app in HE. cbn [cE] in HE. rewrite Za in *.
  destruct x; cbn [swq isE] in *.
  - destruct (Z.odd (n + 1)), (Z.odd k); rewrite zet_snoc; reflexivity.
  - assert (EK : k = n - cR (wdual a) - cR a) by lia. rewrite EK. clear EK HE ER.
    destruct (Z.odd (n + 1)) eqn:En; rewrite zet_snoc, Zd; cbn [isR]; (replace (n - cR (wdual a) - cR a) with (n - (cR (wdual a) + cR a)) by lia);
      repeat rewrite ?Z.odd_sub, ?Z.odd_add in *; cbn [Z.odd] in *; destruct (Z.odd n), (Z.odd (cR a)), (Z.odd (cR (wdual a))); cbn in *; congruence.
  - assert (EK : k = n - cR (wdual a) - cR a) by lia. rewrite EK. clear EK HE ER.
    destruct (Z.odd (n + 1)) eqn:En; rewrite zet_snoc, Zd; cbn [isR]; (replace (n - cR (wdual a) - cR a) with (n - (cR (wdual a) + cR a)) by lia);
      repeat rewrite ?Z.odd_sub, ?Z.odd_add in *; cbn [Z.odd] in *; destruct (Z.odd n), (Z.odd (cR a)), (Z.odd (cR (wdual a))); cbn in *; congruence.
Qed.
Lemma dualW_ws w : In w ws -> In (dualW w) ws.
Proof. intros H. apply wdual_ws in H. unfold dualW. destruct (Z.odd k); auto. apply swl_ws; auto. Qed.
Lemma dualW_dualW w : dualW (dualW w) = w.
Proof. unfold dualW. destruct (Z.odd k); [apply wdual_wdual|]. rewrite wdual_swl, swl_swl. apply wdual_wdual. Qed.
Lemma dualD_V l : V l -> V (dualD l).
Proof. intros Hl. destruct (encD_ex k n Hk l Hl) as (w & Hw & <-). rewrite dualD_word by auto. apply encD_V; auto. apply dualW_ws; auto. Qed.
Lemma dualD_dualD l : V l -> dualD (dualD l) = l.
Proof.
  intros Hl. destruct (encD_ex k n Hk l Hl) as (w & Hw & <-). rewrite dualD_word by auto. rewrite dualD_word by (apply dualW_ws; auto). rewrite dualW_dualW. reflexivity.
Qed.
End K1.
End D.

(** ** the symmetry of the walks *)
Lemma drun_dual m : forall a w v, length w = S m -> length v = S m ->
  drun m (std a) (wdual v) (wdual w) = (- sgn (cE w - i2 a) * drun m a w v)%Qc.
Proof.
  induction m as [|m IH]; intros a w v Hw Hv.
  - destruct w as [|x [|? ?]]; try discriminate. destruct v as [|y [|? ?]]; try discriminate. destruct a, x, y; cbn; ring.
  - destruct w as [|x w]; [discriminate|]. destruct v as [|y v]; [discriminate|]. injection Hw as Hw. injection Hv as Hv.
    cbn [wdual map drun cE]. fold (wdual v) (wdual w).
    assert (S1' : forall c, sgn (1 + c) = (- sgn c)%Qc) by apply sgn_1.
    assert (S2' : forall c, sgn (c - 1) = (- sgn c)%Qc) by (intros c; replace c with (1 + (c - 1)) at 2 by lia; rewrite sgn_1; ring).
    destruct a, x, y; cbn [std swq dn isE i2]; try ring;
      match goal with |- context [drun m ?b (wdual v) (wdual w)] =>
        first [ change b with (std S0) | change b with (std S1) | change b with (std S2) ] end;
      rewrite IH by auto; cbn [std i2]; rewrite ?Z.sub_0_r, ?Z.add_0_l, ?S1', ?S2', ?S1'; 
      try (replace (1 + cE w - 1) with (cE w) by lia); try ring.
Qed.
Lemma fm_dual b x y : fm (std b) (swq y) (swq x) = fm b x y.
Proof. destruct b, x, y; reflexivity. Qed.
Lemma lastl_wdual w : (1 <= length w)%nat -> lastl (wdual w) = swq (lastl w).
Proof. destruct w as [|x a _] using rev_ind; [cbn; lia|]. intros _. rewrite wdual_snoc, !lastl_snoc. reflexivity. Qed.

Section Ker.
Variable m : nat.
Lemma bwalk_dual (tab : nat -> letter -> letter -> option (st * nat)) e w v :
  (forall x y, tab e (swq y) (swq x) = match tab e x y with Some (a, sh) => Some (std a, sh) | None => None end) ->
  bwalk tab m e (wdual v) (wdual w) = match bwalk tab m e w v with Some (g, x, b) => Some (g, x, std b) | None => None end.
Proof.
  intros Ht. destruct w as [|x w], v as [|y v]; try reflexivity. cbn [wdual map bwalk]. fold (wdual v) (wdual w). rewrite Ht.
  destruct (tab e x y) as [[a sh]|]; auto. rewrite walk_dual. destruct (walk m a w v) as [[[g x0] b]|]; reflexivity.
Qed.
Lemma kT_dual (tab : nat -> letter -> letter -> option (st * nat)) e w v :
  (forall x y, tab e (swq y) (swq x) = match tab e x y with Some (a, sh) => Some (std a, sh) | None => None end) ->
  length w = S (S m) -> length v = S (S m) -> kT tab m e (wdual v) (wdual w) = kT tab m e w v.
Proof.
  intros Ht Hw Hv. unfold kT, tfin. rewrite bwalk_dual by auto. destruct (bwalk tab m e w v) as [[[g x] b]|]; auto.
  rewrite !lastl_wdual by lia. rewrite fm_dual. reflexivity.
Qed.
Lemma kS_dual (dtab : nat -> letter -> letter -> option (st * Qc)) e w v : dtab = dcl \/ dtab = dB ->
  length w = S (S m) -> length v = S (S m) -> kS dtab m e (wdual v) (wdual w) = (- sgn (cE w + Z.of_nat e) * kS dtab m e w v)%Qc.
Proof.
  intros Ht Hw Hv. destruct w as [|x w]; [discriminate|]. destruct v as [|y v]; [discriminate|]. injection Hw as Hw. injection Hv as Hv.
  cbn [wdual map kS cE]. fold (wdual v) (wdual w).
  assert (S1' : forall c, sgn (1 + c) = (- sgn c)%Qc) by apply sgn_1.
  assert (S2' : forall c, sgn (c - 1) = (- sgn c)%Qc) by (intros c; replace c with (1 + (c - 1)) at 2 by lia; rewrite sgn_1; ring).
  assert (S3' : forall c, sgn (c + 1) = (- sgn c)%Qc) by (intros c; rewrite Z.add_comm; apply sgn_1).
  destruct Ht as [-> | ->]; destruct e as [|[|[|e]]]; destruct x, y; cbn [swq dcl dB dn isE]; try ring;
      match goal with |- context [drun m ?b (wdual v) (wdual w)] =>
        first [ change b with (std S0) | change b with (std S1) | change b with (std S2) ] end;
      rewrite drun_dual by auto; cbn [std i2]; change (Z.of_nat 0) with 0; change (Z.of_nat 1) with 1;
      rewrite ?Z.sub_0_r, ?Z.add_0_l, ?Z.add_0_r, ?S1', ?S2', ?S3', ?S1'; try ring.
Qed.
End Ker.
Lemma swe_comm a b v : swe a (swe b v) = swe b (swe a v).
Proof. unfold swe. destruct (Nat.odd a), (Nat.odd b); reflexivity. Qed.
Lemma wdual_swe e v : wdual (swe e v) = swe e (wdual v).
Proof. unfold swe. destruct (Nat.odd e); auto. apply wdual_swl. Qed.
Definition ko (k : Z) : nat := if Z.odd k then 0%nat else 1%nat.
Lemma dualW_swe k w : dualW k w = swe (ko k) (wdual w).
Proof. unfold dualW, ko. destruct (Z.odd k); reflexivity. Qed.

Section Adj.
Variables (k n : Z).
Hypothesis Hk : 1 <= k <= n.
Notation ws := (wset k (n + 1)).
Notation V := (typed_in k (n + 1 - k) (n + k)).
Lemma kD_dual tab dtab p e w v : tab = bcl /\ dtab = dcl \/ tab = bB /\ dtab = dB -> In w ws -> In v ws ->
  kD tab dtab k n p e w (dualW k v) = kD tab dtab k n p e v (dualW k w).
Proof.
  intros Ht Hw Hv. unfold kD. set (m := Nat.pred (Z.to_nat n)). destruct (ws_len k n Hk w Hw) as (Lw & Zw & Ew). destruct (ws_len k n Hk v Hv) as (Lv & Zv & Ev).
  assert (Lw' : length w = S (S m)) by (unfold m; lia). assert (Lv' : length v = S (S m)) by (unfold m; lia).
  assert (Hd : wdual (swe e (dualW k v)) = swe e (swe (ko k) v)) by (rewrite wdual_swe, dualW_swe, wdual_swe, wdual_wdual; reflexivity).
  assert (Ld : length (swe e (dualW k v)) = S (S m)) by (rewrite dualW_swe, !swe_len, wdual_len; auto).
  assert (Ldw : length (wdual w) = S (S m)) by (rewrite wdual_len; auto).
  assert (HT : kT tab m e w (swe e (dualW k v)) = kT tab m e v (swe e (dualW k w))).
  { rewrite <- kT_dual; auto; [|intros x y; destruct Ht as [(-> & _)|(-> & _)]; destruct e as [|[|[|e']]], x, y; reflexivity].
    rewrite Hd. rewrite <- (swe_swe e (wdual w)). rewrite kT_swe by (rewrite swe_len; auto). rewrite <- (swe_swe (ko k) (swe e (wdual w))).
    rewrite kT_swe by (rewrite ?swe_len; auto). rewrite dualW_swe. f_equal. apply swe_comm. }
  assert (HS : kS dtab m e w (swe e (dualW k v)) = kS dtab m e v (swe e (dualW k w))).
  { assert (G : kS dtab m e (wdual (swe e (dualW k v))) (wdual w) = (- sgn (k + Z.of_nat e) * kS dtab m e w (swe e (dualW k v)))%Qc).
    { pose proof (kS_dual m dtab e w (swe e (dualW k v)) ltac:(destruct Ht as [(_ & ->)|(_ & ->)]; auto) Lw' Ld) as G. rewrite Ew in G. exact G. }
    rewrite Hd in G. rewrite <- (swe_swe e (wdual w)) in G. rewrite kS_swe in G by (rewrite swe_len; auto). rewrite <- (swe_swe (ko k) (swe e (wdual w))) in G.
    rewrite kS_swe in G by (rewrite ?swe_len; auto). replace (swe e (dualW k w)) with (swe (ko k) (swe e (wdual w))) by (rewrite dualW_swe; apply swe_comm).
    assert (Es : (- sgn (k + Z.of_nat e) * ((if Nat.odd e then - (1) else 1) * (if Nat.odd (ko k) then - (1) else 1)) = 1)%Qc).
    { unfold sgn, ko. rewrite Z.odd_add. rewrite <- (Nat2Z.id e) at 2. replace (Nat.odd (Z.to_nat (Z.of_nat e))) with (Z.odd (Z.of_nat e)).
      - destruct (Z.odd k), (Z.odd (Z.of_nat e)); cbn; ring.
      - rewrite Nat2Z.id. clear. induction e as [|e IH]; [reflexivity|]. rewrite Nat2Z.inj_succ, Z.odd_succ, Nat.odd_succ, <- Z.negb_odd, <- Nat.negb_odd, IH. reflexivity. }
    set (X := kS dtab m e w (swe e (dualW k v))) in *. set (Y := kS dtab m e v (swe (ko k) (swe e (wdual w)))) in *.
    set (o1 := (if Nat.odd e then - (1) else 1)%Qc) in *. set (o2 := (if Nat.odd (ko k) then - (1) else 1)%Qc) in *.
    assert (O1 : (o1 * o1 = 1)%Qc) by (unfold o1; destruct (Nat.odd e); ring). assert (O2 : (o2 * o2 = 1)%Qc) by (unfold o2; destruct (Nat.odd (ko k)); ring).
    transitivity ((o1 * o1) * (o2 * o2) * Y)%Qc; [|rewrite O1, O2; ring].
    transitivity ((- sgn (k + Z.of_nat e) * (o1 * o2)) * X)%Qc; [rewrite Es; ring|].
    transitivity (o1 * o2 * (- sgn (k + Z.of_nat e) * X))%Qc; [ring|]. rewrite <- G. ring. }
  rewrite HT, HS. reflexivity.
Qed.
Lemma adjD qq i d x y : okD qq k n -> V x -> V y ->
  coef (P (piD k n qq) i x) (qS d (dualD k n y)) = coef (P (piD k n qq) i y) (qS d (dualD k n x)).
Proof.
  intros Hok Hx Hy. destruct (encD_ex k n Hk x Hx) as (w & Hw & <-). destruct (encD_ex k n Hk y Hy) as (v & Hv & <-).
  rewrite !(dualD_word k n Hk) by auto.
  rewrite (proj1 (piD_wcoefs k n qq Hok i w Hw) d (dualW k v)) by (apply dualW_ws; auto).
  rewrite (proj1 (piD_wcoefs k n qq Hok i v Hv) d (dualW k w)) by (apply dualW_ws; auto).
  apply kD_dual; auto. unfold tabD, dtabD. destruct qq; auto.
Qed.
End Adj.

(** ** OG(n+1,2n+2) *)
Lemma noE_wp a x : cE a = 0 -> isE x = 0 -> wp 1 (a ++ [x]) = wp 0 a.
Proof.
  intros Ha Hx. induction a as [|y a IH]; [destruct x; try discriminate; reflexivity|]. cbn [app].
  assert (Hz : zlen (a ++ [x]) = zlen a + 1) by (unfold zlen; rewrite app_length; cbn; lia).
  assert (Hc : cE (a ++ [x]) = cE a) by (rewrite cE_app; cbn [cE]; lia). pose proof (cE_range a).
  cbn [cE] in Ha. destruct y; cbn [isE] in Ha; try lia.
  - rewrite wp_LR. cbn [wp]. cbv zeta. rewrite Hz, Hc. pose proof (zlen_nonneg a). destruct (Z.eqb_spec (zlen a + 1 + 1 - 1 + cE a) 0); [lia|].
    rewrite IH by lia. f_equal. lia.
  - cbn [wp]. apply IH. lia.
Qed.
Lemma dualD0 n l : 0 <= n -> typed_in 0 (n + 1) n l -> dualD 0 n l = dualC 0 n l.
Proof.
  intros Hn Hl.
  pose proof (upD_in n 0 (n + 1 - 0) ltac:(lia) ltac:(lia) ltac:(lia) ltac:(lia) l ltac:(replace (n + 1 - 0) with (n + 1) by lia; rewrite Z.add_0_r; exact Hl)) as HU.
  pose proof (dnD_upD n 0 (n + 1 - 0) ltac:(lia) ltac:(lia) ltac:(lia) l ltac:(replace (n + 1 - 0) with (n + 1) by lia; rewrite Z.add_0_r; exact Hl)) as ED.
  assert (Hu : exists u, In u (wset 0 (n + 1)) /\ wp 0 u = upD n 0 (n + 1 - 0) l) by (apply (wset_V 0 (n + 1) ltac:(lia)); exact HU).
  destruct Hu as (u & Hu & Eu).
  assert (G : forall u, In u (wset 0 (n + 1)) -> exists a x, u = a ++ [x] /\ In a (wset 0 n) /\ isE x = 0 /\ dnD n 0 (n + 1 - 0) (wp 0 u) = wp 0 a).
  { clear u Hu Eu. intros u Hu. pose proof (wset_zlen 0 (n + 1) ltac:(lia) u Hu) as Hz. pose proof Hu as Hu'. apply in_wset in Hu'. destruct Hu' as [HL HE].
    destruct u as [|x a _] using rev_ind; [cbn in Hz; lia|]. exists a, x. split; auto. rewrite cE_app in HE. cbn [cE] in HE. rewrite app_length in HL. cbn [length] in HL.
    pose proof (cE_range a). assert (isE x = 0) by (destruct x; cbn [isE] in *; lia). split; [apply in_wset; split; lia|]. split; auto.
    unfold dnD. rewrite dnl_word by (auto; lia). cbv zeta. rewrite (noE_wp a x) by lia.
    destruct (zmem 0 (wp 0 a)) eqn:Em; [|reflexivity]. exfalso. apply zmem_iff in Em. destruct (wp0_kstrict a) as ((Hp & _) & _).
    apply partition_pos in Hp. rewrite Forall_forall in Hp. specialize (Hp _ Em). lia. }
  destruct (G u Hu) as (a & x & -> & Ha & Hx & Ea). rewrite Eu, ED in Ea.
  destruct (G (rword n (a ++ [x])) (rword_ws 0 n _ Hu)) as (b & y & Eb & Hb & Hy & Ebb).
  assert (Eab : b = wdual a).
  { unfold rword in Eb. rewrite wdual_snoc in Eb. destruct (Z.odd (n + 1)); rewrite ?swl_snoc in Eb; apply app_inj_tail in Eb; destruct Eb; auto. }
  unfold dualD, dz, prtD, idxD. rewrite <- Eu, (rd_word 0 n) by (auto; lia). rewrite Ebb, Eab, Ea.
  symmetry. unfold dualC. apply (dzC_word 0 n); auto. lia.
Qed.
