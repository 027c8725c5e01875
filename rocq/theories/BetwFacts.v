(** [part_itr_between] enumerates the weakly decreasing lists between two
    bounds. *)

From Coq Require Import ZArith List Lia Bool.
From Verif Require Import Py OrderFacts PyFacts ModelPart ModelQcalc Spec Enum FillFacts PartFacts.
Import ListNotations.
Open Scope Z_scope.

(** weakly decreasing lists between the bounds *)
Fixpoint inT (prev : Z) (bs : list (Z * Z)) (l : list Z) : Prop :=
  match bs, l with
  | [], [] => True
  | (i, o) :: bs', x :: l' => i <= x <= o /\ x <= prev /\ inT x bs' l'
  | _, _ => False
  end.

Fixpoint nextT (bs : list (Z * Z)) (l : list Z) : option (list Z) :=
  match bs, l with
  | (i, o) :: bs', x :: l' =>
      match nextT bs' l' with
      | Some l'' => Some (x :: l'')
      | None => if x =? i then None else Some (map (fun y => Z.min (x - 1) y) (highs bs))
      end
  | _, _ => None
  end.

Lemma inT_len bs : forall prev l, inT prev bs l -> length l = length bs.
Proof.
  induction bs as [|[i o] t IH]; intros prev [|x l] H; simpl in *; try tauto.
  f_equal. eapply IH. apply H.
Qed.

Lemma nextT_app pb : forall bs pre suf s', length pre = length pb ->
  nextT bs suf = Some s' -> nextT (pb ++ bs) (pre ++ suf) = Some (pre ++ s').
Proof.
  induction pb as [|[i o] pb IH]; intros bs [|x pre] suf s' Hl H; simpl in Hl; try lia; auto.
  simpl. rewrite (IH bs pre suf s'); auto.
Qed.
Lemma nextT_none pb : forall bs pre suf, length pre = length pb -> lows pb = pre ->
  nextT bs suf = None -> nextT (pb ++ bs) (pre ++ suf) = None.
Proof.
  induction pb as [|[i o] pb IH]; intros bs [|x pre] suf Hl E H; simpl in Hl; try lia; auto.
  simpl in *. injection E as -> E. rewrite (IH bs pre suf); auto. rewrite Z.eqb_refl. auto.
Qed.

(** the search for the last entry above its lower bound *)
Lemma between_idx_ok : forall pre pb suf bs fuel, length pre = length pb -> length suf = length bs ->
  suf = lows bs -> (length pre < fuel)%nat ->
  (between_idx fuel (pre ++ suf) (lows (pb ++ bs)) (zlen pre - 1) = Ok None /\ pre = lows pb) \/
  (exists p1 x s1 pb1 i o sb, pre = p1 ++ x :: s1 /\ pb = pb1 ++ (i, o) :: sb /\
     length p1 = length pb1 /\ x <> i /\ s1 = lows sb /\
     between_idx fuel (pre ++ suf) (lows (pb ++ bs)) (zlen pre - 1) = Ok (Some (zlen p1))).
Proof.
  induction pre as [|x pre IH] using rev_ind; intros pb suf bs fuel Hl Hs E Hf.
  - destruct pb; [|simpl in Hl; lia]. left. split; auto. destruct fuel; auto.
  - destruct pb as [|[i o] pb _] using rev_ind; [rewrite app_length in Hl; simpl in Hl; lia|].
    rewrite !app_length in *. simpl in Hl, Hf. destruct fuel as [|fuel]; [lia|].
    cbn [between_idx]. rewrite zlen_app, zlen_one. pose proof (zlen_nonneg pre).
    replace (zlen pre + (0 + 1) - 1 <? 0) with false by (symmetry; apply Z.ltb_ge; lia).
    replace (zlen pre + (0 + 1) - 1) with (zlen pre) by lia.
    rewrite <- !app_assoc. cbn [app]. rewrite (py_get_mid pre) by auto. cbn [bind].
    assert (Eg : py_get (lows (pb ++ (i, o) :: bs)) (zlen pre) = Ok i).
    { rewrite lows_app. apply (py_get_mid (lows pb) i (lows bs)). rewrite zlen_lows. unfold zlen. lia. }
    rewrite Eg. cbn [bind].
    destruct (x =? i) eqn:Ex.
    + apply Z.eqb_eq in Ex. subst x.
      destruct (IH pb (i :: suf) ((i, o) :: bs) fuel) as [[E1 E2]|(p1 & y & s1 & pb1 & i1 & o1 & sb & E1 & E2 & E3 & E4 & E5 & E6)]; auto; try (simpl; lia).
      { simpl. f_equal. auto. }
      * left. split; auto. rewrite lows_app. simpl. f_equal. auto.
      * right. exists p1, y, (s1 ++ [i]), pb1, i1, o1, (sb ++ [(i, o)]).
        split; [rewrite E1, <- app_assoc; auto|]. split; [rewrite E2, <- app_assoc; auto|].
        split; auto. split; auto. split; [rewrite lows_app, E5; auto|]. auto.
    + right. apply Z.eqb_neq in Ex. exists pre, x, [], pb, i, o, [].
      repeat split; auto. lia.
Qed.

Lemma lows_none bs : nextT bs (lows bs) = None.
Proof. induction bs as [|[i o] t IH]; simpl; auto. fold (lows t). rewrite IH, Z.eqb_refl. auto. Qed.

Lemma between_ok bs l : length l = length bs ->
  part_itr_between l (lows bs) (highs bs) = Ok (nextT bs l).
Proof.
  intros Hl. unfold part_itr_between.
  pose proof (between_idx_ok l bs [] [] (S (length l)) Hl eq_refl eq_refl ltac:(lia)) as H.
  rewrite !app_nil_r in H.
  destruct H as [[E1 E2]|(p1 & x & s1 & pb1 & i & o & sb & E1 & E2 & E3 & E4 & E5 & E6)].
  - rewrite E1. cbn [bind]. subst l. rewrite lows_none. auto.
  - rewrite E6. cbn [bind]. subst l bs s1. rewrite (py_get_mid p1) by auto. cbn [bind].
    assert (Em : mapM (fun j => y <- py_get (highs (pb1 ++ (i, o) :: sb)) j ;; Ok (Z.min (x - 1) y))
        (zrange (zlen p1) (zlen (p1 ++ x :: lows sb))) = Ok (map (fun y => Z.min (x - 1) y) (highs ((i, o) :: sb)))).
    { rewrite highs_app. assert (Hz : zlen p1 = zlen (highs pb1)) by (rewrite zlen_highs; unfold zlen; lia).
      assert (Hz' : zlen (p1 ++ x :: lows sb) = zlen (highs pb1) + zlen (highs ((i, o) :: sb))).
      { unfold zlen in *. rewrite !app_length. unfold lows, highs in *. simpl. rewrite !map_length in *. lia. }
      rewrite Hz', Hz. generalize (highs pb1). generalize (highs ((i, o) :: sb)). clear.
      induction l as [|y l IH]; intros pre.
      - rewrite zrange_nil by (rewrite zlen_nil; lia). auto.
      - rewrite zlen_cons. pose proof (zlen_nonneg l). rewrite zrange_cons by lia. cbn [mapM].
        rewrite (py_get_mid pre) by auto. cbn [bind].
        specialize (IH (pre ++ [y])). rewrite <- app_assoc in IH. cbn [app] in IH.
        rewrite zlen_app, zlen_one in IH.
        replace (zlen pre + 1) with (zlen pre + (0 + 1)) by lia.
        replace (zlen pre + (zlen l + 1)) with (zlen pre + (0 + 1) + zlen l) by lia.
        rewrite IH. reflexivity. }
    rewrite Em. cbn [bind]. rewrite sl_to_app by auto.
    rewrite (nextT_app pb1 ((i, o) :: sb) p1 (x :: lows sb) (map (fun y => Z.min (x - 1) y) (highs ((i, o) :: sb)))); auto.
    cbn [nextT]. rewrite lows_none. destruct (x =? i) eqn:Ex; [lia|]. auto.
Qed.

Section Spec.
Variable B : Z.
Hypothesis HB : 0 <= B.

(** upper bounds weakly decrease *)
Fixpoint decH (bs : list (Z * Z)) : Prop :=
  match bs with
  | (i, o) :: t => match t with [] => True | (_, o') :: _ => o' <= o end /\ decH t
  | [] => True
  end.

Lemma inT_rng bs : forall prev l, okB B 0 prev bs -> inT prev bs l -> rng B l.
Proof.
  induction bs as [|[i o] t IH]; intros prev [|x l] Hok H; simpl in *; try tauto; [constructor|].
  destruct H as (H1 & H2 & H3). destruct Hok as (K1 & K2 & K3 & K4).
  constructor; [lia|]. eapply IH; [|eassumption]. eapply okB_mono; [|exact K4]. lia.
Qed.

(** the largest list below [y] *)
Lemma top_inT bs : forall y, okB B 0 y bs -> decH bs -> inT y bs (map (fun o => Z.min y o) (highs bs)).
Proof.
  induction bs as [|[i o] t IH]; intros y Hok Hd; simpl; auto.
  destruct Hok as (K1 & K2 & K3 & K4). destruct Hd as [D1 D2]. fold (highs t).
  split; [lia|]. split; [lia|].
  replace (map (fun o => Z.min y o) (highs t)) with (map (fun o' => Z.min (Z.min y o) o') (highs t)).
  - apply IH; auto. eapply okB_mono; [|exact K4]. lia.
  - clear -D1 D2. revert o D1. induction t as [|[i' o'] t IH]; intros o D1; simpl; auto.
    destruct D2 as [D2 D3]. f_equal; [lia|]. apply IH; auto. destruct t as [|[i2 o2] t2]; auto. lia.
Qed.
Lemma rank_pw a : forall b, length a = length b -> (forall j, part a j <= part b j) -> rank B a <= rank B b.
Proof.
  induction a as [|x a IH]; intros [|y b] Hl H; simpl in Hl; try lia.
  cbn [rank]. pose proof (H 0%nat) as H0. unfold part in H0. simpl in H0.
  assert (rank B a <= rank B b) by (apply IH; [lia|]; intros j; apply (H (S j))).
  injection Hl as Hl. rewrite Hl. pose proof (pow_pos B HB (length b)). nia.
Qed.
Lemma top_max bs : forall y c, inT y bs c -> rank B c <= rank B (map (fun o => Z.min y o) (highs bs)).
Proof.
  intros y c Hc. apply rank_pw.
  - rewrite map_length. unfold highs. rewrite map_length. eapply inT_len; eauto.
  - revert y c Hc. induction bs as [|[i o] t IH]; intros y [|x c] Hc j; simpl in Hc; try tauto.
    + unfold part. destruct j; simpl; lia.
    + destruct Hc as (C1 & C2 & C3). destruct j as [|j]; unfold part; simpl; [lia|].
      fold (highs t). change (part c j <= part (map (fun o => Z.min y o) (highs t)) j).
      eapply (IH y). clear -C2 C3. revert C3. destruct t as [|[i' o'] t]; destruct c as [|z c]; simpl; auto.
      intros (H1 & H2 & H3). split; auto. split; auto. lia.
Qed.

Lemma nextT_spec bs : forall prev l, okB B 0 prev bs -> decH bs -> inT prev bs l ->
  match nextT bs l with
  | Some b => inT prev bs b /\ rank B b < rank B l /\
              forall c, inT prev bs c -> rank B c < rank B l -> rank B c <= rank B b
  | None => forall c, inT prev bs c -> rank B l <= rank B c
  end.
Proof.
  induction bs as [|[i o] t IH]; intros prev [|x l] Hok Hd Hl; simpl in Hl; try tauto.
  - simpl. intros [|] Hc; simpl in *; [lia | tauto].
  - pose proof Hok as Hok0. pose proof Hl as (L1 & L2 & L3). destruct Hok as (K1 & K2 & K3 & K4). destruct Hd as [D1 D2].
    assert (Hokx : okB B 0 x t) by (eapply okB_mono; [|exact K4]; lia).
    assert (Hrl : rng B l) by (eapply inT_rng; eauto).
    assert (Hll := inT_len _ _ _ L3).
    specialize (IH x l Hokx D2 L3).
    assert (Hhead : forall y c, inT prev ((i, o) :: t) (y :: c) ->
              rng B (y :: c) /\ length c = length t /\ i <= y <= o /\ inT y t c).
    { intros y c Hc. simpl in Hc. destruct Hc as (C1 & C2 & C3).
      split; [constructor; [lia|]|split; [eapply inT_len; eauto|split; auto]].
      eapply inT_rng; [|eassumption]. eapply okB_mono; [|exact K4]. lia. }
    assert (Hbig : forall y c, inT prev ((i, o) :: t) (y :: c) -> x < y -> rank B (x :: l) <= rank B (y :: c)).
    { intros y c Hc Hxy. destruct (Hhead y c Hc) as (R1 & R2 & R3 & R4).
      assert (rank B (x :: l) < rank B (y :: c)); [|lia].
      apply rank_lt_head; auto; [constructor; auto; lia | lia]. }
    cbn [nextT]. destruct (nextT t l) as [b|] eqn:En.
    + destruct IH as (I1 & I2 & I3).
      assert (Hlb := inT_len _ _ _ I1).
      split; [|split].
      * simpl. auto.
      * simpl. rewrite Hlb, Hll. lia.
      * intros [|y c] Hc Hlt; [simpl in Hc; tauto|].
        destruct (Hhead y c Hc) as (R1 & R2 & R3 & R4).
        assert (Rb : rng B b) by (eapply inT_rng; eauto).
        destruct (Z.lt_trichotomy y x) as [H|[H|H]].
        -- assert (rank B (y :: c) < rank B (x :: b)); [|lia].
           apply rank_lt_head; auto; [constructor; auto; lia | lia].
        -- subst y. simpl. simpl in Hlt. rewrite R2, Hlb, Hll in *.
           specialize (I3 c R4). lia.
        -- specialize (Hbig y c Hc H). lia.
    + assert (Hsame : forall c, inT prev ((i, o) :: t) (x :: c) -> rank B (x :: l) <= rank B (x :: c)).
      { intros c Hc. destruct (Hhead x c Hc) as (R1 & R2 & R3 & R4).
        specialize (IH c R4). simpl. rewrite R2, Hll. lia. }
      destruct (x =? i) eqn:Exi.
      * apply Z.eqb_eq in Exi. intros [|y c] Hc; [simpl in Hc; tauto|].
        destruct (Hhead y c Hc) as (R1 & R2 & R3 & R4).
        destruct (Z.lt_trichotomy y x) as [H|[H|H]]; [lia|subst y; auto|apply Hbig; auto].
      * apply Z.eqb_neq in Exi. cbn [highs map snd]. fold (highs t).
        replace (Z.min (x - 1) o) with (x - 1) by lia.
        assert (Hok1 : okB B 0 (x - 1) t) by (eapply okB_mono; [|exact K4]; lia).
        pose proof (top_inT t (x - 1) Hok1 D2) as T1.
        assert (Hlf := inT_len _ _ _ T1). pose proof (inT_rng _ _ _ Hok1 T1) as Rf.
        split; [|split].
        -- split; [lia|]. split; [lia|]. auto.
        -- apply rank_lt_head; try (constructor; auto; lia); lia.
        -- intros [|y c] Hc Hlt; [simpl in Hc; tauto|].
           destruct (Hhead y c Hc) as (R1 & R2 & R3 & R4).
           destruct (Z.lt_trichotomy y (x - 1)) as [H|[H|H]].
           ++ assert (rank B (y :: c) < rank B (x - 1 :: map (fun y => Z.min (x - 1) y) (highs t))); [|lia].
              apply rank_lt_head; auto; [constructor; auto; lia | lia].
           ++ subst y. cbn [rank]. rewrite R2, Hlf. pose proof (top_max t (x - 1) c R4). lia.
           ++ destruct (Z.eq_dec y x) as [->|].
              ** specialize (Hsame c Hc). lia.
              ** specialize (Hbig y c Hc). lia.
Qed.

Lemma highs_max bs prev : okB B 0 prev bs -> decH bs -> (match bs with [] => True | (_, o) :: _ => o <= prev end) ->
  inT prev bs (highs bs) /\ forall c, inT prev bs c -> rank B c <= rank B (highs bs).
Proof.
  intros Hok Hd Hp.
  assert (E : map (fun o => Z.min prev o) (highs bs) = highs bs).
  { clear Hok. revert Hp. induction bs as [|[i o] t IH]; intros Hp; simpl; auto. f_equal; [lia|].
    destruct Hd as [D1 D2]. apply IH; auto. destruct t as [|[i' o'] t]; auto. lia. }
  rewrite <- E. split; [apply top_inT; auto|]. intros c. apply top_max.
Qed.

(** the whole enumeration *)
Lemma between_chain bs prev : okB B 0 prev bs -> decH bs -> (match bs with [] => True | (_, o) :: _ => o <= prev end) ->
  exists l, chain (fun a => part_itr_between a (lows bs) (highs bs)) (highs bs) l /\
    (forall a, In a l <-> inT prev bs a) /\ Z.of_nat (length l) <= (B + 1) ^ Z.of_nat (length bs).
Proof.
  intros Hok Hd Hp. destruct (highs_max bs prev Hok Hd Hp) as [H1 H2].
  destruct (chain_ok_max B HB (inT prev bs) (length bs) (fun a => part_itr_between a (lows bs) (highs bs)))
    with (a := highs bs) as (l & Hc & Hin & _ & Hl); auto.
  - intros a. apply inT_rng; auto.
  - intros a. apply inT_len.
  - intros a Ha. rewrite between_ok by (eapply inT_len; eauto).
    pose proof (nextT_spec bs prev a Hok Hd Ha) as H. destruct (nextT bs a) as [b|].
    + right. exists b. destruct H as (N1 & N2 & N3). auto.
    + left. auto.
  - exists l. auto.
Qed.
End Spec.
