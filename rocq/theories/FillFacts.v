(** The index loops [_pieri_fillA], [_pieri_itrA], [_pieri_fill], [_pieri_itr]
    compute the structural functions [fillD] and [nextD] of Enum.v. *)

From Coq Require Import ZArith List Lia Bool Permutation Sorted.
From Verif Require Import Py OrderFacts PyFacts ModelPart ModelQcalc Enum.
Import ListNotations.
Open Scope Z_scope.

(** greedy filling and the boxes left over *)
Fixpoint gfill (d prev : Z) (bs : list (Z * Z)) (p : Z) : list Z * Z :=
  match bs with
  | [] => ([], p)
  | (i, o) :: t =>
      let x := Z.min (Z.min o (i + p)) (prev - d) in
      let '(f, q) := gfill d x t (p - x + i) in (x :: f, q)
  end.

Lemma fillD_gfill d bs : forall prev p,
  fillD d prev bs p = if 0 <? snd (gfill d prev bs p) then None else Some (fst (gfill d prev bs p)).
Proof.
  induction bs as [|[i o] t IH]; intros prev p; simpl; auto.
  rewrite IH. destruct (gfill d _ t _) as [f q]. simpl. destruct (0 <? q); auto.
Qed.

Lemma gfill_len d bs : forall prev p, length (fst (gfill d prev bs p)) = length bs.
Proof.
  induction bs as [|[i o] t IH]; intros prev p; simpl; auto.
  specialize (IH (Z.min (Z.min o (i + p)) (prev - d)) (p - Z.min (Z.min o (i + p)) (prev - d) + i)).
  destruct (gfill d _ t _) as [f q]. simpl in *. auto.
Qed.

(** two lists of bounds *)
Definition lows (bs : list (Z * Z)) := map fst bs.
Definition highs (bs : list (Z * Z)) := map snd bs.

Lemma lows_app a b : lows (a ++ b) = lows a ++ lows b.
Proof. apply map_app. Qed.
Lemma highs_app a b : highs (a ++ b) = highs a ++ highs b.
Proof. apply map_app. Qed.
Lemma zlen_lows a : zlen (lows a) = zlen a.
Proof. apply zlen_map. Qed.
Lemma zlen_highs a : zlen (highs a) = zlen a.
Proof. apply zlen_map. Qed.

(** *** type A *)

Lemma fillA_loop bs : forall pb pre' prev suf pp,
  length suf = length bs -> zlen pb = zlen pre' + 1 ->
  foldM (fillA_step (lows (pb ++ bs)) (highs (pb ++ bs)))
        (zrange (zlen pb) (zlen pb + zlen bs)) ((pre' ++ [prev]) ++ suf, pp)
  = Ok ((pre' ++ [prev]) ++ fst (gfill 0 prev bs pp), snd (gfill 0 prev bs pp)).
Proof.
  induction bs as [|[i o] t IH]; intros pb pre' prev suf pp Hl Hp.
  - rewrite zlen_nil, zrange_nil by lia. destruct suf; [|simpl in Hl; lia]. reflexivity.
  - destruct suf as [|y suf]; [simpl in Hl; lia|].
    rewrite zlen_cons. pose proof (zlen_nonneg t). pose proof (zlen_nonneg pre').
    rewrite zrange_cons by lia.
    cbn [foldM fillA_step].
    rewrite lows_app, highs_app. simpl lows. simpl highs.
    rewrite (py_get_mid (highs pb)) by (rewrite zlen_highs; auto).
    rewrite (py_get_mid (lows pb)) by (rewrite zlen_lows; auto).
    cbn [bind].
    rewrite <- (app_assoc pre' [prev] (y :: suf)). cbn [app].
    rewrite (py_get_mid pre') by lia. cbn [bind].
    replace (pre' ++ prev :: y :: suf) with ((pre' ++ [prev]) ++ y :: suf)
      by (rewrite <- app_assoc; auto).
    rewrite py_set_mid by (rewrite zlen_app, zlen_one; lia). cbn [bind].
    set (x := Z.min (Z.min o (i + pp)) prev).
    replace (lows pb ++ i :: lows t) with (lows ((pb ++ [(i, o)]) ++ t))
      by (rewrite <- app_assoc, lows_app; auto).
    replace (highs pb ++ o :: highs t) with (highs ((pb ++ [(i, o)]) ++ t))
      by (rewrite <- app_assoc, highs_app; auto).
    replace ((pre' ++ [prev]) ++ x :: suf) with (((pre' ++ [prev]) ++ [x]) ++ suf)
      by (rewrite <- !app_assoc; auto).
    assert (E : zlen (pb ++ [(i, o)]) = zlen pb + 1) by (rewrite zlen_app, zlen_one; lia).
    specialize (IH (pb ++ [(i, o)]) (pre' ++ [prev]) x suf (pp - x + i)).
    rewrite E in IH. replace (zlen pb + 1 + zlen t) with (zlen pb + (zlen t + 1)) in IH by lia.
    change (map snd t) with (highs t). change (map fst t) with (lows t).
    rewrite IH.
    + simpl gfill. replace (Z.min (Z.min o (i + pp)) (prev - 0)) with x by (unfold x; f_equal; lia).
      destruct (gfill 0 x t (pp - x + i)) as [f q]. simpl. rewrite <- !app_assoc. auto.
    + simpl in Hl. lia.
    + rewrite zlen_app, zlen_one. lia.
Qed.

Lemma fillA_mid pb bs pre' prev suf p :
  length suf = length bs -> zlen pb = zlen pre' + 1 ->
  pieri_fillA ((pre' ++ [prev]) ++ suf) (lows (pb ++ bs)) (highs (pb ++ bs)) (zlen pb) p
  = Ok (match fillD 0 prev bs p with Some f => Some ((pre' ++ [prev]) ++ f) | None => None end).
Proof.
  intros Hl Hp. pose proof (zlen_nonneg pre').
  assert (E0 : exists y w, (pre' ++ [prev]) ++ suf = y :: w).
  { destruct pre'; simpl; eauto. }
  destruct E0 as (y & w & E0). unfold pieri_fillA. rewrite E0. rewrite <- E0. clear y w E0.
  destruct (zlen pb =? 0) eqn:E; [lia|]. cbn [bind].
  assert (El : zlen ((pre' ++ [prev]) ++ suf) = zlen pb + zlen bs).
  { rewrite !zlen_app, zlen_one. unfold zlen in *. lia. }
  rewrite El, fillA_loop; auto. cbn [bind].
  rewrite fillD_gfill. destruct (0 <? snd (gfill 0 prev bs p)); auto.
  rewrite sl_to_all; auto.
  rewrite !zlen_app, zlen_one.
  pose proof (gfill_len 0 bs prev p). unfold zlen in *. lia.
Qed.

Lemma fillA_start i o bs lam p :
  length lam = S (length bs) ->
  pieri_fillA lam (lows ((i, o) :: bs)) (highs ((i, o) :: bs)) 0 p
  = Ok (fillD 0 o ((i, o) :: bs) p).
Proof.
  intros Hl. destruct lam as [|y suf]; [simpl in Hl; lia|].
  unfold pieri_fillA. cbn [lows highs map fst snd Z.eqb].
  change (i :: map fst bs) with (lows ([(i, o)] ++ bs)).
  change (o :: map snd bs) with (highs ([(i, o)] ++ bs)).
  assert (E1 : py_get (highs ([(i, o)] ++ bs)) 0 = Ok o) by (apply (py_get_mid []); auto).
  assert (E2 : py_get (lows ([(i, o)] ++ bs)) 0 = Ok i) by (apply (py_get_mid []); auto).
  rewrite E1, E2. cbn [bind].
  assert (E3 : forall v, py_set (y :: suf) 0 v = Ok (v :: suf)) by (intros; apply (py_set_mid []); auto).
  rewrite E3. cbn [bind].
  set (x := Z.min o (i + p)).
  pose proof (fillA_loop bs [(i, o)] [] x suf (p - x + i)) as H.
  simpl length in Hl. rewrite zlen_one in H. cbn [app] in H.
  assert (El : zlen (y :: suf) = 0 + 1 + zlen bs) by (rewrite zlen_cons; unfold zlen; lia).
  rewrite El. change (zrange 1) with (zrange (0 + 1)). cbn [app].
  rewrite H; [|lia | reflexivity]. cbn [bind].
  cbn [fillD]. replace (Z.min (Z.min o (i + p)) (o - 0)) with x by (unfold x; lia).
  rewrite fillD_gfill. destruct (0 <? snd (gfill 0 x bs (p - x + i))); auto.
  rewrite sl_to_all; auto.
  rewrite zlen_cons. pose proof (gfill_len 0 bs x (p - x + i)). unfold zlen in *. lia.
Qed.

(** [nextD] on a list whose suffix can (not) be moved *)
Lemma nextD_app d pb : forall bs pre suf s', length pre = length pb ->
  nextD d bs suf = Some s' -> nextD d (pb ++ bs) (pre ++ suf) = Some (pre ++ s').
Proof.
  induction pb as [|[i o] pb IH]; intros bs [|x pre] suf s' Hl H; simpl in Hl; try lia; auto.
  simpl. rewrite (IH bs pre suf s'); auto.
Qed.

Fixpoint above (bs : list (Z * Z)) (l : list Z) : Prop :=
  match bs, l with
  | [], [] => True
  | (i, _) :: bs', x :: l' => i <= x /\ above bs' l'
  | _, _ => False
  end.

Lemma above_app pb : forall bs pre suf, length pre = length pb ->
  above (pb ++ bs) (pre ++ suf) -> above pb pre /\ above bs suf.
Proof.
  induction pb as [|[i o] pb IH]; intros bs [|x pre] suf Hl H; simpl in *; try lia; auto.
  destruct H as [H1 H2]. apply IH in H2; [|lia]. tauto.
Qed.

Lemma inV_above d bs : forall prev p l, inV d prev bs p l -> above bs l.
Proof.
  induction bs as [|[i o] t IH]; intros prev p [|x l] H; simpl in *; try tauto.
  split; [lia|]. eapply IH. apply H.
Qed.

Lemma itrA_loop_ok : forall pb pre bs suf, length pre = length pb ->
  length suf = length bs -> above (pb ++ bs) (pre ++ suf) ->
  bs <> [] -> nextD 0 bs suf = None ->
  itrA_loop (pre ++ suf) (lows (pb ++ bs)) (highs (pb ++ bs)) (rev (zrange 0 (zlen pre)))
            (zsum suf - lowsum bs)
  = Ok (nextD 0 (pb ++ bs) (pre ++ suf)).
Proof.
  intros pb pre. revert pb. induction pre as [|x pre IH] using rev_ind; intros pb bs suf Hl Hs Hab Hne Hn.
  - destruct pb; [|simpl in Hl; lia]. simpl. rewrite Hn. auto.
  - destruct pb as [|[i o] pb _] using rev_ind; [rewrite app_length in Hl; simpl in Hl; lia|].
    rewrite !app_length in Hl. simpl in Hl. assert (Hl' : length pre = length pb) by lia.
    assert (Hz : zlen pre = zlen pb) by (unfold zlen; lia).
    rewrite zlen_app, zlen_one. pose proof (zlen_nonneg pre).
    rewrite zrange_snoc by lia.
    replace (zlen pre + (0 + 1) - 1) with (zlen pre) by lia.
    rewrite rev_app_distr. cbn [rev app itrA_loop].
    rewrite <- !app_assoc in *. cbn [app] in *.
    rewrite (py_get_mid pre) by auto. cbn [bind].
    rewrite lows_app. cbn [lows map fst].
    rewrite (py_get_mid (lows pb)) by (rewrite zlen_lows; auto). cbn [bind].
    assert (Hix : i <= x).
    { apply (above_app pb) in Hab; auto. destruct Hab as [_ Hab]. simpl in Hab. tauto. }
    assert (Efold : lows pb ++ i :: map fst bs = lows (pb ++ (i, o) :: bs)).
    { rewrite lows_app. auto. }
    rewrite Efold.
    assert (Hcont : nextD 0 ((i, o) :: bs) (x :: suf) = None ->
      itrA_loop (pre ++ x :: suf) (lows (pb ++ (i, o) :: bs)) (highs (pb ++ (i, o) :: bs))
        (rev (zrange 0 (zlen pre))) (zsum suf - lowsum bs + x - i)
      = Ok (nextD 0 (pb ++ (i, o) :: bs) (pre ++ x :: suf))).
    { intros Hn'. rewrite <- (IH pb ((i, o) :: bs) (x :: suf)); auto.
      - f_equal. unfold lowsum. simpl. lia.
      - simpl. lia.
      - congruence. }
    destruct (i <? x) eqn:Eix.
    + rewrite py_set_mid by auto. cbn [bind].
      replace (pre ++ x - 1 :: suf) with ((pre ++ [x - 1]) ++ suf) by (rewrite <- app_assoc; auto).
      replace (pb ++ (i, o) :: bs) with ((pb ++ [(i, o)]) ++ bs) by (rewrite <- app_assoc; auto).
      replace (zlen pre + 1) with (zlen (pb ++ [(i, o)])) by (rewrite zlen_app, zlen_one; lia).
      rewrite fillA_mid; auto; [|rewrite zlen_app, zlen_one; lia].
      cbn [bind].
      replace ((pb ++ [(i, o)]) ++ bs) with (pb ++ (i, o) :: bs) by (rewrite <- app_assoc; auto).
      destruct (fillD 0 (x - 1) bs (zsum suf - lowsum bs + 1)) as [f|] eqn:Ef.
      * rewrite (nextD_app 0 pb ((i, o) :: bs) pre (x :: suf) (x - 1 :: f)); auto.
        -- rewrite <- app_assoc. auto.
        -- simpl. rewrite Hn, Eix, Ef. auto.
      * apply Hcont. simpl. rewrite Hn, Eix, Ef. auto.
    + assert (x = i) by lia. subst x.
      replace (zsum suf - lowsum bs) with (zsum suf - lowsum bs + i - i) by lia.
      apply Hcont. simpl. rewrite Hn, Eix. auto.
Qed.

Lemma pieri_itrA_ok bs lam : length lam = length bs -> above bs lam ->
  pieri_itrA lam (lows bs) (highs bs) = Ok (nextD 0 bs lam).
Proof.
  intros Hl Hab. destruct lam as [|x pre _] using rev_ind.
  - destruct bs; [auto | simpl in Hl; lia].
  - destruct bs as [|[i o] pb _] using rev_ind; [rewrite app_length in Hl; simpl in Hl; lia|].
    rewrite !app_length in Hl. simpl in Hl.
    unfold pieri_itrA. assert (E0 : exists y w, pre ++ [x] = y :: w) by (destruct pre; simpl; eauto).
    destruct E0 as (y & w & E0). rewrite E0, <- E0.
    rewrite py_get_last. cbn [bind]. rewrite lows_app. cbn [lows map fst].
    rewrite py_get_last. cbn [bind].
    replace (lows pb ++ [i]) with (lows (pb ++ [(i, o)])) by (rewrite lows_app; auto).
    rewrite zlen_app, zlen_one.
    replace (zlen pre + (0 + 1) - 1) with (zlen pre) by lia.
    replace (x - i) with (zsum [x] - lowsum [(i, o)]) by (unfold lowsum; simpl; lia).
    apply itrA_loop_ok; auto.
    + lia.
    + congruence.
    + simpl. destruct (i <? x); auto.
Qed.

(** *** types B, C, D: the same loops, 1-based and strict *)

Lemma fill_loop bs : forall pb pre' prev suf pp,
  length suf = length bs -> zlen pb = zlen pre' + 1 ->
  foldM (fill_step (lows (pb ++ bs)) (highs (pb ++ bs)))
        (zrange (zlen pb + 1) (zlen pb + zlen bs + 1)) ((pre' ++ [prev]) ++ suf, pp)
  = Ok ((pre' ++ [prev]) ++ fst (gfill 1 prev bs pp), snd (gfill 1 prev bs pp)).
Proof.
  induction bs as [|[i o] t IH]; intros pb pre' prev suf pp Hl Hp.
  - rewrite zlen_nil, zrange_nil by lia. destruct suf; [|simpl in Hl; lia]. reflexivity.
  - destruct suf as [|y suf]; [simpl in Hl; lia|].
    rewrite zlen_cons. pose proof (zlen_nonneg t). pose proof (zlen_nonneg pre').
    rewrite zrange_cons by lia.
    cbn [foldM fill_step].
    rewrite lows_app, highs_app. simpl lows. simpl highs.
    replace (zlen pb + 1 - 1) with (zlen pb) by lia.
    rewrite (py_get_mid (highs pb)) by (rewrite zlen_highs; auto).
    rewrite (py_get_mid (lows pb)) by (rewrite zlen_lows; auto).
    cbn [bind].
    rewrite <- (app_assoc pre' [prev] (y :: suf)). cbn [app].
    rewrite (py_get_mid pre') by lia. cbn [bind].
    replace (pre' ++ prev :: y :: suf) with ((pre' ++ [prev]) ++ y :: suf)
      by (rewrite <- app_assoc; auto).
    rewrite py_set_mid by (rewrite zlen_app, zlen_one; lia). cbn [bind].
    set (x := Z.min (Z.min o (i + pp)) (prev - 1)).
    replace (lows pb ++ i :: lows t) with (lows ((pb ++ [(i, o)]) ++ t))
      by (rewrite <- app_assoc, lows_app; auto).
    replace (highs pb ++ o :: highs t) with (highs ((pb ++ [(i, o)]) ++ t))
      by (rewrite <- app_assoc, highs_app; auto).
    replace ((pre' ++ [prev]) ++ x :: suf) with (((pre' ++ [prev]) ++ [x]) ++ suf)
      by (rewrite <- !app_assoc; auto).
    assert (E : zlen (pb ++ [(i, o)]) = zlen pb + 1) by (rewrite zlen_app, zlen_one; lia).
    specialize (IH (pb ++ [(i, o)]) (pre' ++ [prev]) x suf (pp - x + i)).
    rewrite E in IH. replace (zlen pb + 1 + zlen t + 1) with (zlen pb + (zlen t + 1) + 1) in IH by lia.
    change (map snd t) with (highs t). change (map fst t) with (lows t).
    rewrite IH.
    + simpl gfill. fold x.
      destruct (gfill 1 x t (pp - x + i)) as [f q]. simpl. rewrite <- !app_assoc. auto.
    + simpl in Hl. lia.
    + rewrite zlen_app, zlen_one. lia.
Qed.

Lemma fill_mid pb bs pre' prev suf p :
  length suf = length bs -> zlen pb = zlen pre' + 1 ->
  pieri_fill ((pre' ++ [prev]) ++ suf) (lows (pb ++ bs)) (highs (pb ++ bs)) (zlen pb + 1) p
  = Ok (match fillD 1 prev bs p with Some f => Some ((pre' ++ [prev]) ++ f) | None => None end).
Proof.
  intros Hl Hp. pose proof (zlen_nonneg pre').
  assert (E0 : exists y w, (pre' ++ [prev]) ++ suf = y :: w).
  { destruct pre'; simpl; eauto. }
  destruct E0 as (y & w & E0). unfold pieri_fill. rewrite E0. rewrite <- E0. clear y w E0.
  destruct (zlen pb + 1 =? 1) eqn:E; [lia|]. cbn [bind].
  assert (El : zlen ((pre' ++ [prev]) ++ suf) = zlen pb + zlen bs).
  { rewrite !zlen_app, zlen_one. unfold zlen in *. lia. }
  rewrite El, fill_loop; auto. cbn [bind].
  rewrite fillD_gfill. destruct (0 <? snd (gfill 1 prev bs p)); auto.
Qed.

Lemma fill_start i o bs lam p :
  length lam = S (length bs) ->
  pieri_fill lam (lows ((i, o) :: bs)) (highs ((i, o) :: bs)) 1 p
  = Ok (fillD 1 (o + 1) ((i, o) :: bs) p).
Proof.
  intros Hl. destruct lam as [|y suf]; [simpl in Hl; lia|].
  unfold pieri_fill. cbn [lows highs map fst snd Z.eqb Pos.eqb].
  change (i :: map fst bs) with (lows ([(i, o)] ++ bs)).
  change (o :: map snd bs) with (highs ([(i, o)] ++ bs)).
  assert (E1 : py_get (highs ([(i, o)] ++ bs)) 0 = Ok o) by (apply (py_get_mid []); auto).
  assert (E2 : py_get (lows ([(i, o)] ++ bs)) 0 = Ok i) by (apply (py_get_mid []); auto).
  rewrite E1, E2. cbn [bind].
  assert (E3 : forall v, py_set (y :: suf) 0 v = Ok (v :: suf)) by (intros; apply (py_set_mid []); auto).
  rewrite E3. cbn [bind].
  set (x := Z.min o (i + p)).
  pose proof (fill_loop bs [(i, o)] [] x suf (p - x + i)) as H.
  simpl length in Hl. rewrite zlen_one in H. cbn [app] in H.
  assert (El : zlen (y :: suf) + 1 = 0 + 1 + zlen bs + 1) by (rewrite zlen_cons; unfold zlen; lia).
  rewrite El. change (zrange 2) with (zrange (0 + 1 + 1)). cbn [app].
  rewrite H; [|lia | reflexivity]. cbn [bind].
  cbn [fillD]. replace (Z.min (Z.min o (i + p)) (o + 1 - 1)) with x by (unfold x; lia).
  rewrite fillD_gfill. destruct (0 <? snd (gfill 1 x bs (p - x + i))); auto.
Qed.

Lemma itr_loop_ok : forall pb pre bs suf, length pre = length pb ->
  length suf = length bs -> above (pb ++ bs) (pre ++ suf) ->
  bs <> [] -> nextD 1 bs suf = None ->
  itr_loop (pre ++ suf) (lows (pb ++ bs)) (highs (pb ++ bs)) (rev (zrange 1 (zlen pre + 1)))
            (zsum suf - lowsum bs)
  = Ok (nextD 1 (pb ++ bs) (pre ++ suf)).
Proof.
  intros pb pre. revert pb. induction pre as [|x pre IH] using rev_ind; intros pb bs suf Hl Hs Hab Hne Hn.
  - destruct pb; [|simpl in Hl; lia]. simpl. rewrite Hn. auto.
  - destruct pb as [|[i o] pb _] using rev_ind; [rewrite app_length in Hl; simpl in Hl; lia|].
    rewrite !app_length in Hl. simpl in Hl. assert (Hl' : length pre = length pb) by lia.
    assert (Hz : zlen pre = zlen pb) by (unfold zlen; lia).
    rewrite zlen_app, zlen_one. pose proof (zlen_nonneg pre).
    rewrite zrange_snoc by lia.
    replace (zlen pre + (0 + 1) + 1 - 1) with (zlen pre + 1) by lia.
    rewrite rev_app_distr. cbn [rev app itr_loop].
    rewrite <- !app_assoc in *. cbn [app] in *.
    replace (zlen pre + 1 - 1) with (zlen pre) by lia.
    rewrite (py_get_mid pre) by auto. cbn [bind].
    rewrite lows_app. cbn [lows map fst].
    rewrite (py_get_mid (lows pb)) by (rewrite zlen_lows; auto). cbn [bind].
    assert (Hix : i <= x).
    { apply (above_app pb) in Hab; auto. destruct Hab as [_ Hab]. simpl in Hab. tauto. }
    assert (Efold : lows pb ++ i :: map fst bs = lows (pb ++ (i, o) :: bs)).
    { rewrite lows_app. auto. }
    rewrite Efold.
    assert (Hcont : nextD 1 ((i, o) :: bs) (x :: suf) = None ->
      itr_loop (pre ++ x :: suf) (lows (pb ++ (i, o) :: bs)) (highs (pb ++ (i, o) :: bs))
        (rev (zrange 1 (zlen pre + 1))) (zsum suf - lowsum bs + x - i)
      = Ok (nextD 1 (pb ++ (i, o) :: bs) (pre ++ x :: suf))).
    { intros Hn'. rewrite <- (IH pb ((i, o) :: bs) (x :: suf)); auto.
      - f_equal. unfold lowsum. simpl. lia.
      - simpl. lia.
      - congruence. }
    destruct (i <? x) eqn:Eix.
    + rewrite py_set_mid by auto. cbn [bind].
      replace (pre ++ x - 1 :: suf) with ((pre ++ [x - 1]) ++ suf) by (rewrite <- app_assoc; auto).
      replace (pb ++ (i, o) :: bs) with ((pb ++ [(i, o)]) ++ bs) by (rewrite <- app_assoc; auto).
      replace (zlen pre + 1 + 1) with (zlen (pb ++ [(i, o)]) + 1) by (rewrite zlen_app, zlen_one; lia).
      rewrite fill_mid; auto; [|rewrite zlen_app, zlen_one; lia].
      cbn [bind].
      replace ((pb ++ [(i, o)]) ++ bs) with (pb ++ (i, o) :: bs) by (rewrite <- app_assoc; auto).
      destruct (fillD 1 (x - 1) bs (zsum suf - lowsum bs + 1)) as [f|] eqn:Ef.
      * rewrite (nextD_app 1 pb ((i, o) :: bs) pre (x :: suf) (x - 1 :: f)); auto.
        -- rewrite <- app_assoc. auto.
        -- simpl. rewrite Hn, Eix, Ef. auto.
      * apply Hcont. simpl. rewrite Hn, Eix, Ef. auto.
    + assert (x = i) by lia. subst x.
      replace (zsum suf - lowsum bs) with (zsum suf - lowsum bs + i - i) by lia.
      apply Hcont. simpl. rewrite Hn, Eix. auto.
Qed.

Lemma pieri_itr_ok bs lam : length lam = length bs -> above bs lam ->
  pieri_itr lam (lows bs) (highs bs) = Ok (nextD 1 bs lam).
Proof.
  intros Hl Hab. destruct lam as [|x pre _] using rev_ind.
  - destruct bs; [auto | simpl in Hl; lia].
  - destruct bs as [|[i o] pb _] using rev_ind; [rewrite app_length in Hl; simpl in Hl; lia|].
    rewrite !app_length in Hl. simpl in Hl.
    unfold pieri_itr. assert (E0 : exists y w, pre ++ [x] = y :: w) by (destruct pre; simpl; eauto).
    destruct E0 as (y & w & E0). rewrite E0, <- E0.
    rewrite py_get_last. cbn [bind]. rewrite lows_app. cbn [lows map fst].
    rewrite py_get_last. cbn [bind].
    replace (lows pb ++ [i]) with (lows (pb ++ [(i, o)])) by (rewrite lows_app; auto).
    rewrite zlen_app, zlen_one.
    replace (zlen pre + (0 + 1)) with (zlen pre + 1) by lia.
    replace (x - i) with (zsum [x] - lowsum [(i, o)]) by (unfold lowsum; simpl; lia).
    apply itr_loop_ok; auto.
    + lia.
    + congruence.
    + simpl. destruct (i <? x); auto.
Qed.
