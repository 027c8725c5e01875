(** The coefficients of the Pieri rule of type D, read off the walks. *)

From Coq Require Import ZArith List Lia Bool Permutation QArith Qcanon.
From Verif Require Import Py OrderFacts PyFacts ModelPart ModelQcalc Spec SpecPieri
  Enum FillFacts PartFacts ConjFacts PieriSet PieriBKT CompsFacts CompsBound PieriCoef PieriD QPieriD WArrow Word Transfer TransD WordArrow WordPieri Extract CommC WordD.
Import ListNotations.
Open Scope Z_scope.

(** ** heights of the first k columns *)
Fixpoint Ls (c : Z) (w : word) : list Z :=
  match w with
  | [] => []
  | LE :: w' => c :: Ls c w'
  | LL :: w' => Ls (c + 1) w'
  | LR :: w' => Ls c w'
  end.
Lemma zlen_Ls' w : forall c, zlen (Ls c w) = cE w.
Proof. induction w as [|x w IH]; intros c; [reflexivity|]. destruct x; cbn [Ls cE isE]; rewrite ?zlen_cons, IH; lia. Qed.
Lemma nth_Ls w : forall c j, 0 <= Z.of_nat j < cE w -> nth j (Ls c w) 0 = c + nth j (Ls 0 w) 0.
Proof.
  induction w as [|x w IH]; intros c j Hj; [cbn [cE] in Hj; lia|]. destruct x; cbn [Ls cE isE] in *.
  - destruct j as [|j]; cbn [nth]; [lia|]. apply IH. lia.
  - apply IH. lia.
  - rewrite (IH (c + 1)), (IH (0 + 1)) by lia. lia.
Qed.
Lemma tc_word w j : (1 <= length w)%nat -> 0 <= Z.of_nat j < cE w -> tc (wp1 w) (Z.of_nat j) = zlen w - cE w - nth j (Ls 0 w) 0.
Proof.
  revert j. induction w as [|x w IH]; intros j Hl Hj; [cbn in Hl; lia|]. destruct w as [|y w].
  - rewrite (wp_one 1 x eq_refl). change (tc [] (Z.of_nat j)) with 0. destruct x; cbn [cE isE] in *; try lia.
    assert (j = 0%nat) by lia. subst j. reflexivity.
  - set (u := y :: w) in *. assert (Hu : (1 <= length u)%nat) by (cbn; lia). specialize (fun j => IH j Hu).
    destruct (wp1_kstrict u Hu) as ((Hp & Hr & Hc) & Hk). pose proof (cE_range u) as HE. fold (zlen (wp1 u)) in Hr.
    rewrite zlen_cons. assert (Hz : 1 <= zlen u) by (unfold zlen; lia). destruct x; cbn [cE isE Ls] in *.
    + assert (HpE : is_partition (wp1 (LE :: u))) by apply (wp1_kstrict (LE :: u) ltac:(cbn; lia)).
      set (m := zlen u - cE u) in *.
      assert (Hpart : forall j, 0 <= j -> part (wp1 (LE :: u)) (Z.to_nat j) = if j <? m then part (wp1 u) (Z.to_nat j) + 1 else 0).
      { intros i Hi. cbn [wp]. apply part_map_succ; auto. }
      destruct j as [|j]; cbn [nth].
      * apply tc_eq; auto; [lia|lia|]. intros r Hr0. rewrite Hpart by auto. pose proof (part_nn_z (wp1 u) r Hp). destruct (Z.ltb_spec r m); lia.
      * transitivity (tc (wp1 u) (Z.of_nat j)).
        -- apply tc_eq; auto; [lia|apply tc_nonneg|]. intros r Hr0. rewrite Hpart by auto. rewrite (tc_iff 0 0 0 (wp1 u) (Z.of_nat j) r Hp ltac:(lia) Hr0).
           destruct (Z.ltb_spec r m); [lia|]. rewrite part_over_z by lia. lia.
        -- rewrite IH by lia. unfold m. lia.
    + cbn [wp]. cbv zeta. destruct (Z.eqb_spec (zlen u + 1 - 1 + cE u) 0); [lia|]. rewrite tc_cons by (auto; lia).
      destruct (Z.ltb_spec (Z.of_nat j) (zlen u + 1 - 1 + cE u)); [|lia]. rewrite IH by lia. lia.
    + cbn [wp]. rewrite IH by lia. change (0 + 1) with 1. rewrite (nth_Ls u 1) by lia. lia.
Qed.
Fixpoint ngs (a b : list Z) : Z :=
  match a, b with x :: a', y :: b' => (if x <=? y then 1 else 0) + ngs a' b' | _, _ => 0 end.
Lemma ngs_filter a : forall b s (f : Z -> bool), length a = length b -> (forall j, (j < length a)%nat -> f (Z.of_nat (s + j)) = (nth j a 0 <=? nth j b 0)) ->
  Z.of_nat (length (filter f (map Z.of_nat (seq s (length a))))) = ngs a b.
Proof.
  induction a as [|x a IH]; intros b s f Hl Hf; [reflexivity|]. destruct b as [|y b]; [discriminate|]. injection Hl as Hl.
  cbn [length seq map filter ngs]. pose proof (Hf 0%nat ltac:(cbn; lia)) as H0. rewrite Nat.add_0_r in H0. cbn [nth] in H0. rewrite H0.
  rewrite <- (IH b (S s) f Hl).
  - destruct (x <=? y); cbn [length]; lia.
  - intros j Hj. specialize (Hf (S j) ltac:(cbn; lia)). cbn [nth] in Hf. replace (S s + j)%nat with (s + S j)%nat by lia. exact Hf.
Qed.
Lemma not_gaining_word w v : length w = length v -> cE w = cE v -> (1 <= length w)%nat ->
  not_gaining (cE w) (wp1 w) (wp1 v) = ngs (Ls 0 w) (Ls 0 v).
Proof.
  intros Hl HE H1. unfold not_gaining. pose proof (zlen_Ls' w 0) as Z1. pose proof (zlen_Ls' v 0) as Z2. unfold zlen in Z1, Z2.
  pose proof (cE_range w). replace (Z.to_nat (cE w)) with (length (Ls 0 w)) by lia. apply ngs_filter; [lia|].
  intros j Hj. replace (Z.of_nat (1 + j)) with (Z.of_nat j + 1) by lia. fold (tc (wp1 w) (Z.of_nat j)) (tc (wp1 v) (Z.of_nat j)).
  rewrite !tc_word by lia. assert (zlen w = zlen v) by (unfold zlen; lia).
  destruct (Z.leb_spec (nth j (Ls 0 w) 0) (nth j (Ls 0 v) 0)); apply Z.leb_le || apply Z.leb_gt; lia.
Qed.

(** ** the sign *)
Definition sgn (z : Z) : Qc := if Z.odd z then (- (1))%Qc else 1%Qc.
Lemma sgn_1 z : sgn (1 + z) = (- sgn z)%Qc.
Proof. unfold sgn. rewrite Z.odd_add. change (Z.odd 1) with true. destruct (Z.odd z); cbn [xorb]; ring. Qed.
Lemma sgn_1' z : sgn (1 + (1 + z)) = sgn z.
Proof. rewrite !sgn_1. ring. Qed.
Definition tau (x y : letter) : Qc := match x, y with LR, _ => (- (1))%Qc | _, LR => (- (1))%Qc | _, _ => 1%Qc end.

Lemma lastl_tl x w : (1 <= length w)%nat -> lastl (x :: w) = lastl w.
Proof. destruct w; [cbn; lia|reflexivity]. Qed.
Lemma mul_ne0 (s a : Qc) : (s * a <> 0 -> a <> 0)%Qc.
Proof. intros H E. apply H. rewrite E. ring. Qed.
Lemma drun_sign m : forall a w v, length w = S m -> length v = S m -> drun m a w v <> 0%Qc ->
  match a with
  | S0 => forall c, drun m a w v = (sgn (ngs (Ls c w) (Ls c v)) * tau (lastl w) (lastl v))%Qc
  | S1 => forall p c, p <= c -> drun m a w v = (sgn (1 + ngs (p :: Ls c w) (Ls c v)) * tau (lastl w) (lastl v))%Qc
  | S2 => forall p c, p <= c -> drun m a w v = (sgn (ngs (Ls (c + 1) w) (p :: Ls c v)) * tau (lastl w) (lastl v))%Qc
  | S3 => False
  end.
Proof.
  induction m as [|m IH]; intros a w v Hw Hv Hne.
  - destruct w as [|x [|? ?]]; try discriminate. destruct v as [|y [|? ?]]; try discriminate. cbn [drun finS lastl last] in *.
    destruct a, x, y; cbn [fS Ls tau] in *; try congruence; try (intros c; cbn [ngs]; unfold sgn; cbn; ring);
      (intros p c Hp; cbn [ngs]; try (destruct (Z.leb_spec p c); [|lia]); try (destruct (Z.leb_spec (c + 1) p); [lia|]); unfold sgn; cbn; ring).
  - destruct w as [|x w]; [discriminate|]. destruct v as [|y v]; [discriminate|]. injection Hw as Hw. injection Hv as Hv.
    rewrite !lastl_tl by lia. cbn [drun] in *. destruct (dn a x y) as [[a' s]|] eqn:Ed; [|congruence].
    pose proof (IH a' w v Hw Hv (mul_ne0 _ _ Hne)) as G. clear IH Hne.
    destruct a, x, y; cbn [dn] in Ed; try discriminate; injection Ed as <- <-; cbn [Ls].
    + intros c. rewrite (G c c) by lia. cbn [ngs]. rewrite sgn_1. ring.
    + intros c. rewrite (G c). ring.
    + intros c. rewrite (G c c) by lia. ring.
    + intros c. rewrite (G (c + 1)). ring.
    + intros p c Hp. rewrite (G c c) by lia. cbn [ngs]. destruct (Z.leb_spec p c); [|lia]. rewrite !sgn_1. ring.
    + intros p c Hp. rewrite (G c). cbn [ngs]. destruct (Z.leb_spec p c); [|lia]. rewrite !sgn_1. ring.
    + intros p c Hp. rewrite (G p (c + 1)) by lia. ring.
    + intros p c Hp. rewrite (G c c) by lia. cbn [ngs]. destruct (Z.leb_spec (c + 1) p); [lia|]. change (0 + ?a) with a. ring.
    + intros p c Hp. rewrite (G (c + 1)). cbn [ngs]. destruct (Z.leb_spec (c + 1) p); [lia|]. change (0 + ?a) with a. ring.
    + intros p c Hp. rewrite (G p c) by lia. ring.
Qed.

(** ** when the signed walk exists *)
Definition fm (b : st) (x y : letter) : option (nat * Qc) :=
  match b, x, y with
  | S0, LE, LE => Some (0%nat, 1%Qc) | S0, LL, LL => Some (0%nat, 1%Qc) | S0, LR, LR => Some (0%nat, 1%Qc)
  | S1, LL, LE => Some (0%nat, 1%Qc) | S1, LR, LE => Some (0%nat, 1%Qc)
  | S2, LE, LL => Some (0%nat, 1%Qc) | S2, LE, LR => Some (0%nat, 1%Qc)
  | S3, LE, LE => Some (1%nat, two) | S3, LL, LL => Some (0%nat, two) | S3, LR, LR => Some (0%nat, two)
  | _, _, _ => None
  end.
Definition i2 (a : st) : Z := match a with S2 => 1 | _ => 0 end.
Lemma walk_S3 m : forall w v g x b, walk m S3 w v = Some (g, x, b) -> x = 0%nat -> b = S3.
Proof.
  induction m as [|m IH]; intros w v g x b H Hx; [cbn in H; congruence|]. destruct w as [|l w]; [discriminate|]. destruct v as [|r v]; [discriminate|].
  cbn [walk] in H. destruct (nxt S3 l r) as [a'|] eqn:En; [|discriminate]. destruct (walk m a' w v) as [[[g' x'] b']|] eqn:E; [|discriminate].
  injection H as <- <- <-. destruct l, r; cbn [nxt ex] in *; try discriminate; injection En as <-; try lia; eapply IH; eauto; lia.
Qed.
Lemma drun_walk m : forall a w v, length w = S m -> length v = S m -> drun m a w v <> 0%Qc ->
  exists g b h c, walk m a w v = Some (g, 0%nat, b) /\ b <> S3 /\ fm b (lastl w) (lastl v) = Some (h, c) /\ Z.of_nat (g + h) + i2 a = cE w.
Proof.
  induction m as [|m IH]; intros a w v Hw Hv Hne.
  - destruct w as [|x [|? ?]]; try discriminate. destruct v as [|y [|? ?]]; try discriminate. cbn [drun finS walk] in *.
    exists 0%nat, a, 0%nat, 1%Qc. split; auto. cbn [lastl last cE]. destruct a, x, y; cbn [fS fm i2 isE] in *; try congruence; repeat split; try discriminate; lia.
  - destruct w as [|x w]; [discriminate|]. destruct v as [|y v]; [discriminate|]. injection Hw as Hw. injection Hv as Hv.
    rewrite !lastl_tl by lia. cbn [drun] in *. destruct (dn a x y) as [[a' s]|] eqn:Ed; [|congruence].
    destruct (IH a' w v Hw Hv (mul_ne0 _ _ Hne)) as (g & b & h & c & E1 & E2 & E3 & E4). clear IH Hne.
    exists (dg a x y + g)%nat, b, h, c. cbn [walk].
    destruct a, x, y; cbn [dn] in Ed; try discriminate; injection Ed as <- <-; cbn [nxt]; rewrite E1; cbn [dg ex plus];
      (split; [reflexivity|split; [exact E2|split; [exact E3|cbn [cE isE i2] in *; lia]]]).
Qed.
Lemma walk_le m : forall a w v g b h c, length w = S m -> length v = S m -> walk m a w v = Some (g, 0%nat, b) -> b <> S3 ->
  fm b (lastl w) (lastl v) = Some (h, c) -> Z.of_nat (g + h) + i2 a <= cE w.
Proof.
  induction m as [|m IH]; intros a w v g b h c Hw Hv E Hb Hf.
  - destruct w as [|x [|? ?]]; try discriminate. destruct v as [|y [|? ?]]; try discriminate. cbn [walk] in E. injection E as <- <-. cbn [lastl last cE] in *.
    destruct a, x, y; cbn [fm i2 isE] in *; try congruence; injection Hf as <- <-; lia.
  - destruct w as [|x w]; [discriminate|]. destruct v as [|y v]; [discriminate|]. injection Hw as Hw. injection Hv as Hv.
    rewrite !lastl_tl in Hf by lia. cbn [walk] in E. destruct (nxt a x y) as [a'|] eqn:En; [|discriminate].
    destruct (walk m a' w v) as [[[g' x'] b']|] eqn:E1; [|discriminate]. injection E as <- Ex <-.
    assert (Hx : x' = 0%nat) by lia. subst x'. assert (Ha' : a' <> S3) by (intros ->; apply Hb; eapply walk_S3; eauto).
    pose proof (IH _ _ _ _ _ _ _ Hw Hv E1 Hb Hf) as G. 
    destruct a, x, y; cbn [nxt] in En; try discriminate; injection En as <-; cbn [ex dg] in *; try congruence; try lia; cbn [cE isE i2] in *; lia.
Qed.
Lemma walk_drun m : forall a w v g b h c, length w = S m -> length v = S m -> walk m a w v = Some (g, 0%nat, b) -> b <> S3 ->
  fm b (lastl w) (lastl v) = Some (h, c) -> Z.of_nat (g + h) + i2 a = cE w -> drun m a w v <> 0%Qc.
Proof.
  induction m as [|m IH]; intros a w v g b h c Hw Hv E Hb Hf HE.
  - destruct w as [|x [|? ?]]; try discriminate. destruct v as [|y [|? ?]]; try discriminate. cbn [walk] in E. injection E as <- <-. cbn [lastl last cE drun finS] in *.
    destruct a, x, y; cbn [fm fS i2 isE] in *; try congruence; injection Hf as <- <-; try lia; discriminate.
  - destruct w as [|x w]; [discriminate|]. destruct v as [|y v]; [discriminate|]. injection Hw as Hw. injection Hv as Hv.
    rewrite !lastl_tl in Hf by lia. cbn [walk drun] in *. destruct (nxt a x y) as [a'|] eqn:En; [|discriminate].
    destruct (walk m a' w v) as [[[g' x'] b']|] eqn:E1; [|discriminate]. injection E as <- Ex <-.
    assert (Hx : x' = 0%nat) by lia. subst x'. assert (Ha' : a' <> S3) by (intros ->; apply Hb; eapply walk_S3; eauto).
    pose proof (walk_le _ _ _ _ _ _ _ _ Hw Hv E1 Hb Hf) as G. pose proof (IH _ _ _ _ _ _ _ Hw Hv E1 Hb Hf) as G2.
    assert (M1 : forall q : Qc, q <> 0%Qc -> (1 * q <> 0)%Qc) by (intros q Hq E; apply Hq; rewrite <- E; ring).
    assert (M2 : forall q : Qc, q <> 0%Qc -> (- (1) * q <> 0)%Qc) by (intros q Hq E; apply Hq; transitivity (- (1) * (- (1) * q))%Qc; [ring|rewrite E; ring]).
    destruct a, x, y; cbn [nxt] in En; try discriminate; injection En as <-; cbn [ex dg dn] in *; try congruence; try lia; cbn [cE isE i2] in *; try lia;
      (apply M1 || apply M2); apply G2; lia.
Qed.

(** ** the coefficients *)
Definition tfin (o : option (nat * nat * st)) (w v : word) : mlist :=
  match o with
  | Some (g, x, b) => match fm b (lastl w) (lastl v) with Some (h, c) => [((g + h)%nat, (two ^ x * c)%Qc)] | None => [] end
  | None => []
  end.
Lemma co_tfin o w v p : co (tfin o w v) p =
  match o with
  | Some (g, x, b) => match fm b (lastl w) (lastl v) with Some (h, c) => if (g + h =? p)%nat then (two ^ x * c)%Qc else 0%Qc | None => 0%Qc end
  | None => 0%Qc
  end.
Proof.
  unfold tfin, co. destruct o as [[[g x] b]|]; [|reflexivity]. destruct (fm b (lastl w) (lastl v)) as [[h c]|]; [|reflexivity].
  rewrite qsum_cons, qsum_nil. cbn [fst snd]. destruct (g + h =? p)%nat; ring.
Qed.

Definition cD (k p : Z) : Qc := if Z.abs p <? k then 1%Qc else (/ two)%Qc.
Definition dD (k p : Z) : Qc := if Z.abs p =? k then (if p <? 0 then - (/ two) else / two)%Qc else 0%Qc.

Section G.
Variables (k n : Z).
Hypothesis Hk : 1 <= k <= n.
Notation ws := (wset k (n + 1)).
Notation V := (typed_in k (n + 1 - k) (n + k)).
Notation N := (Z.to_nat n).

Lemma ws_arrow w v : In w ws -> In v ws ->
  (pieri_arrow k 1 (wp1 w) (wp1 v) <-> exists g x b, walk N S0 w v = Some (g, x, b)) /\
  (forall g x b, walk N S0 w v = Some (g, x, b) ->
    (tyl (lastl w) + tyl (lastl v) = 3 /\ fm b (lastl w) (lastl v) = None \/
     tyl (lastl w) + tyl (lastl v) <> 3 /\ exists h, fm b (lastl w) (lastl v) = Some (h, match b with S3 => two | _ => 1%Qc end) /\ size (wp1 v) = size (wp1 w) + Z.of_nat (g + h)) /\
    component_count (free_box k 1 (wp1 w) (wp1 v)) (fun _ => True) (Z.of_nat x + match b with S3 => 1 | _ => 0 end)).
Proof.
  intros Hw Hv. destruct (ws_len k n Hk w Hw) as (L1 & L2 & L3). destruct (ws_len k n Hk v Hv) as (M1 & M2 & M3).
  destruct (word_arrow 1 D1 N w v) as [H1 H2]; try congruence; try lia.
  { unfold Word.wn. lia. }
  rewrite L3 in *. split; auto. intros g x b E. destruct (H2 g x b E) as (H3 & H4 & H5).
  rewrite !(skipn_last N) in H3, H4 by auto. cbn [cE] in H3. split.
  - destruct (lastl w) eqn:Ew, (lastl v) eqn:Ev; cbn [tyl]; try (left; split; [reflexivity|]; destruct b; cbn [chE isE] in H3; try lia; reflexivity);
      right; (split; [lia|]); destruct b; cbn [chE isE] in H3; try lia; cbn [fm]; eexists; (split; [reflexivity|]);
      cbn [corr cE isE] in H4; unfold Word.wn in H4; change (zlen (?a :: [])) with 1 in H4; lia.
  - apply comps_any. specialize (H5 false). exact H5.
Qed.

Lemma maxty x y b h c : fm b x y = Some (h, c) -> b <> S3 -> (b = S0 -> x <> LE) -> tau x y = (- sgn (Z.max (tyl x) (tyl y)))%Qc.
Proof. intros Hf Hb H0. destruct b, x, y; cbn [fm] in Hf; try discriminate; try congruence; try (exfalso; apply H0; auto; fail); unfold sgn; cbn; ring. Qed.
Lemma sgn_add a b : sgn (a + b) = (sgn a * sgn b)%Qc.
Proof. unfold sgn. rewrite Z.odd_add. destruct (Z.odd a), (Z.odd b); cbn [xorb]; ring. Qed.

Lemma coefD_gen w v p c : In w ws -> In v ws -> coef_D k n p (encD w) (encD v) c ->
  c = (cD k p * co (tfin (walk N S0 w v) w v) (Z.to_nat (Z.abs p)) + dD k p * drun N S0 w v)%Qc.
Proof.
  intros Hw Hv H. destruct (ws_arrow w v Hw Hv) as [H1 H2]. rewrite co_tfin.
  pose proof (encD_V k n Hk v Hv) as HVv. destruct (ws_len k n Hk w Hw) as (L1 & L2 & L3). destruct (ws_len k n Hk v Hv) as (M1 & M2 & M3).
  unfold coef_D, pieri_term_D, mult_D in H. rewrite (shape_encD k n Hk w Hw), (shape_encD k n Hk v Hv), (type_encD k n Hk w Hw), (type_encD k n Hk v Hv),
    (size_encD k n Hk w Hw), (size_encD k n Hk v Hv) in H.
  destruct H as [((_ & H3 & H4 & H5) & M & H6 & H7 & ->)|(H3 & ->)].
  - apply H1 in H4. destruct H4 as (g & x & b & E). rewrite E. destruct (H2 g x b E) as (HT & HC).
    destruct HT as [(HT & _)|(_ & h & Hf & Hs)]; [contradiction|]. rewrite Hf.
    replace (g + h =? Z.to_nat (Z.abs p))%nat with true by (symmetry; apply Nat.eqb_eq; lia).
    pose proof (component_count_unique _ _ _ _ H6 HC) as EM.
    assert (E2 : two_to M = (two ^ x * match b with S3 => two | _ => 1 end)%Qc).
    { rewrite EM. destruct b; try (rewrite Z.add_0_r, two_to_nat; ring). replace (Z.of_nat x + 1) with (Z.of_nat (S x)) by lia. rewrite two_to_nat. cbn [Qcpower]. ring. }
    assert (HN : M <> 0 -> drun N S0 w v = 0%Qc).
    { intros HM. destruct (Qc_eq_dec (drun N S0 w v) 0%Qc) as [|Hne]; auto. exfalso.
      destruct (drun_walk N S0 w v L1 M1 Hne) as (g' & b' & h' & c' & E' & Hb & _). rewrite E in E'. injection E' as <- -> <-. destruct b; try congruence; lia. }
    rewrite <- E2. unfold cD, dD. destruct (Z.ltb_spec (Z.abs p) k) as [Hlt|Hge].
    + destruct (Z.eqb_spec (Z.abs p) k); [lia|]. ring.
    + destruct (Z.ltb_spec 0 M) as [HM|HM].
      * rewrite HN by lia. rewrite two_to_pred by lia. ring.
      * destruct (Z.eqb_spec (Z.abs p) k) as [Ek|Ek]; [|lia]. assert (M = 0) by (destruct b; lia). assert (x = 0%nat) by (destruct b; lia). subst x M.
        assert (Hb : b <> S3) by (intros ->; lia).
        assert (Hne : drun N S0 w v <> 0%Qc) by (eapply walk_drun; eauto; cbn [i2]; lia).
        rewrite (drun_sign N S0 w v L1 M1 Hne 0).
        assert (HE0 : b = S0 -> lastl w <> LE).
        { intros -> El. pose proof (walk_le N S0) as _. pose proof (drun_walk N S0 w v L1 M1 Hne) as (g' & b' & h' & c' & E' & _ & _ & _).
          (* the last pair LE LE from S0 is not allowed *)
          clear - E El Hf L1 M1 Hne. revert E Hne. generalize S0 at 1 3. revert w v g L1 M1 El Hf. induction N as [|m IH]; intros w v g L1 M1 El Hf a E Hne.
          - destruct w as [|y [|? ?]]; try discriminate. destruct v as [|z [|? ?]]; try discriminate. cbn [walk] in E. injection E as <- ->. cbn [lastl last] in *. subst y.
            destruct z; cbn in *; congruence.
          - destruct w as [|y w]; [discriminate|]. destruct v as [|z v]; [discriminate|]. injection L1 as L1. injection M1 as M1. rewrite !lastl_tl in * by lia.
            cbn [walk drun] in *. destruct (dn a y z) as [[a1 s]|] eqn:Ed; [|congruence]. assert (En : nxt a y z = Some a1) by (destruct a, y, z; cbn in *; congruence).
            rewrite En in E. destruct (walk m a1 w v) as [[[g' x'] b']|] eqn:E1; [|discriminate]. injection E as _ Ex ->. assert (x' = 0%nat) by lia. subst x'.
            apply (IH w v g' L1 M1 El Hf a1 E1). eapply mul_ne0; eauto. }
        rewrite (maxty _ _ _ _ _ Hf Hb HE0).
        assert (NG : not_gaining k (wp1 w) (wp1 v) = ngs (Ls 0 w) (Ls 0 v)) by (rewrite <- L3; apply not_gaining_word; lia). rewrite NG.
        set (A := ngs (Ls 0 w) (Ls 0 v)). set (B := Z.max (tyl (lastl w)) (tyl (lastl v))).
        replace (sgn A * - sgn B)%Qc with (- sgn (A + B))%Qc by (rewrite sgn_add; ring).
        assert (E3 : two_to (Z.of_nat 0 + match b with S3 => 1 | _ => 0 end) = 1%Qc) by (destruct b; try congruence; reflexivity). rewrite E3. unfold sgn. rewrite (Z.odd_add (A + B)). destruct (Z.odd (A + B)), (p <? 0); cbn [Z.odd xorb]; unfold two; field; discriminate.
  - assert (G1 : match walk N S0 w v with Some (g, x, b) => match fm b (lastl w) (lastl v) with Some (h, c) => if (g + h =? Z.to_nat (Z.abs p))%nat then (two ^ x * c)%Qc else 0%Qc | None => 0%Qc end | None => 0%Qc end = 0%Qc).
    { destruct (walk N S0 w v) as [[[g x] b]|] eqn:E; [|reflexivity]. destruct (H2 g x b eq_refl) as ([(_ & ->)|(HT & h & Hf & Hs)] & _); [reflexivity|]. rewrite Hf.
      destruct (Nat.eqb_spec (g + h) (Z.to_nat (Z.abs p))) as [Eg|]; [|reflexivity]. exfalso. apply H3. split; auto. split; [lia|]. split; auto. apply H1. eauto. }
    rewrite G1. unfold dD. destruct (Z.eqb_spec (Z.abs p) k) as [Ek|Ek]; [|ring].
    destruct (Qc_eq_dec (drun N S0 w v) 0%Qc) as [E0|Hne]; [rewrite E0; ring|]. exfalso.
    destruct (drun_walk N S0 w v L1 M1 Hne) as (g & b & h & c & E & Hb & Hf & Hg). cbn [i2] in Hg.
    destruct (H2 _ _ _ E) as ([(_ & HT)|(HT & h' & Hf' & Hs)] & _); [congruence|]. rewrite Hf in Hf'. injection Hf' as <- _.
    apply H3. split; auto. split; [lia|]. split; auto. apply H1. eauto.
Qed.
End G.
