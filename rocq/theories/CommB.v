(** The Pieri operators of OG(n-k,2n+1), classical and quantum, commute. *)

From Coq Require Import ZArith List Lia Bool Permutation QArith Qcanon.
From Verif Require Import Py OrderFacts PyFacts ModelPart ModelQcalc ModelPoly ModelStr ModelGr Spec SpecPieri
  PolyFacts SuppFacts Enum FillFacts PartFacts ConjFacts PairFacts BetwFacts PieriSet PieriBKT CompsFacts CompsBound PieriA QPieriA WSum PieriCoef
  OpTheory Sys WArrow Word Transfer WordArrow WordPieri Extract CoefSys CommC RecBCD ApiPieriQ.
Import ListNotations.
Open Scope Z_scope.

(** the factor of the classes of degree more than [k] *)
Definition cB (k p : Z) : Qc := if p <=? k then 1%Qc else (/ two)%Qc.

Lemma coef_B_gen k n w v p c : 0 <= k <= n -> In w (wset k n) -> In v (wset k n) -> 0 <= p -> coef_OG k n p (wp 0 w) (wp 0 v) c ->
  c = (cB k p * co (wterm fB 1 0 (walk (Z.to_nat n) S0 w v)) (Z.to_nat p))%Qc.
Proof.
  intros Hk Hw Hv Hp H. destruct (wset_arrow k n Hk w v Hw Hv) as [H1 H2]. rewrite co_wterm.
  assert (HVv : kstrict_in k (n - k) (n + k) (wp 0 v)) by (apply (wset_V k n Hk); eauto).
  destruct H as [((_ & H3 & H4) & M & H5 & H6 & ->)|(H3 & ->)].
  - apply H1 in H4. destruct H4 as (g & x & b & E). rewrite E. destruct (H2 g x b E) as (Hb & Hg & HC).
    replace (0 + g =? Z.to_nat p)%nat with true by (symmetry; apply Nat.eqb_eq; lia).
    assert (EM : two_to M = (two ^ x * fB b)%Qc).
    { apply comps_any in H5. rewrite (component_count_unique _ _ _ _ H5 (HC false)). destruct Hb as [-> | ->]; cbn [fB].
      - rewrite Z.add_0_r, two_to_nat. ring.
      - replace (Z.of_nat x + 1) with (Z.of_nat (S x)) by lia. rewrite two_to_nat. cbn [Qcpower]. ring. }
    unfold cB. destruct (p <=? k); [rewrite Z.sub_0_r, EM; ring|]. rewrite two_to_pred by lia. rewrite EM. ring.
  - destruct (walk (Z.to_nat n) S0 w v) as [[[g x] b]|] eqn:E; [|ring]. destruct (H2 g x b eq_refl) as (Hb & Hg & HC).
    destruct (Nat.eqb_spec (0 + g) (Z.to_nat p)) as [Eg|]; [|ring]. exfalso. apply H3. split; auto. split; [lia|]. apply H1. eauto.
Qed.

(** ** words and rows *)
Definition full (w : word) : Prop := zlen (wp 0 w) = zlen w - cE w.
Lemma wp0_kstrict w : kstrict_in (cE w) (zlen w - cE w) (zlen w + cE w) (wp 0 w).
Proof. pose proof (wp_kstrict 0 (or_introl eq_refl) w (zlen_nonneg w)) as H. unfold Word.wn in H. rewrite Z.sub_0_r in H. exact H. Qed.
Lemma rows_le w : zlen (wp 0 w) <= zlen w - cE w.
Proof. destruct (wp0_kstrict w) as ((_ & H & _) & _). unfold zlen in *. lia. Qed.
Lemma full_E w : full (LE :: w).
Proof. unfold full. cbn [wp cE isE]. pose proof (cE_range w). rewrite zlen_map_zrange, zlen_cons by lia. lia. Qed.
Lemma wp_LR w : wp 0 (LR :: w) = zlen w + 1 + cE w :: wp 0 w.
Proof. cbn [wp]. cbv zeta. pose proof (cE_range w). destruct (Z.eqb_spec (zlen w + 1 - 0 + cE w) 0); [lia|]. f_equal. lia. Qed.
Lemma full_R w : full (LR :: w) <-> full w.
Proof. unfold full. rewrite wp_LR, !zlen_cons. cbn [cE isE]. lia. Qed.
Lemma full_L w : ~ full (LL :: w).
Proof. unfold full. cbn [wp cE isE]. rewrite zlen_cons. pose proof (rows_le w). lia. Qed.
Lemma full_S2 m : forall w v o, walk m S2 w v = Some o -> length w = m -> full w.
Proof.
  induction m as [|m IH]; intros w v o H Hl.
  - destruct w; [|discriminate]. reflexivity.
  - destruct w as [|x w]; [discriminate|]. destruct v as [|y v]; [discriminate|]. injection Hl as Hl. cbn [walk] in H.
    destruct x; [apply full_E| |destruct y; discriminate].
    destruct y; cbn [nxt] in H; try discriminate. destruct (walk m S2 w v) as [o'|] eqn:E; [|discriminate]. apply full_R. eapply IH; eauto.
Qed.
Lemma wp_Ls a v : wp 0 (repeat LL a ++ v) = wp 0 v.
Proof. induction a; auto. Qed.
Lemma cE_Ls a v : cE (repeat LL a ++ v) = cE v.
Proof. induction a; cbn [repeat app cE isE]; lia. Qed.
Lemma zlen_Ls a (v : word) : zlen (repeat LL a ++ v) = Z.of_nat a + zlen v.
Proof. unfold zlen. rewrite app_length, repeat_length. lia. Qed.
Lemma word_cases v : 1 <= cE v -> exists a B, v = repeat LL a ++ LE :: B \/ v = repeat LL a ++ LR :: B.
Proof.
  induction v as [|x v IH]; intros H; [cbn in H; lia|]. destruct x.
  - exists 0%nat, v. left. reflexivity.
  - exists 0%nat, v. right. reflexivity.
  - cbn [cE isE] in H. destruct (IH ltac:(lia)) as (a & B & [-> | ->]); exists (S a), B; [left|right]; reflexivity.
Qed.

Lemma map_cst {A} (c : Z) (l : list A) : map (fun _ => c) l = repeat c (length l).
Proof. induction l; cbn; congruence. Qed.
(** the shape with a first row and ones *)
Lemma row_and_ones k n a B : 1 <= k <= n -> In (repeat LL a ++ LE :: B) (wset k n) ->
  with_row_and_ones (2 * k) (n + 1 - k) (wp 0 (repeat LL a ++ LE :: B)) = wp 0 (LE :: repeat LL a ++ LR :: B) /\
  In (LE :: repeat LL a ++ LR :: B) (wset k (n + 1)).
Proof.
  intros Hk Hin. pose proof (wset_zlen k n ltac:(lia) _ Hin) as Hz. apply in_wset in Hin. destruct Hin as [Hl HE].
  rewrite zlen_Ls, zlen_cons in Hz. rewrite cE_Ls in HE. cbn [cE isE] in HE.
  pose proof (rows_le B) as HB. pose proof (cE_range B) as HcB. pose proof (zlen_nonneg B). pose proof (zlen_nonneg (wp 0 B)) as HnB.
  split.
  - rewrite wp_Ls. cbn [wp]. rewrite wp_Ls, cE_Ls, zlen_Ls, zlen_cons, wp_LR. cbn [cE isE].
    unfold with_row_and_ones.
    set (mu := map (fun j => part (wp 0 B) (Z.to_nat j) + 1) (zrange 0 (zlen B - cE B))).
    assert (Hmu : Z.of_nat (length mu) = zlen B - cE B) by (change (Z.of_nat (length mu)) with (zlen mu); unfold mu; apply zlen_map_zrange; lia).
    replace (Z.of_nat a + (zlen B + 1) - (0 + cE B)) with (Z.of_nat a + 1 + (zlen B - cE B)) by lia.
    rewrite (zrange_cons 0) by lia. cbn [map app]. f_equal; [change (part (zlen B + 1 + cE B :: wp 0 B) (Z.to_nat 0)) with (zlen B + 1 + cE B); lia|].
    replace (Z.of_nat a + 1 + (zlen B - cE B)) with (Z.of_nat a + (zlen B - cE B) + 1) by lia. rewrite zrange_shift, map_map.
    rewrite (map_ext_in _ (fun j => part (wp 0 B) (Z.to_nat j) + 1)).
    2:{ intros j Hj. apply in_zrange in Hj. replace (Z.to_nat (j + 1)) with (S (Z.to_nat j)) by lia. reflexivity. }
    rewrite (Schub.zrange_split 0 (zlen B - cE B)) by lia. rewrite map_app. fold mu. f_equal.
    replace (Z.to_nat (n + 1 - k) - 1 - length mu)%nat with a by lia.
    rewrite (map_ext_in _ (fun _ => 1)).
    2:{ intros j Hj. apply in_zrange in Hj. rewrite part_over_z by lia. lia. }
    rewrite map_cst, length_zrange. f_equal. lia.
  - apply in_wset. cbn [length cE isE]. rewrite app_length, repeat_length, cE_Ls in *. cbn [length cE isE] in *.
    replace (Z.to_nat (n + 1)) with (S (Z.to_nat n)) by lia. lia.
Qed.
Lemma row_and_ones_not k n a B : 1 <= k <= n -> In (repeat LL a ++ LR :: B) (wset k n) ->
  ~ kstrict_in k (n + 1 - k) (n + 1 + k) (with_row_and_ones (2 * k) (n + 1 - k) (wp 0 (repeat LL a ++ LR :: B))).
Proof.
  intros Hk Hin (_ & Hs). pose proof (wset_zlen k n ltac:(lia) _ Hin) as Hz. apply in_wset in Hin. destruct Hin as [Hl HE].
  rewrite zlen_Ls, zlen_cons in Hz. rewrite cE_Ls in HE. cbn [cE isE] in HE.
  pose proof (rows_le B) as HB. rewrite wp_Ls, wp_LR in Hs. specialize (Hs 0%nat). unfold with_row_and_ones, part in Hs. cbn [app nth] in Hs.
  cbn [length] in Hs. unfold zlen in *. lia.
Qed.

(** ** boundary tables: the first letters decide the power of q, the state and the degree *)
Definition bB (e : nat) (x y : letter) : option (st * nat) :=
  match e, x, y with
  | O, _, _ => match nxt S0 x y with Some a => Some (a, dg S0 x y) | None => None end
  | S O, LE, LL => Some (S1, 1%nat)
  | S O, LR, LE => Some (S2, 1%nat)
  | S O, LE, LE => Some (S3, 2%nat)
  | S (S O), LR, LL => Some (S3, 1%nat)
  | _, _, _ => None
  end.
Definition bB0 (e : nat) (x y : letter) : option (st * nat) :=
  match e, x, y with
  | O, _, _ => match nxt S0 x y with Some a => Some (a, dg S0 x y) | None => None end
  | S O, LR, LL => Some (S3, 1%nat)
  | _, _, _ => None
  end.
Definition kerT (tab : nat -> letter -> letter -> option (st * nat)) (m : nat) (e : nat) (w v : word) : mlist :=
  match w, v with
  | x :: w', y :: v' => match tab e x y with Some (a, sh) => wterm fB 1 sh (walk m a w' v') | None => [] end
  | _, _ => []
  end.

Lemma kerT_0 tab m w v : (forall x y, tab 0%nat x y = match nxt S0 x y with Some a => Some (a, dg S0 x y) | None => None end) ->
  length w = S m -> length v = S m -> forall p, co (kerT tab m 0 w v) p = co (wterm fB 1 0 (walk (S m) S0 w v)) p.
Proof.
  intros Ht Hw Hv p. destruct w as [|x w]; [discriminate|]. destruct v as [|y v]; [discriminate|]. cbn [kerT walk]. rewrite Ht.
  destruct (nxt S0 x y) as [a|] eqn:En; [|reflexivity]. rewrite !co_wterm. destruct (walk m a w v) as [[[g x0] b]|]; [|reflexivity].
  assert (ex S0 x y = 0%nat) by (destruct x, y; reflexivity). rewrite H. reflexivity.
Qed.

(** the q^1 term *)
Lemma walk_S1 m a B : forall w, (a < m)%nat -> walk m S0 w (repeat LL a ++ LR :: B) = walk m S1 w (repeat LL a ++ LE :: B).
Proof.
  revert m. induction a as [|a IH]; intros m w Hm; destruct m as [|m]; try lia; (destruct w as [|x w]; [reflexivity|]); cbn [repeat app walk].
  - destruct x; reflexivity.
  - destruct x; try reflexivity. cbn [nxt dg ex]. rewrite IH by lia. reflexivity.
Qed.
Lemma walk_S1_R m a B : forall w, (a < m)%nat -> walk m S1 w (repeat LL a ++ LR :: B) = None.
Proof.
  revert m. induction a as [|a IH]; intros m w Hm; destruct m as [|m]; try lia; (destruct w as [|x w]; [reflexivity|]); cbn [repeat app walk].
  - destruct x; reflexivity.
  - destruct x; try reflexivity. cbn [nxt dg ex]. rewrite IH by lia. reflexivity.
Qed.
Lemma kerT_1 m a B w : length w = S m -> (a <= m)%nat -> forall p,
  co (kerT bB m 1 w (repeat LL a ++ LE :: B)) p = co (wterm fB 1 0 (walk (S (S m)) S0 (LL :: w) (LE :: repeat LL a ++ LR :: B))) p.
Proof.
  intros Hw Ha p. destruct w as [|x w]; [discriminate|]. change (walk (S (S m)) S0 (LL :: x :: w) (LE :: repeat LL a ++ LR :: B))
    with (match walk (S m) S2 (x :: w) (repeat LL a ++ LR :: B) with Some (g, x0, b) => Some ((1 + g)%nat, (0 + x0)%nat, b) | None => None end).
  destruct a as [|a]; cbn [repeat app kerT bB walk].
  - destruct x; cbn [nxt dg ex]; rewrite ?co_wterm; try reflexivity;
      match goal with |- context [walk m ?s w B] => destruct (walk m s w B) as [[[g x0] b]|]; reflexivity end.
  - destruct x; cbn [nxt dg ex]; rewrite ?co_wterm; try reflexivity. rewrite walk_S1 by lia.
    destruct (walk m S1 w (repeat LL a ++ LE :: B)) as [[[g x0] b]|]; reflexivity.
Qed.
Lemma kerT_1_R m a B w : (a <= m)%nat -> forall p, co (kerT bB m 1 w (repeat LL a ++ LR :: B)) p = 0%Qc.
Proof.
  intros Ha p. destruct w as [|x w]; [reflexivity|]. destruct a as [|a]; cbn [repeat app kerT bB].
  - destruct x; reflexivity.
  - destruct x; try reflexivity. rewrite walk_S1_R by lia. reflexivity.
Qed.
Lemma kerT_1_full m w v p : length w = S m -> co (kerT bB m 1 w v) p <> 0%Qc -> full w.
Proof.
  intros Hw H. destruct w as [|x w]; [discriminate|]. injection Hw as Hw. destruct x.
  - apply full_E.
  - destruct v as [|y v]; [cbn in H; congruence|]. destruct y; cbn [kerT bB] in H; try (rewrite co_nil in H; congruence).
    apply full_R. rewrite co_wterm in H. destruct (walk m S2 w v) as [o|] eqn:E; [|congruence]. eapply full_S2; eauto.
  - destruct v as [|y v]; [cbn in H; congruence|]. destruct y; cbn in H; congruence.
Qed.

Lemma coef_B1 k n w v p c : 1 <= k <= n -> In w (wset k n) -> In v (wset k n) -> 0 <= p ->
  (if (Z.of_nat (length (wp 0 w)) =? n - k) && (Z.of_nat (length (wp 0 v)) <=? n - k)
   then coef_OG k (n + 1) p (wp 0 w) (with_row_and_ones (2 * k) (n + 1 - k) (wp 0 v)) c else c = 0%Qc) ->
  c = (cB k p * co (kerT bB (Nat.pred (Z.to_nat n)) 1 w v) (Z.to_nat p))%Qc.
Proof.
  intros Hk Hw Hv Hp H. set (m := Nat.pred (Z.to_nat n)) in *. assert (Em : Z.to_nat n = S m) by (unfold m; lia).
  pose proof (wset_zlen k n ltac:(lia) w Hw) as Zw. pose proof (wset_zlen k n ltac:(lia) v Hv) as Zv.
  pose proof (proj1 (in_wset k n w) Hw) as (Lw & Ew). pose proof (proj1 (in_wset k n v) Hv) as (Lv & Ev).
  pose proof (rows_le v) as Rv. pose proof (rows_le w) as Rw. unfold zlen in Rv, Rw.
  assert (Hf : full w <-> Z.of_nat (length (wp 0 w)) = n - k) by (unfold full, zlen in *; lia).
  destruct (Z.eqb_spec (Z.of_nat (length (wp 0 w))) (n - k)) as [Ef|Ef].
  2:{ cbn [andb] in H. subst c. destruct (Qc_eq_dec (co (kerT bB m 1 w v) (Z.to_nat p)) 0%Qc) as [E0|E0]; [rewrite E0; ring|]. exfalso. apply Ef, Hf. apply (kerT_1_full m w v (Z.to_nat p)); auto. lia. }
  replace (Z.of_nat (length (wp 0 v)) <=? n - k) with true in H by (unfold zlen in *; lia). cbn [andb] in H.
  destruct (word_cases v ltac:(lia)) as (a & B & Hc).
  assert (Ha : (a <= m)%nat) by (destruct Hc as [-> | ->]; rewrite app_length, repeat_length in Lv; cbn [length] in Lv; lia).
  destruct Hc as [-> | ->].
  - destruct (row_and_ones k n a B Hk Hv) as [Er Hz]. rewrite Er in H. change (wp 0 w) with (wp 0 (LL :: w)) in H.
    pose proof (wset_cons k n LL w ltac:(lia) Hw) as Hw'. cbn [isE] in Hw'. rewrite Z.add_0_r in Hw'.
    rewrite (coef_B_gen k (n + 1) _ _ p c ltac:(lia) Hw' Hz Hp H). f_equal.
    replace (Z.to_nat (n + 1)) with (S (S m)) by lia. symmetry. apply kerT_1; lia.
  - rewrite kerT_1_R by auto. pose proof (row_and_ones_not k n a B Hk Hv) as Hn.
    destruct H as [((H & _) & _)|(_ & ->)]; [contradiction|ring].
Qed.

(** the term with the first row removed *)
Lemma first_row k n w : 0 <= k <= n -> 1 <= n -> In w (wset k n) -> (part (wp 0 w) 0 = n + k <-> exists w', w = LR :: w').
Proof.
  intros Hk Hn Hw. pose proof (wset_zlen k n ltac:(lia) w Hw) as Zw. apply in_wset in Hw. destruct Hw as [Lw Ew].
  destruct w as [|x w]; [unfold zlen in Zw; cbn in Zw; lia|]. rewrite zlen_cons in Zw. destruct (wp0_kstrict w) as ((Hp & Hr & Hc) & _). pose proof (cE_range w). split.
  - intros E. destruct x; [exfalso|eauto|exfalso]; cbn [wp cE isE] in *.
    + destruct (Z.eq_dec (zlen w - cE w) 0) as [E0|E0].
      * rewrite E0, zrange_nil in E by lia. unfold part in E. cbn in E. lia.
      * rewrite (zrange_cons 0) in E by lia. cbn [map] in E. unfold part at 1 in E. cbn [nth] in E. change (Z.to_nat 0) with 0%nat in E. lia.
    + lia.
  - intros (w' & E). injection E as -> ->. rewrite wp_LR. unfold part. cbn [nth]. cbn [cE isE] in Ew. lia.
Qed.
Lemma coef_B2 k n w v p c : 0 <= k <= n -> 1 <= n -> In w (wset k n) -> In v (wset k n) -> 0 <= p ->
  (if part (wp 0 w) 0 =? n + k then coef_OG k n p (tl (wp 0 w)) (n + k :: wp 0 v) c else c = 0%Qc) ->
  c = (cB k p * co (match w, v with LR :: w', LL :: v' => wterm fB 1 1 (walk (Nat.pred (Z.to_nat n)) S3 w' v') | _, _ => [] end) (Z.to_nat p))%Qc.
Proof.
  intros Hk Hn Hw Hv Hp H. set (m := Nat.pred (Z.to_nat n)) in *. assert (Em : Z.to_nat n = S m) by (unfold m; lia).
  pose proof (first_row k n w Hk Hn Hw) as F.
  pose proof (wset_zlen k n ltac:(lia) w Hw) as Zw. pose proof (wset_zlen k n ltac:(lia) v Hv) as Zv.
  pose proof (proj1 (in_wset k n w) Hw) as (Lw & Ew). pose proof (proj1 (in_wset k n v) Hv) as (Lv & Ev).
  destruct w as [|x w]; [unfold zlen in Zw; cbn in Zw; lia|]. destruct v as [|y v]; [unfold zlen in Zv; cbn in Zv; lia|].
  rewrite zlen_cons in Zw, Zv.
  destruct (Z.eqb_spec (part (wp 0 (x :: w)) 0) (n + k)) as [E|E].
  2:{ subst c. destruct x; [rewrite co_nil; ring| |rewrite co_nil; ring]. exfalso. apply E, F. eauto. }
  destruct (proj1 F E) as (w' & E'). injection E' as -> ->. cbn [cE isE] in Ew.
  rewrite wp_LR in H. cbn [tl] in H.
  assert (Hw0 : In (LL :: w') (wset k n)) by (apply in_wset; cbn [length cE isE] in *; lia).
  destruct y.
  - rewrite co_nil. destruct H as [((((_ & H & _) & _) & _) & _)|(_ & ->)]; [|ring]. exfalso. cbn [length] in H. pose proof (full_E v) as Hf. unfold full in Hf. rewrite zlen_cons in Hf. unfold zlen in *. lia.
  - rewrite co_nil. destruct H as [(((_ & Hs) & _) & _)|(_ & ->)]; [|ring]. exfalso. specialize (Hs 0%nat). rewrite wp_LR in Hs. unfold part in Hs. cbn [nth] in Hs. cbn [cE isE] in Ev. lia.
  - assert (Hz : In (LR :: v) (wset k n)) by (apply in_wset; cbn [length cE isE] in *; lia).
    change (wp 0 (LL :: v)) with (wp 0 v) in H.
    assert (Er : n + k :: wp 0 v = wp 0 (LR :: v)) by (rewrite wp_LR; f_equal; cbn [cE isE] in Ev; lia). rewrite Er in H.
    change (wp 0 w') with (wp 0 (LL :: w')) in H. rewrite (coef_B_gen k n _ _ p c Hk Hw0 Hz Hp H). f_equal. rewrite Em.
    rewrite !co_wterm. cbn [walk nxt dg ex]. destruct (walk m S3 w' v) as [[[g x0] b]|]; reflexivity.
Qed.

(** ** the symmetry of the double sums *)
Definition letters3 : list letter := [LE; LR; LL].
Definition kk (tab : nat -> letter -> letter -> option (st * nat)) (D d : nat) (x z : letter) (s t : Qc) (G : st -> st -> Qc) : Qc :=
  qsum (fun e => qsum (fun y => match tab e x y with
     | Some (a, sh1) => if (e <=? d)%nat then match tab (d - e)%nat y z with Some (b, sh2) => s ^ sh1 * t ^ sh2 * G a b | None => 0 end else 0
     | None => 0 end)%Qc letters3) (seq 0 D).
Lemma kk_sum tab D m d x z w v s t :
  qsum (fun e => qsum (fun u => ev (kerT tab m e (x :: w) u) s * (if (e <=? d)%nat then ev (kerT tab m (d - e)%nat u (z :: v)) t else 0))%Qc (allw (S m))) (seq 0 D) =
  kk tab D d x z s t (FF fB (Z.of_nat m) s t w v).
Proof.
  unfold kk. apply qsum_ext. intros e _.
  replace (qsum _ (allw (S m))) with (qsum (fun y => qsum (fun u => ev (kerT tab m e (x :: w) (y :: u)) s * (if (e <=? d)%nat then ev (kerT tab m (d - e)%nat (y :: u) (z :: v)) t else 0))%Qc (allw m)) letters3).
  - apply qsum_ext. intros y _. cbn [kerT]. destruct (tab e x y) as [[a sh1]|].
    + destruct (e <=? d)%nat; [|apply qsum_zero; intros; ring]. destruct (tab (d - e)%nat y z) as [[b sh2]|]; [|apply qsum_zero; intros; rewrite ev_nil; ring].
      pose proof (qsum_FF fB (Z.of_nat m) s t 1 sh1 1 sh2 w v a b) as Q. rewrite Nat2Z.id in Q. etransitivity; [exact Q|ring].
    + apply qsum_zero. intros. rewrite ev_nil. ring.
  - cbn [allw]. unfold letters3. rewrite !qsum_cons, qsum_nil. 
    rewrite ?qsum_app, ?qsum_map. ring.
Qed.
Lemma kk_ext tab D d x z s t G H : (forall a b, G a b = H a b) -> kk tab D d x z s t G = kk tab D d x z s t H.
Proof.
  intros E. unfold kk. apply qsum_ext. intros e _. apply qsum_ext. intros y _. destruct (tab e x y) as [[a sh1]|]; auto.
  destruct (e <=? d)%nat; auto. destruct (tab (d - e)%nat y z) as [[b sh2]|]; auto. rewrite E. reflexivity.
Qed.
Definition bcl (e : nat) (x y : letter) : option (st * nat) :=
  match e with O => match nxt S0 x y with Some a => Some (a, dg S0 x y) | None => None end | _ => None end.

Lemma kk_sym_cl d x z s t H : s <> 0%Qc -> t <> 0%Qc -> (s + t <> 0)%Qc -> kk bcl 3 d x z s t (Rop s t H) = kk bcl 3 d x z t s H.
Proof.
  intros Hs Ht Hst. assert (Hts : (t + s <> 0)%Qc) by (rewrite Qcplus_comm; auto).
  destruct d as [|d].
  - unfold kk, letters3. cbn [seq]. rewrite !qsum_cons, !qsum_nil. cbn [Nat.leb Nat.sub].
    destruct x, z; cbn [bcl nxt dg]; unfold Rop, two; cbn [Qcpower]; try ring; field; nz.
  - unfold kk, letters3. cbn [seq]. rewrite !qsum_cons, !qsum_nil. cbn [Nat.leb Nat.sub]. destruct x, z; cbn [bcl nxt]; ring.
Qed.
Lemma kk_sym_B0 d x z s t H : x <> LE -> z <> LE -> s <> 0%Qc -> t <> 0%Qc -> (s + t <> 0)%Qc -> kk bB0 3 d x z s t (Rop s t H) = kk bB0 3 d x z t s H.
Proof.
  intros Hx Hz Hs Ht Hst. assert (Hts : (t + s <> 0)%Qc) by (rewrite Qcplus_comm; auto).
  destruct d as [|[|[|d]]]; unfold kk, letters3; cbn [seq]; rewrite !qsum_cons, !qsum_nil; cbn [Nat.leb Nat.sub];
    destruct x, z; try congruence; cbn [bB0 nxt dg]; unfold Rop, two; cbn [Qcpower]; try ring; field; nz.
Qed.
Lemma kk_sym_B d x z s t H : s <> 0%Qc -> t <> 0%Qc -> (s + t <> 0)%Qc -> kk bB 3 d x z s t (Rop s t H) = kk bB 3 d x z t s H.
Proof.
  intros Hs Ht Hst. assert (Hts : (t + s <> 0)%Qc) by (rewrite Qcplus_comm; auto).
  destruct d as [|[|[|[|[|d]]]]]; unfold kk, letters3; cbn [seq]; rewrite !qsum_cons, !qsum_nil; cbn [Nat.leb Nat.sub];
    destruct x, z; cbn [bB nxt dg]; unfold Rop, two; cbn [Qcpower]; try ring; field; nz.
Qed.

Definition tabB (qq : bool) (k : Z) : nat -> letter -> letter -> option (st * nat) := if qq then (if k =? 0 then bB0 else bB) else bcl.
Definition kerB (qq : bool) (k n : Z) : nat -> word -> word -> mlist := kerT (tabB qq k) (Nat.pred (Z.to_nat n)).
Lemma tabB_0 qq k x y : tabB qq k 0 x y = match nxt S0 x y with Some a => Some (a, dg S0 x y) | None => None end.
Proof. unfold tabB. destruct qq; [destruct (k =? 0)|]; reflexivity. Qed.
Lemma tabB_charge qq k e x y a sh : tabB qq k e x y = Some (a, sh) -> chE a = isE y - isE x.
Proof.
  unfold tabB. destruct qq; [destruct (k =? 0)|]; (destruct e as [|[|[|e]]]; destruct x, y; cbn; intros E; try discriminate; injection E as <- <-; reflexivity).
Qed.
Lemma off_B qq k n w u e p : 0 < n -> In w (wset k n) -> In u (allw (Z.to_nat n)) -> ~ In u (wset k n) -> co (kerB qq k n e w u) p = 0%Qc.
Proof.
  intros Hn Hw Hu Hnu. unfold kerB, kerT. destruct w as [|x w]; [reflexivity|]. destruct u as [|y u]; [reflexivity|].
  destruct (tabB qq k e x y) as [[a sh]|] eqn:Et; [|reflexivity]. apply tabB_charge in Et.
  apply in_wset in Hw. apply in_allw in Hu. rewrite in_wset in Hnu. destruct Hw as [Lw Ew]. cbn [length] in Lw, Hu.
  rewrite co_wterm. destruct (walk _ a w u) as [[[g x0] b]|] eqn:E; [|reflexivity]. apply walk_charge in E; try lia.
  assert (cE (y :: u) <> k) by (intros E'; apply Hnu; auto). cbn [cE] in *.
  assert (Hb : chE b <> 0) by lia. destruct b; cbn [chE] in Hb; try congruence; cbn [fB]; destruct (sh + g =? p)%nat; ring.
Qed.
Lemma sym_B qq k n w v d s t : 0 < n -> 0 <= k -> In w (wset k n) -> In v (wset k n) -> s <> 0%Qc -> t <> 0%Qc -> (s + t <> 0)%Qc ->
  qsum (fun e => qsum (fun u => ev (kerB qq k n e w u) s * (if (e <=? d)%nat then ev (kerB qq k n (d - e)%nat u v) t else 0))%Qc (allw (Z.to_nat n))) (seq 0 3) =
  qsum (fun e => qsum (fun u => ev (kerB qq k n e w u) t * (if (e <=? d)%nat then ev (kerB qq k n (d - e)%nat u v) s else 0))%Qc (allw (Z.to_nat n))) (seq 0 3).
Proof.
  intros Hn Hk Hw Hv Hs Ht Hst. apply in_wset in Hw, Hv. unfold kerB. set (m := Nat.pred (Z.to_nat n)). replace (Z.to_nat n) with (S m) in * by (unfold m; lia).
  destruct w as [|x w]; [destruct Hw; discriminate|]. destruct v as [|z v]; [destruct Hv; discriminate|]. destruct Hw as [Lw Ew], Hv as [Lv Ev]. injection Lw as Lw. injection Lv as Lv.
  rewrite !kk_sum. rewrite (kk_ext _ _ _ _ _ _ _ (FF fB (Z.of_nat m) s t w v) (Rop s t (FF fB (Z.of_nat m) t s w v))).
  2:{ intros. apply FF_swap; try rewrite Nat2Z.id; auto. apply hfin_B. }
  unfold tabB. destruct qq; [|apply kk_sym_cl; auto]. destruct (Z.eqb_spec k 0) as [E|E]; [|apply kk_sym_B; auto].
  pose proof (cE_range w). pose proof (cE_range v). cbn [cE] in Ew, Ev. apply kk_sym_B0; auto; intros ->; cbn [isE] in *; lia.
Qed.

Definition gB (k n : Z) : gr := mkGr TB k n.
Definition piB (k n : Z) (qq : bool) : Z -> list Z -> res poly := if qq then qpieri_fun (gB k n) else pieri_fun (gB k n).
Lemma kstrict_ones k n mu : 1 <= k <= n -> Z.of_nat (length mu) <= n - k ->
  kstrict_in k (n + 1 - k) (n + 1 + k) (with_row_and_ones (2 * k) (n + 1 - k) mu) -> kstrict_in k (n - k) (n + k) mu.
Proof.
  intros Hk Hlen (((H1 & H2) & H3 & H4) & H5). unfold with_row_and_ones in *. set (o := repeat 1 _) in *. cbn [app] in *.
  assert (HP : forall j, (j < length mu)%nat -> part (2 * k + Z.of_nat (length mu) :: mu ++ o) (S j) = part mu j).
  { intros j Hj. unfold part. cbn [nth]. rewrite app_nth1 by lia. reflexivity. }
  assert (HZ : forall j, (length mu <= j)%nat -> part mu j = 0) by (intros; unfold part; apply nth_overflow; lia).
  assert (HPos : forall j, (j < length mu)%nat -> 0 < part mu j).
  { intros j Hj. rewrite <- HP by lia. apply H1. cbn [length]. rewrite app_length. lia. }
  split; [split; [split|split]|].
  - exact HPos.
  - intros j. destruct (Nat.lt_ge_cases (S j) (length mu)) as [Hj|Hj]; [rewrite <- !HP by lia; apply H2|]. rewrite (HZ (S j)) by lia.
    destruct (Nat.lt_ge_cases j (length mu)) as [Hj'|Hj']; [specialize (HPos j Hj'); lia|rewrite HZ by lia; lia].
  - lia.
  - destruct (Nat.lt_ge_cases 0 (length mu)) as [Hj|Hj]; [|rewrite HZ by lia; lia]. rewrite <- HP by lia. specialize (H5 0%nat).
    change (part (2 * k + Z.of_nat (length mu) :: mu ++ o) 0) with (2 * k + Z.of_nat (length mu)) in H5. specialize (H5 ltac:(lia)). lia.
  - intros j Hj. destruct (Nat.lt_ge_cases (S j) (length mu)) as [Hj'|Hj']; [rewrite <- !HP by lia; apply H5; rewrite HP by lia; auto|]. rewrite (HZ (S j)) by lia.
    lia.
Qed.

Definition okB (qq : bool) (k n : Z) : Prop := 0 <= k <= n /\ 1 <= n /\ (qq = true -> 1 <= n - k).
Lemma piB_coefs k n qq p lam : okB qq k n -> kstrict_in k (n - k) (n + k) lam ->
  exists r W, piB k n qq p lam = Ok r /\ qcoefs r W /\
    (forall mu, coef_OG k n p lam mu (W 0%nat mu)) /\
    (forall mu, if qq then (if k =? 0 then
        (if part lam 0 =? n + k then coef_OG k n p (tl lam) (n + k :: mu) (W 1%nat mu) else W 1%nat mu = 0%Qc) /\ W 2%nat mu = 0%Qc
      else
        (if (Z.of_nat (length lam) =? n - k) && (Z.of_nat (length mu) <=? n - k)
              then coef_OG k (n + 1) p lam (with_row_and_ones (2 * k) (n + 1 - k) mu) (W 1%nat mu) else W 1%nat mu = 0%Qc) /\
        (if part lam 0 =? n + k then coef_OG k n p (tl lam) (n + k :: mu) (W 2%nat mu) else W 2%nat mu = 0%Qc))
      else W 1%nat mu = 0%Qc /\ W 2%nat mu = 0%Qc) /\
    (forall d mu, (3 <= d)%nat -> W d mu = 0%Qc).
Proof.
  intros (Hk & Hn & Hq) Hl. destruct qq; cbn [piB].
  - destruct (Z.eqb_spec k 0) as [->|E].
    + rewrite ?Z.add_0_r in *. rewrite ?Z.sub_0_r in *. destruct (qpieriB0_coefs n lam p Hn Hl) as (r & W & H1 & H2 & H3 & H4 & H5). exists r, W.
      split; [exact H1|]. split; auto. split; auto. split; [|intros; apply H5; lia]. intros mu. split; [apply H4|apply H5; lia].
    + destruct (qpieriB_coefs k n lam p ltac:(lia) Hl (Hq eq_refl)) as (r & W & H1 & H2 & H3 & H4 & H5 & H6). exists r, W. split; [exact H1|]. split; auto. split; auto. split; [intros mu; split; [apply H4|apply H5]|exact H6].
  - destruct (pieriB_lincl k n lam p Hk Hl) as (r & W & H1 & H2 & H3). exists r, (fun d l => match d with O => W l | _ => 0%Qc end).
    split; auto. split; [apply lincl_qcoefs; auto|]. split; auto. split; auto. intros [|d] mu Hd; [lia|auto].
Qed.
Lemma piB_supp k n qq p lam W : okB qq k n ->
    (forall mu, coef_OG k n p lam mu (W 0%nat mu)) ->
    (forall mu, if qq then (if k =? 0 then
        (if part lam 0 =? n + k then coef_OG k n p (tl lam) (n + k :: mu) (W 1%nat mu) else W 1%nat mu = 0%Qc) /\ W 2%nat mu = 0%Qc
      else
        (if (Z.of_nat (length lam) =? n - k) && (Z.of_nat (length mu) <=? n - k)
              then coef_OG k (n + 1) p lam (with_row_and_ones (2 * k) (n + 1 - k) mu) (W 1%nat mu) else W 1%nat mu = 0%Qc) /\
        (if part lam 0 =? n + k then coef_OG k n p (tl lam) (n + k :: mu) (W 2%nat mu) else W 2%nat mu = 0%Qc))
      else W 1%nat mu = 0%Qc /\ W 2%nat mu = 0%Qc) ->
    (forall d mu, (3 <= d)%nat -> W d mu = 0%Qc) ->
  forall d mu, W d mu <> 0%Qc -> (d < 3)%nat /\ kstrict_in k (n - k) (n + k) mu /\
    ((d = 0%nat /\ pieri_term k n p lam mu) \/ (qq = true /\ size mu + (n + k) <= Z.max (size lam) (size (tl lam)) + p)).
Proof.
  intros (Hk & Hn & Hq) H0 H1 H2 d mu Hne.
  assert (G2 : forall c, (if part lam 0 =? n + k then coef_OG k n p (tl lam) (n + k :: mu) c else c = 0%Qc) -> c <> 0%Qc ->
     kstrict_in k (n - k) (n + k) mu /\ size mu + (n + k) = size (tl lam) + p).
  { intros c Hc Hc0. destruct (part lam 0 =? n + k); [|congruence]. apply coef_OG_supp in Hc; auto. destruct Hc as (A1 & A2 & _). split; [apply (kstrict_tl _ _ _ _ A1)|].
    change (size (n + k :: mu)) with (n + k + size mu) in A2. lia. }
  specialize (H1 mu). destruct d as [|[|[|d]]].
  - pose proof (coef_OG_supp _ _ _ _ _ _ (H0 mu) Hne) as HP. split; [lia|]. split; [apply HP|auto].
  - split; [lia|]. destruct qq; [|destruct H1; congruence]. destruct (Z.eqb_spec k 0) as [E|E].
    + destruct H1 as [H1 _]. destruct (G2 _ H1 Hne). split; auto. right. split; auto. lia.
    + destruct H1 as [H1 _]. destruct (Z.leb_spec (Z.of_nat (length mu)) (n - k)) as [Hl|Hl]; [|rewrite andb_false_r in H1; congruence].
      destruct (Z.of_nat (length lam) =? n - k); [|cbn in H1; congruence]. cbn [andb] in H1. apply coef_OG_supp in H1; auto. destruct H1 as (A1 & A2 & _).
      split; [apply kstrict_ones; auto; lia|]. right. split; auto. rewrite size_with_row in A2 by lia. lia.
  - split; [lia|]. destruct qq; [|destruct H1; congruence]. destruct (Z.eqb_spec k 0) as [E|E].
    + destruct H1 as [_ H1]. congruence.
    + destruct H1 as [_ H1]. destruct (G2 _ H1 Hne). split; auto. right. split; auto. lia.
  - exfalso. apply Hne, H2. lia.
Qed.
Lemma piB_wcoefs k n qq p w : okB qq k n -> In w (wset k n) -> 0 <= p ->
  wcoefs (wp 0) (wset k n) 3 (P (piB k n qq) p (wp 0 w)) (fun d v => cB k p * co (kerB qq k n d w v) (Z.to_nat p))%Qc.
Proof.
  intros Hok Hw Hp. destruct Hok as (Hk & Hn & Hq) eqn:Eok. clear Eok. assert (HV : kstrict_in k (n - k) (n + k) (wp 0 w)) by (apply wset_V; eauto).
  destruct (piB_coefs k n qq p _ Hok HV) as (r & W & E & (Hc & Hm) & H0 & H1 & H2). unfold P. rewrite E. split.
  - intros d v Hv. rewrite Hc. specialize (H1 (wp 0 v)). set (m := Nat.pred (Z.to_nat n)). assert (Em : Z.to_nat n = S m) by (unfold m; lia).
    assert (Z0 : forall c, c = 0%Qc -> c = (cB k p * 0)%Qc) by (intros c ->; ring).
    destruct d as [|[|[|d]]].
    + rewrite (coef_B_gen k n w v p _ Hk Hw Hv Hp (H0 (wp 0 v))). f_equal. unfold kerB. fold m. rewrite Em. symmetry. apply kerT_0; [apply tabB_0| |]; apply in_wset in Hw, Hv; lia.
    + unfold kerB, tabB. fold m. destruct qq; [destruct (Z.eqb_spec k 0) as [Ek|Ek]|].
      * destruct H1 as [H1 _]. rewrite (coef_B2 k n w v p _ Hk Hn Hw Hv Hp H1). f_equal. fold m. destruct w as [|[| |] w], v as [|[| |] v]; reflexivity.
      * destruct H1 as [H1 _]. apply (coef_B1 k n w v p); auto. lia.
      * destruct H1 as [H1 _]. rewrite H1. destruct w as [|[| |] w], v as [|[| |] v]; cbn [kerT bcl]; rewrite co_nil; ring.
    + unfold kerB, tabB. fold m. destruct qq; [destruct (Z.eqb_spec k 0) as [Ek|Ek]|].
      * destruct H1 as [_ H1]. rewrite H1. destruct w as [|[| |] w], v as [|[| |] v]; cbn [kerT bB0]; rewrite co_nil; ring.
      * destruct H1 as [_ H1]. rewrite (coef_B2 k n w v p _ Hk Hn Hw Hv Hp H1). f_equal. fold m. destruct w as [|[| |] w], v as [|[| |] v]; reflexivity.
      * destruct H1 as [_ H1]. rewrite H1. destruct w as [|[| |] w], v as [|[| |] v]; cbn [kerT bcl]; rewrite co_nil; ring.
    + rewrite H2 by lia. unfold kerB, tabB. destruct qq; [destruct (Z.eqb_spec k 0) as [Ek|Ek]|]; destruct w as [|[| |] w], v as [|[| |] v]; cbn [kerT bcl bB bB0]; rewrite co_nil; ring.
  - intros m Hne. destruct (Hm m Hne) as (d & mu & HP).
    assert (Hne' : W d mu <> 0%Qc) by (rewrite <- Hc, <- (coef_perm r _ _ HP); auto).
    destruct (piB_supp k n qq p _ W Hok H0 H1 H2 d mu Hne') as (Hd & HVm & _).
    apply (wset_V k n Hk) in HVm. destruct HVm as (v & Hv & <-). exists d, v. auto.
Qed.
Lemma comm_B k n qq i j l : okB qq k n -> kstrict_in k (n - k) (n + k) l -> 0 <= i -> 0 <= j ->
  peq (ext (piB k n qq) j (P (piB k n qq) i l)) (ext (piB k n qq) i (P (piB k n qq) j l)).
Proof.
  intros Hok Hl Hi Hj. pose proof Hok as (Hk & Hn & _). apply (wset_V k n Hk) in Hl. destruct Hl as (w & Hw & <-).
  apply (comm_enc (wp 0) (wset k n) (wset_nodup k n) (wset_inj k n Hk) 3 (piB k n qq) i j
     (fun w d v => cB k i * co (kerB qq k n d w v) (Z.to_nat i))%Qc (fun w d v => cB k j * co (kerB qq k n d w v) (Z.to_nat j))%Qc); auto.
  - intros u Hu. apply piB_wcoefs; auto.
  - intros u Hu. apply piB_wcoefs; auto.
  - intros d v Hv.
    pose proof (sym_ker k n 3 (kerB qq k n) w v d Hw) as G.
    assert (G1 := G (fun e u p Hu Hnu => off_B qq k n w u e p ltac:(lia) Hw Hu Hnu)). clear G.
    assert (G2 := G1 (fun s t Hs Ht => sym_B qq k n w v d (zq s) (zq t) ltac:(lia) ltac:(lia) Hw Hv (zq_pos s Hs) (zq_pos t Ht) (zq_pos2 s t Hs Ht)) (Z.to_nat i) (Z.to_nat j)). clear G1.
    apply (f_equal (fun q => cB k i * cB k j * q)%Qc) in G2. rewrite <- !qsum_mul in G2.
    etransitivity; [etransitivity; [|exact G2]|]; apply qsum_ext; intros x _; destruct (fst x <=? d)%nat; ring.
Qed.
