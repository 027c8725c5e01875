(** The Pieri operators of IG(n-k,2n), classical and quantum, commute. *)

From Coq Require Import ZArith List Lia Bool Permutation QArith Qcanon.
From Verif Require Import Py OrderFacts PyFacts ModelPart ModelQcalc ModelPoly ModelStr ModelGr Spec SpecPieri
  PolyFacts SuppFacts Enum FillFacts PartFacts ConjFacts PairFacts BetwFacts PieriSet PieriBKT CompsFacts CompsBound PieriA QPieriA WSum PieriCoef
  OpTheory Sys WArrow Word Transfer WordArrow WordPieri Extract CoefSys.
Import ListNotations.
Open Scope Z_scope.

Lemma zq_mul a b : zq (a * b) = (zq a * zq b)%Qc.
Proof. unfold zq. apply Qc_is_canon. cbn [this Q2Qc Qcmult]. rewrite !Qred_correct. rewrite inject_Z_mult. reflexivity. Qed.
Lemma two_to_nat x : two_to (Z.of_nat x) = (two ^ x)%Qc.
Proof.
  induction x as [|x IH]; [reflexivity|]. change (two_to (Z.of_nat (S x))) with (zq (2 ^ Z.of_nat (S x))).
  rewrite Nat2Z.inj_succ, Z.pow_succ_r, zq_mul by lia. change (zq (2 ^ Z.of_nat x)) with (two_to (Z.of_nat x)). rewrite IH. reflexivity.
Qed.
Lemma two_to_pred N : 1 <= N -> two_to (N - 1) = (two_to N * / two)%Qc.
Proof.
  intros H. replace N with (1 + (N - 1)) at 2 by lia. change (two_to (1 + (N - 1))) with (zq (2 ^ (1 + (N - 1)))).
  rewrite Z.pow_add_r, zq_mul by lia. change (zq (2 ^ (N - 1))) with (two_to (N - 1)). change (zq (2 ^ 1)) with two.
  field. discriminate.
Qed.
Lemma zq_pos z : 0 < z -> zq z <> 0%Qc.
Proof. intros H E. change 0%Qc with (zq 0) in E. apply zq_inj in E. lia. Qed.
Lemma zq_pos2 a b : 0 < a -> 0 < b -> (zq a + zq b)%Qc <> 0%Qc.
Proof. intros Ha Hb. rewrite <- zq_add. apply zq_pos. lia. Qed.

Section BC.
Variables (k n : Z).
Hypothesis Hk : 0 <= k <= n.
Let N := Z.to_nat n.
Notation wp := (wp 0).
Notation V := (kstrict_in k (n - k) (n + k)).

Definition wset : list word := filter (fun w => cE w =? k) (allw N).
Lemma in_wset w : In w wset <-> length w = N /\ cE w = k.
Proof. unfold wset. rewrite filter_In, in_allw, Z.eqb_eq. reflexivity. Qed.
Lemma wset_nodup : NoDup wset.
Proof. apply NoDup_filter, allw_nodup. Qed.
Lemma wset_zlen w : In w wset -> zlen w = n.
Proof. intros H. apply in_wset in H. unfold zlen. unfold N in H. lia. Qed.
Lemma wset_inj w v : In w wset -> In v wset -> wp w = wp v -> w = v.
Proof.
  intros Hw Hv E. pose proof (wset_zlen w Hw). apply in_wset in Hw, Hv.
  assert (G : firstn N w = firstn N v).
  { apply (wp_inj 0 (or_introl eq_refl) N); auto; try lia; try (destruct Hw, Hv; congruence). unfold Word.wn, N. lia. }
  rewrite <- (firstn_all w), <- (firstn_all v). destruct Hw as [-> _]. destruct Hv as [-> _]. exact G.
Qed.
Lemma wset_V l : V l <-> exists w, In w wset /\ wp w = l.
Proof.
  split.
  - intros H. destruct (word_exists 0 (or_introl eq_refl) n ltac:(lia) k l ltac:(lia) Hk) as (w & H1 & H2 & H3); [rewrite Z.sub_0_r; exact H|].
    exists w. split; auto. apply in_wset. unfold zlen in H1. unfold N. split; auto; lia.
  - intros (w & Hw & <-). pose proof (wset_zlen w Hw) as Hz. apply in_wset in Hw. destruct Hw as [_ HE].
    pose proof (wp_kstrict 0 (or_introl eq_refl) w ltac:(lia)) as H. unfold Word.wn in H. rewrite HE, Hz, Z.sub_0_r in H. exact H.
Qed.

(** the terms of a walk *)
Definition wterm (f : st -> Qc) (c : Qc) (sh : nat) (o : option (nat * nat * st)) : mlist :=
  match o with Some (g, x, b) => [((sh + g)%nat, (c * (two ^ x * f b))%Qc)] | None => [] end.

Definition fC (b : st) : Qc := match b with S0 | S3 => 1%Qc | _ => 0%Qc end.
Definition fB (b : st) : Qc := match b with S0 => 1%Qc | S3 => two | _ => 0%Qc end.
Definition finf (f : st -> Qc) (t : Qc) (b : st) (w v : word) : Qc := f b.

Lemma ev_wterm f c sh t a w v : ev (wterm f c sh (walk N a w v)) t = (c * t ^ sh * run (finf f) t N a w v)%Qc.
Proof.
  rewrite run_walk. unfold wterm, finf, ev. destruct (walk N a w v) as [[[g x] b]|].
  - rewrite qsum_cons, qsum_nil. cbn [fst snd]. rewrite Qcpower_add. ring.
  - rewrite qsum_nil. ring.
Qed.
Lemma co_wterm f c sh o p : co (wterm f c sh o) p = match o with Some (g, x, b) => if (sh + g =? p)%nat then (c * (two ^ x * f b))%Qc else 0%Qc | None => 0%Qc end.
Proof.
  unfold wterm, co. destruct o as [[[g x] b]|]; [|reflexivity]. rewrite qsum_cons, qsum_nil. cbn [fst snd]. destruct (sh + g =? p)%nat; ring.
Qed.

(** the walk of two words of the set *)
Lemma wset_arrow w v : In w wset -> In v wset ->
  (pieri_arrow k 0 (wp w) (wp v) <-> exists g x b, walk N S0 w v = Some (g, x, b)) /\
  (forall g x b, walk N S0 w v = Some (g, x, b) ->
    (b = S0 \/ b = S3) /\ size (wp v) = size (wp w) + Z.of_nat g /\
    forall skip, component_count (free_box k 0 (wp w) (wp v)) (fun x => skip = true -> snd x <> k + 1)
      (Z.of_nat x + match b with S3 => if skip then 0 else 1 | _ => 0 end)).
Proof.
  intros Hw Hv. pose proof (wset_zlen w Hw) as Hz. apply in_wset in Hw, Hv. destruct Hw as [Hw1 Hw2]. destruct Hv as [Hv1 Hv2].
  destruct (word_arrow 0 (or_introl eq_refl) N w v) as [H1 H2]; try congruence; try lia.
  { unfold Word.wn, N. lia. }
  rewrite Hw2 in *. split; auto. intros g x b Hwk. destruct (H2 g x b Hwk) as (H3 & H4 & H5).
  rewrite !skipn_all2 in H3, H4 by lia. cbn [cE] in H3.
  assert (Hb : b = S0 \/ b = S3) by (destruct b; auto; cbn [chE] in H3; lia). split; auto. split; [|exact H5].
  destruct Hb as [-> | ->]; cbn [corr] in H4; unfold Word.wn in H4; change (zlen (@nil letter)) with 0 in H4; cbn [cE] in H4; lia.
Qed.

Lemma coef_C0 w v p c : In w wset -> In v wset -> 0 <= p -> coef_IG k n p 0 (wp w) (wp v) c ->
  c = co (wterm fC 1 0 (walk N S0 w v)) (Z.to_nat p).
Proof.
  intros Hw Hv Hp H. destruct (wset_arrow w v Hw Hv) as [H1 H2]. rewrite co_wterm.
  assert (HVv : V (wp v)) by (apply wset_V; eauto).
  destruct H as [((_ & H3 & H4) & M & H5 & H6 & ->)|(H3 & ->)].
  - apply H1 in H4. destruct H4 as (g & x & b & E). rewrite E. destruct (H2 g x b E) as (Hb & Hg & HC).
    replace (0 + g =? Z.to_nat p)%nat with true by (symmetry; apply Nat.eqb_eq; lia).
    assert (EM : M = Z.of_nat x).
    { apply comps_col in H5. pose proof (component_count_unique _ _ _ _ H5 (HC true)) as EE. destruct b; lia. }
    rewrite EM, Z.sub_0_r, two_to_nat. destruct Hb as [-> | ->]; unfold fC; ring.
  - destruct (walk N S0 w v) as [[[g x] b]|] eqn:E; [|reflexivity]. destruct (H2 g x b eq_refl) as (Hb & Hg & HC).
    destruct (Nat.eqb_spec (0 + g) (Z.to_nat p)) as [Eg|]; [|reflexivity]. exfalso. apply H3. split; auto. split; [lia|]. apply H1. eauto.
Qed.
End BC.

Lemma wset_cons k n x w : 0 <= n -> In w (wset k n) -> In (x :: w) (wset (k + isE x) (n + 1)).
Proof.
  intros Hn H. apply in_wset in H. apply in_wset. cbn [length cE]. replace (Z.to_nat (n + 1)) with (S (Z.to_nat n)) by lia. lia.
Qed.
Lemma wset_uncons k n x w : 0 <= n -> In (x :: w) (wset k (n + 1)) -> In w (wset (k - isE x) n).
Proof.
  intros Hn H. apply in_wset in H. apply in_wset. cbn [length cE] in H. replace (Z.to_nat (n + 1)) with (S (Z.to_nat n)) in H by lia. lia.
Qed.
Lemma wp_R k n w : 0 <= k <= n -> In w (wset k n) -> wp 0 (LR :: w) = (n + k + 1) :: wp 0 w.
Proof.
  intros Hk H. pose proof (wset_zlen k n Hk w H) as Hz. apply in_wset in H. cbn [wp]. cbv zeta. rewrite Hz. destruct H as [_ ->].
  destruct (Z.eqb_spec (n + 1 - 0 + k) 0); [lia|]. f_equal. lia.
Qed.

Lemma coef_C1 k n w v p c : 0 <= k <= n -> In w (wset k n) -> In v (wset k n) -> 0 <= p ->
  coef_IG k (n + 1) p 1 (wp 0 w) (n + k + 1 :: wp 0 v) c ->
  c = co (wterm fC (/ two) 1 (walk (Z.to_nat n) S3 w v)) (Z.to_nat p).
Proof.
  intros Hk Hw Hv Hp H. rewrite <- (wp_R k n v Hk Hv) in H. change (wp 0 w) with (wp 0 (LL :: w)) in H.
  pose proof (wset_cons k n LL w ltac:(lia) Hw) as Hw'. pose proof (wset_cons k n LR v ltac:(lia) Hv) as Hv'.
  cbn [isE] in Hw', Hv'. rewrite Z.add_0_r in Hw', Hv'.
  destruct (wset_arrow k (n + 1) ltac:(lia) _ _ Hw' Hv') as [H1 H2]. rewrite co_wterm.
  assert (HVv : kstrict_in k (n + 1 - k) (n + 1 + k) (wp 0 (LR :: v))) by (apply wset_V; [lia|]; eauto).
  replace (Z.to_nat (n + 1)) with (S (Z.to_nat n)) in H1, H2 by lia. cbn [walk nxt dg ex] in H1, H2.
  destruct H as [((_ & H3 & H4) & M & H5 & H6 & ->)|(H3 & ->)].
  - apply H1 in H4. destruct H4 as (g' & x' & b' & E'). destruct (walk (Z.to_nat n) S3 w v) as [[[g x] b]|] eqn:E; [|discriminate].
    destruct (H2 _ _ _ eq_refl) as (Hb & Hg & HC).
    replace (1 + g =? Z.to_nat p)%nat with true by (symmetry; apply Nat.eqb_eq; lia).
    assert (EM : M = Z.of_nat x).
    { apply comps_col in H5. pose proof (component_count_unique _ _ _ _ H5 (HC true)) as EE. destruct b; lia. }
    rewrite two_to_pred by lia. rewrite EM, two_to_nat. destruct Hb as [-> | ->]; unfold fC; ring.
  - destruct (walk (Z.to_nat n) S3 w v) as [[[g x] b]|] eqn:E; [|reflexivity]. destruct (H2 _ _ _ eq_refl) as (Hb & Hg & HC).
    destruct (Nat.eqb_spec (1 + g) (Z.to_nat p)) as [Eg|]; [|reflexivity]. exfalso. apply H3. split; auto. split; [lia|]. apply H1. eauto.
Qed.

(** words outside the set do not contribute *)
Lemma walk_charge m : forall a w v g x b, walk m a w v = Some (g, x, b) -> length w = m -> length v = m -> chE b = chE a + cE v - cE w.
Proof.
  induction m as [|m IH]; intros a w v g x b H Hw Hv.
  - destruct w, v; try discriminate. cbn in *. injection H as <- <- <-. lia.
  - destruct w as [|y w]; [discriminate|]. destruct v as [|z v]; [discriminate|]. cbn [walk] in H.
    destruct (nxt a y z) as [a'|] eqn:En; [|discriminate]. destruct (walk m a' w v) as [[[g' x'] b']|] eqn:E; [|discriminate].
    injection H as <- <- <-. injection Hw as Hw. injection Hv as Hv. apply IH in E; auto. destruct (nxt_charge _ _ _ _ En) as (_ & H2 & _).
    cbn [cE]. lia.
Qed.

(** ** the symmetry of the double sums *)
Definition good (f : st -> Qc) : Prop := f S1 = 0%Qc /\ f S2 = 0%Qc.
Lemma off_wset f c sh k n a w v : good f -> 0 <= n -> (a = S0 \/ a = S3) -> In w (wset k n) -> In v (allw (Z.to_nat n)) -> ~ In v (wset k n) ->
  forall p, co (wterm f c sh (walk (Z.to_nat n) a w v)) p = 0%Qc.
Proof.
  intros [G1 G2] Hn Ha Hw Hv Hnv p. rewrite co_wterm. destruct (walk (Z.to_nat n) a w v) as [[[g x] b]|] eqn:E; [|reflexivity].
  apply in_wset in Hw. apply in_allw in Hv. rewrite in_wset in Hnv. apply walk_charge in E; try tauto.
  assert (cE v <> k) by (intros E'; apply Hnv; auto). 
  assert (Hb : chE b <> 0) by (destruct Ha as [-> | ->]; cbn [chE] in E; lia).
  destruct b; cbn [chE] in Hb; try congruence; rewrite ?G1, ?G2; destruct (sh + g =? p)%nat; ring.
Qed.
Lemma qsum_filter {A} (f : A -> Qc) (h : A -> bool) l : (forall x, In x l -> h x = false -> f x = 0%Qc) -> qsum f (filter h l) = qsum f l.
Proof.
  induction l as [|x l IH]; intros H; [reflexivity|]. cbn [filter]. rewrite qsum_cons. specialize (H x (or_introl eq_refl)) as Hx.
  destruct (h x) eqn:E; rewrite ?qsum_cons, IH by (intros; apply H; simpl; auto); auto. rewrite Hx by auto. ring.
Qed.

Lemma hfin_C s t (w v : word) a b : s <> 0%Qc -> t <> 0%Qc -> (s + t <> 0)%Qc -> length w = 0%nat -> length v = 0%nat ->
  F2 (finf fC) s t 0 0 w v a b = Rop s t (F2 (finf fC) t s 0 0 w v) a b.
Proof.
  intros Hs Ht Hst _ _. assert (Hts : (t + s <> 0)%Qc) by (rewrite Qcplus_comm; auto).
  destruct a, b; unfold F2, Rop, finf, fC, two; cbn [run plus allw]; rewrite ?qsum_cons, ?qsum_nil; field; nz.
Qed.
Lemma hfin_B s t (w v : word) a b : s <> 0%Qc -> t <> 0%Qc -> (s + t <> 0)%Qc -> length w = 0%nat -> length v = 0%nat ->
  F2 (finf fB) s t 0 0 w v a b = Rop s t (F2 (finf fB) t s 0 0 w v) a b.
Proof.
  intros Hs Ht Hst _ _. assert (Hts : (t + s <> 0)%Qc) by (rewrite Qcplus_comm; auto).
  destruct a, b; unfold F2, Rop, finf, fB, two; cbn [run plus allw]; rewrite ?qsum_cons, ?qsum_nil; field; nz.
Qed.

(** from generating functions to coefficients *)
Lemma sym_ker k n D (ker : nat -> word -> word -> mlist) w v d : In w (wset k n) ->
  (forall e u p, In u (allw (Z.to_nat n)) -> ~ In u (wset k n) -> co (ker e w u) p = 0%Qc) ->
  (forall s t, 0 < s -> 0 < t ->
     qsum (fun e => qsum (fun u => ev (ker e w u) (zq s) * (if (e <=? d)%nat then ev (ker (d - e)%nat u v) (zq t) else 0))%Qc (allw (Z.to_nat n))) (seq 0 D) =
     qsum (fun e => qsum (fun u => ev (ker e w u) (zq t) * (if (e <=? d)%nat then ev (ker (d - e)%nat u v) (zq s) else 0))%Qc (allw (Z.to_nat n))) (seq 0 D)) ->
  forall i j, qsum (fun x => (co (ker (fst x) w (snd x)) i * (if (fst x <=? d)%nat then co (ker (d - fst x)%nat (snd x) v) j else 0))%Qc) (terms (wset k n) D) =
    qsum (fun x => (co (ker (fst x) w (snd x)) j * (if (fst x <=? d)%nat then co (ker (d - fst x)%nat (snd x) v) i else 0))%Qc) (terms (wset k n) D).
Proof.
  intros Hw Hoff HS i j.
  assert (G : forall i j, qsum (fun x => (co (ker (fst x) w (snd x)) i * (if (fst x <=? d)%nat then co (ker (d - fst x)%nat (snd x) v) j else 0))%Qc) (terms (wset k n) D) =
    qsum (fun x => (co (ker (fst x) w (snd x)) i * co (if (fst x <=? d)%nat then ker (d - fst x)%nat (snd x) v else []) j)%Qc) (terms (allw (Z.to_nat n)) D)).
  { clear i j. intros i j. rewrite (qsum_terms _ (fun e u => (co (ker e w u) i * (if (e <=? d)%nat then co (ker (d - e)%nat u v) j else 0))%Qc)).
    rewrite (qsum_terms _ (fun e u => (co (ker e w u) i * co (if (e <=? d)%nat then ker (d - e)%nat u v else []) j)%Qc)).
    apply qsum_ext. intros e _. unfold wset. rewrite qsum_filter.
    - apply qsum_ext. intros u _. destruct (e <=? d)%nat; reflexivity.
    - intros u Hu He. rewrite Hoff; [ring|auto|]. intros Hin. unfold wset in Hin. apply filter_In in Hin. destruct Hin. congruence. }
  rewrite !G. apply extract2. intros s t Hs Ht.
  rewrite (qsum_terms _ (fun e u => (ev (ker e w u) (zq s) * ev (if (e <=? d)%nat then ker (d - e)%nat u v else []) (zq t))%Qc)).
  rewrite (qsum_terms _ (fun e u => (ev (ker e w u) (zq t) * ev (if (e <=? d)%nat then ker (d - e)%nat u v else []) (zq s))%Qc)).
  assert (G2 : forall s t, qsum (fun e => qsum (fun u => (ev (ker e w u) (zq s) * ev (if (e <=? d)%nat then ker (d - e)%nat u v else []) (zq t))%Qc) (allw (Z.to_nat n))) (seq 0 D) =
    qsum (fun e => qsum (fun u => ev (ker e w u) (zq s) * (if (e <=? d)%nat then ev (ker (d - e)%nat u v) (zq t) else 0))%Qc (allw (Z.to_nat n))) (seq 0 D)).
  { intros s' t'. apply qsum_ext. intros e _. apply qsum_ext. intros u _. destruct (e <=? d)%nat; reflexivity. }
  rewrite !G2. apply HS; auto.
Qed.

(** *** type C *)
Definition kerC (qq : bool) (n : Z) (e : nat) (w v : word) : mlist :=
  match e with
  | O => wterm fC 1 0 (walk (Z.to_nat n) S0 w v)
  | S O => if qq then wterm fC (/ two) 1 (walk (Z.to_nat n) S3 w v) else []
  | _ => []
  end.
Lemma ev_nil t : ev [] t = 0%Qc. Proof. reflexivity. Qed.
Lemma co_nil p : co [] p = 0%Qc. Proof. reflexivity. Qed.

Definition FF (f : st -> Qc) (n : Z) (s t : Qc) (w v : word) (a b : st) : Qc := F2 (finf f) s t (Z.to_nat n) 0 w v a b.
Lemma FF_swap f n s t w v a b : (forall s t (w v : word) a b, s <> 0%Qc -> t <> 0%Qc -> (s + t <> 0)%Qc -> length w = 0%nat -> length v = 0%nat ->
    F2 (finf f) s t 0 0 w v a b = Rop s t (F2 (finf f) t s 0 0 w v) a b) ->
  s <> 0%Qc -> t <> 0%Qc -> (s + t <> 0)%Qc -> length w = Z.to_nat n -> length v = Z.to_nat n ->
  FF f n s t w v a b = Rop s t (FF f n t s w v) a b.
Proof. intros Hf Hs Ht Hst Hw Hv. unfold FF. apply (F2_swap (finf f) 0 Hf); auto; lia. Qed.
Lemma qsum_FF f n s t c1 sh1 c2 sh2 w v a b :
  qsum (fun u => (ev (wterm f c1 sh1 (walk (Z.to_nat n) a w u)) s * ev (wterm f c2 sh2 (walk (Z.to_nat n) b u v)) t)%Qc) (allw (Z.to_nat n)) =
  (c1 * s ^ sh1 * (c2 * t ^ sh2) * FF f n s t w v a b)%Qc.
Proof.
  unfold FF, F2. rewrite Nat.add_0_r, <- qsum_mul. apply qsum_ext. intros u _. rewrite !ev_wterm. ring.
Qed.

Lemma sym_C qq k n w v d s t : In w (wset k n) -> In v (wset k n) -> s <> 0%Qc -> t <> 0%Qc -> (s + t <> 0)%Qc ->
  qsum (fun e => qsum (fun u => ev (kerC qq n e w u) s * (if (e <=? d)%nat then ev (kerC qq n (d - e)%nat u v) t else 0))%Qc (allw (Z.to_nat n))) (seq 0 2) =
  qsum (fun e => qsum (fun u => ev (kerC qq n e w u) t * (if (e <=? d)%nat then ev (kerC qq n (d - e)%nat u v) s else 0))%Qc (allw (Z.to_nat n))) (seq 0 2).
Proof.
  intros Hw Hv Hs Ht Hst. apply in_wset in Hw, Hv. assert (Hts : (t + s <> 0)%Qc) by (rewrite Qcplus_comm; auto).
  assert (SW : forall a b, FF fC n s t w v a b = Rop s t (FF fC n t s w v) a b) by (intros; apply FF_swap; try tauto; apply hfin_C).
  assert (Z1 : forall (g : word -> Qc) l, qsum (fun u => (g u * 0)%Qc) l = 0%Qc) by (intros; apply qsum_zero; intros; ring).
  assert (Z2 : forall (g : word -> Qc) l, qsum (fun u => (0 * g u)%Qc) l = 0%Qc) by (intros; apply qsum_zero; intros; ring).
  cbn [seq]. rewrite !qsum_cons, !qsum_nil. destruct d as [|[|[|d]]]; cbn [Nat.leb Nat.sub]; unfold kerC; destruct qq; rewrite ?ev_nil, ?Z1, ?Z2, ?qsum_FF; rewrite ?SW; unfold Rop, two; cbn [Qcpower]; try ring; field; nz.
Qed.

Definition gC (k n : Z) : gr := mkGr TC k n.
Definition piC (k n : Z) (qq : bool) : Z -> list Z -> res poly := if qq then qpieri_fun (gC k n) else pieri_fun (gC k n).
Lemma coef_IG_supp k n p s lam mu c : coef_IG k n p s lam mu c -> c <> 0%Qc -> pieri_term k n p lam mu.
Proof. intros [(H & _)|(_ & ->)] Hc; [exact H|congruence]. Qed.
Lemma kstrict_row k n mu : 0 <= k <= n -> kstrict_in k (n + 1 - k) (n + 1 + k) (n + k + 1 :: mu) -> kstrict_in k (n - k) (n + k) mu.
Proof.
  intros Hk (((H1 & H2) & H3 & H4) & H5). assert (HP : forall j, part (n + k + 1 :: mu) (S j) = part mu j) by reflexivity.
  cbn [length] in H3. split; [split; [split|split]|].
  - intros j Hj. rewrite <- HP. apply H1. cbn. lia.
  - intros j. rewrite <- !HP. apply H2.
  - lia.
  - rewrite <- HP. specialize (H5 0%nat). change (part (n + k + 1 :: mu) 0) with (n + k + 1) in H5. specialize (H5 ltac:(lia)). lia.
  - intros j Hj. rewrite <- !HP. apply H5. rewrite HP. auto.
Qed.

Lemma piC_coefs k n qq p lam : 0 <= k <= n -> kstrict_in k (n - k) (n + k) lam -> 0 <= p <= n + k ->
  exists r W, piC k n qq p lam = Ok r /\ qcoefs r W /\
    (forall mu, coef_IG k n p 0 lam mu (W 0%nat mu)) /\
    (forall mu, if qq then coef_IG k (n + 1) p 1 lam (n + k + 1 :: mu) (W 1%nat mu) else W 1%nat mu = 0%Qc) /\
    (forall d mu, (2 <= d)%nat -> W d mu = 0%Qc).
Proof.
  intros Hk Hl Hp. destruct qq; cbn [piC].
  - destruct (qpieriC_coefs k n lam p Hk Hl ltac:(lia)) as (r & W & H1 & H2 & H3 & H4 & H5). exists r, W. auto.
  - destruct (pieriC_lincl k n lam p Hk Hl) as (r & W & H1 & H2 & H3). exists r, (fun d l => match d with O => W l | _ => 0%Qc end).
    split; auto. split; [apply lincl_qcoefs; auto|]. split; auto. split; auto. intros [|d] mu Hd; [lia|auto].
Qed.
Lemma piC_wcoefs k n qq p w : 0 <= k <= n -> In w (wset k n) -> 0 <= p <= n + k ->
  wcoefs (wp 0) (wset k n) 2 (P (piC k n qq) p (wp 0 w)) (fun d v => co (kerC qq n d w v) (Z.to_nat p)).
Proof.
  intros Hk Hw Hp. assert (HV : kstrict_in k (n - k) (n + k) (wp 0 w)) by (apply wset_V; eauto).
  destruct (piC_coefs k n qq p _ Hk HV Hp) as (r & W & E & (Hc & Hm) & H0 & H1 & H2). unfold P. rewrite E. split.
  - intros d v Hv. rewrite Hc. destruct d as [|[|d]]; cbn [kerC].
    + apply (coef_C0 k n); auto; try lia.
    + specialize (H1 (wp 0 v)). destruct qq; [|rewrite co_nil; auto]. apply (coef_C1 k n); auto; lia.
    + rewrite co_nil. apply H2. lia.
  - intros m Hne. destruct (Hm m Hne) as (d & mu & HP).
    assert (Hne' : W d mu <> 0%Qc) by (rewrite <- Hc, <- (coef_perm r _ _ HP); auto).
    assert (HVm : (d < 2)%nat /\ kstrict_in k (n - k) (n + k) mu).
    { destruct d as [|[|d]].
      - split; [lia|]. apply (coef_IG_supp _ _ _ _ _ _ _ (H0 mu) Hne').
      - split; [lia|]. specialize (H1 mu). destruct qq; [|congruence]. apply kstrict_row; auto. apply (coef_IG_supp _ _ _ _ _ _ _ H1 Hne').
      - exfalso. apply Hne'. apply H2. lia. }
    destruct HVm as [Hd HVm]. apply (wset_V k n Hk) in HVm. destruct HVm as (v & Hv & <-). exists d, v. auto.
Qed.
Lemma off_C qq k n w u e p : 0 <= n -> In w (wset k n) -> In u (allw (Z.to_nat n)) -> ~ In u (wset k n) -> co (kerC qq n e w u) p = 0%Qc.
Proof.
  intros Hn Hw Hu Hnu. assert (G : good fC) by (split; reflexivity). destruct e as [|[|e]]; cbn [kerC]; [| |reflexivity].
  - apply (off_wset fC 1 0 k n); auto.
  - destruct qq; [|reflexivity]. apply (off_wset fC (/ two) 1 k n); auto.
Qed.
Lemma comm_C k n qq i j l : 0 <= k <= n -> kstrict_in k (n - k) (n + k) l -> 0 <= i <= n + k -> 0 <= j <= n + k ->
  peq (ext (piC k n qq) j (P (piC k n qq) i l)) (ext (piC k n qq) i (P (piC k n qq) j l)).
Proof.
  intros Hk Hl Hi Hj. apply (wset_V k n Hk) in Hl. destruct Hl as (w & Hw & <-).
  apply (comm_enc (wp 0) (wset k n) (wset_nodup k n) (wset_inj k n Hk) 2 (piC k n qq) i j
     (fun w d v => co (kerC qq n d w v) (Z.to_nat i)) (fun w d v => co (kerC qq n d w v) (Z.to_nat j))); auto.
  - intros u Hu. apply piC_wcoefs; auto.
  - intros u Hu. apply piC_wcoefs; auto.
  - intros d v Hv. apply sym_ker; auto.
    + intros e u p Hu Hnu. apply (off_C qq k); auto. lia.
    + intros s t Hs Ht. apply (sym_C qq k n); auto using zq_pos, zq_pos2.
Qed.
