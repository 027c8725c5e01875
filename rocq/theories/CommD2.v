(** The Pieri operators of OG(n+1-k,2n+2), 1 <= k <= n, commute (the quantum ones
    for k > 1): the double sums. *)

From Coq Require Import ZArith List Lia Bool Permutation QArith Qcanon.
From Verif Require Import Py OrderFacts PyFacts ModelPart ModelQcalc ModelPoly ModelStr ModelGr Spec SpecPieri
  PolyFacts SuppFacts Enum FillFacts PartFacts ConjFacts PairFacts BetwFacts PieriSet PieriBKT CompsFacts CompsBound PieriA QPieriA WSum PieriCoef PieriD QPieriD
  OpTheory Sys WArrow Word Transfer TransD WordArrow WordPieri Extract CoefSys CommC RecBCD ApiPieriQ CommB WordD CoefD CommD.
Import ListNotations.
Open Scope Z_scope.
Open Scope Qc_scope.

(** ** first letters *)
Definition kkDT (tab : nat -> letter -> letter -> option (st * nat)) (dtab : nat -> letter -> letter -> option (st * Qc)) (d : nat) (x z : letter) (t : Qc) (G : st -> st -> Qc) : Qc :=
  qsum (fun e => qsum (fun y => match dtab e x y with
     | Some (a, s) => if (e <=? d)%nat then match tab (d - e)%nat y z with Some (b, sh) => s * t ^ sh * G a b | None => 0 end else 0
     | None => 0 end) letters3) (seq 0 3).
Definition kkTD (tab : nat -> letter -> letter -> option (st * nat)) (dtab : nat -> letter -> letter -> option (st * Qc)) (d : nat) (x z : letter) (t : Qc) (G : st -> st -> Qc) : Qc :=
  qsum (fun e => qsum (fun y => match tab e x y with
     | Some (a, sh) => if (e <=? d)%nat then match dtab (d - e)%nat y z with Some (b, s) => (if Nat.odd e then - (1) else 1) * t ^ sh * s * G a b | None => 0 end else 0
     | None => 0 end) letters3) (seq 0 3).
Lemma kkD_cl d x z t H : t <> 0 -> kkDT bcl dcl d x z t (Xop t H) = kkTD bcl dcl d x z t H.
Proof.
  intros Ht. destruct d as [|d]; unfold kkDT, kkTD, letters3; cbn [seq]; rewrite !qsum_cons, !qsum_nil; cbn [Nat.leb Nat.sub Nat.odd Nat.even negb];
  destruct x, z; cbn [bcl dcl dn nxt dg]; unfold Xop, two; cbn [Qcpower]; try ring; field; nz.
Qed.
Lemma kkD_B d x z t H : t <> 0 -> kkDT bB dB d x z t (Xop t H) = kkTD bB dB d x z t H.
Proof.
  intros Ht. destruct d as [|[|[|[|[|d]]]]]; unfold kkDT, kkTD, letters3; cbn [seq]; rewrite !qsum_cons, !qsum_nil; cbn [Nat.leb Nat.sub Nat.odd Nat.even negb];
  destruct x, z; cbn [bB dB dn nxt dg]; unfold Xop, two; cbn [Qcpower]; try ring; field; nz.
Qed.
Lemma kkDT_ext tab dtab d x z t G H : (forall a b, G a b = H a b) -> kkDT tab dtab d x z t G = kkDT tab dtab d x z t H.
Proof.
  intros E. unfold kkDT. apply qsum_ext. intros e _. apply qsum_ext. intros y _. destruct (dtab e x y) as [[a s]|]; auto.
  destruct (e <=? d)%nat; auto. destruct (tab (d - e)%nat y z) as [[b sh2]|]; auto. rewrite E. reflexivity.
Qed.

(** ** exchange of the types *)
Definition swx (x : letter) : letter := match x with LE => LE | LR => LL | LL => LR end.
Lemma swl_tl x w : (1 <= length w)%nat -> swl (x :: w) = x :: swl w.
Proof. destruct w; [cbn; lia|reflexivity]. Qed.
Lemma walk_swl m : forall a w v, length w = S m -> length v = S m -> walk m a (swl w) (swl v) = walk m a w v.
Proof.
  induction m as [|m IH]; intros a w v Hw Hv; [reflexivity|]. destruct w as [|x w]; [discriminate|]. destruct v as [|y v]; [discriminate|].
  injection Hw as Hw. injection Hv as Hv. rewrite !swl_tl by lia. cbn [walk]. destruct (nxt a x y) as [a'|]; auto. rewrite IH by auto. reflexivity.
Qed.
Lemma drun_swl m : forall a w v, length w = S m -> length v = S m -> drun m a (swl w) (swl v) = - drun m a w v.
Proof.
  induction m as [|m IH]; intros a w v Hw Hv.
  - destruct w as [|x [|? ?]]; try discriminate. destruct v as [|y [|? ?]]; try discriminate. destruct a, x, y; cbn; ring.
  - destruct w as [|x w]; [discriminate|]. destruct v as [|y v]; [discriminate|].
    injection Hw as Hw. injection Hv as Hv. rewrite !swl_tl by lia. cbn [drun]. destruct (dn a x y) as [[a' s]|]; [|ring]. rewrite IH by auto. ring.
Qed.
Lemma fm_swx b x y : fm b (swx x) (swx y) = fm b x y.
Proof. destruct b, x, y; reflexivity. Qed.
Lemma kT_swl tab m e w v : length w = S (S m) -> length v = S (S m) -> kT tab m e (swl w) (swl v) = kT tab m e w v.
Proof.
  intros Hw Hv. unfold kT, tfin. rewrite !lastl_swl.
  assert (E : bwalk tab m e (swl w) (swl v) = bwalk tab m e w v).
  { destruct w as [|x w]; [discriminate|]. destruct v as [|y v]; [discriminate|]. injection Hw as Hw. injection Hv as Hv. rewrite !swl_tl by lia. cbn [bwalk].
    destruct (tab e x y) as [[a sh]|]; auto. rewrite walk_swl by auto. reflexivity. }
  rewrite E. destruct (bwalk tab m e w v) as [[[g x] b]|]; auto. fold (swx (lastl w)) (swx (lastl v)). rewrite fm_swx. reflexivity.
Qed.
Lemma kS_swl dtab m e w v : length w = S (S m) -> length v = S (S m) -> kS dtab m e (swl w) (swl v) = - kS dtab m e w v.
Proof.
  intros Hw Hv. destruct w as [|x w]; [discriminate|]. destruct v as [|y v]; [discriminate|]. injection Hw as Hw. injection Hv as Hv. rewrite !swl_tl by lia. cbn [kS].
  destruct (dtab e x y) as [[a s]|]; [|ring]. rewrite drun_swl by auto. ring.
Qed.
Lemma swe_len e v : length (swe e v) = length v.
Proof. unfold swe. destruct (Nat.odd e); auto. apply swl_len. Qed.
Lemma swe_swe e v : swe e (swe e v) = v.
Proof. unfold swe. destruct (Nat.odd e); auto. apply swl_swl. Qed.
Lemma swe_sub e d v : (e <= d)%nat -> swe e (swe (d - e) v) = swe d v.
Proof.
  intros H. unfold swe. replace (Nat.odd d) with (xorb (Nat.odd e) (Nat.odd (d - e))).
  - destruct (Nat.odd e), (Nat.odd (d - e)); cbn [xorb]; auto using swl_swl.
  - rewrite <- Nat.odd_add. f_equal. lia.
Qed.
Lemma kT_swe tab m f e w v : length w = S (S m) -> length v = S (S m) -> kT tab m f (swe e w) (swe e v) = kT tab m f w v.
Proof. intros Hw Hv. unfold swe. destruct (Nat.odd e); auto. apply kT_swl; auto. Qed.
Lemma kS_swe dtab m f e w v : length w = S (S m) -> length v = S (S m) ->
  kS dtab m f (swe e w) (swe e v) = (if Nat.odd e then - (1) else 1) * kS dtab m f w v.
Proof. intros Hw Hv. unfold swe. destruct (Nat.odd e); [rewrite kS_swl by auto|]; ring. Qed.
Lemma qsum_perm {A} (f : A -> Qc) l l' : Permutation l l' -> qsum f l = qsum f l'.
Proof. induction 1; rewrite ?qsum_cons; try congruence; ring. Qed.
Lemma qsum_swe (f : word -> Qc) e N : qsum (fun u => f (swe e u)) (allw N) = qsum f (allw N).
Proof.
  rewrite <- (qsum_map (swe e) f). apply qsum_perm. apply NoDup_Permutation.
  - apply FinFun.Injective_map_NoDup; [|apply allw_nodup]. intros a b E. rewrite <- (swe_swe e a), <- (swe_swe e b), E. reflexivity.
  - apply allw_nodup.
  - intros u. rewrite in_map_iff, in_allw. split.
    + intros (v & <- & Hv). apply in_allw in Hv. rewrite swe_len. auto.
    + intros Hu. exists (swe e u). split; [apply swe_swe|]. apply in_allw. rewrite swe_len. auto.
Qed.

(** ** generating functions *)
Lemma fT_fm t b x y : fT t b x y = match fm b x y with Some (h, c) => c * t ^ h | None => 0 end.
Proof. destruct b, x, y; cbn [fT fm Qcpower]; ring. Qed.
Lemma ev_kT tab m e x w y v t : length w = S m -> length v = S m ->
  ev (kT tab m e (x :: w) (y :: v)) t = match tab e x y with Some (a, sh) => t ^ sh * run finD t m a w v | None => 0 end.
Proof.
  intros Hw Hv. unfold kT, tfin. cbn [bwalk]. destruct (tab e x y) as [[a sh]|]; [|reflexivity]. rewrite run_walk.
  destruct (walk m a w v) as [[[g x0] b]|]; [|rewrite ev_nil; ring]. rewrite !lastl_tl by lia. rewrite !(skipn_last m) by auto. cbn [finD]. rewrite fT_fm.
  destruct (fm b (lastl w) (lastl v)) as [[h c]|]; [|rewrite ev_nil; ring]. unfold ev. rewrite qsum_cons, qsum_nil. cbn [fst snd]. rewrite !Qcpower_add. ring.
Qed.
Lemma qsum_letters (f : word -> Qc) N : qsum f (allw (S N)) = qsum (fun y => qsum (fun u => f (y :: u)) (allw N)) letters3.
Proof. cbn [allw]. unfold letters3. rewrite !qsum_cons, qsum_nil, !qsum_app, !qsum_map. ring. Qed.

Section K.
Variables (tab : nat -> letter -> letter -> option (st * nat)) (dtab : nat -> letter -> letter -> option (st * Qc)).
Variable m : nat.
Notation N := (S (m + 1)).

Lemma sum_TT d x z w v s t : length w = S m -> length v = S m ->
  qsum (fun e => qsum (fun u => ev (kT tab m e (x :: w) u) s * (if (e <=? d)%nat then ev (kT tab m (d - e)%nat u (z :: v)) t else 0)) (allw N)) (seq 0 3) =
  kk tab 3 d x z s t (F2 finD s t m 1 w v).
Proof.
  intros Hw Hv. unfold kk. apply qsum_ext. intros e _. rewrite qsum_letters. apply qsum_ext. intros y _.
  destruct (tab e x y) as [[a sh1]|] eqn:E1.
  - destruct (e <=? d)%nat; [|apply qsum_zero; intros; ring]. destruct (tab (d - e)%nat y z) as [[b sh2]|] eqn:E2.
    + unfold F2. rewrite <- qsum_mul. apply qsum_ext. intros u Hu. apply in_allw in Hu. rewrite !ev_kT by lia. rewrite E1, E2. ring.
    + apply qsum_zero. intros u Hu. apply in_allw in Hu. rewrite (ev_kT _ _ _ y) by lia. rewrite E2. ring.
  - apply qsum_zero. intros u Hu. apply in_allw in Hu. rewrite (ev_kT _ _ _ x) by lia. rewrite E1. ring.
Qed.
Lemma sum_DT d x z w v t : length w = S m -> length v = S m ->
  qsum (fun e => qsum (fun u => kS dtab m e (x :: w) u * (if (e <=? d)%nat then ev (kT tab m (d - e)%nat u (z :: v)) t else 0)) (allw N)) (seq 0 3) =
  kkDT tab dtab d x z t (FDT t m w v).
Proof.
  intros Hw Hv. unfold kkDT. apply qsum_ext. intros e _. rewrite qsum_letters. apply qsum_ext. intros y _. cbn [kS].
  destruct (dtab e x y) as [[a s]|] eqn:E1.
  - destruct (e <=? d)%nat; [|apply qsum_zero; intros; ring]. destruct (tab (d - e)%nat y z) as [[b sh2]|] eqn:E2.
    + unfold FDT. rewrite <- qsum_mul. apply qsum_ext. intros u Hu. apply in_allw in Hu. rewrite !ev_kT by lia. rewrite E2. ring.
    + apply qsum_zero. intros u Hu. apply in_allw in Hu. rewrite (ev_kT _ _ _ y) by lia. rewrite E2. ring.
  - apply qsum_zero. intros u Hu. ring.
Qed.
Lemma sum_TD d x z w v t : length w = S m -> length v = S m ->
  qsum (fun e => qsum (fun u => ev (kT tab m e (x :: w) u) t * (if (e <=? d)%nat then (if Nat.odd e then - (1) else 1) * kS dtab m (d - e)%nat u (z :: v) else 0)) (allw N)) (seq 0 3) =
  kkTD tab dtab d x z t (FTD t m w v).
Proof.
  intros Hw Hv. unfold kkTD. apply qsum_ext. intros e _. rewrite qsum_letters. apply qsum_ext. intros y _. cbn [kS].
  destruct (tab e x y) as [[a sh1]|] eqn:E1.
  - destruct (e <=? d)%nat; [|apply qsum_zero; intros; ring]. destruct (dtab (d - e)%nat y z) as [[b s]|] eqn:E2.
    + unfold FTD. rewrite <- qsum_mul. apply qsum_ext. intros u Hu. apply in_allw in Hu. rewrite !ev_kT by lia. rewrite E1. ring.
    + apply qsum_zero. intros u Hu. ring.
  - apply qsum_zero. intros u Hu. apply in_allw in Hu. rewrite (ev_kT _ _ _ x) by lia. rewrite E1. ring.
Qed.

Hypothesis HTT : forall d x z s t H, s <> 0 -> t <> 0 -> s + t <> 0 -> kk tab 3 d x z s t (Rop s t H) = kk tab 3 d x z t s H.
Hypothesis HDT : forall d x z t H, t <> 0 -> kkDT tab dtab d x z t (Xop t H) = kkTD tab dtab d x z t H.

(** with the types exchanged after an odd power of q *)
Notation T e w v := (kT tab m e w (swe e v)).
Notation D e w v := (kS dtab m e w (swe e v)).

Lemma move_T d w v s t : length w = N -> length v = N ->
  qsum (fun e => qsum (fun u => ev (T e w u) s * (if (e <=? d)%nat then ev (T (d - e)%nat u v) t else 0)) (allw N)) (seq 0 3) =
  qsum (fun e => qsum (fun u => ev (kT tab m e w u) s * (if (e <=? d)%nat then ev (kT tab m (d - e)%nat u (swe d v)) t else 0)) (allw N)) (seq 0 3).
Proof.
  intros Hw Hv. apply qsum_ext. intros e _.
  rewrite <- (qsum_swe (fun u => ev (kT tab m e w u) s * (if (e <=? d)%nat then ev (kT tab m (d - e)%nat u (swe d v)) t else 0)) e).
  apply qsum_ext. intros u Hu. apply in_allw in Hu. f_equal. destruct (Nat.leb_spec e d); auto.
  rewrite <- (swe_sub e d v) by auto. rewrite kT_swe; auto; rewrite ?swe_len; lia.
Qed.
Lemma sym_TT d w v s t : length w = N -> length v = N -> s <> 0 -> t <> 0 -> s + t <> 0 ->
  qsum (fun e => qsum (fun u => ev (T e w u) s * (if (e <=? d)%nat then ev (T (d - e)%nat u v) t else 0)) (allw N)) (seq 0 3) =
  qsum (fun e => qsum (fun u => ev (T e w u) t * (if (e <=? d)%nat then ev (T (d - e)%nat u v) s else 0)) (allw N)) (seq 0 3).
Proof.
  intros Hw Hv Hs Ht Hst. rewrite !move_T by auto. assert (Hv' : length (swe d v) = N) by (rewrite swe_len; auto). generalize dependent (swe d v). clear v Hv. intros v Hv.
  destruct w as [|x w]; [discriminate|]. destruct v as [|z v]; [discriminate|]. injection Hw as Hw. injection Hv as Hv.
  rewrite !sum_TT by lia. rewrite (kk_ext _ _ _ _ _ _ _ _ (Rop s t (F2 finD t s m 1 w v))); [apply HTT; auto|].
  intros a b. apply (F2_swap finD 1 hfin_D); auto; lia.
Qed.
Lemma sym_DT d w v t : length w = N -> length v = N -> t <> 0 ->
  qsum (fun e => qsum (fun u => D e w u * (if (e <=? d)%nat then ev (T (d - e)%nat u v) t else 0)) (allw N)) (seq 0 3) =
  qsum (fun e => qsum (fun u => ev (T e w u) t * (if (e <=? d)%nat then D (d - e)%nat u v else 0)) (allw N)) (seq 0 3).
Proof.
  intros Hw Hv Ht.
  rewrite (qsum_ext _ (fun e => qsum (fun u => kS dtab m e w u * (if (e <=? d)%nat then ev (kT tab m (d - e)%nat u (swe d v)) t else 0)) (allw N))).
  2:{ intros e _. rewrite <- (qsum_swe (fun u => kS dtab m e w u * (if (e <=? d)%nat then ev (kT tab m (d - e)%nat u (swe d v)) t else 0)) e).
      apply qsum_ext. intros u Hu. apply in_allw in Hu. f_equal. destruct (Nat.leb_spec e d); auto.
      rewrite <- (swe_sub e d v) by auto. rewrite kT_swe; auto; rewrite ?swe_len; lia. }
  rewrite (qsum_ext (fun e => qsum (fun u => ev (T e w u) t * _) (allw N)) (fun e => qsum (fun u => ev (kT tab m e w u) t * (if (e <=? d)%nat then (if Nat.odd e then - (1) else 1) * kS dtab m (d - e)%nat u (swe d v) else 0)) (allw N))).
  2:{ intros e _. rewrite <- (qsum_swe (fun u => ev (kT tab m e w u) t * (if (e <=? d)%nat then (if Nat.odd e then - (1) else 1) * kS dtab m (d - e)%nat u (swe d v) else 0)) e).
      apply qsum_ext. intros u Hu. apply in_allw in Hu. f_equal. destruct (Nat.leb_spec e d); auto.
      rewrite <- (swe_sub e d v) by auto. rewrite kS_swe by (rewrite ?swe_len; lia). destruct (Nat.odd e); ring. }
  assert (Hv' : length (swe d v) = N) by (rewrite swe_len; auto). generalize dependent (swe d v). clear v Hv. intros v Hv.
  destruct w as [|x w]; [discriminate|]. destruct v as [|z v]; [discriminate|]. injection Hw as Hw. injection Hv as Hv.
  rewrite sum_DT, sum_TD by lia. rewrite (kkDT_ext _ _ _ _ _ _ _ (Xop t (FTD t m w v))); [apply HDT; auto|].
  intros a b. apply FDT_swap; auto; lia.
Qed.
End K.

(** ** extraction of the coefficients *)
Lemma extract1 {A} (ls : list A) (a b' : A -> Qc) (b a' : A -> mlist) :
  (forall t, (0 < t)%Z -> qsum (fun x => a x * ev (b x) (zq t)) ls = qsum (fun x => ev (a' x) (zq t) * b' x) ls) ->
  forall p, qsum (fun x => a x * co (b x) p) ls = qsum (fun x => co (a' x) p * b' x) ls.
Proof.
  intros H p. pose proof (extract (flat_map (fun x => msc (a x) (b x)) ls) (flat_map (fun x => msc (b' x) (a' x)) ls)) as E.
  specialize (E ltac:(intros t Ht; rewrite !ev_flat; rewrite (qsum_ext _ (fun x => a x * ev (b x) (zq t))) by (intros; rewrite ev_msc; ring);
     rewrite H by auto; apply qsum_ext; intros; rewrite ev_msc; ring) p).
  rewrite !co_flat in E. rewrite (qsum_ext _ (fun x => a x * co (b x) p)) in E by (intros; rewrite co_msc; ring).
  rewrite E. apply qsum_ext. intros. rewrite co_msc. ring.
Qed.
Lemma co_if (b : bool) l p : co (if b then l else []) p = (if b then co l p else 0).
Proof. destruct b; reflexivity. Qed.
Lemma ev_if (b : bool) l p : ev (if b then l else []) p = (if b then ev l p else 0).
Proof. destruct b; reflexivity. Qed.
Lemma sym_kerD k n D (ker : nat -> word -> word -> mlist) (dk : nat -> word -> word -> Qc) w v d : In w (wset k n) ->
  (forall e u p, In u (allw (Z.to_nat n)) -> ~ In u (wset k n) -> co (ker e w u) p = 0) ->
  (forall e u, In u (allw (Z.to_nat n)) -> ~ In u (wset k n) -> dk e w u = 0) ->
  (forall t, (0 < t)%Z ->
     qsum (fun e => qsum (fun u => dk e w u * (if (e <=? d)%nat then ev (ker (d - e)%nat u v) (zq t) else 0)) (allw (Z.to_nat n))) (seq 0 D) =
     qsum (fun e => qsum (fun u => ev (ker e w u) (zq t) * (if (e <=? d)%nat then dk (d - e)%nat u v else 0)) (allw (Z.to_nat n))) (seq 0 D)) ->
  forall p, qsum (fun x => (dk (fst x) w (snd x) * (if (fst x <=? d)%nat then co (ker (d - fst x)%nat (snd x) v) p else 0))) (terms (wset k n) D) =
    qsum (fun x => (co (ker (fst x) w (snd x)) p * (if (fst x <=? d)%nat then dk (d - fst x)%nat (snd x) v else 0))) (terms (wset k n) D).
Proof.
  intros Hw Hoff Hoffd HS p.
  assert (In_w : forall u, (cE u =? k)%Z = false -> ~ In u (wset k n)).
  { intros u He Hin. unfold wset in Hin. apply filter_In in Hin. destruct Hin. congruence. }
  transitivity (qsum (fun x => (dk (fst x) w (snd x) * co (if (fst x <=? d)%nat then ker (d - fst x)%nat (snd x) v else []) p)) (terms (allw (Z.to_nat n)) D)).
  { rewrite (qsum_terms _ (fun e u => dk e w u * (if (e <=? d)%nat then co (ker (d - e)%nat u v) p else 0))).
    rewrite (qsum_terms _ (fun e u => dk e w u * co (if (e <=? d)%nat then ker (d - e)%nat u v else []) p)).
    apply qsum_ext. intros e _. unfold wset. rewrite qsum_filter.
    - apply qsum_ext. intros u _. rewrite co_if. reflexivity.
    - intros u Hu He. rewrite Hoffd; [ring|auto|]. auto. }
  transitivity (qsum (fun x => (co (ker (fst x) w (snd x)) p * (if (fst x <=? d)%nat then dk (d - fst x)%nat (snd x) v else 0))) (terms (allw (Z.to_nat n)) D)).
  2:{ rewrite (qsum_terms _ (fun e u => co (ker e w u) p * (if (e <=? d)%nat then dk (d - e)%nat u v else 0))).
    rewrite (qsum_terms _ (fun e u => co (ker e w u) p * (if (e <=? d)%nat then dk (d - e)%nat u v else 0))).
    apply qsum_ext. intros e _. unfold wset. rewrite qsum_filter; auto.
    intros u Hu He. rewrite Hoff; [ring|auto|]. auto. }
  apply extract1. intros t Ht.
  rewrite (qsum_terms _ (fun e u => dk e w u * ev (if (e <=? d)%nat then ker (d - e)%nat u v else []) (zq t))).
  rewrite (qsum_terms _ (fun e u => ev (ker e w u) (zq t) * (if (e <=? d)%nat then dk (d - e)%nat u v else 0))).
  rewrite <- HS by auto. apply qsum_ext. intros e _. apply qsum_ext. intros u _. rewrite ev_if. reflexivity.
Qed.

(** ** words outside the set *)
Lemma walk_chargeD m : forall a w v g x b, walk m a w v = Some (g, x, b) -> length w = S m -> length v = S m ->
  (chE b = chE a + (cE v - isE (lastl v)) - (cE w - isE (lastl w)))%Z.
Proof.
  induction m as [|m IH]; intros a w v g x b H Hw Hv.
  - destruct w as [|y [|? ?]]; try discriminate. destruct v as [|z [|? ?]]; try discriminate. cbn in *. injection H as <- <- <-. lia.
  - destruct w as [|y w]; [discriminate|]. destruct v as [|z v]; [discriminate|]. cbn [walk] in H.
    destruct (nxt a y z) as [a'|] eqn:En; [|discriminate]. destruct (walk m a' w v) as [[[g' x'] b']|] eqn:E; [|discriminate].
    injection H as <- <- <-. injection Hw as Hw. injection Hv as Hv. apply IH in E; auto. destruct (nxt_charge _ _ _ _ En) as (_ & H2 & _).
    rewrite !lastl_tl by lia. cbn [cE]. lia.
Qed.
Lemma fm_charge b x y h c : fm b x y = Some (h, c) -> (chE b = isE x - isE y)%Z.
Proof. destruct b, x, y; cbn; intros E; try discriminate; reflexivity. Qed.
Definition chtab (tab : nat -> letter -> letter -> option (st * nat)) : Prop := forall e x y a sh, tab e x y = Some (a, sh) -> (chE a = isE y - isE x)%Z.
Lemma chtab_B : chtab bB.
Proof. intros e x y a sh E. destruct e as [|[|[|e]]]; destruct x, y; cbn in E; try discriminate; injection E as <- <-; reflexivity. Qed.
Lemma chtab_cl : chtab bcl.
Proof. intros e x y a sh E. destruct e as [|e]; destruct x, y; cbn in E; try discriminate; injection E as <- <-; reflexivity. Qed.
Lemma off_kT tab m e w v p : chtab tab -> length w = S (S m) -> length v = S (S m) -> cE w <> cE v -> co (kT tab m e w v) p = 0.
Proof.
  intros Ht Hw Hv HE. unfold kT. rewrite co_tfin. destruct w as [|x w]; [reflexivity|]. destruct v as [|y v]; [reflexivity|]. cbn [bwalk].
  destruct (tab e x y) as [[a sh]|] eqn:Et; [|reflexivity]. apply Ht in Et. destruct (walk m a w v) as [[[g x0] b]|] eqn:E; [|reflexivity].
  injection Hw as Hw. injection Hv as Hv. apply walk_chargeD in E; auto. rewrite !lastl_tl by lia.
  destruct (fm b (lastl w) (lastl v)) as [[h c]|] eqn:Ef; [|reflexivity]. apply fm_charge in Ef. exfalso. cbn [cE] in HE. lia.
Qed.
Definition subtab (tab : nat -> letter -> letter -> option (st * nat)) (dtab : nat -> letter -> letter -> option (st * Qc)) : Prop :=
  forall e x y a s, dtab e x y = Some (a, s) -> exists sh, tab e x y = Some (a, sh).
Lemma subtab_B : subtab bB dB.
Proof. intros e x y a s E. destruct e as [|[|[|e]]]; destruct x, y; cbn in E; try discriminate; injection E as <- <-; eexists; reflexivity. Qed.
Lemma subtab_cl : subtab bcl dcl.
Proof. intros e x y a s E. destruct e as [|e]; destruct x, y; cbn in E; try discriminate; injection E as <- <-; eexists; reflexivity. Qed.
Lemma off_kS tab dtab m e w v : chtab tab -> subtab tab dtab -> length w = S (S m) -> length v = S (S m) -> cE w <> cE v -> kS dtab m e w v = 0.
Proof.
  intros Ht Hst Hw Hv HE. destruct w as [|x w]; [reflexivity|]. destruct v as [|y v]; [reflexivity|]. cbn [kS].
  destruct (dtab e x y) as [[a s]|] eqn:Et; [|reflexivity]. apply Hst in Et. destruct Et as (sh & Et). apply Ht in Et. injection Hw as Hw. injection Hv as Hv.
  destruct (Qc_eq_dec (drun m a w v) 0) as [->|Hne]; [ring|]. destruct (drun_walk m a w v Hw Hv Hne) as (g & b & h & c & E & _ & Ef & _).
  apply walk_chargeD in E; auto. apply fm_charge in Ef. exfalso. cbn [cE] in HE. lia.
Qed.

(** ** the symmetry *)
Section Sym.
Variables (tab : nat -> letter -> letter -> option (st * nat)) (dtab : nat -> letter -> letter -> option (st * Qc)).
Hypothesis HTT : forall d x z s t H, s <> 0 -> t <> 0 -> s + t <> 0 -> kk tab 3 d x z s t (Rop s t H) = kk tab 3 d x z t s H.
Hypothesis HDT : forall d x z t H, t <> 0 -> kkDT tab dtab d x z t (Xop t H) = kkTD tab dtab d x z t H.
Hypothesis Hch : chtab tab.
Hypothesis Hsub : subtab tab dtab.
Variables (k n : Z).
Hypothesis Hk : (1 <= k <= n)%Z.
Notation ws := (wset k (n + 1)).
Notation m := (Nat.pred (Z.to_nat n)).

Lemma swe_cE e v : cE (swe e v) = cE v.
Proof. unfold swe. destruct (Nat.odd e); auto. apply swl_cE. Qed.
Lemma sym_D i j w v d : In w ws -> In v ws ->
  qsum (fun x => kD tab dtab k n i (fst x) w (snd x) * (if (fst x <=? d)%nat then kD tab dtab k n j (d - fst x)%nat (snd x) v else 0)) (terms ws 3) =
  qsum (fun x => kD tab dtab k n j (fst x) w (snd x) * (if (fst x <=? d)%nat then kD tab dtab k n i (d - fst x)%nat (snd x) v else 0)) (terms ws 3).
Proof.
  intros Hw Hv. destruct (ws_len k n Hk w Hw) as (L1 & L2 & L3). destruct (ws_len k n Hk v Hv) as (M1 & M2 & M3).
  assert (EN : Z.to_nat (n + 1) = S (m + 1)) by lia. 
  set (A := fun p x => co (kT tab m (fst x) w (swe (fst x) (snd x))) (Z.to_nat (Z.abs p))).
  set (B := fun p (x : nat * word) => if (fst x <=? d)%nat then co (kT tab m (d - fst x)%nat (snd x) (swe (d - fst x) v)) (Z.to_nat (Z.abs p)) else 0).
  set (As := fun x => kS dtab m (fst x) w (swe (fst x) (snd x))).
  set (Bs := fun (x : nat * word) => if (fst x <=? d)%nat then kS dtab m (d - fst x)%nat (snd x) (swe (d - fst x) v) else 0).
  assert (G : forall i j, qsum (fun x => kD tab dtab k n i (fst x) w (snd x) * (if (fst x <=? d)%nat then kD tab dtab k n j (d - fst x)%nat (snd x) v else 0)) (terms ws 3) =
    cD k i * cD k j * qsum (fun x => A i x * B j x) (terms ws 3) + cD k i * dD k j * qsum (fun x => A i x * Bs x) (terms ws 3) +
    dD k i * cD k j * qsum (fun x => As x * B j x) (terms ws 3) + dD k i * dD k j * qsum (fun x => As x * Bs x) (terms ws 3)).
  { intros i0 j0. rewrite <- !qsum_mul, <- !qsum_add. apply qsum_ext. intros x _. unfold A, B, As, Bs, kD. destruct (fst x <=? d)%nat; ring. }
  assert (Hoff : forall u, In u (allw (Z.to_nat (n + 1))) -> ~ In u ws -> length u = S (S m) /\ cE u <> k).
  { intros u Hu Hnu. apply in_allw in Hu. rewrite in_wset in Hnu. split; [lia|]. intros E. apply Hnu. auto. }
  assert (S1 : qsum (fun x => A i x * B j x) (terms ws 3) = qsum (fun x => A j x * B i x) (terms ws 3)).
  { apply (sym_ker k (n + 1) 3 (fun e w v => kT tab m e w (swe e v)) w v d Hw).
    - intros e u p Hu Hnu. destruct (Hoff u Hu Hnu) as (U1 & U2). apply off_kT; auto; rewrite ?swe_len, ?swe_cE; lia.
    - intros s t Hs Ht. rewrite EN. apply (sym_TT tab m HTT); auto using zq_pos, zq_pos2; lia. }
  assert (S2 : forall i, qsum (fun x => As x * B i x) (terms ws 3) = qsum (fun x => A i x * Bs x) (terms ws 3)).
  { intros i0. apply (sym_kerD k (n + 1) 3 (fun e w v => kT tab m e w (swe e v)) (fun e w v => kS dtab m e w (swe e v)) w v d Hw).
    - intros e u p Hu Hnu. destruct (Hoff u Hu Hnu) as (U1 & U2). apply off_kT; auto; rewrite ?swe_len, ?swe_cE; lia.
    - intros e u Hu Hnu. destruct (Hoff u Hu Hnu) as (U1 & U2). apply (off_kS tab); auto; rewrite ?swe_len, ?swe_cE; lia.
    - intros t Ht. rewrite EN. apply (sym_DT tab dtab m HDT); auto using zq_pos; lia. }
  rewrite !G, S1, !S2. ring.
Qed.
End Sym.
