(** Products on Gr(2,n): the lemmas behind PropsLines.v. *)

From Coq Require Import ZArith List Lia Bool Permutation QArith Qcanon Setoid Morphisms.
From Verif Require Import Py OrderFacts PyFacts ModelPart ModelQcalc ModelPoly ModelStr ModelGr Spec SpecMisc SpecLines
  PolyFacts SuppFacts OpTheory Enum FillFacts PartFacts PieriA QPieriA CylA WSum Sys Sys2 SysMap RingA FactsA
  SysApi ApiA ApiLR ConjFacts VertA ConjRing GrInv ApiConvA ApiVert PresA CoefSys Check Seidel.
Import ListNotations.
Open Scope Z_scope.

(** ** sums of distinct terms *)
Definition lsum (L : list (nat * list Z)) : poly := fold_right (fun t p => padd (pmono (qS (fst t) (snd t))) p) pzero L.
Lemma lsum_is L : NoDup L -> is_sum_of (lsum L) (fun d nu => In (d, nu) L).
Proof.
  induction 1 as [|[d nu] L HN ND IH].
  - apply is_sum_zero. intros d mu [].
  - eapply is_sum_iff; [|apply (is_sum_add (pmono (qS d nu)) (lsum L) (fun e mu => e = d /\ mu = nu) (fun e mu => In (e, mu) L))].
    + intros e mu. cbn [In]. split; [intros [[-> ->]|H]; auto|]. intros [H|H]; auto. injection H as -> ->. auto.
    + apply single_term. reflexivity.
    + exact IH.
    + intros e mu [-> ->] H. auto.
Qed.

Lemma two_part a b : 0 <= b <= a -> part (two_rows a b) 0 = a /\ part (two_rows a b) 1 = b /\
  (forall j, part (two_rows a b) (S (S j)) = 0) /\ (length (two_rows a b) <= 2)%nat.
Proof.
  intros H. unfold two_rows, part. destruct (Z.eqb_spec b 0) as [->|]; [destruct (Z.eqb_spec a 0) as [->|]|];
    (split; [reflexivity|split; [reflexivity|split; [|cbn; lia]]]); intros [|j]; reflexivity.
Qed.
Lemma two_inj a b a' b' : 0 <= b <= a -> 0 <= b' <= a' -> two_rows a b = two_rows a' b' -> a = a' /\ b = b'.
Proof. intros H H' E. destruct (two_part a b H) as (A & B & _), (two_part a' b' H') as (A' & B' & _). rewrite E in A, B. lia. Qed.

Section S.
Context (n : Z) (g : gr) (Hg : Grassmannian 2 n = Ok g) (Hn : 3 <= n).
Let k := n - 2.
Let Hm : 1 <= 2 < n. Proof. lia. Qed.
Let Hm1 : 1 <= 2. Proof. lia. Qed.
Let Hk : 0 <= k. Proof. unfold k; lia. Qed.
Notation MM := (MA 2 k true).
Notation SY := (sysA 2 k Hm1 Hk true).
Notation box := (in_box 2 k).

Lemma two_box a b : 0 <= b <= a -> a <= k -> box (two_rows a b).
Proof.
  intros H Ha. destruct (two_part a b H) as (A & B & C & L). split; [split|split].
  - intros [|[|j]] Hj; [| |lia].
    + rewrite A. unfold two_rows in Hj. destruct (Z.eqb_spec b 0), (Z.eqb_spec a 0); cbn in Hj; lia.
    + rewrite B. unfold two_rows in Hj. destruct (Z.eqb_spec b 0), (Z.eqb_spec a 0); cbn in Hj; lia.
  - intros [|[|j]]; rewrite ?A, ?B, ?C; lia.
  - lia.
  - lia.
Qed.
Lemma box_two l : box l -> exists a b, l = two_rows a b /\ 0 <= b <= a /\ a <= k.
Proof.
  intros Hl. pose proof Hl as (P & L & B). exists (part l 0), (part l 1).
  assert (0 <= part l 1 <= part l 0) by (split; [apply is_partition_nonneg; auto|apply P]).
  split; [|split; auto]. apply (box_eq 2 k); auto; try lia; [apply two_box; auto|].
  destruct (two_part _ _ H) as (A1 & A2 & _). intros [|[|j]] Hj; lia.
Qed.

(** the term of a shape *)
Definition tm (x y : Z) : nat * list Z :=
  if x <=? k then (0%nat, two_rows x y)
  else if y <? n then (1%nat, two_rows (y - 1) (x - n + 1)) else (2%nat, two_rows (x - n) (y - n)).
Definition okxy (x y : Z) : Prop := 0 <= y <= x /\ x - y <= k /\ x - n <= k.
Lemma tm_box x y : okxy x y -> box (snd (tm x y)).
Proof.
  intros (H & H1 & H2). unfold tm. destruct (Z.leb_spec x k); [apply two_box; lia|].
  unfold k in *. destruct (Z.ltb_spec y n); cbn [snd]; apply two_box; unfold k; lia.
Qed.
Lemma tm_term x y d nu : 0 <= y <= x -> x - y <= k -> ((d, nu) = tm x y <-> lines_term n x y d nu).
Proof.
  intros H H1. unfold tm, lines_term, k in *. destruct (Z.leb_spec x (n - 2)) as [L|L]; [|destruct (Z.ltb_spec y n) as [L2|L2]].
  - split; [intros E; injection E as -> ->; tauto|]. intros [(_ & -> & ->)|[(? & _)|(? & _)]]; [reflexivity|lia|lia].
  - split; [intros E; injection E as -> ->; tauto|]. intros [(? & _)|[(_ & _ & -> & ->)|(? & _)]]; [lia|reflexivity|lia].
  - split; [intros E; injection E as -> ->; tauto|]. intros [(? & _)|[(_ & ? & _)|(_ & -> & ->)]]; [lia|lia|reflexivity].
Qed.

Lemma col2 : repeat 1 (Z.to_nat 2) = two_rows 1 1. Proof. reflexivity. Qed.
Lemma box11 : box (two_rows 1 1). Proof. apply two_box; unfold k; lia. Qed.

Lemma col_two a b : 0 <= b <= a -> a <= k -> peq (MM (pS (two_rows 1 1)) (pS (two_rows a b)))
  (pmono (if a <? k then qS 0 (two_rows (a + 1) (b + 1)) else qS 1 (two_rows b 0))).
Proof.
  intros H Ha. pose proof (two_box a b H Ha) as HB. destruct (c54_col 2 n g _ Hg Hm HB) as (r & E & R1 & R2).
  destruct (two_part a b H) as (A & B & C & L). rewrite A in R1, R2. fold k in R1, R2.
  destruct (Z.ltb_spec a k) as [Hlt|Hge].
  - destruct (R1 Hlt) as (mu & Hmu & PM & RS). assert (mu = two_rows (a + 1) (b + 1)) as ->.
    { apply (box_eq 2 k); auto; try lia; [apply two_box; lia|]. destruct (two_part (a + 1) (b + 1) ltac:(lia)) as (A1 & A2 & _).
      intros [|[|j]] Hj; [rewrite PM, A1, A by lia|rewrite PM, A2, B by lia|]; lia. }
    apply single_term. eapply (MM_of 2 n g Hg Hm); [exact box11|exact HB|exact E|exact RS].
  - assert (a = k) by lia. specialize (R2 H0). assert (tl (two_rows a b) = two_rows b 0) as ET.
    { unfold two_rows. destruct (Z.eqb_spec b 0) as [->|]; [destruct (Z.eqb_spec a 0)|]; cbn; auto. }
    rewrite ET in R2. apply single_term. eapply (MM_of 2 n g Hg Hm); [exact box11|exact HB|exact E|exact R2].
Qed.

Lemma tm_step x y : okxy x y -> x + 1 - n <= k -> peq (MM (pS (two_rows 1 1)) (pmono (qS (fst (tm x y)) (snd (tm x y)))))
  (pmono (qS (fst (tm (x + 1) (y + 1))) (snd (tm (x + 1) (y + 1))))).
Proof.
  intros Hxy Hx. pose proof (tm_box x y Hxy) as HB.
  assert (QL : forall d nu, box nu -> peq (MM (pS (two_rows 1 1)) (pmono (qS d nu))) (pmul (pmono (repeat VQ d)) (MM (pS (two_rows 1 1)) (pS nu)))).
  { intros d nu Hnu. assert (B : peq (pmono (qS d nu)) (pmul (pmono (repeat VQ d)) (pS nu))).
    { rewrite <- (pmono_app (repeat VQ d) [vS nu]). apply pmono_perm. unfold qS. apply Permutation_cons_append. }
    unfold MA. rewrite B. apply (sys_q_r SY); auto using Forall_repeat_VQ; apply sys_lq_pS; auto using box11. }
  rewrite QL by exact HB. destruct Hxy as (H & H1 & H2). unfold tm in *. assert (Ek : k = n - 2) by reflexivity.
  destruct (Z.leb_spec x k) as [L1|L1]; cbn [fst snd].
  - rewrite col_two by lia. destruct (Z.ltb_spec x k).
    + rewrite pmono_qS_add. destruct (Z.leb_spec (x + 1) k); [|lia]. reflexivity.
    + rewrite pmono_qS_add. destruct (Z.leb_spec (x + 1) k); [lia|]. destruct (Z.ltb_spec (y + 1) n); [|lia]. cbn [fst snd].
      replace (y + 1 - 1) with y by lia. replace (x + 1 - n + 1) with 0 by lia. reflexivity.
  - destruct (Z.leb_spec (x + 1) k); [lia|]. destruct (Z.ltb_spec y n) as [L2|L2]; cbn [fst snd].
    + rewrite col_two by lia. destruct (Z.ltb_spec (y - 1) k).
      * rewrite pmono_qS_add. destruct (Z.ltb_spec (y + 1) n); [|lia]. cbn [fst snd].
        replace (y + 1 - 1) with (y - 1 + 1) by lia. replace (x + 1 - n + 1) with (x - n + 1 + 1) by lia. reflexivity.
      * rewrite pmono_qS_add. destruct (Z.ltb_spec (y + 1) n); [lia|]. cbn [fst snd].
        replace (y + 1 - n) with 0 by lia. replace (x + 1 - n) with (x - n + 1) by lia. reflexivity.
    + rewrite col_two by lia. destruct (Z.ltb_spec (y + 1) n); [lia|]. destruct (Z.ltb_spec (x - n) k); [|lia].
      rewrite pmono_qS_add. cbn [fst snd]. replace (x - n + 1) with (x + 1 - n) by lia. replace (y - n + 1) with (y + 1 - n) by lia. reflexivity.
Qed.

(** the terms of the product of the classes with the rows a, b and c, e *)
Definition lo (p r : Z) : Z := Z.max 0 (p + r - k).
Definition cnt (p r : Z) : nat := Z.to_nat (Z.min p r - lo p r + 1).
Definition tms (a b c e : Z) : list (nat * list Z) :=
  map (fun j => tm (a + c - (lo (a - b) (c - e) + Z.of_nat j)) (b + e + (lo (a - b) (c - e) + Z.of_nat j))) (seq 0 (cnt (a - b) (c - e))).

Lemma tms_ok a b c e j : 0 <= b <= a -> a <= k -> 0 <= e <= c -> c <= k -> (j < cnt (a - b) (c - e))%nat ->
  okxy (a + c - (lo (a - b) (c - e) + Z.of_nat j)) (b + e + (lo (a - b) (c - e) + Z.of_nat j)).
Proof. unfold cnt, lo, okxy, k in *. lia. Qed.

Lemma lsum_step (f f' : nat -> nat * list Z) N :
  (forall j, (j < N)%nat -> peq (MM (pS (two_rows 1 1)) (pmono (qS (fst (f j)) (snd (f j))))) (pmono (qS (fst (f' j)) (snd (f' j))))) ->
  peq (MM (pS (two_rows 1 1)) (lsum (map f (seq 0 N)))) (lsum (map f' (seq 0 N))).
Proof.
  intros H. assert (G : forall L, (forall j, In j L -> (j < N)%nat) -> peq (MM (pS (two_rows 1 1)) (lsum (map f L))) (lsum (map f' L))).
  { induction L as [|j L IH]; intros HL.
    - cbn [map lsum fold_right]. unfold MA. pose proof (sys_scale_r (t := TA) (pi := piA 2 k true) (k := k) (fuel := giam_fuel (gA 2 k)) (pS (two_rows 1 1)) (pS []) 0%Qc) as E.
      assert (Z0 : forall p, peq (pscale 0%Qc p) pzero) by (intros p mo; rewrite coef_pscale; unfold pzero; cbn; ring).
      rewrite !Z0 in E. exact E.
    - cbn [map lsum fold_right]. unfold MA. rewrite sys_add_r. rewrite (H j) by (apply HL; left; auto). fold (lsum (map f L)). fold (lsum (map f' L)).
      rewrite (IH (fun i Hi => HL i (or_intror Hi))). reflexivity. }
  apply G. intros j Hj. apply in_seq in Hj. lia.
Qed.

(** peeling off columns of the first factor *)
Lemma peel c e : 0 <= e <= c -> c <= k -> forall t p, 0 <= p -> p + Z.of_nat t <= k ->
  peq (MM (pS (two_rows p 0)) (pS (two_rows c e))) (lsum (tms p 0 c e)) ->
  peq (MM (pS (two_rows (p + Z.of_nat t) (Z.of_nat t))) (pS (two_rows c e))) (lsum (tms (p + Z.of_nat t) (Z.of_nat t) c e)).
Proof.
  intros He Hc. induction t as [|t IH]; intros p Hp Ht H0.
  - replace (p + Z.of_nat 0) with p by lia. exact H0.
  - specialize (IH p Hp ltac:(lia) H0). set (a := p + Z.of_nat t) in *. set (b := Z.of_nat t) in *.
    replace (p + Z.of_nat (S t)) with (a + 1) by lia. replace (Z.of_nat (S t)) with (b + 1) by lia.
    assert (E : peq (pS (two_rows (a + 1) (b + 1))) (MM (pS (two_rows 1 1)) (pS (two_rows a b)))).
    { rewrite col_two by lia. destruct (Z.ltb_spec a k); [|lia]. reflexivity. }
    unfold MA in E |- *. rewrite E.
    rewrite (sys_assoc SY) by (apply sys_lq_pS; auto using box11; apply two_box; lia).
    unfold MA in IH. rewrite IH. unfold tms. replace (a + 1 - (b + 1)) with (a - b) by lia.
    apply lsum_step. intros j Hj. pose proof (tms_ok a b c e j ltac:(lia) ltac:(lia) He Hc Hj) as OK. rewrite tm_step; auto.
    + replace (a + c - (lo (a - b) (c - e) + Z.of_nat j) + 1) with (a + 1 + c - (lo (a - b) (c - e) + Z.of_nat j)) by lia.
      replace (b + e + (lo (a - b) (c - e) + Z.of_nat j) + 1) with (b + 1 + e + (lo (a - b) (c - e) + Z.of_nat j)) by lia. reflexivity.
    + unfold k, lo in *. lia.
Qed.
Lemma tms_comm a b c e : tms a b c e = tms c e a b.
Proof.
  unfold tms. replace (lo (a - b) (c - e)) with (lo (c - e) (a - b)) by (unfold lo; lia).
  replace (cnt (a - b) (c - e)) with (cnt (c - e) (a - b)) by (unfold cnt, lo; lia). apply map_ext. intros j. f_equal; lia.
Qed.

Lemma tm_inj x y x' y' : okxy x y -> okxy x' y' -> tm x y = tm x' y' -> x = x' /\ y = y'.
Proof.
  intros (H & H1 & H2) (H' & H1' & H2'). unfold tm, k in *.
  destruct (Z.leb_spec x (n - 2)) as [L|L]; [|destruct (Z.ltb_spec y n) as [L2|L2]];
  (destruct (Z.leb_spec x' (n - 2)) as [L'|L']; [|destruct (Z.ltb_spec y' n) as [L2'|L2']]); intros E; try discriminate E;
  injection E as E; apply two_inj in E; lia.
Qed.
Lemma tms_NoDup a b c e : 0 <= b <= a -> a <= k -> 0 <= e <= c -> c <= k -> NoDup (tms a b c e).
Proof.
  intros. unfold tms. set (f := fun j : nat => _). assert (Inj : forall i j, (i < cnt (a - b) (c - e))%nat -> (j < cnt (a - b) (c - e))%nat -> f i = f j -> i = j).
  { intros i j Hi Hj E. apply tm_inj in E; try (apply tms_ok; auto). lia. }
  apply FinFun_nodup_map; [apply seq_NoDup|]. intros i j Hi Hj. apply in_seq in Hi. apply in_seq in Hj. apply Inj; lia.
Qed.
Lemma tms_in a b c e d nu : 0 <= b <= a -> a <= k -> 0 <= e <= c -> c <= k ->
  (In (d, nu) (tms a b c e) <-> exists i, lines_index n a b c e i /\ lines_term n (a + c - i) (b + e + i) d nu).
Proof.
  intros Hb Ha He Hc. unfold tms. rewrite in_map_iff. split.
  - intros (j & E & Hj). apply in_seq in Hj. pose proof (tms_ok a b c e j Hb Ha He Hc ltac:(lia)) as (O1 & O2 & _).
    exists (lo (a - b) (c - e) + Z.of_nat j). split; [unfold lines_index, cnt, lo, k in *; lia|]. apply tm_term; auto.
  - intros (i & (I1 & I2 & I3 & I4) & HT). exists (Z.to_nat (i - lo (a - b) (c - e))).
    assert (EI : lo (a - b) (c - e) + Z.of_nat (Z.to_nat (i - lo (a - b) (c - e))) = i) by (unfold lo, k; lia).
    rewrite EI. split; [symmetry; apply tm_term; auto; unfold k; lia|]. apply in_seq. unfold cnt, lo, k in *. lia.
Qed.

(** the product of two special classes *)
Lemma base p r : 0 <= p <= k -> 0 <= r <= k -> peq (MM (pS (two_rows p 0)) (pS (two_rows r 0))) (lsum (tms p 0 r 0)).
Proof.
  intros Hp Hr. pose proof (two_box p 0 ltac:(lia) ltac:(lia)) as Bp. pose proof (two_box r 0 ltac:(lia) ltac:(lia)) as Br.
  assert (SL := lsum_is _ (tms_NoDup p 0 r 0 ltac:(lia) ltac:(lia) ltac:(lia) ltac:(lia))).
  apply (is_sum_unique _ _ (fun d nu => In (d, nu) (tms p 0 r 0))); [|exact SL].
  destruct (Z.eq_dec p 0) as [->|Np].
  - change (two_rows 0 0) with (@nil Z). eapply is_sum_peq; [symmetry; apply (sys_unit SY); apply sys_lq_pS; auto|].
    eapply is_sum_iff; [|apply is_sum_pS]. intros d mu. rewrite tms_in by lia. split.
    + intros (-> & ->). exists 0. unfold lines_index, lines_term. split; [unfold k in *; lia|]. left. split; [unfold k in *; lia|]. split; auto. f_equal; lia.
    + intros (i & HI & HT). assert (i = 0) as -> by (unfold lines_index in HI; lia).
      destruct HT as [(_ & -> & ->)|[(? & _)|(? & _)]]; [split; auto; f_equal; lia|unfold k in *; lia|unfold k in *; lia].
  - destruct (c43_api 2 n g p (pS (two_rows r 0)) Hg Hm1 ltac:(unfold k in *; lia)) as [_ (s & s' & E & E' & Er)]; [apply lin_comb_pS; auto|].
    destruct (c02 2 n g p (two_rows r 0) Hg Hm1 Br ltac:(unfold k in *; lia)) as (t & Et & St). rewrite E' in Et. injection Et as <-.
    assert (EP : two_rows p 0 = [p]) by (unfold two_rows; cbn; destruct (Z.eqb_spec p 0); [lia|reflexivity]).
    rewrite EP in *. eapply (MM_of 2 n g Hg Hm); [exact Bp|exact Br|exact E|].
    eapply is_sum_peq; [symmetry; exact Er|]. eapply is_sum_iff; [|exact St].
    destruct (two_part r 0 ltac:(lia)) as (A0 & A1 & A2 & AL).
    intros d mu. rewrite tms_in by lia. fold k. split.
    + intros (Hmu & [(-> & HS & HZ)|(-> & [HB _] & _)]).
      * destruct (box_two mu Hmu) as (x & y & -> & Hxy & Hx). destruct (two_part x y Hxy) as (X0 & X1 & X2 & XL).
        assert (Sz : forall l, (length l <= 2)%nat -> size l = part l 0 + part l 1).
        { intros [|u [|v [|w l]]] HL; unfold size, part; cbn in *; lia. }
        rewrite !Sz in HZ by auto. rewrite X0, X1, A0, A1 in HZ. pose proof (HS 0%nat) as H0. rewrite X1, X0, A0 in H0.
        exists y. split; [unfold lines_index, k in *; lia|]. left. split; [unfold k in *; lia|]. split; auto. f_equal; lia.
      * specialize (HB 1%nat ltac:(lia)). rewrite A1 in HB. pose proof (is_partition_nonneg mu 1 (proj1 Hmu)). lia.
    + intros (i & HI & HT). unfold lines_index in HI. assert (T1 : p + r - i <= k) by (unfold k; lia).
      destruct HT as [(_ & -> & ->)|[(? & _)|(? & _)]]; [|unfold k in *; lia|unfold k in *; lia].
      pose proof (two_box (p + r - i) (0 + 0 + i) ltac:(lia) T1) as HB. split; auto. left. split; auto.
      destruct (two_part (p + r - i) (0 + 0 + i) ltac:(lia)) as (X0 & X1 & X2 & XL). split.
      * intros [|[|j]]; rewrite ?X0, ?X1, ?X2, ?A0, ?A1, ?A2; lia.
      * assert (Sz : forall l, (length l <= 2)%nat -> size l = part l 0 + part l 1).
        { intros [|u [|v [|w l]]] HL; unfold size, part; cbn in *; lia. }
        rewrite !Sz by auto. lia.
Qed.
Lemma lines_MM a b c e : 0 <= b <= a -> a <= k -> 0 <= e <= c -> c <= k ->
  peq (MM (pS (two_rows a b)) (pS (two_rows c e))) (lsum (tms a b c e)).
Proof.
  intros Hb Ha He Hc.
  assert (G : forall c e p, 0 <= e <= c -> c <= k -> 0 <= p <= k -> peq (MM (pS (two_rows p 0)) (pS (two_rows c e))) (lsum (tms p 0 c e)) ->
    forall a b, a - b = p -> 0 <= b <= a -> a <= k -> peq (MM (pS (two_rows a b)) (pS (two_rows c e))) (lsum (tms a b c e))).
  { clear a b c e Hb Ha He Hc. intros c e p He Hc Hp H a b E Hb Ha. pose proof (peel c e He Hc (Z.to_nat b) p ltac:(lia) ltac:(lia) H) as P.
    replace (p + Z.of_nat (Z.to_nat b)) with a in P by lia. replace (Z.of_nat (Z.to_nat b)) with b in P by lia. exact P. }
  apply (G c e (a - b)); try lia. rewrite tms_comm.
  assert (C : peq (MM (pS (two_rows (a - b) 0)) (pS (two_rows c e))) (MM (pS (two_rows c e)) (pS (two_rows (a - b) 0)))).
  { apply (sys_comm SY); apply sys_lq_pS; apply two_box; lia. }
  rewrite C. apply (G (a - b) 0 (c - e)); try lia. apply base; lia.
Qed.

Lemma c93 a b c e : 0 <= b <= a -> a <= k -> 0 <= e <= c -> c <= k ->
  exists r s, mult g (pS (two_rows a b)) (pS (two_rows c e)) = Ok r /\ qmult g (pS (two_rows a b)) (pS (two_rows c e)) = Ok s /\
    is_sum_of s (fun d nu => exists i, lines_index n a b c e i /\ lines_term n (a + c - i) (b + e + i) d nu) /\
    is_sum_of r (fun d nu => d = 0%nat /\ exists i, lines_index n a b c e i /\ a + c - i <= n - 2 /\ nu = two_rows (a + c - i) (b + e + i)).
Proof.
  intros Hb Ha He Hc. pose proof (two_box a b Hb Ha) as B1. pose proof (two_box c e He Hc) as B2.
  destruct (c09 2 n g Hg Hm1 (pS (two_rows a b)) (pS (two_rows c e))) as (s & r & E1 & E2 & SQ); [apply lin_comb0_pS; auto|apply lin_comb0_pS; auto|].
  exists r, s. split; auto. split; auto.
  assert (SS : is_sum_of s (fun d nu => exists i, lines_index n a b c e i /\ lines_term n (a + c - i) (b + e + i) d nu)).
  { destruct (qmult_MA 2 k Hm1 Hk _ _ B1 B2) as (s' & E' & P' & _). rewrite (g_eq 2 n g Hg) in E1. fold k in E1. rewrite E1 in E'. injection E' as <-.
    eapply is_sum_peq; [symmetry; rewrite P'; apply lines_MM; auto|].
    eapply is_sum_iff; [|apply lsum_is; apply tms_NoDup; auto]. intros d nu. apply tms_in; auto. }
  split; auto.
  destruct (c50 2 n g _ _ Hg Hm1 B1 B2) as (r' & Er' & Lr & _). rewrite E2 in Er'. injection Er' as <-.
  eapply is_sum_iff; [|exact (qfree_sum s r _ _ SS SQ Lr)]. intros d nu. cbv beta. split.
  - intros (-> & i & HI & [(H1 & _ & ->)|[(_ & _ & H & _)|(_ & H & _)]]); [|discriminate|discriminate]. split; auto. exists i. auto.
  - intros (-> & i & HI & H1 & ->). split; auto. exists i. split; auto. left. auto.
Qed.
End S.

Lemma c93_classes n g : Grassmannian 2 n = Ok g -> 3 <= n ->
  exists L, schub_classes g = Ok L /\ forall l, In l L <-> exists a b, l = two_rows a b /\ 0 <= b <= a /\ a <= n - 2.
Proof.
  intros Hg Hn. destruct (c12 2 n g Hg ltac:(lia)) as (L & E & _ & HL & _). exists L. split; auto. intros l. rewrite HL. split.
  - apply box_two.
  - intros (a & b & -> & H1 & H2). apply two_box; auto.
Qed.
