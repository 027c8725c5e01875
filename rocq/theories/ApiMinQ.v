(** The lemmas behind C90 in PropsMinQ.v. *)

From Coq Require Import ZArith List Lia Bool Permutation QArith Qcanon Setoid Morphisms.
From Verif Require Import Py OrderFacts PyFacts ModelPart ModelQcalc ModelPoly ModelStr ModelGr Spec SpecRing SpecPieri SpecReach SpecIter SpecMinQ
  PolyFacts SuppFacts OpTheory PartFacts ConvA ConjFacts PieriBKT PieriCoef PieriD QPieriD PresA WSum Sys Sys2 SysApi RingA FactsA ApiA ApiConvA GrInv RingData ApiPieriP ApiRing ApiRingD
  DualSys ApiDual TopClass Reach ApiReach ReachQ ReachMax IterFacts IndexB MinQ.
Import ListNotations.
Open Scope Z_scope.

Section Gen.
Context {g : gr} {qq : bool} {V : list Z -> Prop} {I : Z -> Prop} {mu : list Z -> nat}.
Hypothesis H : pieri_sys (g_type g) (piq g qq) V I (g_k g) mu (giam_fuel g).
Hypothesis HP : forall i l, I i -> V l -> exists r, opq g qq i (pS l) = Ok r /\ forall d x, (0 <= coef r (qS d x))%Qc.
Hypothesis HD : dual_data g qq V I.

Lemma reachq_chain x d y : V x -> (@reachq (piq g qq) I x d y <-> chain_q (opq g qq) I x d y).
Proof.
  intros Hx. split; intros HR.
  - induction HR as [|d y i e z HR IH Hi Hc]; [apply chain_q_refl|].
    destruct (op_P H i y Hi (reachq_V H x d y Hx HR)) as (r & E & Pr). apply (chain_q_step _ _ x d y i r e z); auto. rewrite (Pr _). auto.
  - induction HR as [|d y i r e z HR IH Hi E Hc]; [apply rq_refl|].
    destruct (op_P H i y Hi (reachq_V H x d y Hx IH)) as (r' & E' & Pr). rewrite E in E'. injection E' as <-.
    apply (rq_step x d y i e z); auto. rewrite <- (Pr _). auto.
Qed.
Lemma gen_min : never_zero V (mulq g qq) (opq g qq) I -> smallest_q_law V (mulq g qq) (dualize g) (opq g qq) I.
Proof.
  intros (HN & _). destruct HD as (dl & H1 & H2 & H3 & H4 & _). intros lam nu Hl Hn.
  destruct (api_prod H (pS lam) (pS nu)) as (r & Er & Pr & _); auto using lin_comb_poly_in, lin_comb_pS.
  destruct (HN lam nu Hl Hn) as (r' & Er' & Nr). assert (E : mulq g qq (pS lam) (pS nu) = Ok r) by (destruct qq; exact Er). rewrite E in Er'. injection Er' as <-.
  destruct (H4 nu Hn) as (d & Ed & Pd).
  destruct (least_reachq H (P_pos H HP) dl H1 H2 H3 lam nu Hl Hn) as (e & ((x & Hx) & Hmin) & HR & HL); [rewrite <- Pr; auto|].
  exists r, d, (dl nu), e. split; auto. split; auto. split; auto. split; auto. split.
  - split; [exists x; rewrite (Pr _); auto|]. intros f y Hc. rewrite (Pr _) in Hc. eauto.
  - split; [apply reachq_chain; auto|]. intros f Hf. apply HL. apply reachq_chain; auto.
Qed.
End Gen.

Lemma c90_A m n g : Grassmannian m n = Ok g -> 1 <= m ->
  smallest_q_law (in_box m (n - m)) (qmult g) (dualize g) (qpieri g) (fun i => 1 <= i <= n - m).
Proof.
  intros Hg Hm. pose proof (dual_A m n g true Hg Hm) as D. pose proof (pos_A m n g true Hg Hm) as P. pose proof (c75_A m n g Hg Hm) as Z.
  apply gr_inv in Hg. destruct Hg as (_ & Hk & ->).
  exact (gen_min (g := gA m (n - m)) (qq := true) (sysA m (n - m) Hm Hk true) P D Z).
Qed.
Lemma c90_IG m N g : IsotropicGrassmannian m N = Ok g -> 1 <= m ->
  smallest_q_law (class_IG m N) (qmult g) (dualize g) (qpieri g) (fun i => 1 <= i <= N - m).
Proof.
  intros Hg Hm. pose proof (dual_IG m N g true Hg Hm) as D. destruct (rd_IG m N g Hg Hm) as (mu & R).
  exact (gen_min (qq := true) (rd_qu _ _ _ _ R) (graded_nonneg g true _ _ _ (rd_gq _ _ _ _ R)) D (c75_IG m N g Hg Hm)).
Qed.
Lemma c90_OGodd m N g : OrthogonalGrassmannian m N = Ok g -> Z.odd N = true -> 1 <= m <= N / 2 ->
  smallest_q_law (class_OG m N) (qmult g) (dualize g) (qpieri g) (fun i => 1 <= i <= N - 1 - m).
Proof.
  intros Hg HN Hm. pose proof (dual_OGodd m N g true Hg HN Hm) as D. destruct (rd_OGodd m N g Hg HN Hm) as (mu & R).
  exact (gen_min (qq := true) (rd_qu _ _ _ _ R) (graded_nonneg g true _ _ _ (rd_gq _ _ _ _ R)) D (c75_OGodd m N g Hg HN Hm)).
Qed.
Lemma c90_OGeven m N g : OrthogonalGrassmannian m N = Ok g -> Z.even N = true -> 4 <= N -> 1 <= m <= N / 2 -> m <> N / 2 - 1 ->
  smallest_q_law (class_OG m N) (qmult g) (dualize g) (qpieri g) (index_even m N).
Proof.
  intros Hg HN H4 Hm Hm1. pose proof (dual_OGeven m N g true Hg HN H4 Hm (fun _ => Hm1)) as D.
  destruct (half_even m N g Hg HN H4 Hm) as (mu & R). specialize (R true (fun _ => Hm1)).
  exact (gen_min (qq := true) (hf_sys _ _ _ _ _ R) (graded_nonneg g true _ _ _ (hf_gr _ _ _ _ _ R)) D (c75_OGeven m N g Hg HN H4 Hm Hm1)).
Qed.

Lemma chain_q_trans op J x d y e z : chain_q op J x d y -> chain_q op J y e z -> chain_q op J x (d + e) z.
Proof. intros H1 H2. induction H2; [rewrite Nat.add_0_r; auto|]. rewrite Nat.add_assoc. eapply chain_q_step; eauto. Qed.

(** ** Gr(m,n) *)
Section A.
Variables (m n : Z) (g : gr).
Hypothesis Hg : Grassmannian m n = Ok g.
Hypothesis Hm : 1 <= m.
Notation V := (in_box m (n - m)).
Notation J := (fun i => 1 <= i <= n - m).

Lemma chain_lift x y : V x -> chain (pieri g) J x y -> V y /\ chain_q (qpieri g) J x 0 y.
Proof.
  intros Hx. induction 1 as [|y z i r HC (Vy & IH) Hi E Ho]; [split; auto; apply chain_q_refl|].
  destruct (c01 m n g i y Hg Hm Vy ltac:(lia)) as (p & E' & S). rewrite E in E'. injection E' as <-.
  apply (is_sum_occurs _ _ _ S) in Ho. destruct Ho as (d & _ & Hz & Hs & Hsz). split; auto.
  destruct (c02 m n g i y Hg Hm Vy Hi) as (p & E' & S').
  apply (chain_q_step _ _ x 0 y i p 0 z); auto. rewrite (proj1 S' 0%nat z); [discriminate|]. split; auto.
Qed.
Lemma le_chain x y : V x -> V y -> (forall j, part x j <= part y j) -> chain_q (qpieri g) J x 0 y.
Proof. intros Hx Hy HL. apply chain_lift; auto. apply (chain_nested m n g x y Hg Hm Hx Hy). auto. Qed.

Definition fillc (l : list Z) : list Z := map (fun j => Z.max 1 (part l (Z.to_nat j))) (zrange 0 m).
Definition barc (l : list Z) : list Z := part_clip (map (fun x => x - 1) (tl l)).
Lemma fill_part l j : part (fillc l) j = if Z.of_nat j <? m then Z.max 1 (part l j) else 0.
Proof.
  unfold fillc. destruct (Z.ltb_spec (Z.of_nat j) m).
  - rewrite part_map_zrange by lia. rewrite Nat2Z.id. reflexivity.
  - unfold part. apply nth_overflow. rewrite map_length. rewrite length_zrange. lia.
Qed.
Lemma fill_box l : 1 <= n - m -> V l -> V (fillc l).
Proof.
  intros Hk (Pl & Ll & Hl). assert (Len : length (fillc l) = Z.to_nat m) by (unfold fillc; rewrite map_length, length_zrange; lia).
  split; [split|split].
  - intros j Hj. rewrite fill_part. destruct (Z.ltb_spec (Z.of_nat j) m); lia.
  - intros j. rewrite !fill_part. pose proof (proj2 Pl j). destruct (Z.ltb_spec (Z.of_nat (S j)) m), (Z.ltb_spec (Z.of_nat j) m); lia.
  - lia.
  - rewrite fill_part. destruct (Z.ltb_spec (Z.of_nat 0) m); lia.
Qed.
Lemma size_pred l : size (map (fun x => x - 1) l) = size l - Z.of_nat (length l).
Proof. induction l as [|a l IH]; [reflexivity|]. cbn [map length]. rewrite !size_cons, IH. lia. Qed.
Lemma part_pred l j : part (map (fun x => x - 1) l) j = if (j <? length l)%nat then part l j - 1 else 0.
Proof.
  destruct (Nat.ltb_spec j (length l)); [rewrite part_map_in by auto; reflexivity|]. unfold part. apply nth_overflow. rewrite map_length. lia.
Qed.
Lemma bar_facts x : V x -> (forall j, Z.of_nat j < m -> 1 <= part x j) ->
  V (barc x) /\ (forall j, part (barc x) j = if Z.of_nat (S j) <? m then part x (S j) - 1 else 0) /\ size (barc x) = size x - part x 0 - (m - 1).
Proof.
  intros (Px & Lx & Hx) H1. assert (Len : length x = Z.to_nat m).
  { destruct (Nat.eq_dec (length x) (Z.to_nat m)) as [|Hne]; auto. exfalso. specialize (H1 (length x) ltac:(lia)). unfold part in H1. rewrite nth_overflow in H1 by lia. lia. }
  destruct x as [|a l]; [cbn [length] in Len; lia|]. cbn [length] in Len. unfold barc. cbn [tl].
  assert (PP : forall j, part (map (fun x => x - 1) l) j = if Z.of_nat (S j) <? m then part (a :: l) (S j) - 1 else 0).
  { intros j. rewrite part_pred. change (part (a :: l) (S j)) with (part l j). destruct (Nat.ltb_spec j (length l)), (Z.ltb_spec (Z.of_nat (S j)) m); auto; lia. }
  assert (R : row_list (length l) (map (fun x => x - 1) l)).
  { split; [apply map_length|]. split; intros j; rewrite !PP.
    - destruct (Z.ltb_spec (Z.of_nat (S j)) m); [|lia]. specialize (H1 (S j) ltac:(lia)). lia.
    - pose proof (proj2 Px (S j)). destruct (Z.ltb_spec (Z.of_nat (S (S j))) m), (Z.ltb_spec (Z.of_nat (S j)) m); try lia. specialize (H1 (S j) ltac:(lia)). lia. }
  destruct (row_clip _ _ R) as (Pc & Lc). split; [split; [auto|split; [lia|]]|split].
  - rewrite part_clip_part, PP. pose proof (proj2 Px 0%nat). pose proof (H1 0%nat ltac:(lia)). destruct (Z.ltb_spec (Z.of_nat 1) m); lia.
  - intros j. rewrite part_clip_part. apply PP.
  - change (size (part_clip (map (fun x => x - 1) l)) = size (a :: l) - a - (m - 1)). rewrite size_cons.
    assert (E : size (part_clip (map (fun x => x - 1) l)) = size (map (fun x => x - 1) l)) by apply zsum_clip. rewrite E, size_pred. lia.
Qed.

Definition loop_le (e : nat) (x y : list Z) : Prop := forall j, part x (j + e)%nat <= part y j + Z.of_nat e.

Lemma chain_loop x e y : V x -> chain_q (qpieri g) J x e y -> V y /\ loop_le e x y.
Proof.
  intros Hx. induction 1 as [|d y i r e z HC (Vy & IH) Hi E Hc]; [split; auto; intros j; rewrite Nat.add_0_r; lia|].
  destruct (c02 m n g i y Hg Hm Vy Hi) as (p & E' & SS). rewrite E in E'. injection E' as <-.
  destruct (proj2 SS _ Hc) as (d' & z' & (Vz & HZ) & HP). apply qS_inj in HP. destruct HP as [<- <-]. split; auto. intros j.
  destruct HZ as [(-> & Hs & _)|(-> & (_ & Hb) & _)].
  - rewrite Nat.add_0_r. specialize (IH j). specialize (Hs j). lia.
  - specialize (IH (S j)). replace (j + (d + 1))%nat with (S j + d)%nat by lia. destruct (Z_lt_le_dec (Z.of_nat j + 1) m) as [Hj|Hj].
    + specialize (Hb j Hj). lia.
    + assert (E0 : part x (S j + d) = 0) by (unfold part; apply nth_overflow; destruct Hx as (_ & Lx & _); lia).
      pose proof (is_partition_nonneg z j ltac:(apply Vz)). lia.
Qed.
Lemma loop_chain e : 1 <= n - m -> forall x y, V x -> V y -> loop_le e x y -> chain_q (qpieri g) J x e y.
Proof.
  intros Hk. induction e as [|e IH]; intros x y Hx Hy HL.
  - apply le_chain; auto. intros j. specialize (HL j). rewrite Nat.add_0_r in HL. lia.
  - pose proof (fill_box x Hk Hx) as Hf. assert (F1 : forall j, Z.of_nat j < m -> 1 <= part (fillc x) j) by (intros j Hj; rewrite fill_part; destruct (Z.ltb_spec (Z.of_nat j) m); lia).
    destruct (bar_facts _ Hf F1) as (Vb & Pb & Sb).
    assert (C1 : chain_q (qpieri g) J x 0 (fillc x)).
    { apply le_chain; auto. intros j. rewrite fill_part. destruct (Z.ltb_spec (Z.of_nat j) m); [lia|]. unfold part. rewrite nth_overflow; [lia|]. destruct Hx as (_ & Lx & _). lia. }
    assert (C2 : chain_q (qpieri g) J (fillc x) 1 (barc (fillc x))).
    { assert (B0 : 1 <= part (fillc x) 0 <= n - m) by (split; [apply F1; lia|apply Hf]). set (i := n - m + 1 - part (fillc x) 0).
      destruct (c02 m n g i _ Hg Hm Hf ltac:(unfold i; lia)) as (p & E & SS).
      apply (chain_q_step _ _ _ 0 (fillc x) i p 1); [apply chain_q_refl|unfold i; lia|auto|]. rewrite (proj1 SS); [discriminate|]. split; auto. right. split; auto. split; [|unfold i; lia].
      split; intros j Hj; rewrite Pb.
      - pose proof (proj2 (proj1 Hf) j). specialize (F1 j Hj). destruct (Z.ltb_spec (Z.of_nat (S j)) m); lia.
      - destruct (Z.ltb_spec (Z.of_nat (S j)) m); lia. }
    replace (S e) with (0 + 1 + e)%nat by lia. apply (chain_q_trans _ _ x (0 + 1) (barc (fillc x)) e y); [apply (chain_q_trans _ _ x 0 (fillc x) 1); auto|]. apply IH; auto.
    intros j. rewrite Pb. pose proof (is_partition_nonneg y j ltac:(apply Hy)). destruct (Z.ltb_spec (Z.of_nat (S (j + e))) m) as [Hj|Hj]; [|lia].
    rewrite fill_part. destruct (Z.ltb_spec (Z.of_nat (S (j + e))) m); [|lia]. specialize (HL j). replace (j + S e)%nat with (S (j + e)) in HL by lia. lia.
Qed.
Lemma c90_box lam mu : V lam -> V mu ->
  exists r e, qmult g (pS lam) (pS mu) = Ok r /\ smallest_q r e /\
    forall d, (e <= d)%nat <-> forall j, Z.of_nat j < m ->
      part lam (j + d) + part mu (Z.to_nat (m - 1 - Z.of_nat j)) <= n - m + Z.of_nat d.
Proof.
  intros Hl Hmu. destruct (c90_A m n g Hg Hm lam mu Hl Hmu) as (r & d & nu & e & Er & Ed & Hnu & Pd & HS & HC & HM).
  exists r, e. split; auto. split; auto.
  destruct (c17_class m n g mu Hg Hmu) as (nu' & d' & Ed' & Pd' & _ & HC0 & _). rewrite Ed in Ed'. injection Ed' as <-.
  rewrite Pd in Pd'. apply pS_peq_inj in Pd'. subst nu'.
  assert (HC' : forall j, Z.of_nat j < m -> part nu j = n - m - part mu (Z.to_nat (m - 1 - Z.of_nat j))).
  { intros j Hj. specialize (HC0 (Z.to_nat (m - 1 - Z.of_nat j)) ltac:(lia)). rewrite Z2Nat.id in HC0 by lia.
    replace (m - 1 - (m - 1 - Z.of_nat j)) with (Z.of_nat j) in HC0 by lia. rewrite Nat2Z.id in HC0. lia. }
  assert (LL : forall f, loop_le f lam nu <-> forall j, Z.of_nat j < m -> part lam (j + f) + part mu (Z.to_nat (m - 1 - Z.of_nat j)) <= n - m + Z.of_nat f).
  { intros f. split.
    - intros HL j Hj. specialize (HL j). rewrite HC' in HL by auto. lia.
    - intros HL j. destruct (Z_lt_le_dec (Z.of_nat j) m) as [Hj|Hj]; [rewrite HC' by auto; specialize (HL j Hj); lia|].
      assert (E0 : part lam (j + f) = 0) by (unfold part; apply nth_overflow; destruct Hl as (_ & Ll & _); lia).
      pose proof (is_partition_nonneg nu j ltac:(apply Hnu)). lia. }
  intros f. rewrite <- LL. split.
  - intros Hf. destruct (chain_loop lam e nu Hl HC) as (_ & HL). induction Hf as [|f Hf IH]; auto. intros j. specialize (IH j).
    pose proof (proj2 (proj1 Hl) (j + f)%nat). replace (j + S f)%nat with (S (j + f)) by lia. lia.
  - intros HL. destruct (Z_lt_le_dec (n - m) 1) as [Hk|Hk].
    + assert (E0 : forall z e, chain_q (qpieri g) J lam e z -> e = 0%nat) by (induction 1; auto; lia). rewrite (E0 _ _ HC). lia.
    + apply HM. apply loop_chain; auto.
Qed.
End A.

(** ** IG(n,2n) *)
Section LG.
Variables (N : Z) (g : gr).
Hypothesis Hg : IsotropicGrassmannian (N / 2) N = Ok g.
Hypothesis HN : 2 <= N.
Notation n := (N / 2).
Notation V := (kstrict_in 0 n n).
Notation J := (fun i => 1 <= i <= n).

Lemma LG_N : N = 2 * n.
Proof. apply ig_inv in Hg. destruct Hg as (n' & E1 & E2 & _). lia. Qed.
Lemma LG_V : class_IG n N = V.
Proof. pose proof LG_N. change (class_IG n N) with (kstrict_in (N / 2 - n) n (N - n)). f_equal; lia. Qed.
Lemma LG_q p l : V l -> p <= n -> exists r c, qpieri g p (pS l) = Ok r /\ expands r c /\ quantum_IG 0 n p l c.
Proof.
  intros Hl Hp. pose proof LG_N. destruct (c44_qIG' n N g p l Hg) as (r & c & E & EX & Q); [rewrite LG_V; auto|lia|].
  rewrite Z.sub_diag in Q. exists r, c. auto.
Qed.
Lemma LG_term p l x : V l -> (pieri_term 0 n p l x <-> V x /\ adds_horizontal_strip l x /\ size x = size l + p).
Proof.
  intros Hl. unfold pieri_term. rewrite Z.sub_0_r, Z.add_0_r. split; intros (A & B & C); split; auto; split; auto.
  - apply (arrow0 0); auto; [apply Hl|apply A].
  - apply (arrow0 0); auto; [apply Hl|apply A].
Qed.
Lemma LG_le x y : V x -> V y -> (forall j, part x j <= part y j) -> chain_q (qpieri g) J x 0 y.
Proof.
  intros Hx Hy HL. pose proof LG_N.
  assert (Hop : forall i l, 1 <= i <= n -> V l -> exists r, pieri g i (pS l) = Ok r /\ forall x, occurs r x <-> V x /\ adds_horizontal_strip l x /\ size x = size l + i).
  { intros i l Hi Hl'. destruct (c44_IG' n N g i l Hg) as (r & c & E & EX & HC); [rewrite LG_V; auto|]. exists r. split; auto. intros z.
    rewrite Z.sub_diag in HC. specialize (HC z). rewrite (occurs0 _ _ z EX), <- (LG_term i l z Hl').
    split; [|intros G; eapply term_IG; eauto]. intros Hc. destruct HC as [(G & _)|(_ & G)]; [auto|contradiction]. }
  assert (HC : chain (pieri g) J x y) by (apply (chain_strict n n (pieri g) Hop x y Hx Hy); auto).
  assert (G : V y /\ chain_q (qpieri g) J x 0 y); [|apply G]. clear Hy HL.
  induction HC as [|y z i r HC (Vy & IH) Hi E Ho]; [split; auto; apply chain_q_refl|].
  destruct (Hop i y Hi Vy) as (r' & E' & HS). rewrite E in E'. injection E' as <-. apply HS in Ho. split; [apply Ho|].
  destruct (LG_q i y Vy ltac:(lia)) as (r1 & c & E1 & (EX & _) & (Q0 & _)). apply (chain_q_step _ _ x 0 y i r1 0 z); auto. rewrite EX.
  apply (term_IG _ _ _ _ _ _ _ (Q0 z)). apply LG_term; auto.
Qed.
Definition rows_le (e : nat) (x y : list Z) : Prop := forall j, part x (j + e)%nat <= part y j.

Lemma LG_chain_rows x e y : V x -> chain_q (qpieri g) J x e y -> V y /\ rows_le e x y.
Proof.
  intros Hx. induction 1 as [|d y i r e z HC (Vy & IH) Hi E Hc]; [split; auto; intros j; rewrite Nat.add_0_r; lia|].
  destruct (LG_q i y Vy ltac:(lia)) as (r1 & c & E1 & (EX & _) & (Q0 & Q1 & Q2)). rewrite E in E1. injection E1 as <-. rewrite EX in Hc.
  destruct e as [|[|e]]; [| |rewrite Q2 in Hc by lia; congruence].
  - destruct (Q0 z) as [(HT & _)|(_ & G)]; [|congruence]. apply LG_term in HT; auto. destruct HT as (Vz & Hs & _). split; auto. intros j.
    rewrite Nat.add_0_r. specialize (IH j). specialize (Hs j). lia.
  - destruct (Q1 z) as [(HT & _)|(_ & G)]; [|congruence]. destruct HT as (((P1 & P2 & P3) & P4) & _ & HA).
    apply (arrow0 0) in HA; [|apply Vy|auto]. split.
    + split; [split; [eapply part_tail; eauto|split]|intros j; exact (P4 (S j))].
      * simpl in P2. lia.
      * pose proof (P4 0%nat) as G. change (part (n + 0 + 1 :: z) 0) with (n + 0 + 1) in G. change (part (n + 0 + 1 :: z) 1) with (part z 0) in G. lia.
    + intros j. specialize (IH (S j)). specialize (HA (S j)). change (part (n + 0 + 1 :: z) (S j)) with (part z j) in HA.
      replace (j + (d + 1))%nat with (S j + d)%nat by lia. lia.
Qed.
Lemma LG_drop a l : V (a :: l) -> V l /\ chain_q (qpieri g) J (a :: l) 1 l.
Proof.
  intros Hl. pose proof LG_N. pose proof (kstrict_tl _ _ _ _ _ Hl) as Hl'. split; auto.
  pose proof Hl as ((P1 & P2 & P3) & P4). assert (Ha : 0 < a <= n) by (pose proof (proj1 P1 0%nat ltac:(simpl; lia)) as G; change (part (a :: l) 0) with a in *; lia).
  set (p := n + 1 - a). destruct (LG_q p (a :: l) Hl ltac:(unfold p; lia)) as (r & c & E & (EX & _) & (_ & Q1 & _)).
  apply (chain_q_step _ _ _ 0 (a :: l) p r 1 l); [apply chain_q_refl|unfold p; lia|auto|]. rewrite EX. apply (term_IG _ _ _ _ _ _ _ (Q1 l)).
  replace (n + 0 + 1) with (n + 1) by lia. assert (HM : part (a :: l) 0 < n + 1) by (change (part (a :: l) 0) with a; lia).
  split; [|split].
  - apply (grow_kstrict 0 (n + 1) (a :: l) P1 HM); [|lia|lia]. split; [split; [exact P1|split]|exact P4]; lia.
  - pose proof (grow_size (n + 1) (a :: l) P1 HM) as G. change (part (a :: l) 0) with a in G. simpl tl in G. rewrite G. unfold p. lia.
  - apply (grow_arrow 0 0 (n + 1) (a :: l)); auto.
Qed.
Lemma LG_rows_chain e : forall x y, V x -> V y -> rows_le e x y -> chain_q (qpieri g) J x e y.
Proof.
  pose proof LG_N. induction e as [|e IH]; intros x y Hx Hy HL.
  - apply LG_le; auto. intros j. specialize (HL j). rewrite Nat.add_0_r in HL. lia.
  - destruct x as [|a l].
    + assert (V1 : V [1]).
      { split; [split; [split|split]|].
        - intros [|j] Hj; [unfold part; simpl; lia|simpl in Hj; lia].
        - intros [|[|j]]; unfold part; simpl; lia.
        - simpl. lia.
        - unfold part; simpl; lia.
        - intros [|[|j]]; unfold part; simpl; lia. }
      destruct (LG_drop 1 [] V1) as (V0 & C). replace (S e) with (0 + 1 + e)%nat by lia.
      apply (chain_q_trans _ _ [] (0 + 1) [] e y); [apply (chain_q_trans _ _ [] 0 [1] 1); auto|].
      * apply LG_le; auto. intros [|[|j]]; unfold part; simpl; lia.
      * apply IH; auto. intros j. rewrite part_nil_0. apply is_partition_nonneg. apply Hy.
    + destruct (LG_drop a l Hx) as (Vl & C). apply (chain_q_trans _ _ _ 1 l e); auto. apply IH; auto.
      intros j. specialize (HL j). replace (j + S e)%nat with (S (j + e)) in HL by lia. exact HL.
Qed.
Lemma c90_LG lam mu : class_IG n N lam -> class_IG n N mu ->
  exists r d nu e, qmult g (pS lam) (pS mu) = Ok r /\ dualize g (pS mu) = Ok d /\ class_IG n N nu /\ peq d (pS nu) /\
    smallest_q r e /\ forall f, (e <= f)%nat <-> forall j, part lam (j + f) <= part nu j.
Proof.
  intros Hl Hmu. pose proof LG_N. destruct (c90_IG n N g Hg ltac:(lia) lam mu Hl Hmu) as (r & d & nu & e & Er & Ed & Hnu & Pd & HS & HC & HM).
  exists r, d, nu, e. repeat (split; [solve [auto]|]). rewrite LG_V in *. replace (N - n) with n in * by lia. intros f. split.
  - intros Hf. destruct (LG_chain_rows lam e nu Hl HC) as (_ & HL). induction Hf as [|f Hf IH]; auto. intros j. specialize (IH j).
    pose proof (proj2 (proj1 (proj1 Hl)) (j + f)%nat). replace (j + S f)%nat with (S (j + f)) by lia. lia.
  - intros HL. apply HM. apply LG_rows_chain; auto.
Qed.
End LG.

(** ** The maximal orthogonal Grassmannians *)
Section Strict.
Variables (R n : Z) (op : Z -> poly -> res poly).
Hypothesis Hn : 1 <= n <= R.
Notation V := (kstrict_in 0 R n).
Notation J := (fun i => 1 <= i <= n).
Hypothesis Hop : forall i l, 1 <= i <= n -> V l -> exists r, op i (pS l) = Ok r /\
  forall e x, coef r (qS e x) <> 0%Qc <->
    (e = 0%nat /\ V x /\ adds_horizontal_strip l x /\ size x = size l + i) \/
    (e = 1%nat /\ part l 0 = n /\ V (n :: x) /\ adds_horizontal_strip (tl l) (n :: x) /\ size (n :: x) = size (tl l) + i).

Lemma st_le x y : V x -> V y -> (forall j, part x j <= part y j) -> chain_q op J x 0 y.
Proof.
  intros Hx Hy. remember (Z.to_nat (size y - size x)) as N eqn:EN. revert x EN Hx. induction N as [N IH] using (well_founded_induction Wf_nat.lt_wf).
  intros x -> Hx HN. destruct (list_eq_dec Z.eq_dec x y) as [->|Hne]; [apply chain_q_refl|].
  pose proof (proj1 Hx) as Bl. pose proof (proj1 Hy) as Bn.
  pose proof (up_strict R n x y Hx Hy HN) as Hu. pose proof (up_strip R n x y Bl Bn HN) as Us.
  pose proof (up_size R n x y Bl Bn HN) as Uz. pose proof (up_le R n x y Bl Bn HN) as Ul.
  assert (Ul' : forall j, part x j <= part (up x y) j) by (intros j; apply (Us j)).
  destruct (strip_size x (up x y) ltac:(apply Hx) ltac:(apply Hu) Ul') as (S1 & S2).
  destruct (strip_size (up x y) y ltac:(apply Hu) ltac:(apply Hy) Ul) as (S3 & _).
  assert (S4 : size x <> size (up x y)) by (intros E; apply Hne; apply (up_same R n x y Bl Bn HN); symmetry; auto).
  assert (Hp : part y 0 <= n) by apply Hy.
  apply (chain_q_trans _ _ _ 0 (up x y) 0); [|apply (IH (Z.to_nat (size y - size (up x y)))); auto; lia].
  set (i := size (up x y) - size x). assert (Hi : 1 <= i <= n) by (unfold i; lia).
  destruct (Hop i x Hi Hx) as (p & E & HS). apply (chain_q_step _ _ _ 0 x i p 0); auto; [apply chain_q_refl|].
  apply HS. left. split; auto. split; auto. split; auto. unfold i; lia.
Qed.
Definition rows2_le (e : nat) (x y : list Z) : Prop := forall j, part x (j + 2 * e)%nat <= part y j.
Lemma st_chain_rows x e y : V x -> chain_q op J x e y -> V y /\ rows2_le e x y.
Proof.
  intros Hx. induction 1 as [|d y i r e z HC (Vy & IH) Hi E Hc]; [split; auto; intros j; rewrite Nat.add_0_r; lia|].
  destruct (Hop i y Hi Vy) as (r1 & E1 & HS). rewrite E in E1. injection E1 as <-. apply HS in Hc.
  destruct Hc as [(-> & Vz & Hs & _)|(-> & _ & Vz & Hs & _)].
  - split; auto. intros j. rewrite Nat.add_0_r. specialize (IH j). specialize (Hs j). lia.
  - split; [eapply kstrict_tl; eauto|]. intros j. specialize (IH (S (S j))). specialize (Hs (S j)). change (part (n :: z) (S j)) with (part z j) in Hs.
    assert (E2 : part (tl y) (S j) = part y (S (S j))) by (destruct y; [rewrite !part_nil_0|]; reflexivity).
    replace (j + 2 * (d + 1))%nat with (S (S j) + 2 * d)%nat by lia. lia.
Qed.
Lemma st_tl l : V l -> V (tl l).
Proof. destruct l; auto. apply kstrict_tl. Qed.
Lemma st_top l : V l -> part l 0 < n -> V (n :: tl l) /\ (forall j, part l j <= part (n :: tl l) j) /\ adds_horizontal_strip l (n :: tl l) /\ size (n :: tl l) = size l + (n - part l 0).
Proof.
  intros Hl Hlt. assert (Pl : is_partition l) by apply Hl. split; [apply grow_kstrict; auto; lia|]. split; [intros j; apply grow_le; auto|]. split; [|apply grow_size; auto].
  intros j. split; [rewrite part_grow; apply Pl|apply grow_le; auto].
Qed.
Lemma st_drop x : V x -> V (tl (tl x)) /\ chain_q op J x 1 (tl (tl x)).
Proof.
  intros Hx. assert (V2 : V (tl (tl x))) by (apply st_tl, st_tl; auto). split; auto.
  assert (Hy : exists y, V y /\ (forall j, part x j <= part y j) /\ part y 0 = n /\ tl y = tl x).
  { destruct (Z_lt_le_dec (part x 0) n) as [Hlt|Hge].
    - destruct (st_top x Hx Hlt) as (A & B & _). exists (n :: tl x). auto.
    - exists x. split; auto. split; [lia|]. split; auto. pose proof (proj2 (proj2 (proj1 Hx))). lia. }
  destruct Hy as (y & Vy & HL & Hy0 & Ht). apply (chain_q_trans _ _ x 0 y 1); [apply st_le; auto|].
  assert (Hlt : part (tl y) 0 < n).
  { pose proof (proj2 Vy 0%nat) as G. rewrite Hy0 in G. specialize (G ltac:(lia)). assert (E : part (tl y) 0 = part y 1) by (destruct y; [rewrite !part_nil_0|]; reflexivity). lia. }
  destruct (st_top (tl y) (st_tl y Vy) Hlt) as (A & _ & B & C). pose proof (is_partition_nonneg (tl y) 0 ltac:(apply (st_tl y Vy))).
  set (i := n - part (tl y) 0). destruct (Hop i y ltac:(unfold i; lia) Vy) as (r & E & HS).
  apply (chain_q_step _ _ y 0 y i r 1); [apply chain_q_refl|unfold i; lia|auto|]. apply HS. right. rewrite <- Ht. auto.
Qed.
Lemma st_rows_chain e : forall x y, V x -> V y -> rows2_le e x y -> chain_q op J x e y.
Proof.
  induction e as [|e IH]; intros x y Hx Hy HL.
  - apply st_le; auto. intros j. specialize (HL j). rewrite Nat.add_0_r in HL. lia.
  - destruct (st_drop x Hx) as (V2 & C). apply (chain_q_trans _ _ _ 1 (tl (tl x)) e); auto. apply IH; auto.
    intros j. specialize (HL j). replace (j + 2 * S e)%nat with (S (S (j + 2 * e))) in HL by lia.
    assert (E : part (tl (tl x)) (j + 2 * e) = part x (S (S (j + 2 * e)))) by (destruct x as [|a [|b l]]; cbn [tl]; rewrite ?part_nil_0; try reflexivity; unfold part; cbn; destruct (_ + _)%nat; reflexivity). lia.
Qed.
Lemma st_law (W : list Z -> Prop) (mul : poly -> poly -> res poly) dual (I : Z -> Prop) : (forall x, W x <-> V x) -> (forall i, I i <-> 1 <= i <= n) ->
  smallest_q_law W mul dual op I -> forall lam mu, W lam -> W mu ->
  exists r d nu e, mul (pS lam) (pS mu) = Ok r /\ dual (pS mu) = Ok d /\ W nu /\ peq d (pS nu) /\
    smallest_q r e /\ forall f, (e <= f)%nat <-> forall j, part lam (j + 2 * f) <= part nu j.
Proof.
  intros HW HI HL lam mu Hl Hmu. destruct (HL lam mu Hl Hmu) as (r & d & nu & e & Er & Ed & Hnu & Pd & HS & HC & HM).
  assert (EC : forall x f y, chain_q op I x f y <-> chain_q op J x f y).
  { intros x f y. split; intros G; induction G; try apply chain_q_refl; eapply chain_q_step; eauto; apply HI; auto. }
  exists r, d, nu, e. repeat (split; [solve [auto]|]). apply HW in Hl, Hnu. apply EC in HC. intros f. split.
  - intros Hf. destruct (st_chain_rows lam e nu Hl HC) as (_ & G). induction Hf as [|f Hf IH]; auto. intros j. specialize (IH j).
    pose proof (proj2 (proj1 (proj1 Hl)) (j + 2 * f)%nat). pose proof (proj2 (proj1 (proj1 Hl)) (S (j + 2 * f))). replace (j + 2 * S f)%nat with (S (S (j + 2 * f))) by lia. lia.
  - intros G. apply HM. apply EC. apply st_rows_chain; auto.
Qed.
End Strict.

Lemma c90_OGmax N g lam mu : OrthogonalGrassmannian (N / 2) N = Ok g -> 3 <= N -> class_OG (N / 2) N lam -> class_OG (N / 2) N mu ->
  exists r d nu e, qmult g (pS lam) (pS mu) = Ok r /\ dualize g (pS mu) = Ok d /\ class_OG (N / 2) N nu /\ peq d (pS nu) /\
    smallest_q r e /\ forall f, (e <= f)%nat <-> forall j, part lam (j + 2 * f) <= part nu j.
Proof.
  intros Hg HN3. revert lam mu. set (m := N / 2) in *. destruct (Z.even N) eqn:EE.
  - assert (EN : N = 2 * m) by (unfold m; rewrite (Zdiv.Z_div_mod_eq_full N 2) at 1; rewrite Zmod_even, EE; lia).
    assert (EV : forall x, class_OG m N x <-> kstrict_in 0 m (m - 1) x).
    { intros x. unfold class_OG. rewrite EE. fold m. change (typed_in (m - m) m (N - 1 - m) x <-> kstrict_in 0 m (m - 1) x).
      replace (m - m) with 0 by lia. replace (N - 1 - m) with (m - 1) by lia. split; [|left; auto]. intros [G|(_ & _ & G & _)]; auto. lia. }
    intros lam mu. apply (st_law m (m - 1) (qpieri g) ltac:(lia)) with (I := index_even m N); auto.
    2:{ intros i. unfold index_even. fold m. lia. }
    2:{ apply c90_OGeven; auto; lia. }
    intros i l Hi Hl'. destruct (c44_qOG_even' m N g i l Hg EE ltac:(lia) ltac:(lia) ltac:(lia) ltac:(apply EV; auto)) as (r & c & E & (EX & _) & HC). exists r. split; auto. intros e x.
    fold m in HC. rewrite Z.eqb_refl in HC. destruct HC as (Q0 & Q1 & Q2). rewrite EX.
    assert (T0 : forall y, kstrict_in 0 m (m - 1) y -> shape y = y /\ type_of 0 y = 0).
    { intros y Hy. split; [apply shape_partition, Hy|]. unfold type_of. destruct (existsb (Z.eqb 0) y) eqn:X; auto. apply in_existsb in X. exfalso.
      destruct (In_nth _ _ 0 X) as (j & Hj & Ej). pose proof (proj1 (proj1 (proj1 Hy)) j Hj). unfold part in *. lia. }
    assert (HT : forall l x, kstrict_in 0 m (m - 1) l -> (pieri_term_D 0 (m - 1) i l x <-> kstrict_in 0 m (m - 1) x /\ adds_horizontal_strip l x /\ size x = size l + i)).
    { clear l Hl' x E Q0 Q1. intros l x Hl'. unfold pieri_term_D. rewrite Z.sub_0_r, Z.add_0_r, Z.abs_eq by lia. replace (m - 1 + 1) with m by lia. destruct (T0 l Hl') as (-> & ->). split.
      - intros (A & B & C & _). assert (A' : kstrict_in 0 m (m - 1) x) by (destruct A as [|(_ & _ & G & _)]; auto; lia).
        destruct (T0 x A') as (S' & _). rewrite S' in C. split; auto. split; auto. apply (arrow0 1); auto; [apply Hl'|apply A'].
      - intros (A & B & C). destruct (T0 x A) as (-> & ->). split; [left; auto|]. split; auto. split; [|lia]. apply (arrow0 1); auto; [apply Hl'|apply A]. }
    assert (HC : forall l x c, kstrict_in 0 m (m - 1) l -> coef_D 0 (m - 1) i l x c -> (c <> 0%Qc <-> kstrict_in 0 m (m - 1) x /\ adds_horizontal_strip l x /\ size x = size l + i)).
    { intros l0 x0 c0 Hl0 HC. rewrite <- (HT l0 x0 Hl0). split.
      + intros Hc. destruct HC as [(G & _)|(_ & G)]; [auto|contradiction].
      + intros G. destruct HC as [(_ & M & _ & H1 & ->)|(G' & _)]; [|contradiction]. specialize (H1 ltac:(lia)). unfold mult_D.
        replace (Z.abs i <? 0) with false by lia. replace (0 <? M) with true by lia. apply two_to_neq. lia. }
    destruct e as [|[|e]].
    + rewrite (HC l x _ Hl' (Q0 x)). split; [intros G; left; tauto|intros [(_ & G)|(G & _)]; [tauto|discriminate]].
    + specialize (Q1 x). destruct (Z.eqb_spec (part l 0) (m - 1)) as [E0|E0].
      * assert (Ht : kstrict_in 0 m (m - 1) (tl l)) by (destruct l; auto; eapply kstrict_tl; eauto).
        rewrite (HC (tl l) _ _ Ht Q1). split; [intros G; right; tauto|intros [(G & _)|(_ & _ & G)]; [discriminate|tauto]].
      * rewrite Q1. split; [congruence|intros [(G & _)|(_ & G & _)]; [discriminate|contradiction]].
    + rewrite Q2 by lia. split; [congruence|intros [(G & _)|(G & _)]; discriminate].
  - assert (EO : Z.odd N = true) by (rewrite <- Z.negb_even, EE; reflexivity).
    assert (EN : N = 2 * m + 1) by (unfold m; rewrite (Zdiv.Z_div_mod_eq_full N 2) at 1; rewrite Zmod_odd, EO; lia).
    assert (EV : class_OG m N = kstrict_in 0 m m) by (unfold class_OG; rewrite EE; fold m; change (kstrict_in (m - m) m (N - 1 - m) = kstrict_in 0 m m); f_equal; lia).
    intros lam mu. apply (st_law m m (qpieri g) ltac:(lia)) with (I := fun i => 1 <= i <= N - 1 - m).
    2:{ intros x. rewrite EV. reflexivity. }
    2:{ intros i. lia. }
    2:{ apply c90_OGodd; auto; unfold m in *; lia. }
    intros i l Hi Hl'. destruct (c44_qOG_odd' m N g i l Hg EO ltac:(unfold m in *; lia) ltac:(rewrite EV; auto)) as (r & c & E & (EX & _) & HC). exists r. split; auto. intros e x.
    fold m in HC. rewrite Z.eqb_refl in HC. destruct HC as (Q0 & Q1 & Q2). rewrite EX.
    assert (HC : forall l x c, kstrict_in 0 m m l -> coef_OG 0 m i l x c -> (c <> 0%Qc <-> kstrict_in 0 m m x /\ adds_horizontal_strip l x /\ size x = size l + i)).
    { intros l0 x0 c0 Hl0 HC.
      assert (HT : pieri_term 0 m i l0 x0 <-> kstrict_in 0 m m x0 /\ adds_horizontal_strip l0 x0 /\ size x0 = size l0 + i).
      { unfold pieri_term. rewrite Z.sub_0_r, Z.add_0_r. split; intros (A & B & C); split; auto; split; auto.
        - apply (arrow0 0); auto; [apply Hl0|apply A].
        - apply (arrow0 0); auto; [apply Hl0|apply A]. }
      rewrite <- HT. split; [|intros G; eapply term_OG; eauto]. intros Hc. destruct HC as [(G & _)|(_ & G)]; [auto|contradiction]. }
    destruct e as [|[|e]].
    + rewrite (HC l x _ Hl' (Q0 x)). split; [intros G; left; tauto|intros [(_ & G)|(G & _)]; [tauto|discriminate]].
    + specialize (Q1 x). destruct (Z.eqb_spec (part l 0) m) as [E0|E0].
      * assert (Ht : kstrict_in 0 m m (tl l)) by (destruct l; auto; eapply kstrict_tl; eauto).
        rewrite (HC (tl l) _ _ Ht Q1). split; [intros G; right; tauto|intros [(G & _)|(_ & _ & G)]; [discriminate|tauto]].
      * rewrite Q1. split; [congruence|intros [(G & _)|(_ & G & _)]; [discriminate|contradiction]].
    + rewrite Q2 by lia. split; [congruence|intros [(G & _)|(G & _)]; discriminate].
Qed.
