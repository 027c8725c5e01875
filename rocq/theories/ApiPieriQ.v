(** The Pieri rules of IG and OG at the level of the API: properties C25, C26
    and C44 (without OG(n,2n+2), see QPieriD1.v). *)

From Coq Require Import ZArith List Lia Bool Permutation QArith Qcanon.
From Verif Require Import Py OrderFacts PyFacts ModelPart ModelQcalc ModelPoly ModelGr Spec SpecPieri
  PolyFacts SuppFacts Conv PartFacts DualFacts FactsA GrInv CompsBound WSum PieriCoef PieriD QPieriD.
Import ListNotations.
Open Scope Z_scope.

Lemma pieri_class g p lam x : pieri_fun g p lam = Ok x -> exists r, pieri g p (pS lam) = Ok r /\ peq r x.
Proof. apply on_class. Qed.
Lemma qpieri_class g p lam x : qpieri_fun g p lam = Ok x -> exists r, qpieri g p (pS lam) = Ok r /\ peq r x.
Proof. apply on_class. Qed.

Lemma lincl_expands0 p W : lincl p W -> expands0 p W.
Proof.
  intros H. split; [intros mu; apply lincl_coef; auto|]. intros m Hm. destruct (lincl_inv _ _ _ H Hm) as (l & -> & _). eauto.
Qed.

(** ** positivity and degrees *)
Lemma pos_two e : 0 <= e -> positive_integer (two_to e).
Proof. intros H. exists (2 ^ e). split; auto. apply Z.pow_pos_nonneg; lia. Qed.
Lemma pos_one : positive_integer 1%Qc.
Proof. exists 1. split; [lia|]. reflexivity. Qed.
Lemma coef_IG_pos k n p s lam mu c : coef_IG k n p s lam mu c -> c <> 0%Qc -> positive_integer c /\ pieri_term k n p lam mu.
Proof. intros [(H & N & _ & H1 & ->)|(_ & ->)] Hc; [|congruence]. split; auto. apply pos_two. lia. Qed.
Lemma coef_OG_pos k n p lam mu c : coef_OG k n p lam mu c -> c <> 0%Qc -> positive_integer c /\ pieri_term k n p lam mu.
Proof. intros [(H & N & _ & H1 & ->)|(_ & ->)] Hc; [|congruence]. split; auto. apply pos_two. lia. Qed.
Lemma coef_D_pos k n p lam mu c : coef_D k n p lam mu c -> c <> 0%Qc -> positive_integer c /\ pieri_term_D k n p lam mu.
Proof.
  intros [(H & N & HN & H1 & ->)|(_ & ->)] Hc; [|congruence]. split; auto. apply component_count_nonneg in HN.
  revert Hc. unfold mult_D. destruct (Z.abs p <? k); [intros; apply pos_two; auto|]. destruct (Z.ltb_spec 0 N); [intros; apply pos_two; lia|].
  destruct (Z.odd _); [intros; apply pos_one|congruence].
Qed.

Lemma qc_good r W dq deg : qcoefs r W ->
  (forall d mu, W d mu <> 0%Qc -> positive_integer (W d mu) /\ size mu + Z.of_nat d * dq = deg) ->
  positive_coefs r /\ homogeneous dq deg r.
Proof.
  intros (H1 & H2) HW. split; intros m Hm; destruct (H2 m Hm) as (d & mu & HP);
    rewrite (coef_perm _ _ _ HP), H1 in Hm; destruct (HW d mu Hm) as (A & B).
  - rewrite (coef_perm _ _ _ HP), H1. auto.
  - exists d, mu. auto.
Qed.
Lemma lin_good r W dq deg : lincl r W ->
  (forall mu, W mu <> 0%Qc -> positive_integer (W mu) /\ size mu = deg) ->
  positive_coefs r /\ homogeneous dq deg r.
Proof.
  intros H HW. apply (qc_good r _ dq deg (lincl_qcoefs _ _ H)). intros [|d] mu; [|congruence]. intros Hm. apply HW in Hm.
  split; [tauto|]. simpl. lia.
Qed.
Lemma good_peq dq deg p r : peq p r -> positive_coefs r /\ homogeneous dq deg r -> positive_coefs p /\ homogeneous dq deg p.
Proof. intros E (H1 & H2). split; intros m; rewrite (E m); auto. Qed.

Lemma size_with_row c rows mu : Z.of_nat (length mu) <= rows - 1 -> size (with_row_and_ones c rows mu) = size mu + c + rows - 1.
Proof.
  intros H. unfold with_row_and_ones. rewrite size_app. change (size (?x :: mu)) with (x + size mu).
  assert (E : forall j, size (repeat 1 j) = Z.of_nat j).
  { induction j as [|j IH]; [reflexivity|]. change (size (repeat 1 (S j))) with (1 + size (repeat 1 j)). lia. }
  rewrite E. lia.
Qed.
Lemma size_tl lam v : 0 < v -> part lam 0 = v -> size (tl lam) = size lam - v.
Proof.
  intros H. destruct lam as [|x t]; unfold part; simpl nth; intros E; [lia|]. change (size (x :: t)) with (x + size t). simpl tl. lia.
Qed.
Lemma size_scons x (l : list Z) : size (x :: l) = x + size l.
Proof. reflexivity. Qed.

Lemma quantum_IG_good k n p lam W d mu : quantum_IG k n p lam W -> W d mu <> 0%Qc ->
  positive_integer (W d mu) /\ size mu + Z.of_nat d * (n + 1 + k) = size lam + p.
Proof.
  intros (H0 & H1 & H2) Hd. destruct d as [|[|d]]; [| |rewrite H2 in Hd by lia; congruence].
  - destruct (coef_IG_pos _ _ _ _ _ _ _ (H0 mu) Hd) as (A & _ & B & _). split; auto. lia.
  - destruct (coef_IG_pos _ _ _ _ _ _ _ (H1 mu) Hd) as (A & _ & B & _). split; auto. rewrite size_scons in B. lia.
Qed.
Lemma quantum_OG_good k n p lam W d mu : 1 <= k -> k <= n -> quantum_OG k n p lam W -> W d mu <> 0%Qc ->
  positive_integer (W d mu) /\ size mu + Z.of_nat d * (n + k) = size lam + p.
Proof.
  intros Hk Hn (H0 & H1 & H2 & H3) Hd. destruct d as [|[|[|d]]]; [| | |rewrite H3 in Hd by lia; congruence].
  - destruct (coef_OG_pos _ _ _ _ _ _ (H0 mu) Hd) as (A & _ & B & _). split; auto. lia.
  - specialize (H1 mu). destruct ((Z.of_nat (length lam) =? n - k) && (Z.of_nat (length mu) <=? n - k)) eqn:E; [|congruence].
    apply andb_true_iff in E. destruct E as [_ E]. apply Z.leb_le in E.
    destruct (coef_OG_pos _ _ _ _ _ _ H1 Hd) as (A & _ & B & _). split; auto.
    rewrite size_with_row in B by lia. lia.
  - specialize (H2 mu). destruct (Z.eqb_spec (part lam 0) (n + k)) as [E|E]; [|congruence].
    destruct (coef_OG_pos _ _ _ _ _ _ H2 Hd) as (A & _ & B & _). split; auto.
    rewrite size_scons, (size_tl _ (n + k)) in B by lia. lia.
Qed.
Lemma quantum_OGmax_good n p lam W d mu : 1 <= n -> quantum_OGmax n p lam W -> W d mu <> 0%Qc ->
  positive_integer (W d mu) /\ size mu + Z.of_nat d * (2 * n) = size lam + p.
Proof.
  intros Hn (H0 & H1 & H2) Hd. destruct d as [|[|d]]; [| |rewrite H2 in Hd by lia; congruence].
  - destruct (coef_OG_pos _ _ _ _ _ _ (H0 mu) Hd) as (A & _ & B & _). split; auto. lia.
  - specialize (H1 mu). destruct (Z.eqb_spec (part lam 0) n) as [E|E]; [|congruence].
    destruct (coef_OG_pos _ _ _ _ _ _ H1 Hd) as (A & _ & B & _). split; auto.
    rewrite size_scons, (size_tl _ n) in B by lia. lia.
Qed.
Lemma quantum_Dmax_good n p lam W d mu : 1 <= n -> quantum_Dmax n p lam W -> W d mu <> 0%Qc ->
  positive_integer (W d mu) /\ size mu + Z.of_nat d * (2 * n) = size lam + Z.abs p.
Proof.
  intros Hn (H0 & H1 & H2) Hd. destruct d as [|[|d]]; [| |rewrite H2 in Hd by lia; congruence].
  - destruct (coef_D_pos _ _ _ _ _ _ (H0 mu) Hd) as (A & _ & B & _). split; auto. lia.
  - specialize (H1 mu). destruct (Z.eqb_spec (part lam 0) n) as [E|E]; [|congruence].
    destruct (coef_D_pos _ _ _ _ _ _ H1 Hd) as (A & _ & B & _). split; auto.
    rewrite size_scons, (size_tl _ n) in B by lia. lia.
Qed.
Lemma size_swap_type k mu : size (swap_type k mu) = size mu.
Proof.
  unfold swap_type. destruct (existsb _ _); auto. destruct (last mu 1 =? 0) eqn:E; [|apply size_snoc0].
  destruct mu as [|x t _] using rev_ind; [reflexivity|]. rewrite removelast_last, last_last in *.
  assert (x = 0) as -> by lia. symmetry. apply size_snoc0.
Qed.
Lemma size_with_row_D k c rows cols cols' mu : 0 < c -> typed_in k (rows - 1) cols mu -> typed_in k rows cols' (with_row_and_ones_D c rows mu) ->
  size (with_row_and_ones_D c rows mu) = size mu + c + rows - 1.
Proof.
  intros Hc H H'. unfold with_row_and_ones_D. destruct H as [H|(nu & -> & _ & _ & H)].
  - replace (last mu 1 =? 0) with false by (pose proof (PieriCoef.last_partition mu (proj1 (proj1 H))); lia).
    apply size_with_row. destruct H as ((_ & H & _) & _). lia.
  - rewrite last_last, removelast_last. simpl (0 =? 0). cbv iota. rewrite !size_snoc0.
    apply size_with_row. destruct H as ((_ & H1 & _) & _). lia.
Qed.
Lemma quantum_D_good k n p lam W d mu : 2 <= k -> k <= n -> quantum_D k n p lam W -> W d mu <> 0%Qc ->
  positive_integer (W d mu) /\ size mu + Z.of_nat d * (n + k) = size lam + Z.abs p.
Proof.
  intros Hk Hn (H0 & H1 & H2 & H3) Hd. destruct (H3 d mu Hd) as (Hd2 & Ht). destruct d as [|[|[|d]]]; [| | |lia].
  - destruct (coef_D_pos _ _ _ _ _ _ (H0 mu) Hd) as (A & _ & B & _). split; auto. lia.
  - specialize (H1 mu Ht). destruct (Z.of_nat (length (shape lam)) =? n + 1 - k) eqn:E; [|congruence].
    destruct (coef_D_pos _ _ _ _ _ _ H1 Hd) as (A & HT & B & _). split; auto.
    rewrite (size_with_row_D k _ _ (n + k) (n + 1 + k)) in B; [rewrite size_swap_type in B; lia|lia| |].
    + rewrite <- (swap_type_ok _ _ _ _ Ht). replace (n + 2 - k - 1) with (n + 1 - k) by lia.
      apply (ApiPair.type_swap_spec k (n + 1 - k) (n + k) mu Ht).
    + eapply typed_mono; [| |exact HT]; lia.
  - specialize (H2 mu). destruct (Z.eqb_spec (part lam 0) (n + k)) as [E|E]; [|congruence].
    destruct (coef_D_pos _ _ _ _ _ _ H2 Hd) as (A & _ & B & _). split; auto.
    rewrite size_scons, (size_tl _ (n + k)) in B by lia. lia.
Qed.

(** ** IG *)
Lemma c44_IG m N g p lam : IsotropicGrassmannian m N = Ok g -> class_IG m N lam ->
  exists r c, pieri g p (pS lam) = Ok r /\ expands0 r c /\
    (forall mu, coef_IG (N / 2 - m) (N / 2) p 0 lam mu (c mu)) /\
    positive_coefs r /\ homogeneous (degree_q g) (size lam + p) r.
Proof.
  intros Hg HL. destruct (ig_inv _ _ _ Hg) as (n & EN & En & Hm & ->). unfold class_IG in HL. rewrite En in *.
  replace m with (n - (n - m)) in HL at 2 by lia. replace (N - m) with (n + (n - m)) in HL by lia.
  destruct (pieriC_lincl (n - m) n lam p) as (x & W & Ex & Hx & HW); [lia|auto|].
  destruct (pieri_class (mkGr TC (n - m) n) p lam x Ex) as (r & Er & Hr). apply lincl_peq with (r := r) in Hx; [|intros c; symmetry; apply Hr].
  exists r, W. split; auto. split; [apply lincl_expands0; auto|]. split; auto.
  apply (lin_good r W); auto. intros mu Hmu. destruct (coef_IG_pos _ _ _ _ _ _ _ (HW mu) Hmu) as (A & _ & B & _). auto.
Qed.
Lemma c44_qIG m N g p lam : IsotropicGrassmannian m N = Ok g -> class_IG m N lam -> p <= N - m ->
  exists r c, qpieri g p (pS lam) = Ok r /\ expands r c /\ quantum_IG (N / 2 - m) (N / 2) p lam c /\
    positive_coefs r /\ homogeneous (degree_q g) (size lam + p) r.
Proof.
  intros Hg HL Hp. destruct (ig_inv _ _ _ Hg) as (n & EN & En & Hm & ->). unfold class_IG in HL. rewrite En in *.
  replace m with (n - (n - m)) in HL at 2 by lia. replace (N - m) with (n + (n - m)) in HL by lia.
  destruct (qpieriC_coefs (n - m) n lam p) as (x & W & Ex & Hx & HW); try lia; auto.
  destruct (qpieri_class (mkGr TC (n - m) n) p lam x Ex) as (r & Er & Hr). apply qcoefs_peq with (r := r) in Hx; [|intros c; symmetry; apply Hr].
  exists r, W. split; auto. split; [exact Hx|]. split; auto.
  apply (qc_good r W); auto. intros d mu Hmu. apply (quantum_IG_good _ _ _ _ _ _ _ HW Hmu).
Qed.

(** ** OG *)
Lemma c44_OG m N g p lam : OrthogonalGrassmannian m N = Ok g -> m <= N / 2 -> 1 <= N -> class_OG m N lam ->
  exists r c, pieri g p (pS lam) = Ok r /\ expands0 r c /\
    (forall mu, if Z.even N then coef_D (N / 2 - m) (N / 2 - 1) p lam mu (c mu) else coef_OG (N / 2 - m) (N / 2) p lam mu (c mu)) /\
    positive_coefs r /\ homogeneous (degree_q g) (size lam + if Z.even N then Z.abs p else p) r.
Proof.
  intros Hg Hm HN HL. unfold class_OG in HL.
  destruct (og_inv _ _ _ Hg Hm) as [(n & EN & En & Ev & Hm' & ->)|(n & EN & En & Ev & Hm' & ->)]; rewrite Ev, En in *.
  - replace m with (n - (n - m)) in HL at 2 by lia. replace (N - 1 - m) with (n + (n - m)) in HL by lia.
    destruct (pieriB_lincl (n - m) n lam p) as (x & W & Ex & Hx & HW); [lia|auto|].
    destruct (pieri_class (mkGr TB (n - m) n) p lam x Ex) as (r & Er & Hr). apply lincl_peq with (r := r) in Hx; [|intros c; symmetry; apply Hr].
    exists r, W. split; auto. split; [apply lincl_expands0; auto|]. split; auto.
    apply (lin_good r W); auto. intros mu Hmu. destruct (coef_OG_pos _ _ _ _ _ _ (HW mu) Hmu) as (A & _ & B & _). auto.
  - replace m with (n + 1 - (n + 1 - m)) in HL at 2 by lia. replace (N - 1 - m) with (n + (n + 1 - m)) in HL by lia.
    destruct (pieriD_lincl (n + 1 - m) n p lam) as (x & W & Ex & Hx & HW); try lia; auto.
    destruct (pieri_class (mkGr TD (n + 1 - m) n) p lam x Ex) as (r & Er & Hr). apply lincl_peq with (r := r) in Hx; [|intros c; symmetry; apply Hr].
    exists r, W. split; auto. split; [apply lincl_expands0; auto|]. split; [replace (n + 1 - 1) with n by lia; auto|].
    apply (lin_good r W); auto. intros mu Hmu. destruct (coef_D_pos _ _ _ _ _ _ (HW mu) Hmu) as (A & _ & B & _). auto.
Qed.

Lemma c44_qOG_odd m N g p lam : OrthogonalGrassmannian m N = Ok g -> Z.odd N = true -> 1 <= m <= N / 2 -> class_OG m N lam ->
  exists r c, qpieri g p (pS lam) = Ok r /\ expands r c /\
    (if m =? N / 2 then quantum_OGmax (N / 2) p lam c else quantum_OG (N / 2 - m) (N / 2) p lam c) /\
    positive_coefs r /\ homogeneous (degree_q g) (size lam + p) r.
Proof.
  intros Hg HN Hm HL. unfold class_OG in HL. rewrite <- Z.negb_even in HN.
  destruct (og_inv _ _ _ Hg ltac:(lia)) as [(n & EN & En & Ev & Hm' & ->)|(n & EN & En & Ev & Hm' & ->)]; rewrite Ev in HN; [|discriminate].
  rewrite Ev, En in *.
  replace m with (n - (n - m)) in HL at 2 by lia. replace (N - 1 - m) with (n + (n - m)) in HL by lia.
  assert (HT : exists r c, qpieri_fun (mkGr TB (n - m) n) p lam = Ok r /\ qcoefs r c /\
     (if m =? n then quantum_OGmax n p lam c else quantum_OG (n - m) n p lam c)).
  { change (qpieri_fun (mkGr TB (n - m) n) p lam) with (qpieriB_inner p lam (n - m) n). destruct (Z.eqb_spec m n) as [->|E].
    - rewrite Z.sub_diag, Z.sub_0_r, Z.add_0_r in *. apply (qpieriB0_coefs n lam p); auto. lia.
    - apply (qpieriB_coefs (n - m) n lam p); auto; lia. }
  destruct HT as (x & W & Ex & Hx & HW).
  destruct (qpieri_class _ p lam x Ex) as (r & Er & Hr). apply qcoefs_peq with (r := r) in Hx; [|intros c; symmetry; apply Hr].
  exists r, W. split; auto. split; [exact Hx|]. split; auto. apply (qc_good r W); auto. intros d mu Hmu.
  unfold degree_q. cbn [g_type g_k g_n]. destruct (Z.eqb_spec m n) as [->|E].
  - rewrite Z.sub_diag. refine (quantum_OGmax_good _ _ _ _ _ _ _ HW Hmu); lia.
  - replace (n - m =? 0) with false by lia. refine (quantum_OG_good _ _ _ _ _ _ _ _ _ HW Hmu); lia.
Qed.
Lemma c44_qOG_even m N g p lam : OrthogonalGrassmannian m N = Ok g -> Z.even N = true -> 4 <= N -> 1 <= m <= N / 2 -> m <> N / 2 - 1 ->
  class_OG m N lam ->
  exists r c, qpieri g p (pS lam) = Ok r /\ expands r c /\
    (if m =? N / 2 then quantum_Dmax (N / 2 - 1) p lam c else quantum_D (N / 2 - m) (N / 2 - 1) p lam c) /\
    positive_coefs r /\ homogeneous (degree_q g) (size lam + Z.abs p) r.
Proof.
  intros Hg HN H4 Hm Hk HL. unfold class_OG in HL.
  destruct (og_inv _ _ _ Hg ltac:(lia)) as [(n & EN & En & Ev & Hm' & ->)|(n & EN & En & Ev & Hm' & ->)]; rewrite Ev in HN; [discriminate|].
  rewrite Ev, En in *. replace (n + 1 - 1) with n in * by lia.
  replace m with (n + 1 - (n + 1 - m)) in HL at 2 by lia. replace (N - 1 - m) with (n + (n + 1 - m)) in HL by lia.
  assert (HT : exists r c, qpieri_fun (mkGr TD (n + 1 - m) n) p lam = Ok r /\ qcoefs r c /\
     (if m =? n + 1 then quantum_Dmax n p lam c else quantum_D (n + 1 - m) n p lam c)).
  { change (qpieri_fun (mkGr TD (n + 1 - m) n) p lam) with (qpieriD_inner (mkGr TD (n + 1 - m) n) p lam (n + 1 - m) n).
    destruct (Z.eqb_spec m (n + 1)) as [->|E].
    - rewrite Z.sub_diag, Z.sub_0_r, Z.add_0_r in *. apply (qpieriD0_coefs _ n lam p); auto. lia.
    - apply (qpieriD_coefs (n + 1 - m) n lam p); auto; lia. }
  destruct HT as (x & W & Ex & Hx & HW).
  destruct (qpieri_class _ p lam x Ex) as (r & Er & Hr). apply qcoefs_peq with (r := r) in Hx; [|intros c; symmetry; apply Hr].
  exists r, W. split; auto. split; [exact Hx|]. split; auto. apply (qc_good r W); auto. intros d mu Hmu.
  unfold degree_q. cbn [g_type g_k g_n]. destruct (Z.eqb_spec m (n + 1)) as [->|E].
  - rewrite Z.sub_diag. refine (quantum_Dmax_good _ _ _ _ _ _ _ HW Hmu); lia.
  - replace (n + 1 - m =? 0) with false by lia. refine (quantum_D_good _ _ _ _ _ _ _ _ _ HW Hmu); lia.
Qed.
