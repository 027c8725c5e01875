(** IG(n-k,2n) as an instance of Sys.v. *)

From Coq Require Import ZArith List Lia Bool Permutation QArith Qcanon.
From Verif Require Import Py OrderFacts PyFacts ModelPart ModelQcalc ModelPoly ModelStr ModelGr Spec SpecPieri
  PolyFacts SuppFacts Enum FillFacts PartFacts ConjFacts PairFacts CompsFacts CompsBound PieriA QPieriA WSum PieriCoef
  OpTheory Sys Word Transfer Extract CoefSys CommC RecBCD.
Import ListNotations.
Open Scope Z_scope.

Lemma lin_qcoefs (V : list Z -> Prop) p W : qcoefs p W -> (forall d mu, W d mu <> 0%Qc -> V mu) -> lin V (eq VQ) p.
Proof.
  intros (H1 & H2) HV m Hm. destruct (H2 m Hm) as (d & mu & HP). exists mu, (repeat VQ d). split; [|split; [exact HP|]].
  - apply (HV d). rewrite <- H1, <- (coef_perm p _ _ HP). exact Hm.
  - clear. induction d; cbn; constructor; auto.
Qed.
Lemma rec_supp (B : list Z -> Prop) p l W : qcoefs p W -> W 0%nat l = 1%Qc ->
  (forall d mu, W d mu <> 0%Qc -> (d = 0%nat -> mu <> l) -> B mu) -> supp (linm B (eq VQ)) (psub p (pS l)).
Proof.
  intros (H1 & H2) Hl HB m Hm. rewrite coef_psub, coef_pS in Hm.
  assert (Hpm : coef p m <> 0%Qc /\ m <> [vS l]).
  { split; intros E.
    - rewrite E in Hm. apply Hm. unfold wval. destruct m as [|[[a|a b]| | |] [|v m]]; try reflexivity.
      destruct (l_dec l a) as [->|]; [|reflexivity]. exfalso. specialize (H1 0%nat a). change (qS 0 a) with [VS (SP a)] in H1. rewrite E, Hl in H1. discriminate.
    - subst m. apply Hm. specialize (H1 0%nat l). change (qS 0 l) with [vS l] in H1. rewrite H1, Hl. unfold wval, vS. destruct (l_dec l l); [ring|congruence]. }
  destruct Hpm as [Hpm Hne]. destruct (H2 m Hpm) as (d & mu & HP). exists mu, (repeat VQ d). split; [|split; [exact HP|]].
  - apply (HB d); [rewrite <- H1, <- (coef_perm p _ _ HP); exact Hpm|]. intros -> ->. apply Hne. apply perm_vS. exact HP.
  - clear. induction d; cbn; constructor; auto.
Qed.

(** *** the measure of the Giambelli recursion *)
Definition muM (M : Z) (l : list Z) : nat := Z.to_nat (size l * (M + 1) + (M - part l 0)).
Lemma muM_size M a b : 0 <= size a -> 0 <= part a 0 <= M -> 0 <= part b 0 <= M -> size a < size b -> (muM M a < muM M b)%nat.
Proof. intros. unfold muM. apply Z2Nat.inj_lt; nia. Qed.
Lemma muM_head M a b : 0 <= size a -> 0 <= part a 0 <= M -> 0 <= part b 0 <= M -> size a = size b -> part b 0 < part a 0 -> (muM M a < muM M b)%nat.
Proof. intros. unfold muM. apply Z2Nat.inj_lt; nia. Qed.
Lemma size_nonneg l : is_partition l -> 0 <= size l.
Proof. intros H. destruct (size_le [] l) as [A _]; auto. intros j. pose proof (is_partition_nonneg l j H). unfold part in *. destruct j; cbn in *; lia. Qed.
Lemma size_box r c l : in_box r c l -> 0 <= size l <= r * c.
Proof.
  intros (H1 & H2 & H3). split; [apply size_nonneg; auto|].
  assert (G : forall l, Forall (fun x => 0 <= x <= c) l -> size l <= Z.of_nat (length l) * c).
  { clear. induction 1 as [|x l Hx Hl IH]; [cbn; lia|]. cbn [size fold_right length]. fold (size l). lia. }
  assert (HF : Forall (fun x => 0 <= x <= c) l).
  { apply Forall_forall. intros x Hx. destruct (In_nth _ _ 0 Hx) as (j & Hj & E). pose proof (partition_dec l j H1). pose proof (is_partition_nonneg l j H1). unfold part in *. lia. }
  specialize (G l HF). pose proof (is_partition_nonneg l 0 H1). nia.
Qed.
Lemma gsel_part k p t : is_partition (p :: t) -> gsel k (p :: t) = Ok (p, t).
Proof.
  intros H. unfold gsel. assert (Hlast : last (p :: t) 1 =? 0 = false) by (apply Z.eqb_neq; apply (last_partition (p :: t) H)).
  rewrite Hlast, andb_false_r. cbn [bind hd]. rewrite sl_from_1. reflexivity.
Qed.
Lemma kstrict_cons k r c p t : kstrict_in k r c (p :: t) -> 1 <= p <= c /\ kstrict_in k r c t.
Proof.
  intros H. split.
  - destruct H as ((H1 & H2 & H3) & _). destruct (partition_tl p t H1) as (_ & Hp & _). unfold part in H3. cbn in H3. lia.
  - apply (kstrict_tl k r c (p :: t) H).
Qed.
Lemma kstrict_nil k r c : 0 <= k -> 0 <= r -> 0 <= c -> kstrict_in k r c [].
Proof.
  intros. split; [split; [split|split]|].
  - cbn. lia.
  - intros j. unfold part. destruct j; cbn; lia.
  - cbn. lia.
  - unfold part. cbn. lia.
  - intros j. unfold part. destruct j; cbn; lia.
Qed.
Lemma nonneg_schur k r c l : kstrict_in k r c l -> schur_nonneg (SP l) = true.
Proof. intros (H & _). eapply in_box_nonneg; eauto. Qed.

Lemma coef_IG_tl k n p t c : 0 <= k <= n -> kstrict_in k (n - k) (n + k) (p :: t) -> coef_IG k n p 0 t (p :: t) c -> c = 1%Qc.
Proof.
  intros Hk Hl H. destruct Hl as ((Hb1 & Hb2 & Hb3) & Hs).
  assert (HT : pieri_term k n p t (p :: t)).
  { split; [split; auto; split; auto|]. split; [cbn [size fold_right]; unfold size; lia|]. apply arrow_tl; auto. }
  destruct H as [(_ & M & H1 & _ & ->)|(H1 & _)]; [|contradiction].
  rewrite (component_count_unique _ _ _ _ H1 (comps_tl_C k 0 p t ltac:(lia) Hb1 Hs)). reflexivity.
Qed.

Section RC.
Variables (k n : Z).
Hypothesis Hk : 0 <= k <= n.
Notation V := (kstrict_in k (n - k) (n + k)).
Definition IC (i : Z) : Prop := 1 <= i <= n + k.
Notation mu := (muM (n + k)).

Lemma recC qq l : V l -> l <> [] ->
  exists p l0, gsel k l = Ok (p, l0) /\ IC p /\ below V mu l l0 /\
    supp (linm (below V mu l) (eq VQ)) (psub (P (piC k n qq) p l0) (pS l)).
Proof.
  intros Hl Hne. destruct l as [|p t]; [congruence|]. clear Hne. exists p, t.
  assert (Hpl : is_partition (p :: t)) by apply Hl.
  split; [apply gsel_part; auto|]. destruct (kstrict_cons _ _ _ _ _ Hl) as (Hp & Ht). split; [exact Hp|].
  assert (Hh : forall a, V a -> 0 <= size a /\ 0 <= part a 0 <= n + k).
  { intros a ((A1 & _ & A3) & _). split; [apply size_nonneg; auto|]. pose proof (is_partition_nonneg a 0 A1). lia. }
  pose proof (Hh _ Hl) as (L1 & L2). pose proof (Hh _ Ht) as (T1 & T2).
  assert (Es : size (p :: t) = p + size t) by reflexivity.
  split; [split; auto; apply muM_size; auto; lia|].
  destruct (piC_coefs k n qq p t Hk Ht ltac:(lia)) as (r & W & E & HQ & H0 & H1 & H2). unfold P. rewrite E.
  apply (rec_supp _ r (p :: t) W HQ).
  - apply (coef_IG_tl k n p t); auto.
  - intros d nu HW Hd. destruct d as [|[|d]].
    + pose proof (coef_IG_supp _ _ _ _ _ _ _ (H0 nu) HW) as (A1 & A2 & A3). split; auto. destruct (Hh _ A1) as (N1 & N2).
      destruct (arrow_head k 0 p t nu) as [B1 B2]; auto; try lia; try apply Ht; try apply A1.
      apply muM_head; auto; try lia. change (part (p :: t) 0) with p. assert (part nu 0 <> p) by (intros Ep; apply (Hd eq_refl); auto). lia.
    + specialize (H1 nu). destruct qq; [|congruence]. pose proof (coef_IG_supp _ _ _ _ _ _ _ H1 HW) as (A1 & A2 & A3).
      apply kstrict_row in A1; auto. split; auto. destruct (Hh _ A1) as (N1 & N2). apply muM_size; auto.
      change (size (n + k + 1 :: nu)) with (n + k + 1 + size nu) in A2. lia.
    + exfalso. apply HW, H2. lia.
Qed.
Lemma fuelBC tp l : V l -> (mu l < giam_fuel (mkGr tp k n))%nat.
Proof.
  intros (H & _). unfold muM, giam_fuel. cbn [g_n g_k]. pose proof (size_box _ _ _ H) as Hs. destruct H as (H1 & H2 & H3).
  pose proof (is_partition_nonneg l 0 H1). apply Z2Nat.inj_lt; [nia|nia|].
  assert ((n - k) * (n + k) <= n * (n + k)) by nia.
  assert (size l * (n + k + 1) + (n + k - part l 0) <= (n * (n + k) + 1) * (n + k + 1)) by nia.
  assert ((n * (n + k) + 1) * (n + k + 1) < ((n + 2) * (n + k + 1) + 2) * (n + k + 3)); [|lia]. nia.
Qed.

Lemma sysC qq : pieri_sys TC (piC k n qq) V IC k mu (giam_fuel (gC k n)).
Proof.
  split.
  - intros i l [Hi1 Hi2] Hl. destruct (piC_coefs k n qq i l Hk Hl ltac:(lia)) as (r & W & E & _). unfold P. rewrite E. reflexivity.
  - intros i l [Hi1 Hi2] Hl. destruct (piC_coefs k n qq i l Hk Hl ltac:(lia)) as (r & W & E & HQ & H0 & H1 & H2). unfold P. rewrite E.
    apply (lin_qcoefs _ _ W HQ). intros d nu HW. destruct d as [|[|d]].
    + apply (coef_IG_supp _ _ _ _ _ _ _ (H0 nu) HW).
    + specialize (H1 nu). destruct qq; [|congruence]. apply kstrict_row; auto. apply (coef_IG_supp _ _ _ _ _ _ _ H1 HW).
    + exfalso. apply HW, H2. lia.
  - apply kstrict_nil; lia.
  - intros i [Hi _]. unfold sv, num2spec. destruct (0 <? i) eqn:E; [|lia]. reflexivity.
  - intros i j l [Hi1 Hi2] [Hj1 Hj2] Hl. apply comm_C; auto; lia.
  - intros l Hl. eapply nonneg_schur; eauto.
  - intros i [Hi _]. unfold num2spec. destruct (0 <? i) eqn:E; [|lia]. simpl. rewrite andb_true_r. lia.
  - apply recC.
  - apply fuelBC.
Qed.
End RC.
