(** OG(n-k,2n+1) as an instance of Sys.v. *)

From Coq Require Import ZArith List Lia Bool Permutation QArith Qcanon.
From Verif Require Import Py OrderFacts PyFacts ModelPart ModelQcalc ModelPoly ModelStr ModelGr Spec SpecPieri
  PolyFacts SuppFacts Enum FillFacts PartFacts ConjFacts PairFacts CompsFacts CompsBound PieriA QPieriA WSum PieriCoef
  OpTheory Sys Word Transfer Extract CoefSys CommC RecBCD RingC CommB.
Import ListNotations.
Open Scope Z_scope.

Lemma coef_OG_tl k n p t c : 0 <= k <= n -> kstrict_in k (n - k) (n + k) (p :: t) -> coef_OG k n p t (p :: t) c -> c = 1%Qc.
Proof.
  intros Hk Hl H. destruct Hl as ((Hb1 & Hb2 & Hb3) & Hs).
  assert (HT : pieri_term k n p t (p :: t)).
  { split; [split; auto; split; auto|]. split; [cbn [size fold_right]; unfold size; lia|]. apply arrow_tl; auto. }
  destruct H as [(_ & M & H1 & H2 & ->)|(H1 & _)]; [|contradiction].
  assert (HB := comps_tl_B k 0 p t ltac:(lia) ltac:(lia) Hb1 Hs).
  rewrite (component_count_unique _ _ _ _ H1 HB). rewrite Z.sub_diag. reflexivity.
Qed.

Section RB.
Variables (k n : Z) (qq : bool).
Hypothesis Hok : okB qq k n.
Notation V := (kstrict_in k (n - k) (n + k)).
Notation mu := (muM (n + k)).

Lemma size_tl_le l : is_partition l -> size (tl l) <= size l.
Proof. intros H. destruct l as [|x t]; [cbn; lia|]. destruct (partition_tl x t H) as (_ & Hp & _). change (size (x :: t)) with (x + size t). cbn [tl]. lia. Qed.

Lemma recB l : V l -> l <> [] ->
  exists p l0, gsel k l = Ok (p, l0) /\ IC k n p /\ below V mu l l0 /\
    supp (linm (below V mu l) (eq VQ)) (psub (P (piB k n qq) p l0) (pS l)).
Proof.
  intros Hl Hne. destruct l as [|p t]; [congruence|]. clear Hne. exists p, t. pose proof Hok as (Hk & Hn & _).
  assert (Hpl : is_partition (p :: t)) by apply Hl.
  split; [apply gsel_part; auto|]. destruct (kstrict_cons _ _ _ _ _ Hl) as (Hp & Ht). split; [exact Hp|].
  assert (Hh : forall a, V a -> 0 <= size a /\ 0 <= part a 0 <= n + k).
  { intros a ((A1 & _ & A3) & _). split; [apply size_nonneg; auto|]. pose proof (is_partition_nonneg a 0 A1). lia. }
  pose proof (Hh _ Hl) as (L1 & L2). pose proof (Hh _ Ht) as (T1 & T2).
  assert (Es : size (p :: t) = p + size t) by reflexivity.
  split; [split; auto; apply muM_size; auto; lia|].
  destruct (piB_coefs k n qq p t Hok Ht) as (r & W & E & HQ & H0 & H1 & H2). unfold P. rewrite E.
  apply (rec_supp _ r (p :: t) W HQ).
  - apply (coef_OG_tl k n p t); auto.
  - intros d nu HW Hd. destruct (piB_supp k n qq p t W Hok H0 H1 H2 d nu HW) as (_ & A1 & [(-> & A2 & A3 & A4)|(_ & A2)]).
    + split; auto. destruct (Hh _ A1) as (N1 & N2).
      destruct (arrow_head k 0 p t nu) as [B1 B2]; auto; try lia; try apply Ht; try apply A1.
      apply muM_head; auto; try lia. change (part (p :: t) 0) with p. assert (part nu 0 <> p) by (intros Ep; apply (Hd eq_refl); auto). lia.
    + split; auto. destruct (Hh _ A1) as (N1 & N2). apply muM_size; auto. pose proof (size_tl_le t ltac:(apply Ht)). lia.
Qed.

Lemma sysB : pieri_sys TB (piB k n qq) V (IC k n) k mu (giam_fuel (gB k n)).
Proof.
  pose proof Hok as (Hk & Hn & _). split.
  - intros i l [Hi1 Hi2] Hl. destruct (piB_coefs k n qq i l Hok Hl) as (r & W & E & _). unfold P. rewrite E. reflexivity.
  - intros i l [Hi1 Hi2] Hl. destruct (piB_coefs k n qq i l Hok Hl) as (r & W & E & HQ & H0 & H1 & H2). unfold P. rewrite E.
    apply (lin_qcoefs _ _ W HQ). intros d nu HW. apply (piB_supp k n qq i l W Hok H0 H1 H2 d nu HW).
  - apply kstrict_nil; lia.
  - intros i [Hi _]. unfold sv, num2spec. destruct (0 <? i) eqn:E; [|lia]. reflexivity.
  - intros i j l [Hi1 Hi2] [Hj1 Hj2] Hl. apply comm_B; auto; lia.
  - intros l Hl. eapply nonneg_schur; eauto.
  - intros i [Hi _]. unfold num2spec. destruct (0 <? i) eqn:E; [|lia]. simpl. rewrite andb_true_r. lia.
  - apply recB.
  - apply fuelBC. exact Hk.
Qed.
End RB.
