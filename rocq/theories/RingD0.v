(** OG(n+1,2n+2): the Pieri operators are those of OG(n,2n+1). *)

From Coq Require Import ZArith List Lia Bool Permutation QArith Qcanon Setoid Morphisms.
From Verif Require Import Py OrderFacts PyFacts ModelPart ModelQcalc ModelPoly ModelStr ModelGr Spec SpecPieri
  PolyFacts SuppFacts Enum FillFacts PartFacts ConjFacts PairFacts CompsFacts CompsBound PieriA QPieriA WSum PieriCoef PieriD QPieriD
  OpTheory Sys Word Transfer Extract CoefSys CommC RecBCD RingC CommB RingB ApiPieriQ RingD RingData ApiRing.
Import ListNotations.
Open Scope Z_scope.

(** ** operators that agree on the classes *)
Lemma ext_agree pi pi' (V : list Z -> Prop) i p : (forall l, V l -> peq (P pi i l) (P pi' i l)) -> lin V (eq VQ) p -> peq (ext pi i p) (ext pi' i p).
Proof.
  intros H. revert p. apply lin_ind.
  - intros p r E Hp. rewrite <- E. exact Hp.
  - reflexivity.
  - intros qm l c p Hl Hq _ IH. assert (HQ : forall v : var, VQ = v -> isqv v) by (intros v <-; exact I).
    rewrite !ext_padd, !ext_pscale, !(ext_qmul _ (eq VQ)), !ext_pS, IH by auto. rewrite (H l Hl). reflexivity.
Qed.
Lemma sys_agree t t' pi pi' V I k mu fuel fuel' : pieri_sys t pi V I k mu fuel ->
  (forall i l, I i -> V l -> pi' i l = Ok (P pi' i l) /\ peq (P pi i l) (P pi' i l)) ->
  (forall i, I i -> spec2num t' (sv i) = Ok i) -> (forall l, V l -> (mu l < fuel')%nat) ->
  pieri_sys t' pi' V I k mu fuel'.
Proof.
  intros H HA Hs Hf. split.
  - intros i l Hi Hl. apply HA; auto.
  - intros i l Hi Hl. destruct (HA i l Hi Hl) as (_ & E). eapply supp_peq; [exact E|]. apply (ps_lin _ _ _ _ _ _ _ H); auto.
  - apply (ps_nil _ _ _ _ _ _ _ H).
  - exact Hs.
  - intros i j l Hi Hj Hl.
    assert (G : forall a b, I a -> I b -> peq (ext pi' a (P pi' b l)) (ext pi a (P pi b l))).
    { intros a b Ha Hb. destruct (HA b l Hb Hl) as (_ & E). rewrite <- E. symmetry. apply (ext_agree pi pi' V a); [intros x Hx; apply HA; auto|]. apply (ps_lin _ _ _ _ _ _ _ H); auto. }
    rewrite (G j i), (G i j) by auto. apply (ps_comm _ _ _ _ _ _ _ H); auto.
  - apply (ps_nonneg _ _ _ _ _ _ _ H).
  - apply (ps_specnonneg _ _ _ _ _ _ _ H).
  - intros l Hl Hne. destruct (ps_rec _ _ _ _ _ _ _ H l Hl Hne) as (p & l0 & E1 & E2 & E3 & E4). exists p, l0. split; auto. split; auto. split; auto.
    destruct (HA p l0 E2 ltac:(apply E3)) as (_ & E). eapply supp_peq; [|exact E4]. rewrite E. reflexivity.
  - exact Hf.
Qed.

(** ** strict partitions *)
Section K0.
Variable n : Z.
Hypothesis Hn : 0 <= n.
Notation V := (typed_in 0 (n + 1) n).
Lemma typed0 l : V l <-> kstrict_in 0 (n - 0) (n + 0) l.
Proof.
  rewrite Z.sub_0_r, Z.add_0_r. split.
  - intros [H|(_ & _ & H & _)]; [|lia]. destruct H as ((H1 & H2 & H3) & H4). split; auto. split; auto. split; auto.
    assert (G : forall j, (j < length l)%nat -> part l j + Z.of_nat j <= n).
    { induction j as [|j IH]; intros Hj; [lia|]. specialize (IH ltac:(lia)). specialize (H4 j). pose proof (proj1 H1 j ltac:(lia)). pose proof (proj1 H1 (S j) Hj). lia. }
    destruct l as [|x t] eqn:El; [cbn; lia|]. rewrite <- El in *. specialize (G (length l - 1)%nat). destruct (length l) as [|m] eqn:Em; [lia|]. specialize (G ltac:(lia)). pose proof (proj1 H1 (S m - 1)%nat ltac:(lia)). lia.
  - intros ((H1 & H2 & H3) & H4). left. split; auto. split; auto. split; auto. lia.
Qed.
Lemma arrow0 d d' lam mu : is_partition lam -> is_partition mu -> pieri_arrow 0 d lam mu -> pieri_arrow 0 d' lam mu.
Proof.
  intros Hl Hm ((nu & H1 & H2 & H3) & _ & _). split; [exists nu; auto|].
  assert (E : forall j, part nu j = part lam j).
  { intros j. destruct (H2 j) as (A & B). pose proof (is_partition_nonneg nu j H1). pose proof (is_partition_nonneg lam j Hl). lia. }
  split; [intros c Hc; lia|]. intros c Hc Hlt. exfalso.
  assert (Hle : count_ge lam c <= count_ge mu c); [|lia].
  assert (G : forall a b, is_partition b -> (forall j, part a j <= part b j) -> count_ge a c <= count_ge b c).
  { clear - Hc. induction a as [|x a IH]; intros b Hb H; [apply count_ge_nonneg|].
    destruct b as [|y b].
    - assert (E0 : count_ge (x :: a) c = 0); [|rewrite E0; apply count_ge_nonneg].
      unfold count_ge. assert (F : forall l, (forall j, part l j <= 0) -> filter (fun z => c <=? z) l = []).
      { clear - Hc. induction l as [|z l IH]; intros Hz; [reflexivity|]. cbn [filter]. pose proof (Hz 0%nat) as Hz0. unfold part in Hz0. cbn in Hz0. destruct (Z.leb_spec c z); [lia|]. apply IH. intros j. apply (Hz (S j)). }
      rewrite F; [reflexivity|]. intros j. specialize (H j). unfold part in *. destruct j; cbn in *; lia.
    - rewrite !count_ge_cons. destruct (partition_tl y b Hb) as (Hb' & _). specialize (IH b Hb' (fun j => H (S j))). specialize (H 0%nat). unfold part in H. cbn in H.
      destruct (Z.leb_spec c x), (Z.leb_spec c y); lia. }
  apply G; auto. intros j. rewrite <- E. apply (H3 j).
Qed.
Lemma free0 d d' lam mu x : free_box 0 d lam mu x <-> free_box 0 d' lam mu x.
Proof.
  unfold free_box. split; intros (A & B & _); (split; [auto|]; split; [auto|]); intros (c & r & Hc & _); lia.
Qed.
Lemma con_iff (A B : box -> Prop) : (forall x, A x <-> B x) -> forall x y, connected A x y -> connected B x y.
Proof. intros H x y. induction 1; [apply con_refl; apply H; auto|eapply con_step; eauto; apply H; auto]. Qed.
Lemma count_iff (A B P : box -> Prop) N : (forall x, A x <-> B x) -> component_count A P N -> component_count B P N.
Proof.
  intros H (reps & H1 & H2 & H3 & H4 & H5). assert (H' : forall x, B x <-> A x) by (intros; symmetry; apply H). exists reps. split; auto. split; auto. split; [|split].
  - intros x Hx. destruct (H3 x Hx) as (G1 & G2). split; [apply H; auto|]. intros y Hy. apply G2. eapply con_iff; eauto.
  - intros x y Hx Hy Hc. apply H4; auto. eapply con_iff; eauto.
  - intros x (G1 & G2). destruct (H5 x) as (y & Hy & Hc); [split; [apply H; auto|]; intros y Hy; apply G2; eapply con_iff; eauto|]. exists y. split; auto. eapply con_iff; eauto.
Qed.
Lemma type0 l : V l -> type_of 0 l = 0 /\ shape l = l.
Proof.
  intros H. destruct (type_of_cases _ _ _ _ H) as [(A & _ & B)|[(_ & A & B)|(_ & A & B)]]; auto; exfalso;
  destruct (typed_shape _ _ _ _ H) as (((Hp & _) & _) & _); destruct (In_nth _ _ 0 A) as (j & Hj & E); pose proof (proj1 Hp j Hj); unfold part in *; lia.
Qed.
Lemma term0 p lam mu : 1 <= p -> V lam -> (pieri_term_D 0 n p lam mu <-> pieri_term 0 n p lam mu).
Proof.
  intros Hp Hl. unfold pieri_term_D, pieri_term. rewrite <- typed0. replace (n + 1 - 0) with (n + 1) by lia. rewrite Z.add_0_r.
  assert (G : V lam) by auto. destruct (type0 lam Hl) as (T1 & T2). rewrite T1, T2, Z.abs_eq by lia.
  assert (P1 : is_partition lam) by (apply typed0 in Hl; apply Hl).
  split.
  - intros (A & B & C & D). destruct (type0 mu A) as (_ & E). rewrite E in C. split; auto. split; auto. apply (arrow0 1 0); auto. apply typed0 in A. apply A.
  - intros (A & B & C). destruct (type0 mu A) as (E' & E). rewrite E, E'. split; auto. split; auto. split; [|lia]. apply (arrow0 0 1); auto. apply typed0 in A. apply A.
Qed.
Lemma coef0 p lam mu c : 1 <= p -> V lam -> coef_D 0 n p lam mu c -> coef_OG 0 n p lam mu c.
Proof.
  intros Hp Hl [(H & N & H1 & H2 & ->)|(H & ->)]; [left|right]; (split; [rewrite <- term0 in *; auto|]); auto.
  - exists N. assert (Hv : V mu) by (destruct H as (H & _); replace (n + 1) with (n + 1 - 0) by lia; replace n with (n + 0) at 2 by lia; exact H).
    rewrite (proj2 (type0 lam Hl)), (proj2 (type0 mu Hv)) in H1. split; [eapply count_iff; [|exact H1]; intros; apply free0|].
    replace (p <=? 0) with false by lia. cbv zeta. specialize (H2 ltac:(lia)). split; [lia|]. unfold mult_D. replace (Z.abs p <? 0) with false by lia. replace (0 <? N) with true by lia. reflexivity.
Qed.
End K0.

Lemma piD0_agree n qq i l : 1 <= n -> 1 <= i -> typed_in 0 (n + 1) n l ->
  piD 0 n qq i l = Ok (P (piD 0 n qq) i l) /\ peq (P (piB 0 n qq) i l) (P (piD 0 n qq) i l).
Proof.
  intros Hn Hi Hl. assert (Hl' := proj1 (typed0 n ltac:(lia) l) Hl). assert (Hok : okB qq 0 n) by (split; [lia|]; split; lia).
  destruct (piB_coefs 0 n qq i l Hok Hl') as (r & W & E & HQ & H0 & H1 & H2).
  assert (HD : exists r' W', piD 0 n qq i l = Ok r' /\ qcoefs r' W' /\ forall d nu, W' d nu = W d nu).
  { destruct qq; cbn [piD].
    - destruct (qpieriD0_coefs (gD 0 n) n l i Hn Hl) as (r' & W' & E' & HQ' & A0 & A1 & A2). exists r', W'. split; [exact E'|]. split; auto.
      cbn in H1. intros [|[|[|d]]] nu.
      + exact (coef_OG_unique _ _ _ _ _ _ _ (coef0 n ltac:(lia) i l nu _ Hi Hl (A0 nu)) (H0 nu)).
      + specialize (A1 nu). destruct (H1 nu) as (B & _). rewrite Z.add_0_r in B. destruct (Z.eqb_spec (part l 0) n) as [Eh|Eh]; [|congruence].
        apply (coef_OG_unique 0 n i (tl l) (n :: nu)); [|exact B]. apply (coef0 n); auto; try lia. apply (typed_tl 0 (n + 1) n l); auto; lia.
      + rewrite A2 by lia. destruct (H1 nu) as (_ & B). congruence.
      + rewrite A2, H2 by lia. reflexivity.
    - destruct (pieriD_lincl 0 n i l) as (r' & W' & E' & HL & A0); try lia; [replace (n + 1 - 0) with (n + 1) by lia; rewrite Z.add_0_r; auto|].
      exists r', (fun d l => match d with O => W' l | _ => 0%Qc end). split; [exact E'|]. split; [apply lincl_qcoefs; auto|].
      intros [|[|[|d]]] nu; [exact (coef_OG_unique _ _ _ _ _ _ _ (coef0 n ltac:(lia) i l nu _ Hi Hl (A0 nu)) (H0 nu))| | |].
      + destruct (H1 nu). congruence.
      + destruct (H1 nu). congruence.
      + rewrite H2 by lia. reflexivity. }
  destruct HD as (r' & W' & E' & HQ' & HW). unfold P. rewrite E, E'. split; [reflexivity|]. apply (qcoefs_eq r r' W); auto. eapply qcoefs_ext; eauto.
Qed.
Lemma sysD0 n qq : 1 <= n -> pieri_sys TD (piD 0 n qq) (kstrict_in 0 (n - 0) (n + 0)) (fun i => 1 <= i <= n + 0) 0 (muM (n + 0)) (giam_fuel (gD 0 n)).
Proof.
  intros Hn. assert (Hok : okB qq 0 n) by (split; [lia|]; split; lia). eapply sys_agree; [exact (sysB 0 n qq Hok)| | |].
  - intros i l (Hi & _) Hl. apply piD0_agree; auto. apply typed0; auto; lia.
  - intros i (Hi & _). unfold sv, num2spec. replace (0 <? i) with true by lia. reflexivity.
  - intros l Hl. apply (fuelBC 0 n ltac:(lia) TD l Hl).
Qed.
