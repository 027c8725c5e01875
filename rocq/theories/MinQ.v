(** The smallest power of q in a product of two classes: chains of Pieri products
    with the number of their factors q. *)

From Coq Require Import ZArith List Lia Bool Permutation QArith Qcanon Setoid Morphisms.
From Verif Require Import Py OrderFacts ModelPart ModelQcalc ModelPoly ModelStr ModelGr Spec SpecMinQ
  PolyFacts SuppFacts OpTheory WSum Sys Sys2 DualSys Reach.
Import ListNotations.
Open Scope Z_scope.

Section MinQ.
Context {t : gtype} {pi : Z -> list Z -> res poly} {V : list Z -> Prop} {I : Z -> Prop}
  {k : Z} {mu : list Z -> nat} {fuel : nat}.
Hypothesis H : pieri_sys t pi V I k mu fuel.
Hypothesis pos : forall i l d x, I i -> V l -> (0 <= coef (P pi i l) (qS d x))%Qc.

Notation MM := (M t pi k fuel).
Notation lq := (supp (linm V (eq VQ))).

Inductive reachq (x : list Z) : nat -> list Z -> Prop :=
| rq_refl : reachq x 0 x
| rq_step d y i e z : reachq x d y -> I i -> coef (P pi i y) (qS e z) <> 0%Qc -> reachq x (d + e) z.
Definition rl (x : list Z) (d : nat) (y : list Z) : Prop := exists f, (f <= d)%nat /\ reachq x f y.

Lemma reachq_V x d y : V x -> reachq x d y -> V y.
Proof. intros Hx. induction 1; auto. eapply lq_V; [apply (sys_P_lq H); eauto|eauto]. Qed.
Lemma reachq_trans x d y e z : reachq x d y -> reachq y e z -> reachq x (d + e) z.
Proof.
  intros H1 H2. induction H2; [rewrite Nat.add_0_r; auto|]. rewrite Nat.add_assoc. eapply rq_step; eauto.
Qed.

(** ** The terms of a product *)
Section K.
Variable x : list Z.
Definition K (m : mono) : Prop := exists y d, V y /\ rl x d y /\ Permutation m (qS d y).
Lemma K_inv : minv K.
Proof. intros m m' HP (y & d & H1 & H2 & H3). exists y, d. split; auto. split; auto. rewrite <- HP. auto. Qed.
Lemma K_q p e : supp K p -> supp K (pmul (pmono (repeat VQ e)) p).
Proof.
  intros Hp. eapply (supp_pmul (fun m => Permutation m (repeat VQ e)) K); eauto.
  - apply K_inv.
  - intros a b Ha (y & d & H1 & (f & Hf & HR) & H3). exists y, (e + d)%nat. split; auto. split; [exists f; split; auto; lia|].
    rewrite Ha, H3. unfold qS. rewrite <- Permutation_middle, repeat_app. reflexivity.
  - apply supp_pmono; [|reflexivity]. intros a b HP Ha. rewrite <- HP. auto.
Qed.
Lemma K_ext i p : I i -> supp K p -> supp K (ext pi i p).
Proof.
  intros Hi Hp. unfold ext. apply (supp_peq _ (psubst (sigma pi i) (pnorm p))); [apply psubst_proper, pnorm_peq|].
  apply supp_rawnorm in Hp. revert Hp. generalize (pnorm p). clear p. induction p as [|[m c] p IH]; intros Hp; cbn [psubst]; [apply supp_zero|].
  apply supp_padd; [|apply IH; intros a b Hab; apply (Hp a b); right; auto]. apply supp_pscale.
  destruct (Hp m c) as (y & d & Hy & (f & Hf & HR) & HP); [left; auto|].
  apply (supp_peq _ (pmul (pmono (repeat VQ d)) (P pi i y))); [rewrite (msubst_perm (sigma pi i) m _ HP); symmetry; apply msubst_qS|].
  intros m' Hm'.
  assert (HL : supp (fun m => exists z e, V z /\ coef (P pi i y) (qS e z) <> 0%Qc /\ Permutation m (qS e z)) (P pi i y)).
  { intros m1 Hm1. destruct (sys_P_lq H i y Hi Hy m1 Hm1) as (z & qm & Hz & HP1 & HQ). rewrite (allQ qm HQ) in HP1.
    exists z, (length qm). split; auto. split; auto. change (vS z :: repeat VQ (length qm)) with (qS (length qm) z) in HP1. rewrite (coef_perm _ m1 _ HP1) in Hm1. auto. }
  assert (HK : supp K (pmul (pmono (repeat VQ d)) (P pi i y))); [|apply HK; auto].
  eapply (supp_pmul (fun m => Permutation m (repeat VQ d))); [apply K_inv| | |exact HL].
  - intros a b Ha (z & e & Hz & Hc & Hb). exists z, (d + e)%nat. split; auto. split.
    + exists (f + e)%nat. split; [lia|]. eapply rq_step; eauto.
    + rewrite Ha, Hb. unfold qS. rewrite <- Permutation_middle, repeat_app. reflexivity.
  - apply supp_pmono; [|reflexivity]. intros a b HPab Ha. rewrite <- HPab. auto.
Qed.
Lemma K_OpN E p : spoly I (eq VQ) E -> supp K p -> supp K (OpN t pi E p).
Proof.
  intros HE Hp. unfold OpN. apply spoly_raw in HE. revert HE. generalize (pnorm E). clear E. intros E. induction E as [|[m c] E IH]; intros HE; cbn [Op]; [apply supp_zero|].
  apply supp_padd; [|apply IH; intros a b Hab; apply (HE a b); right; auto]. apply supp_pscale.
  specialize (HE m c (or_introl eq_refl)). unfold opm. induction HE as [|v m Hv Hm IHm]; cbn [fold_right]; [exact Hp|].
  destruct Hv as [<-|(i & Hi & ->)].
  - rewrite (opv_q t pi (eq VQ) eqVQ_isqv) by reflexivity. exact (K_q _ 1 IHm).
  - erewrite opv_sv by (eauto; apply H). apply K_ext; auto.
Qed.
End K.

Lemma prod_reachq l x d z : V l -> V x -> coef (MM (pS l) (pS x)) (qS d z) <> 0%Qc -> rl x d z.
Proof.
  intros Hl Hx Hc. destruct (sys_giam H l Hl) as (E & _ & HE & Pl).
  assert (HK : supp (K x) (MM (pS l) (pS x))).
  { apply (supp_peq _ (OpN t pi E (pS x))).
    - rewrite (sys_act H E (pS x) HE (sys_lq_pS x Hx)). apply M_peq; [auto|reflexivity].
    - apply K_OpN; auto. apply supp_pvar; [apply K_inv|]. exists x, 0%nat. split; auto. split; [exists 0%nat; split; [lia|apply rq_refl]|reflexivity]. }
  destruct (HK _ Hc) as (y & e & _ & HR & HP). apply (qS_inj d z e y) in HP. destruct HP as [-> ->]. auto.
Qed.

(** ** A chain gives a product *)
Lemma chain_prodq x d y : V x -> reachq x d y -> exists w, lq w /\ nonneg (MM w (pS x)) /\ coef (MM w (pS x)) (qS d y) <> 0%Qc.
Proof.
  intros Hx. assert (Sx : lq (pS x)) by (apply sys_lq_pS; auto). assert (S0 : lq (pS [])) by apply (sys_lq_one H).
  induction 1 as [|d y i e z HR (w & Hw & Hn & Hy) Hi Hc].
  - exists (pS []). assert (E : peq (MM (pS []) (pS x)) (pS x)) by (rewrite (sys_comm H) by auto; apply (sys_one H); auto).
    split; auto. split.
    + intros d y. rewrite (E _), coef_pS_q. destruct (d =? 0)%nat; [destruct (l_dec x y)|]; discriminate.
    + rewrite (E _), coef_pS_q. cbn [Nat.eqb]. destruct (l_dec x x); [discriminate|congruence].
  - exists (ext pi i w). split; [apply (sys_ext_lin H); auto|].
    assert (HM : lq (MM w (pS x))) by (apply (sys_lin H); auto using (@sys_lq_vp V)).
    pose proof (sys_ext H i w (pS x) Hi Hw Sx) as E. split.
    + intros f v. rewrite <- (E _). apply (ext_nonneg pos i _ Hi HM Hn).
    + rewrite <- (E _). apply (ext_term pos i _ d y e z); auto.
Qed.
Lemma prod_term b w d z : lq b -> lq w -> coef (MM w b) (qS d z) <> 0%Qc -> exists v f, V v /\ (f <= d)%nat /\ coef (MM (pS v) b) (qS f z) <> 0%Qc.
Proof.
  intros Hb. revert w. apply (lin_ind V (eq VQ) (fun w => coef (MM w b) (qS d z) <> 0%Qc -> exists v f, V v /\ (f <= d)%nat /\ coef (MM (pS v) b) (qS f z) <> 0%Qc)).
  - intros p r E Hp Hc. apply Hp. rewrite (M_peq t pi k fuel p r b b E ltac:(reflexivity) (qS d z)). auto.
  - intros Hc. exfalso. apply Hc. apply (@sys_zero_l t pi V); auto.
  - intros qm l c a Hl Hq Ha IH Hc.
    assert (HlV : lq (pS l)) by (apply sys_lq_pS; auto).
    assert (HqV : lq (pmul (pmono qm) (pS l))) by (apply (lin_qmul V (eq VQ)); auto).
    assert (E : peq (MM (padd (pscale c (pmul (pmono qm) (pS l))) a) b) (padd (pscale c (pmul (pmono qm) (MM (pS l) b))) (MM a b))).
    { rewrite (sys_add_l H), (sys_scale_l H), (sys_q_l H); auto using (@sys_lq_vp V), (@supp_pscale (linm V (eq VQ))). reflexivity. }
    rewrite (E _), coef_padd, coef_pscale, (allQ qm Hq), coef_qmul in Hc.
    destruct (Qc_eq_dec (coef (MM a b) (qS d z)) 0%Qc) as [E0|E0]; [|apply IH; auto].
    rewrite E0 in Hc. destruct (Nat.leb_spec (length qm) d) as [Hle|Hgt].
    + exists l, (d - length qm)%nat. split; auto. split; [lia|]. intros E1. apply Hc. rewrite E1. ring.
    + exfalso. apply Hc. ring.
Qed.

Variable dual : list Z -> list Z.
Hypothesis HV : forall l, V l -> V (dual l).
Hypothesis HD : forall l, V l -> dual (dual l) = l.
Hypothesis adj : forall i d x y, I i -> V x -> V y ->
  coef (P pi i x) (qS d (dual y)) = coef (P pi i y) (qS d (dual x)).

Lemma occurs_rl x y d z : V x -> V y -> coef (MM (pS x) (pS y)) (qS d z) <> 0%Qc -> rl x d (dual y).
Proof.
  intros Hx Hy Hc. assert (Sx := @sys_lq_pS V x Hx). assert (Sy := @sys_lq_pS V y Hy).
  assert (HL : lq (MM (pS x) (pS y))) by (apply (sys_lin H); auto using (@sys_lq_vp V)).
  assert (Hz : V z) by (eapply lq_V; eauto). rewrite <- (HD z Hz), (sym_constants H dual HD adj) in Hc by auto.
  apply (prod_reachq (dual z) x d); auto. rewrite (sys_comm H _ _ (sys_lq_pS _ (HV z Hz)) Sx _). auto.
Qed.
Lemma rq_occurs x y d : V x -> V y -> reachq x d (dual y) -> exists f z, (f <= d)%nat /\ coef (MM (pS x) (pS y)) (qS f z) <> 0%Qc.
Proof.
  intros Hx Hy HR. destruct (chain_prodq x d _ Hx HR) as (w & Hw & _ & Hc).
  destruct (prod_term (pS x) w d _ (sys_lq_pS x Hx) Hw Hc) as (v & f & Hv & Hf & Hc'). exists f, (dual v). split; auto.
  rewrite (sys_comm H _ _ (sys_lq_pS v Hv) (sys_lq_pS x Hx) _), (sym_constants H dual HD adj) in Hc' by auto. auto.
Qed.

Lemma min_power p : lq p -> ~ peq p pzero -> exists e, smallest_q p e.
Proof.
  intros Hp Hn.
  assert (HE : exists d x, coef p (qS d x) <> 0%Qc).
  { destruct (pnorm p) as [|[m c] r] eqn:EN.
    - exfalso. apply Hn. rewrite <- pnorm_peq, EN. reflexivity.
    - assert (Hm : coef p m <> 0%Qc).
      { rewrite <- coef_pnorm, (nf_coef_in _ m c (pnorm_nf _)); [|rewrite EN; left; auto].
        pose proof (pnorm_nf p) as [_ HF]. rewrite EN in HF. inversion HF as [|? ? [_ G] ?]; subst. exact G. }
      destruct (Hp m Hm) as (z & qm & Hz & HP & HQ). rewrite (allQ qm HQ) in HP. exists (length qm), z. rewrite (coef_perm _ m _ HP) in Hm. exact Hm. }
  set (nq := fun m : mono => length (filter isq m)).
  assert (NQ : forall e x, nq (qS e x) = e).
  { intros e x. unfold nq, qS. cbn [filter isq vS]. clear. induction e; simpl; auto. }
  assert (NP : forall a b, Permutation a b -> nq a = nq b) by (intros a b HPab; apply Permutation_length, filter_perm; auto).
  assert (IN : forall m, coef p m <> 0%Qc -> exists m' c, In (m', c) (pnorm p) /\ Permutation m m').
  { intros m Hm. rewrite <- coef_pnorm in Hm. revert Hm. generalize (pnorm p). intros q. induction q as [|[a c] q IH]; intros Hm; [exfalso; apply Hm; reflexivity|].
    cbn [coef] in Hm. destruct (mono_eqb a m) eqn:E.
    - exists a, c. split; [left; auto|]. symmetry; apply mono_eqb_perm; auto.
    - destruct IH as (m' & c' & G1 & G2); [exact Hm|]. exists m', c'. split; [right|]; auto. }
  assert (MIN : forall q : poly, q <> [] -> exists m c, In (m, c) q /\ forall m' c', In (m', c') q -> (nq m <= nq m')%nat).
  { induction q as [|[a c] q IH]; intros Hq; [congruence|]. destruct q as [|b q].
    - exists a, c. split; [left; auto|]. intros m' c' [E|[]]. injection E as <- _. lia.
    - destruct IH as (m & c0 & G1 & G2); [discriminate|]. destruct (Nat.le_gt_cases (nq a) (nq m)).
      + exists a, c. split; [left; auto|]. intros m' c' [E|Hin]; [injection E as <- _; lia|]. specialize (G2 _ _ Hin). lia.
      + exists m, c0. split; [right; auto|]. intros m' c' [E|Hin]; [injection E as <- _; lia|]. apply (G2 _ _ Hin). }
  destruct HE as (d0 & x0 & H0). destruct (MIN (pnorm p)) as (m & c & Hin & Hmin); [intros E; apply H0; rewrite <- coef_pnorm, E; reflexivity|].
  assert (Hm : coef p m <> 0%Qc).
  { rewrite <- coef_pnorm, (nf_coef_in _ m c (pnorm_nf _) Hin). pose proof (pnorm_nf p) as [_ HF]. rewrite Forall_forall in HF. apply (HF _ Hin). }
  destruct (Hp m Hm) as (z & qm & Hz & HP & HQ). rewrite (allQ qm HQ) in HP. change (vS z :: repeat VQ (length qm)) with (qS (length qm) z) in HP.
  exists (length qm). split.
  - exists z. rewrite <- (coef_perm _ m _ HP). auto.
  - intros f x Hc. destruct (IN _ Hc) as (m' & c' & G1 & G2). specialize (Hmin _ _ G1). rewrite <- (NP _ _ G2), (NP _ _ HP), !NQ in Hmin. exact Hmin.
Qed.

Theorem least_reachq x y : V x -> V y -> ~ peq (MM (pS x) (pS y)) pzero ->
  exists e, smallest_q (MM (pS x) (pS y)) e /\ reachq x e (dual y) /\ forall f, reachq x f (dual y) -> (e <= f)%nat.
Proof.
  intros Hx Hy Hn. assert (HL : lq (MM (pS x) (pS y))) by (apply (sys_lin H); auto using (@sys_lq_vp V), (@sys_lq_pS V)).
  destruct (min_power _ HL Hn) as (e & (z & Hz) & Hm). exists e. split; [split; eauto|].
  assert (L : forall f, reachq x f (dual y) -> (e <= f)%nat).
  { intros f HR. destruct (rq_occurs x y f Hx Hy HR) as (f' & z' & Hf & Hc). specialize (Hm _ _ Hc). lia. }
  split; auto. destruct (occurs_rl x y e z Hx Hy Hz) as (f & Hf & HR). specialize (L f HR). replace e with f by lia. auto.
Qed.
End MinQ.
