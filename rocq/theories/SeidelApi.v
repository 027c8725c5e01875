(** OG(m,N): the special class of the greatest degree, at the level of qmult. *)

From Coq Require Import ZArith List Lia Bool QArith Qcanon Setoid Morphisms.
From Verif Require Import Py OrderFacts PyFacts ModelPart ModelQcalc ModelPoly ModelStr ModelGr Spec SpecPieri SpecSeidel
  PolyFacts ConjFacts PairFacts OpTheory Sys Sys2 SysMap RingC CommB RingB RingD GrInv Seidel SeidelSys SeidelB SysApi ApiA ApiRingD.
Import ListNotations.
Open Scope Z_scope.

(** what both types need *)
Section Gen.
Variables (g : gr) (V : list Z -> Prop) (MQ : poly -> poly -> poly) (L : list Z) (T : list Z -> list Z) (a : list Z -> nat).
Hypothesis HM : forall x y, V x -> V y -> exists r, qmult g (pS x) (pS y) = Ok r /\ peq r (MQ (pS x) (pS y)).
Hypothesis HL : V L.
Hypothesis TV : forall l, V l -> V (T l).
Hypothesis rot : forall l, V l -> peq (MQ (pS L) (pS l)) (pmono (qS (a l) (T l))).
Hypothesis sym : forall lam m nu, V lam -> V m -> V nu ->
  (forall d e, (a lam + e = d + a nu)%nat -> coef (MQ (pS lam) (pS m)) (qS d nu) = coef (MQ (pS (T lam)) (pS m)) (qS e (T nu))) /\
  (forall d, (d + a nu < a lam)%nat -> coef (MQ (pS lam) (pS m)) (qS d nu) = 0%Qc) /\
  (forall e, (a lam + e < a nu)%nat -> coef (MQ (pS (T lam)) (pS m)) (qS e (T nu)) = 0%Qc).

Lemma gen_rot lam : V lam -> exists r, qmult g (pS L) (pS lam) = Ok r /\ is_sum_of r (fun e nu => e = a lam /\ nu = T lam).
Proof. intros Hl. destruct (HM L lam HL Hl) as (r & E & Pr). exists r. split; auto. apply single_term. rewrite Pr. auto. Qed.
Lemma gen_sym lam mu nu lam' nu' c b rl rn : V lam -> V mu -> V nu ->
  qmult g (pS L) (pS lam) = Ok rl -> is_sum_of rl (fun e kap => e = c /\ kap = lam') ->
  qmult g (pS L) (pS nu) = Ok rn -> is_sum_of rn (fun e kap => e = b /\ kap = nu') ->
  exists r r', qmult g (pS lam) (pS mu) = Ok r /\ qmult g (pS lam') (pS mu) = Ok r' /\
    (forall d e, (c + e = d + b)%nat -> coef r (qS d nu) = coef r' (qS e nu')) /\
    (forall d, (d + b < c)%nat -> coef r (qS d nu) = 0%Qc) /\
    (forall e, (c + e < b)%nat -> coef r' (qS e nu') = 0%Qc).
Proof.
  intros Hl Hmu Hn El Sl En Sn.
  assert (K : forall l c l' rr, V l -> qmult g (pS L) (pS l) = Ok rr -> is_sum_of rr (fun e kap => e = c /\ kap = l') -> c = a l /\ l' = T l).
  { intros l c0 l' rr Hv E S. destruct (gen_rot l Hv) as (r0 & E0 & S0). rewrite E in E0. injection E0 as <-.
    apply single_term in S. apply single_term in S0. rewrite S in S0. apply pmono_qS_inj in S0. auto. }
  destruct (K _ _ _ _ Hl El Sl) as [-> ->], (K _ _ _ _ Hn En Sn) as [-> ->].
  destruct (HM lam mu Hl Hmu) as (r & Er & Pr). destruct (HM _ mu (TV _ Hl) Hmu) as (r' & Er' & Pr').
  exists r, r'. split; auto. split; auto. destruct (sym lam mu nu) as (A & B & C); auto.
  split; [intros; rewrite (Pr _), (Pr' _); auto|]. split; intros; [rewrite (Pr _); auto|rewrite (Pr' _); auto].
Qed.
End Gen.

Section Odd.
Variables (m n : Z) (g : gr).
Hypothesis Hg : OrthogonalGrassmannian m (2 * n + 1) = Ok g.
Hypothesis Hm : 1 <= m <= n.
Notation k := (n - m).
Notation V := (class_OG m (2 * n + 1)).
Lemma okO : okB true k n. Proof. unfold okB. lia. Qed.
Lemma odd_half : (2 * n + 1) / 2 = n. Proof. symmetry. apply Z.div_unique with 1; lia. Qed.
Lemma odd_facts : g = gB k n /\ forall l, V l <-> kstrict_in k (n - k) (n + k) l.
Proof.
  destruct (og_inv _ _ _ Hg ltac:(rewrite odd_half; lia)) as [(n0 & EN & En & Ev & Hmn & Eg)|(n0 & EN & _)]; [|lia].
  assert (Enn : n0 = n) by lia. rewrite Enn in *. split; [exact Eg|]. intros l. unfold class_OG. rewrite Ev, En.
  replace (n - k) with m by lia. replace (n + k) with (2 * n + 1 - 1 - m) by lia. reflexivity.
Qed.
Notation MQ := (M TB (piB k n true) k (giam_fuel (gB k n))).
Lemma qmult_B a b : V a -> V b -> exists r, qmult g (pS a) (pS b) = Ok r /\ peq r (MQ (pS a) (pS b)).
Proof.
  destruct odd_facts as (Eg & EV). rewrite !EV. intros Ha Hb.
  assert (LC : forall x, kstrict_in k (n - k) (n + k) x -> lin_comb (kstrict_in k (n - k) (n + k)) (pS x)) by (intros x Hx; apply lin_comb_iff, sys_lq_pS; auto).
  destruct (api_prod (sysB k n true okO) (pS a) (pS b) (lin_comb_poly_in _ (LC _ Ha)) (LC _ Hb)) as (r & E & Pr & _).
  exists r. split; auto. rewrite Eg. exact E.
Qed.
Lemma V_nilB : V [].
Proof. destruct odd_facts as (_ & EV). apply EV. apply (ps_nil _ _ _ _ _ _ _ (sysB k n true okO)). Qed.
Lemma topB_VO l : V l -> V (topB k n l).
Proof. destruct odd_facts as (_ & EV). rewrite !EV. apply topB_V, okO. Qed.
Lemma LB_V : V [2 * n - m].
Proof.
  pose proof (topB_VO [] V_nilB) as H. rewrite (proj1 (topB_nil k n okO)) in H. replace (n + k) with (2 * n - m) in H by lia. exact H.
Qed.
Lemma c98_odd lam : V lam -> exists r, qmult g (pS [2 * n - m]) (pS lam) = Ok r /\
  (part lam 0 = 2 * n - m -> is_sum_of r (fun d nu => d = (if m =? n then 1%nat else 2%nat) /\ nu = tl lam)) /\
  (part lam 0 <> 2 * n - m -> count_ge lam 1 = m -> is_sum_of r (fun d nu => d = 1%nat /\ nu = lam)) /\
  (part lam 0 <> 2 * n - m -> count_ge lam 1 <> m -> is_sum_of r (fun d nu => d = 0%nat /\ nu = (2 * n - m) :: lam)).
Proof.
  intros Hl. destruct odd_facts as (Eg & EV).
  destruct (gen_rot g V MQ [2 * n - m] (topB k n) (aB k n) qmult_B LB_V) with (lam := lam) as (r & E & S); auto.
  { intros l H. replace (2 * n - m) with (n + k) by lia. apply rotB; [apply okO|]. apply EV; auto. }
  exists r. split; auto. revert S. unfold topB, aB, two1. replace (n + k) with (2 * n - m) by lia. replace (n - k) with m by lia.
  replace (k =? 0) with (m =? n) by (destruct (Z.eqb_spec m n), (Z.eqb_spec k 0); lia).
  destruct (Z.eqb_spec (part lam 0) (2 * n - m)), (Z.eqb_spec (count_ge lam 1) m); intros S; (split; [|split]); intros; solve [congruence|exact S].
Qed.
Lemma c98_odd_sym : top_sym (qmult g) V [2 * n - m].
Proof.
  unfold top_sym. destruct odd_facts as (Eg & EV). apply (gen_sym g V MQ [2 * n - m] (topB k n) (aB k n) qmult_B LB_V topB_VO).
  - intros l H. replace (2 * n - m) with (n + k) by lia. apply rotB; [apply okO|]. apply EV; auto.
  - intros lam mu nu. rewrite !EV. intros. apply symB; auto. apply okO.
Qed.
End Odd.

Section Even.
Variables (m n : Z) (g : gr).
Hypothesis Hg : OrthogonalGrassmannian m (2 * n) = Ok g.
Hypothesis Hm : 1 <= m < n - 1.
Notation k := (n - m).
Notation V := (class_OG m (2 * n)).
Lemma okE : okD true k (n - 1). Proof. unfold okD. lia. Qed.
Lemma even_half : (2 * n) / 2 = n. Proof. symmetry. apply Z.div_unique with 0; lia. Qed.
Lemma even_facts : g = gD k (n - 1) /\ forall l, V l <-> typed_in k (n - 1 + 1 - k) (n - 1 + k) l.
Proof.
  destruct (og_inv _ _ _ Hg ltac:(rewrite even_half; lia)) as [(n0 & EN & _)|(n0 & EN & En & Ev & Hmn & Eg)]; [lia|].
  assert (Enn : n0 = n - 1) by lia. rewrite Enn in *. replace (n - 1 + 1) with n in * by lia. split; [exact Eg|]. intros l. unfold class_OG. rewrite Ev, En.
  replace (n - k) with m by lia. replace (n - 1 + k) with (2 * n - 1 - m) by lia. reflexivity.
Qed.
Notation MQ := (M TD (piD k (n - 1) true) k (giam_fuel (gD k (n - 1)))).
Lemma qmult_D a b : V a -> V b -> exists r, qmult g (pS a) (pS b) = Ok r /\ peq r (MQ (pS a) (pS b)).
Proof.
  destruct even_facts as (Eg & EV). rewrite !EV. intros Ha Hb.
  assert (LC : forall x, typed_in k (n - 1 + 1 - k) (n - 1 + k) x -> lin_comb (typed_in k (n - 1 + 1 - k) (n - 1 + k)) (pS x)) by (intros x Hx; apply lin_comb_iff, sys_lq_pS; auto).
  destruct (api_prod (sysD k (n - 1) true okE) (pS a) (pS b) (lin_comb_poly_in _ (LC _ Ha)) (LC _ Hb)) as (r & E & Pr & _).
  exists r. split; auto. rewrite Eg. exact E.
Qed.
Lemma V_nilD : V [].
Proof. destruct even_facts as (_ & EV). apply EV. apply (ps_nil _ _ _ _ _ _ _ (sysD k (n - 1) true okE)). Qed.
Lemma topD_VE l : V l -> V (topD k (n - 1) l).
Proof. destruct even_facts as (_ & EV). rewrite !EV. apply topD_V, okE. Qed.
Lemma LD_V : V [2 * n - 1 - m].
Proof.
  pose proof (topD_VE [] V_nilD) as H. rewrite (proj1 (topD_nil k (n - 1) okE)) in H. replace (n - 1 + k) with (2 * n - 1 - m) in H by lia. exact H.
Qed.
Lemma c98_even lam : V lam -> exists r, qmult g (pS [2 * n - 1 - m]) (pS lam) = Ok r /\
  (part lam 0 = 2 * n - 1 - m -> is_sum_of r (fun d nu => d = 2%nat /\ nu = tl lam)) /\
  (part lam 0 <> 2 * n - 1 - m -> count_ge lam 1 = m -> is_sum_of r (fun d nu => d = 1%nat /\ nu = swap_type (n - m) lam)) /\
  (part lam 0 <> 2 * n - 1 - m -> count_ge lam 1 <> m -> is_sum_of r (fun d nu => d = 0%nat /\ nu = (2 * n - 1 - m) :: lam)).
Proof.
  intros Hl. destruct even_facts as (Eg & EV).
  destruct (gen_rot g V MQ [2 * n - 1 - m] (topD k (n - 1)) (aD k (n - 1)) qmult_D LD_V) with (lam := lam) as (r & E & S); auto.
  { intros l H. replace (2 * n - 1 - m) with (n - 1 + k) by lia. apply rotD; [apply okE|]. apply EV; auto. }
  exists r. split; auto. revert S. unfold topD, aD. replace (n - 1 + k) with (2 * n - 1 - m) by lia. replace (n - 1 + 1 - k) with m by lia.
  destruct (Z.eqb_spec (part lam 0) (2 * n - 1 - m)), (Z.eqb_spec (count_ge lam 1) m); intros S; (split; [|split]); intros; solve [congruence|exact S].
Qed.
Lemma c98_even_sym : top_sym (qmult g) V [2 * n - 1 - m].
Proof.
  unfold top_sym. destruct even_facts as (Eg & EV). apply (gen_sym g V MQ [2 * n - 1 - m] (topD k (n - 1)) (aD k (n - 1)) qmult_D LD_V topD_VE).
  - intros l H. replace (2 * n - 1 - m) with (n - 1 + k) by lia. apply rotD; [apply okE|]. apply EV; auto.
  - intros lam mu nu. rewrite !EV. intros. apply symD; auto. apply okE.
Qed.
End Even.
