(** C102: the expansions for the three families of maximal isotropic Grassmannians. *)

From Coq Require Import ZArith List Lia Bool QArith Qcanon Setoid Morphisms Permutation.
From Verif Require SeidelP.
From Verif Require Import WSum.
From Verif Require Import Py PyFacts OrderFacts ModelPart ModelQcalc ModelPoly ModelStr ModelGr Spec PolyFacts SuppFacts OpTheory Sys Sys2 SysApi
  FillFacts Enum PartFacts FactsA GrInv SpecRing SpecPieri SpecDet DetFacts SpecPfaff Word Transfer Extract CoefSys CommC CommB PowTwo DualSys RingC RingB SwapRing PfaffWords PfaffWords2 Pfaff.
Import ListNotations.
Open Scope Z_scope.

Section S.
Context {t : gtype} {pi : Z -> list Z -> res poly} {V : list Z -> Prop} {I : Z -> Prop} {k : Z} {mu : list Z -> nat} {fuel : nat}.
Hypothesis H : pieri_sys t pi V I k mu fuel.
Notation MM := (M t pi k fuel).
Notation lq := (supp (linm V (eq VQ))).
Variable n : Z.
Hypothesis Hn : 1 <= n.
Notation N := (Z.to_nat n).
Hypothesis HVw : forall l, V l <-> exists x, In x (bw N) /\ wp 0 x = l.

Lemma expands_sum (prod : poly -> poly -> res poly) first l r :
  (forall a b, V a -> V b -> exists s, prod (pS a) (pS b) = Ok s /\ peq s (MM (pS a) (pS b))) ->
  (forall q, In q (take_row l) -> V (first (snd (fst q))) /\ V (snd q)) ->
  peq (psumf (fun q => pscale (fst (fst q)) (MM (pS (first (snd (fst q)))) (pS (snd q)))) (take_row l)) r -> expands prod first l r.
Proof.
  intros Hp HV E. unfold expands. revert r E. induction (take_row l) as [|q L IH]; intros r E.
  - exists []. split; [constructor|]. symmetry. exact E.
  - destruct (HV q ltac:(left; auto)) as [V1 V2]. destruct (Hp _ _ V1 V2) as (s & Es & Ps). rewrite psumf_cons in E.
    destruct (IH ltac:(intros; apply HV; right; auto) _ (reflexivity _)) as (rs & R1 & R2). exists (s :: rs). split; [constructor; auto|].
    cbn [combine fold_right fst snd]. rewrite <- R2, Ps. symmetry. exact E.
Qed.

Variable kap : Qc.
Variable Y : Z -> poly -> poly.
Variable dq : Z.
Variable fq : word -> word -> Qc.
Notation eb := (Pfaff.eb kap).
Notation qv := (pmono [VQ]).
Hypothesis Y_peq : forall p a b, peq a b -> peq (Y p a) (Y p b).
Hypothesis Y_add : forall p a b, peq (Y p (padd a b)) (padd (Y p a) (Y p b)).
Hypothesis Y_scale : forall p c a, peq (Y p (pscale c a)) (pscale c (Y p a)).
Hypothesis Y_lq : forall p a, lq a -> lq (Y p a).
Hypothesis Y_MM : forall p a b, lq a -> lq b -> peq (Y p (MM a b)) (MM (Y p a) b).
Hypothesis Y_e : forall p x, In x (bw N) -> peq (Y p (eb x))
  (padd (psumf (fun y => pscale (if sz y =? sz x + p then F false x y else 0%Qc) (eb y)) (bw N))
        (psumf (fun y => pscale (if sz y + dq =? sz x + p then fq x y else 0%Qc) (pmul qv (eb y))) (bw N))).
Hypothesis Hq1 : forall x y, In x (bw N) -> In y (bw N) -> sz y + dq <= sz x -> qsum (fun r => (fst (fst r) * fq (snd r) y)%Qc) (rems x) = 0%Qc.
Hypothesis Hq2 : forall x y a, In x (bw N) -> In y (bw N) -> 1 <= a <= Z.of_nat N -> (forall j, In j (wp 0 x) -> j < a) -> sz y + dq = sz x + a ->
  qsum (fun v => (Gm false v x * fq v y)%Qc) (bw N) = 0%Qc.
Hypothesis kap0 : kap <> 0%Qc.

Lemma HVx x : In x (bw N) -> V (wp 0 x).
Proof. intros Hx. apply HVw. eauto. Qed.
Lemma V_sorted l : Sorting.Sorted.StronglySorted (fun a b => b < a) l -> (forall j, In j l -> 1 <= j <= n) -> V l.
Proof. intros S R. apply HVw. apply word_of; auto. intros j Hj. specialize (R j Hj). lia. Qed.
Lemma V_inv l : V l -> Sorting.Sorted.StronglySorted (fun a b => b < a) l /\ (forall j, In j l -> 1 <= j <= n).
Proof.
  intros Hl. apply HVw in Hl. destruct Hl as (x & Hx & <-). pose proof (bw_zlen N x Hx). apply in_bw in Hx. split; [apply wp0_sorted; tauto|].
  intros j Hj. apply SeidelP.wp0_range in Hj; [lia|tauto].
Qed.
Lemma rows_V x : In x (bw N) -> forall q, In q (take_row (wp 0 x)) -> In (snd (fst q)) (wp 0 x) /\ V (snd q).
Proof.
  intros Hx q Hq. split; [apply (take_row_in _ _ Hq)|]. rewrite <- rems_rows in Hq by (apply in_bw in Hx; tauto). apply in_map_iff in Hq. destruct Hq as (r & <- & Hr). cbn [snd].
  apply HVx. apply (rems_bw N x Hx r Hr).
Qed.
Lemma row_exp (prod : poly -> poly -> res poly) :
  (forall a b, V a -> V b -> exists s, prod (pS a) (pS b) = Ok s /\ peq s (MM (pS a) (pS b))) -> row_expansions V prod.
Proof.
  intros Hp.
  assert (E2 : forall a l, V (a :: l) -> exists x, In x (bw N) /\ wp 0 x = l /\ 1 <= a <= n /\ (forall j, In j l -> j < a)).
  { intros a l Hal. destruct (V_inv _ Hal) as [S R]. apply Sorting.Sorted.StronglySorted_inv in S. destruct S as [S1 S2]. rewrite Forall_forall in S2.
    assert (Hl : V l) by (apply V_sorted; auto; intros j Hj; apply R; right; auto). apply HVw in Hl. destruct Hl as (x & Hx & E). exists x. repeat (split; [auto|]); auto; try (apply R; left; auto). }
  assert (V2 : forall a x, In x (bw N) -> 1 <= a <= n -> (forall j, In j (wp 0 x) -> j < a) -> forall q, In q (take_row (wp 0 x)) -> V [a; snd (fst q)] /\ V (snd q)).
  { intros a x Hx Ha Hlt q Hq. destruct (rows_V x Hx q Hq) as [R1 R2]. split; auto. pose proof (Hlt _ R1). pose proof (bw_zlen N x Hx). apply SeidelP.wp0_range in R1; [|apply in_bw in Hx; tauto].
    apply V_sorted; [repeat constructor; lia|intros j [<-|[<-|[]]]; lia]. }
  split; [|split].
  - intros l Hl Ho. apply HVw in Hl. destruct Hl as (x & Hx & <-). apply expands_sum; auto.
    + intros q Hq. destruct (rows_V x Hx q Hq) as [R1 R2]. split; auto. pose proof (bw_zlen N x Hx). apply SeidelP.wp0_range in R1; [|apply in_bw in Hx; tauto].
      apply V_sorted; [repeat constructor|intros j [<-|[]]; lia].
    + apply (expand1 H N HVx kap qv Y dq fq); auto. rewrite <- Nat.negb_odd, Ho. reflexivity.
  - intros a l Hal Ho. destruct (E2 a l Hal) as (x & Hx & <- & Ha & Hlt). apply expands_sum; [exact Hp|apply (V2 a x); auto|].
    pose proof (expand2 H N HVx kap qv Y dq fq Y_peq Y_add Y_scale Y_lq Y_MM Y_e Hq1 Hq2 kap0 x a Hx ltac:(lia) Hlt) as E. rewrite <- Nat.negb_odd, Ho in E. cbn [negb] in E.
    rewrite <- E. intros mo. rewrite coef_padd. change (coef pzero mo) with 0%Qc. ring.
  - intros a l Hal Ho. destruct (E2 a l Hal) as (x & Hx & <- & Ha & Hlt).
    assert (Va : V [a]) by (apply V_sorted; [repeat constructor|intros j [<-|[]]; lia]).
    destruct (Hp [a] (wp 0 x) Va (HVx x Hx)) as (s & Es & Ps). exists s. split; auto. apply expands_sum; [exact Hp|apply (V2 a x); auto|].
    pose proof (expand2 H N HVx kap qv Y dq fq Y_peq Y_add Y_scale Y_lq Y_MM Y_e Hq1 Hq2 kap0 x a Hx ltac:(lia) Hlt) as E. rewrite Ho in E.
    rewrite <- E, Ps. ring.
Qed.
End S.

(** ** from the coefficients of the Pieri rules to the operators *)
Lemma in_bw_wset n x : In x (bw (Z.to_nat n)) <-> In x (wset 0 n).
Proof. rewrite in_bw, in_wset. reflexivity. Qed.
Lemma coef_delta N (c : word -> Qc) v : In v (bw N) -> qsum (fun y => (c y * (if l_dec (wp 0 y) (wp 0 v) then 1 else 0))%Qc) (bw N) = c v.
Proof.
  intros Hv. rewrite (qsum_ext _ (fun y => if list_eq_dec letter_eq_dec y v then c y else 0%Qc)).
  - rewrite (qsum_delta (list_eq_dec letter_eq_dec) c (bw N) v (bw_nodup N)). destruct (in_dec (list_eq_dec letter_eq_dec) v (bw N)); [reflexivity|tauto].
  - intros y Hy. destruct (list_eq_dec letter_eq_dec y v) as [->|E]; destruct (l_dec (wp 0 _) (wp 0 v)) as [E2|E2]; try congruence; try ring.
    exfalso. apply E. apply wp0_inj; auto. apply (bw_bwords N); auto.
Qed.
Lemma wcoefs_sum n D p W (V : list Z -> Prop) : (forall l, V l <-> exists x, In x (bw (Z.to_nat n)) /\ wp 0 x = l) -> supp (linm V (eq VQ)) p ->
  wcoefs (wp 0) (wset 0 n) D p W -> (forall d v, (2 <= d)%nat -> In v (bw (Z.to_nat n)) -> W d v = 0%Qc) ->
  peq p (padd (psumf (fun y => pscale (W 0%nat y) (pS (wp 0 y))) (bw (Z.to_nat n))) (psumf (fun y => pscale (W 1%nat y) (pmul (pmono [VQ]) (pS (wp 0 y)))) (bw (Z.to_nat n)))).
Proof.
  intros HV Hp [Hc _] HW. assert (HVx : forall y, In y (bw (Z.to_nat n)) -> V (wp 0 y)) by (intros; apply HV; eauto).
  apply (lin_peq V); auto.
  { apply supp_padd; apply sum_lq; intros y Hy; [apply (sys_lq_pS (V := V)); auto|]. apply (lin_qmul V (eq VQ)); auto. apply (sys_lq_pS (V := V)); auto. }
  intros d nu Hnu. apply HV in Hnu. destruct Hnu as (v & Hv & <-). rewrite Hc by (apply in_bw_wset; auto). rewrite coef_padd, !coef_ps.
  rewrite (qsum_ext (fun x => (W 0%nat x * coef (pS (wp 0 x)) (qS d (wp 0 v)))%Qc) (fun x => ((if (d =? 0)%nat then W 0%nat x else 0) * (if l_dec (wp 0 x) (wp 0 v) then 1 else 0))%Qc))
    by (intros y _; rewrite coef_pS_q; destruct (d =? 0)%nat; ring).
  rewrite (qsum_ext (fun x => (W 1%nat x * coef (pmul (pmono [VQ]) (pS (wp 0 x))) (qS d (wp 0 v)))%Qc) (fun x => ((if (d =? 1)%nat then W 1%nat x else 0) * (if l_dec (wp 0 x) (wp 0 v) then 1 else 0))%Qc)).
  - rewrite !coef_delta by auto. destruct d as [|[|d]]; cbn [Nat.eqb]; try ring. rewrite HW by (auto; lia). ring.
  - intros y _. rewrite (coef_qmul 1), coef_pS_q. destruct d as [|[|d]]; cbn [Nat.leb Nat.sub Nat.eqb]; ring.
Qed.
