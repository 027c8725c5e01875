(** Expanding a class of a maximal isotropic Grassmannian along its rows. *)

From Coq Require Import ZArith List Lia Bool QArith Qcanon Setoid Morphisms Permutation.
From Coq Require Sorting.Sorted.
From Verif Require SeidelP.
From Verif Require Import Py PyFacts OrderFacts ModelPart ModelQcalc ModelPoly ModelStr ModelGr Spec PolyFacts SuppFacts OpTheory Sys Sys2
  FillFacts Enum PartFacts SpecDet DetFacts SpecPfaff Word Transfer Extract CoefSys CommC PowTwo PfaffWords PfaffWords2.
Import ListNotations.
Open Scope Z_scope.

(** sums of scaled polynomials, coefficient by coefficient *)
Lemma coef_ps {A} (c : A -> Qc) (f : A -> poly) l mo : coef (psumf (fun x => pscale (c x) (f x)) l) mo = qsum (fun x => (c x * coef (f x) mo)%Qc) l.
Proof. rewrite coef_psumf. apply qsum_ext. intros. apply coef_pscale. Qed.
Lemma qsum_fub {A B} (f : A -> B -> Qc) l1 l2 : qsum (fun x => qsum (f x) l2) l1 = qsum (fun y => qsum (fun x => f x y) l1) l2.
Proof.
  induction l1 as [|x l IH]; [symmetry; apply qsum_zero; reflexivity|]. rewrite qsum_cons, IH, <- qsum_add. reflexivity.
Qed.

Definition letter_eq_dec (a b : letter) : {a = b} + {a <> b}.
Proof. decide equality. Defined.

(** every strict partition is the partition of a word *)
Lemma word_of N : forall l, Sorting.Sorted.StronglySorted (fun a b => b < a) l -> (forall j, In j l -> 1 <= j <= Z.of_nat N) -> exists w, In w (bw N) /\ wp 0 w = l.
Proof.
  induction N as [|N IH]; intros l Hs Hr.
  - exists []. destruct l as [|b l]; [cbn; auto|]. specialize (Hr b ltac:(left; auto)). lia.
  - destruct l as [|b l].
    + destruct (IH [] ltac:(constructor) ltac:(intros j [])) as (w & Hw & E). exists (LL :: w). cbn [bw]. rewrite in_app_iff, in_map_iff. split; [left; eauto|]. rewrite wp0_L. auto.
    + pose proof (Hr b ltac:(left; auto)) as Hb. apply Sorting.Sorted.StronglySorted_inv in Hs as Hs'. destruct Hs' as [S1 S2]. rewrite Forall_forall in S2.
      destruct (Z.eq_dec b (Z.of_nat (S N))) as [Eb|Eb].
      * destruct (IH l S1) as (w & Hw & E). { intros j Hj. specialize (S2 j Hj). specialize (Hr j ltac:(right; auto)). lia. }
        exists (LR :: w). cbn [bw]. rewrite in_app_iff, !in_map_iff. split; [right; eauto|]. pose proof (bw_zlen N w Hw). apply in_bw in Hw. rewrite SeidelP.wp0_R by tauto. f_equal; [lia|auto].
      * destruct (IH (b :: l) Hs) as (w & Hw & E). { intros j [<-|Hj]; [lia|]. specialize (S2 j Hj). specialize (Hr j ltac:(right; auto)). lia. }
        exists (LL :: w). cbn [bw]. rewrite in_app_iff, !in_map_iff. split; [left; eauto|]. rewrite wp0_L. auto.
Qed.
Lemma wp0_sorted x : cE x = 0 -> Sorting.Sorted.StronglySorted (fun a b => b < a) (wp 0 x).
Proof.
  induction x as [|a x IH]; intros A; [constructor|]. destruct (SeidelP.cE0_cons _ _ A) as (_ & A1 & A2).
  destruct a; try congruence; [rewrite SeidelP.wp0_R by auto|rewrite wp0_L; auto]. constructor; auto. apply Forall_forall. intros j Hj. apply SeidelP.wp0_range in Hj; auto. lia.
Qed.

Section Ab.
Context {t : gtype} {pi : Z -> list Z -> res poly} {V : list Z -> Prop} {I : Z -> Prop} {k : Z} {mu : list Z -> nat} {fuel : nat}.
Hypothesis H : pieri_sys t pi V I k mu fuel.
Notation MM := (M t pi k fuel).
Notation lq := (supp (linm V (eq VQ))).
Variable N : nat.
Hypothesis HV : forall x, In x (bw N) -> V (wp 0 x).
Variable kap : Qc.
Definition eb (x : word) : poly := pscale (kap ^ length (wp 0 x)) (pS (wp 0 x)).
Variable qv : poly.
Variable Y : Z -> poly -> poly.
Variable dq : Z.
Variable fq : word -> word -> Qc.
Hypothesis Y_peq : forall p a b, peq a b -> peq (Y p a) (Y p b).
Hypothesis Y_add : forall p a b, peq (Y p (padd a b)) (padd (Y p a) (Y p b)).
Hypothesis Y_scale : forall p c a, peq (Y p (pscale c a)) (pscale c (Y p a)).
Hypothesis Y_lq : forall p a, lq a -> lq (Y p a).
Hypothesis Y_MM : forall p a b, lq a -> lq b -> peq (Y p (MM a b)) (MM (Y p a) b).
Hypothesis Y_e : forall p x, In x (bw N) -> peq (Y p (eb x))
  (padd (psumf (fun y => pscale (if sz y =? sz x + p then F false x y else 0%Qc) (eb y)) (bw N))
        (psumf (fun y => pscale (if sz y + dq =? sz x + p then fq x y else 0%Qc) (pmul qv (eb y))) (bw N))).
Hypothesis Hq1 : forall x y, In x (bw N) -> In y (bw N) -> sz y + dq <= sz x -> qsum (fun r => (fst (fst r) * fq (snd r) y)%Qc) (rems x) = 0%Qc.
Hypothesis Hq2 : forall x y a, In x (bw N) -> In y (bw N) -> 1 <= a <= Z.of_nat N -> (forall j, In j (wp 0 x) -> j < a) -> sz y + dq = sz x + a ->
  qsum (fun v => (Gm false v x * fq v y)%Qc) (bw N) = 0%Qc.

#[local] Instance Y_Proper p : Proper (peq ==> peq) (Y p).
Proof. intros a b E. apply Y_peq; auto. Qed.
Lemma Y_zero p : peq (Y p pzero) pzero.
Proof. transitivity (Y p (pscale 0 pzero)); [apply Y_peq; intros mo; rewrite coef_pscale; cbn; ring|]. rewrite Y_scale. intros mo. rewrite coef_pscale. cbn. ring. Qed.
Lemma Y_sum {A} p c (f : A -> poly) l : peq (Y p (psumf (fun x => pscale (c x) (f x)) l)) (psumf (fun x => pscale (c x) (Y p (f x))) l).
Proof. induction l as [|x l IH]; [apply Y_zero|]. rewrite !psumf_cons, Y_add, Y_scale, IH. reflexivity. Qed.
Lemma eb_lq x : In x (bw N) -> lq (eb x).
Proof. intros Hx. apply supp_pscale. apply (sys_lq_pS (V := V)); auto. Qed.
Lemma sum_lq {A} c (f : A -> poly) l : (forall x, In x l -> lq (f x)) -> lq (psumf (fun x => pscale (c x) (f x)) l).
Proof.
  induction l as [|x l IH]; intros Hf; [apply supp_zero|]. rewrite psumf_cons. apply supp_padd; [apply supp_pscale, Hf; left; auto|]. apply IH. intros; apply Hf; right; auto.
Qed.
Lemma MM_sum {A} c (f : A -> poly) l b : (forall x, In x l -> lq (f x)) -> lq b -> peq (MM (psumf (fun x => pscale (c x) (f x)) l) b) (psumf (fun x => pscale (c x) (MM (f x) b)) l).
Proof.
  intros Hf Hb. induction l as [|x l IH].
  - change (peq (MM pzero b) pzero). transitivity (MM (pscale 0 (pS [])) b); [apply M_peq; [intros mo; rewrite coef_pscale; cbn [coef pzero]; ring|reflexivity]|].
    rewrite (sys_scale_l H) by (auto; apply (sys_lq_vp (V := V)), (sys_lq_one H)). intros mo. rewrite coef_pscale. cbn. ring.
  - rewrite !psumf_cons. assert (lq (f x)) by (apply Hf; left; auto). assert (lq (psumf (fun x => pscale (c x) (f x)) l)) by (apply sum_lq; intros; apply Hf; right; auto).
    rewrite (sys_add_l H) by (auto; apply (sys_lq_vp (V := V)); auto; apply supp_pscale; auto). rewrite (sys_scale_l H) by (auto; apply (sys_lq_vp (V := V)); auto).
    rewrite IH; [reflexivity|]. intros; apply Hf; right; auto.
Qed.

Definition Ts (u : Z) (x : word) : poly := psumf (fun r => pscale (fst (fst r)) (Y (snd (fst r) - u) (eb (snd r)))) (rems x).
Definition Ds (u : Z) (x : word) : poly := psumf (fun y => pscale (if sz y =? sz x - u then G false y x else 0%Qc) (eb y)) (bw N).
Lemma rems_bw x : In x (bw N) -> forall r, In r (rems x) -> In (snd r) (bw N).
Proof. intros Hx r Hr. apply in_bw in Hx. destruct (rems_in x (proj2 Hx) r Hr) as (R1 & R2 & _). apply in_bw. destruct Hx. split; congruence. Qed.
Lemma Ts_sum u x : In x (bw N) -> 0 <= u -> peq (Ts u x) (psumf (fun y => pscale (if sz y =? sz x - u then Hs false x y else 0%Qc) (eb y)) (bw N)).
Proof.
  intros Hx Hu mo. unfold Ts. rewrite !coef_ps.
  rewrite (qsum_ext _ (fun r => qsum (fun y => (if sz y =? sz x - u then fst (fst r) * F false (snd r) y else 0) * coef (eb y) mo)%Qc (bw N) +
     qsum (fun y => (if sz y + dq =? sz x - u then fst (fst r) * fq (snd r) y else 0) * coef (pmul qv (eb y)) mo)%Qc (bw N))%Qc).
  - rewrite qsum_add. rewrite (qsum_fub _ (rems x) (bw N)). rewrite (qsum_fub (fun r y => ((if sz y + dq =? sz x - u then fst (fst r) * fq (snd r) y else 0) * coef (pmul qv (eb y)) mo)%Qc) (rems x) (bw N)).
    rewrite (qsum_zero (fun y => qsum (fun r => ((if sz y + dq =? sz x - u then fst (fst r) * fq (snd r) y else 0) * coef (pmul qv (eb y)) mo)%Qc) (rems x))).
    + rewrite Qcplus_0_r. apply qsum_ext. intros y Hy. destruct (sz y =? sz x - u).
      * unfold Hs. rewrite Qcmult_comm, <- qsum_mul. apply qsum_ext. intros [[c z] v] _. cbn [fst snd]. ring.
      * rewrite qsum_zero; [ring|]. intros; ring.
    + intros y Hy. destruct (Z.eqb_spec (sz y + dq) (sz x - u)) as [E|E].
      * rewrite (qsum_ext _ (fun r => (coef (pmul qv (eb y)) mo * (fst (fst r) * fq (snd r) y))%Qc)) by (intros [[c z] v] _; cbn [fst snd]; ring).
        rewrite qsum_mul, Hq1 by (auto; lia). ring.
      * apply qsum_zero. intros; ring.
  - intros r Hr. pose proof (rems_bw x Hx r Hr) as Hb. rewrite (Y_e _ _ Hb mo), coef_padd, !coef_ps. apply in_bw in Hx. destruct (rems_in x (proj2 Hx) r Hr) as (_ & _ & R3 & _).
    destruct r as [[c z] v]. cbn [fst snd] in *. replace (sz v + (z - u)) with (sz x - u) by lia. rewrite Qcmult_plus_distr_r, <- !qsum_mul. f_equal; apply qsum_ext; intros y _.
    + destruct (sz y =? sz x - u); ring.
    + destruct (sz y + dq =? sz x - u); ring.
Qed.
Lemma Ts_pos u x : In x (bw N) -> 1 <= u -> peq (pscale two (Ts u x)) (Ds u x).
Proof.
  intros Hx Hu. rewrite (Ts_sum u x Hx ltac:(lia)). intros mo. unfold Ds. rewrite coef_pscale, !coef_ps, <- qsum_mul. apply qsum_ext. intros y Hy.
  destruct (Z.eqb_spec (sz y) (sz x - u)) as [E|E]; [|ring]. pose proof (bw_bwords N x y Hx Hy) as B. pose proof (sum_T x y B ltac:(lia)) as S.
  rewrite Qcmult_assoc, S. destruct (Qc_eq_dec (weq x y) 0) as [->|W]; [ring|]. apply weq_neq in W. subst y. lia.
Qed.
Lemma delta_eb x : In x (bw N) -> peq (psumf (fun y => pscale (if sz y =? sz x then weq x y else 0%Qc) (eb y)) (bw N)) (eb x).
Proof.
  intros Hx mo. rewrite coef_ps.
  rewrite (qsum_ext _ (fun y => if list_eq_dec letter_eq_dec y x then coef (eb y) mo else 0%Qc)).
  - rewrite (qsum_delta (list_eq_dec letter_eq_dec) (fun y => coef (eb y) mo) (bw N) x (bw_nodup N)). destruct (in_dec (list_eq_dec letter_eq_dec) x (bw N)); [reflexivity|tauto].
  - intros y Hy. destruct (list_eq_dec letter_eq_dec y x) as [->|E].
    + rewrite Z.eqb_refl, (weq_refl x x) by (auto; apply (bw_bwords N); auto). ring.
    + destruct (Qc_eq_dec (weq x y) 0) as [->|W]; [destruct (_ =? _); ring|]. apply weq_neq in W. congruence.
Qed.
Lemma Ds_zero x : In x (bw N) -> peq (Ds 0 x) (eb x).
Proof.
  intros Hx. rewrite <- (delta_eb x Hx). apply psumf_ext. intros y Hy. rewrite Z.sub_0_r. destruct (Z.eqb_spec (sz y) (sz x)) as [E|E]; [|reflexivity].
  pose proof (bw_bwords N x y Hx Hy) as B. destruct (FG x y B) as [_ ->]. destruct (ker_eqsz x y B E) as [_ ->]. reflexivity.
Qed.
Lemma Ts_zero x : In x (bw N) -> peq (pscale two (Ts 0 x)) (pscale (1 - par x) (eb x)).
Proof.
  intros Hx. rewrite (Ts_sum 0 x Hx ltac:(lia)), <- (delta_eb x Hx) at 1. intros mo. rewrite !coef_pscale, !coef_ps, <- !qsum_mul. apply qsum_ext. intros y Hy. rewrite Z.sub_0_r.
  destruct (Z.eqb_spec (sz y) (sz x)) as [E|E]; [|ring].
  pose proof (bw_bwords N x y Hx Hy) as B. rewrite Qcmult_assoc, (sum_T x y B) by lia. destruct (FG x y B) as [_ ->]. destruct (ker_eqsz x y B E) as [_ ->]. ring.
Qed.

Section A.
Variables (x z : word) (a : Z).
Hypothesis Hx : In x (bw N).
Hypothesis Hz : In z (bw N).
Hypothesis Ha : 1 <= a <= Z.of_nat N.
Hypothesis Hlt : forall j, In j (wp 0 x) -> j < a.
Hypothesis Ez : wp 0 z = a :: wp 0 x.
Lemma E_sum : peq (psumf (fun v => pscale (Gm false v x) (Y (a + sz x - sz v) (eb v))) (bw N)) (eb z).
Proof.
  intros mo. rewrite coef_ps.
  rewrite (qsum_ext _ (fun v => qsum (fun y => (if sz y =? sz x + a then Gm false v x * F false v y else 0) * coef (eb y) mo)%Qc (bw N) +
     qsum (fun y => (if sz y + dq =? sz x + a then Gm false v x * fq v y else 0) * coef (pmul qv (eb y)) mo)%Qc (bw N))%Qc).
  - rewrite qsum_add. rewrite (qsum_fub _ (bw N) (bw N)). rewrite (qsum_fub (fun v y => ((if sz y + dq =? sz x + a then Gm false v x * fq v y else 0) * coef (pmul qv (eb y)) mo)%Qc) (bw N) (bw N)).
    rewrite (qsum_zero (fun y => qsum (fun v => ((if sz y + dq =? sz x + a then Gm false v x * fq v y else 0) * coef (pmul qv (eb y)) mo)%Qc) (bw N))).
    + rewrite Qcplus_0_r. rewrite (qsum_ext _ (fun y => if list_eq_dec letter_eq_dec y z then coef (eb y) mo else 0%Qc)).
      { rewrite (qsum_delta (list_eq_dec letter_eq_dec) (fun y => coef (eb y) mo) (bw N) z (bw_nodup N)). destruct (in_dec (list_eq_dec letter_eq_dec) z (bw N)); [reflexivity|tauto]. }
      intros y Hy. pose proof (bw_bwords N x y Hx Hy) as B. assert (Hl : length x = N) by (apply in_bw in Hx; tauto).
      destruct (main_K x y B N Hl) as (K1 & _). unfold K in K1. destruct (bwords_cE _ _ B) as (_ & Ex & Ey).
      destruct (list_eq_dec letter_eq_dec y z) as [->|E].
      * assert (Es : sz z =? sz x + a = true) by (apply Z.eqb_eq; rewrite !sz_size, Ez by auto; change (size (a :: wp 0 x)) with (a + size (wp 0 x)); lia). rewrite Es.
        rewrite (qsum_ext _ (fun v => (coef (eb z) mo * (Gm false v x * F false v z))%Qc)) by (intros; ring). rewrite qsum_mul, K1, (C00_is x z a B Hlt Ez). ring.
      * destruct (Z.eqb_spec (sz y) (sz x + a)) as [Es|Es]; [|apply qsum_zero; intros; ring].
        rewrite (qsum_ext _ (fun v => (coef (eb y) mo * (Gm false v x * F false v y))%Qc)) by (intros; ring). rewrite qsum_mul, K1.
        destruct (Qc_eq_dec (C00 x y) 0) as [->|C]; [ring|]. exfalso. apply E. destruct (C00_ins x y a B ltac:(lia) Hlt Es C) as [E1 _]. apply wp0_inj; [apply (bw_bwords N); auto|]. congruence.
    + intros y Hy. destruct (Z.eqb_spec (sz y + dq) (sz x + a)) as [E|E].
      * rewrite (qsum_ext _ (fun v => (coef (pmul qv (eb y)) mo * (Gm false v x * fq v y))%Qc)) by (intros; ring).
        rewrite qsum_mul, (Hq2 x y a) by auto. ring.
      * apply qsum_zero. intros; ring.
  - intros v Hv. rewrite (Y_e _ _ Hv mo), coef_padd, !coef_ps. replace (sz v + (a + sz x - sz v)) with (sz x + a) by lia. rewrite Qcmult_plus_distr_r, <- !qsum_mul. f_equal; apply qsum_ext; intros y _.
    + destruct (sz y =? sz x + a); ring.
    + destruct (sz y + dq =? sz x + a); ring.
Qed.
Lemma E_D m : sz x <= Z.of_nat m -> peq (psumf (fun u => pscale (sg (Z.of_nat u)) (Y (a + Z.of_nat u) (Ds (Z.of_nat u) x))) (seq 0 (S m))) (eb z).
Proof.
  intros Hm. rewrite <- E_sum. intros mo. rewrite !coef_ps.
  rewrite (qsum_ext _ (fun u => qsum (fun v => if (Z.to_nat (sz x - sz v) =? u)%nat then (Gm false v x * coef (Y (a + sz x - sz v) (eb v)) mo)%Qc else 0%Qc) (bw N))).
  - rewrite qsum_fub. apply qsum_ext. intros v Hv. destruct (Qc_eq_dec (Gm false v x) 0) as [->|Z0].
    + rewrite qsum_zero; [ring|]. intros u _. destruct (_ =? _)%nat; ring.
    + pose proof (bw_bwords N v x Hv Hx) as B. assert (Z1 : G false v x <> 0%Qc) by (intros Z1; apply Z0; destruct (Gm_G v x B) as [-> _]; rewrite Z1; ring).
      apply (ker_deg _ false) in Z1; auto. cbv iota in Z1. assert (0 <= sz v) by (clear; induction v as [|[| |] v IH]; cbn [sz]; try lia; unfold zlen; lia). apply (qsum_one (fun _ => (Gm false v x * coef (Y (a + sz x - sz v) (eb v)) mo)%Qc)). lia.
  - intros u _. unfold Ds. rewrite (Y_sum _ _ _ _ mo), coef_ps, <- qsum_mul. apply qsum_ext. intros v Hv. pose proof (bw_bwords N v x Hv Hx) as B.
    destruct (Z.eqb_spec (sz v) (sz x - Z.of_nat u)) as [E|E].
    + replace (Z.to_nat (sz x - sz v) =? u)%nat with true by (symmetry; apply Nat.eqb_eq; lia). destruct (Gm_G v x B) as [-> _]. replace (a + sz x - sz v) with (a + Z.of_nat u) by lia. replace (sz x - sz v) with (Z.of_nat u) by lia. ring.
    + destruct (Nat.eqb_spec (Z.to_nat (sz x - sz v)) u) as [E2|E2]; [|ring].
      destruct (Qc_eq_dec (Gm false v x) 0) as [->|Z0]; [ring|]. assert (Z1 : G false v x <> 0%Qc) by (intros Z1; apply Z0; destruct (Gm_G v x B) as [-> _]; rewrite Z1; ring).
      apply (ker_deg _ false) in Z1; auto. cbv iota in Z1. lia.
Qed.
Definition ct (u : nat) : Qc := match u with O => 1%Qc | S _ => two end.
Lemma E_T m : sz x <= Z.of_nat m -> peq (pscale two (psumf (fun u => pscale (sg (Z.of_nat u) * ct u) (Y (a + Z.of_nat u) (Ts (Z.of_nat u) x))) (seq 0 (S m))))
  (psub (pscale two (eb z)) (pscale (1 + par x) (Y a (eb x)))).
Proof.
  intros Hm. rewrite <- (E_D m Hm). cbn [seq]. rewrite !psumf_cons. cbn [ct]. change (sg (Z.of_nat 0)) with 1%Qc. rewrite Z.add_0_r.
  assert (E1 : peq (psumf (fun u => pscale (sg (Z.of_nat u) * ct u) (Y (a + Z.of_nat u) (Ts (Z.of_nat u) x))) (seq 1 m)) (psumf (fun u => pscale (sg (Z.of_nat u)) (Y (a + Z.of_nat u) (Ds (Z.of_nat u) x))) (seq 1 m))).
  { apply psumf_ext. intros u Hu. apply in_seq in Hu. rewrite <- (Ts_pos (Z.of_nat u) x Hx) by lia. rewrite Y_scale. destruct u; [lia|]. cbn [ct]. intros mo. rewrite !coef_pscale. ring. }
  rewrite E1. rewrite (Ds_zero x Hx).
  assert (E0 : peq (pscale two (Y a (Ts 0 x))) (pscale (1 - par x) (Y a (eb x)))) by (rewrite <- !Y_scale; apply Y_peq, Ts_zero; auto).
  intros mo. specialize (E0 mo). rewrite ?coef_psub, ?coef_pscale, ?coef_padd, ?coef_pscale, ?coef_padd, ?coef_pscale in *. 
  change (Z.of_nat 0) with 0. rewrite Qcmult_plus_distr_r. replace (two * (1 * 1 * coef (Y a (Ts 0 x)) mo))%Qc with (two * coef (Y a (Ts 0 x)) mo)%Qc by ring. rewrite E0. unfold two. ring.
Qed.
End A.

Hypothesis kap0 : kap <> 0%Qc.
Lemma eb_nil w : wp 0 w = [] -> peq (eb w) (pS []).
Proof. unfold eb. intros ->. intros mo. rewrite coef_pscale. cbn [length Qcpower]. ring. Qed.
Lemma one_row x b : In x (bw N) -> wp 0 x = [b] -> forall u, peq (Ts u x) (Y (b - u) (pS [])).
Proof.
  intros Hx E u. pose proof (rems_rows x ltac:(apply in_bw in Hx; tauto)) as R. rewrite E in R. cbn [take_row map] in R. unfold Ts.
  destruct (rems x) as [|[[c z] v] [|? ?]]; try discriminate. cbn [map fst snd] in R. injection R as -> -> Ev. rewrite psumf_cons. cbn [fst snd]. change (psumf _ []) with pzero.
  rewrite (Y_peq _ _ _ (eb_nil v Ev)). intros mo. rewrite coef_padd, coef_pscale. cbn. ring.
Qed.
Lemma par_len x : cE x = 0 -> par x = if Nat.even (length (wp 0 x)) then 1%Qc else (- (1))%Qc.
Proof.
  induction x as [|a x IH]; intros A; [reflexivity|]. destruct (SeidelP.cE0_cons _ _ A) as (_ & A1 & A2).
  destruct a; try congruence; cbn [par].
  - rewrite SeidelP.wp0_R, IH by auto. cbn [length]. rewrite Nat.even_succ, <- Nat.negb_even. destruct (Nat.even _); cbn [negb]; ring.
  - rewrite wp0_L. auto.
Qed.
Lemma two_nz a b : peq (pscale two a) (pscale two b) -> peq a b.
Proof. intros E mo. specialize (E mo). rewrite !coef_pscale in E. apply (f_equal (fun c => (c / two)%Qc)) in E. unfold two in *. field_simplify in E; auto; discriminate. Qed.
Lemma Y_one b c : lq c -> peq (MM (Y b (pS [])) c) (Y b c).
Proof. intros Hc. rewrite <- Y_MM by (auto; apply (sys_lq_one H)). apply Y_peq. apply (sys_unit H); auto. Qed.
Lemma MM_one z b c : In z (bw N) -> wp 0 z = [b] -> lq c -> peq (MM (eb z) c) (Y b c).
Proof.
  intros Hz E Hc. rewrite <- (Y_one b c Hc). apply M_peq; [|reflexivity]. apply two_nz.
  pose proof (Ts_zero z Hz) as T0. rewrite (one_row z b Hz E 0), Z.sub_0_r, par_len, E in T0 by (apply in_bw in Hz; tauto). cbn [length Nat.even] in T0. rewrite T0. intros mo. rewrite !coef_pscale. unfold two. ring.
Qed.
Lemma MM_two z a b c m : In z (bw N) -> 1 <= b < a -> a <= Z.of_nat N -> wp 0 z = [a; b] -> b <= Z.of_nat m -> lq c ->
  peq (MM (eb z) c) (psumf (fun u => pscale (sg (Z.of_nat u) * ct u) (Y (a + Z.of_nat u) (Y (b - Z.of_nat u) c))) (seq 0 (S m))).
Proof.
  intros Hz Hb Ha E Hm Hc. destruct (word_of N [b]) as (x & Hx & Ex); [repeat constructor|intros j [<-|[]]; lia|].
  assert (HEx : cE x = 0) by (apply in_bw in Hx; tauto).
  assert (E1 : peq (eb z) (psumf (fun u => pscale (sg (Z.of_nat u) * ct u) (Y (a + Z.of_nat u) (Y (b - Z.of_nat u) (pS [])))) (seq 0 (S m)))).
  { apply two_nz. symmetry. pose proof (E_T x z a Hx Hz ltac:(lia)) as ET. rewrite Ex in ET. specialize (ET ltac:(intros j [<-|[]]; lia) E m).
    rewrite sz_size, Ex in ET by auto. change (size [b]) with (b + 0) in ET. specialize (ET ltac:(lia)). rewrite par_len, Ex in ET by auto. cbn [length Nat.even] in ET.
    transitivity (psub (pscale two (eb z)) (pscale (1 + - (1)) (Y a (eb x)))).
    - rewrite <- ET. intros mo. rewrite !coef_pscale, !coef_ps. f_equal. apply qsum_ext. intros u _. f_equal. symmetry. apply (Y_peq _ _ _ (one_row x b Hx Ex (Z.of_nat u)) mo).
    - intros mo. rewrite coef_psub, !coef_pscale. ring. }
  rewrite (M_peq t pi k fuel _ _ _ _ E1 (reflexivity c)). rewrite MM_sum by (auto; intros; apply Y_lq, Y_lq, (sys_lq_one H)).
  apply psumf_ext. intros u _. intros mo. rewrite !coef_pscale. f_equal.
  apply (transitivity (y := coef (Y (a + Z.of_nat u) (MM (Y (b - Z.of_nat u) (pS [])) c)) mo)).
  - symmetry. apply (Y_MM (a + Z.of_nat u) (Y (b - Z.of_nat u) (pS [])) c); auto. apply Y_lq, (sys_lq_one H).
  - apply Y_peq, Y_one; auto.
Qed.
Lemma take_row_in l r : In r (take_row l) -> S (length (snd r)) = length l /\ In (snd (fst r)) l.
Proof.
  revert r. induction l as [|b l IH]; intros r; [intros []|]. cbn [take_row]. intros [<-|Hr]; [cbn; auto|].
  apply in_map_iff in Hr. destruct Hr as (s & <- & Hs). apply IH in Hs. cbn. destruct Hs. split; [lia|auto].
Qed.

(** *** the two expansions *)
Lemma kap_pow n : (kap ^ n <> 0)%Qc.
Proof. induction n as [|n IH]; cbn [Qcpower]; [discriminate|]. intros E. apply Qcmult_integral in E. tauto. Qed.
Lemma kap_cancel n a b : peq (pscale (kap ^ n) a) (pscale (kap ^ n) b) -> peq a b.
Proof. intros E mo. specialize (E mo). rewrite !coef_pscale in E. pose proof (kap_pow n). apply (f_equal (fun c => (c / kap ^ n)%Qc)) in E. field_simplify in E; auto. Qed.
Lemma MM_eb z x : In z (bw N) -> In x (bw N) -> peq (MM (eb z) (eb x)) (pscale (kap ^ length (wp 0 z) * kap ^ length (wp 0 x)) (MM (pS (wp 0 z)) (pS (wp 0 x)))).
Proof.
  intros Hz Hx. unfold eb. rewrite (sys_scale_l H) by (try (apply supp_pscale); try apply (sys_lq_vp (V := V)); apply (sys_lq_pS (V := V)); auto).
  rewrite sys_scale_r. intros mo. rewrite !coef_pscale. ring.
Qed.
Lemma expand_gen (first : Z -> list Z) (d : nat) x : In x (bw N) -> (forall b, In b (wp 0 x) -> length (first b) = d /\ exists w, In w (bw N) /\ wp 0 w = first b) ->
  exists W, (forall b, In b (wp 0 x) -> In (W b) (bw N) /\ wp 0 (W b) = first b) /\
  peq (psumf (fun r => pscale (fst (fst r)) (MM (eb (W (snd (fst r)))) (eb (snd r)))) (rems x))
      (pscale (kap ^ d * kap ^ Nat.pred (length (wp 0 x))) (psumf (fun r => pscale (fst (fst r)) (MM (pS (first (snd (fst r)))) (pS (snd r)))) (take_row (wp 0 x)))).
Proof.
  intros Hx Hf. set (W := fun b : Z => match find (fun w => if list_eq_dec Z.eq_dec (wp 0 w) (first b) then true else false) (bw N) with Some w => w | None => [] end). exists W.
  assert (HW : forall b, In b (wp 0 x) -> In (W b) (bw N) /\ wp 0 (W b) = first b).
  { intros b Hb. unfold W. destruct (find _ (bw N)) as [w|] eqn:Ef.
    - apply find_some in Ef. destruct Ef as [F1 F2]. destruct (list_eq_dec Z.eq_dec (wp 0 w) (first b)); [auto|discriminate].
    - destruct (Hf b Hb) as (_ & w & Hw & E). apply (find_none _ _ Ef) in Hw. destruct (list_eq_dec Z.eq_dec (wp 0 w) (first b)); congruence. }
  split; [exact HW|]. rewrite <- rems_rows by (apply in_bw in Hx; tauto). rewrite psumf_map. intros mo. rewrite coef_pscale, !coef_ps, <- qsum_mul. apply qsum_ext. intros r Hr.
  assert (HEx : cE x = 0) by (apply in_bw in Hx; tauto). destruct (rems_in x HEx r Hr) as (_ & _ & _ & R4). destruct (HW _ R4) as [W1 W2].
  rewrite (MM_eb _ _ W1 (rems_bw x Hx r Hr) mo), coef_pscale, W2. cbn [fst snd]. destruct (Hf _ R4) as [-> _].
  assert (Hl : S (length (wp 0 (snd r))) = length (wp 0 x)).
  { apply (take_row_in (wp 0 x) (fst r, wp 0 (snd r))). rewrite <- rems_rows by auto. apply in_map_iff. exists r. auto. }
  rewrite <- Hl. cbn [Nat.pred]. destruct r as [[c z] v]. cbn [fst snd]. ring.
Qed.
Lemma expand1 x : In x (bw N) -> Nat.even (length (wp 0 x)) = false ->
  peq (psumf (fun r => pscale (fst (fst r)) (MM (pS [snd (fst r)]) (pS (snd r)))) (take_row (wp 0 x))) (pS (wp 0 x)).
Proof.
  intros Hx Ho. assert (HEx : cE x = 0) by (apply in_bw in Hx; tauto).
  destruct (expand_gen (fun b => [b]) 1 x Hx) as (W & HW & E).
  { intros b Hb. split; [reflexivity|]. apply SeidelP.wp0_range in Hb; auto. rewrite (bw_zlen N x Hx) in Hb. apply word_of; [repeat constructor|intros j [<-|[]]; lia]. }
  apply (kap_cancel (length (wp 0 x))). transitivity (eb x); [|reflexivity].
  transitivity (Ts 0 x).
  - destruct (length (wp 0 x)) as [|m] eqn:El; [discriminate|]. cbn [Nat.pred] in E. transitivity (pscale (kap ^ 1 * kap ^ m) (psumf (fun r => pscale (fst (fst r)) (MM (pS [snd (fst r)]) (pS (snd r)))) (take_row (wp 0 x)))); [intros mo; rewrite !coef_pscale; cbn [Qcpower]; ring|].
    rewrite <- E. apply psumf_ext. intros r Hr. destruct (rems_in x HEx r Hr) as (_ & _ & _ & R4). destruct (HW _ R4) as [W1 W2].
    rewrite (MM_one _ _ _ W1 W2 (eb_lq _ (rems_bw x Hx r Hr))). rewrite Z.sub_0_r. reflexivity.
  - apply two_nz. rewrite (Ts_zero x Hx), par_len, Ho by auto. intros mo. rewrite !coef_pscale. unfold two. ring.
Qed.
Lemma expand2 x a : In x (bw N) -> 1 <= a <= Z.of_nat N -> (forall j, In j (wp 0 x) -> j < a) ->
  peq (padd (psumf (fun r => pscale (fst (fst r)) (MM (pS [a; snd (fst r)]) (pS (snd r)))) (take_row (wp 0 x)))
            (if Nat.even (length (wp 0 x)) then MM (pS [a]) (pS (wp 0 x)) else pzero)) (pS (a :: wp 0 x)).
Proof.
  intros Hx Ha Hlt. assert (HEx : cE x = 0) by (apply in_bw in Hx; tauto).
  destruct (expand_gen (fun b => [a; b]) 2 x Hx) as (W & HW & E).
  { intros b Hb. split; [reflexivity|]. pose proof (Hlt b Hb). apply SeidelP.wp0_range in Hb; auto. rewrite (bw_zlen N x Hx) in Hb. apply word_of; [repeat constructor; lia|intros j [<-|[<-|[]]]; lia]. }
  destruct (word_of N (a :: wp 0 x)) as (z & Hz & Ez).
  { constructor; [apply wp0_sorted; auto|]. apply Forall_forall. auto. }
  { intros j [<-|Hj]; [lia|]. apply SeidelP.wp0_range in Hj; auto. rewrite (bw_zlen N x Hx) in Hj. lia. }
  destruct (word_of N [a]) as (wa & Hwa & Ewa); [repeat constructor|intros j [<-|[]]; lia|].
  apply (kap_cancel (S (length (wp 0 x)))). transitivity (eb z); [|unfold eb; rewrite Ez; reflexivity]. apply two_nz.
  set (m := Z.to_nat (sz x)).
  assert (H0 : 0 <= sz x) by (clear; induction x as [|[| |] v IH]; cbn [sz]; try lia; unfold zlen; lia).
  assert (Hm : sz x <= Z.of_nat m) by (unfold m; lia).
  pose proof (E_T x z a Hx Hz Ha Hlt Ez m Hm) as ET. rewrite par_len in ET by auto.
  assert (E3 : peq (psumf (fun u => pscale (sg (Z.of_nat u) * ct u) (Y (a + Z.of_nat u) (Ts (Z.of_nat u) x))) (seq 0 (S m)))
     (psumf (fun r => pscale (fst (fst r)) (MM (eb (W (snd (fst r)))) (eb (snd r)))) (rems x))).
  { intros mo. rewrite !coef_ps.
    rewrite (qsum_ext _ (fun u => qsum (fun r => (fst (fst r) * (sg (Z.of_nat u) * ct u * coef (Y (a + Z.of_nat u) (Y (snd (fst r) - Z.of_nat u) (eb (snd r)))) mo))%Qc) (rems x))).
    - rewrite qsum_fub. apply qsum_ext. intros r Hr. rewrite qsum_mul. f_equal. destruct (rems_in x HEx r Hr) as (_ & R2 & R3 & R4). destruct (HW _ R4) as [W1 W2].
      pose proof (Hlt _ R4). apply SeidelP.wp0_range in R4; auto.
      assert (Hs0 : 0 <= sz (snd r)) by (generalize (snd r); intros v; induction v as [|[| |] v IH]; cbn [sz]; try lia; unfold zlen; lia).
      rewrite (MM_two (W (snd (fst r))) a (snd (fst r)) (eb (snd r)) m W1 ltac:(lia) ltac:(lia) W2 ltac:(lia) (eb_lq _ (rems_bw x Hx r Hr)) mo). rewrite coef_ps. reflexivity.
    - intros u _. unfold Ts. rewrite (Y_sum _ _ _ _ mo), coef_ps, <- qsum_mul. apply qsum_ext. intros [[c zz] v] _. cbn [fst snd]. ring. }
  rewrite E3, E in ET. pose proof (MM_one wa a (eb x) Hwa Ewa (eb_lq x Hx)) as E4. rewrite (MM_eb wa x Hwa Hx), Ewa in E4.
  destruct (Nat.even (length (wp 0 x))) eqn:Ev.
  - intros mo. specialize (ET mo). specialize (E4 mo). rewrite !coef_pscale in E4. rewrite coef_psub, !coef_pscale in ET. rewrite <- E4 in ET. rewrite !coef_pscale, coef_padd.
    cbn [length] in ET. assert (P1 : (two * (kap ^ 2 * kap ^ Nat.pred (length (wp 0 x)) * coef (psumf (fun r => pscale (fst (fst r)) (MM (pS [a; snd (fst r)]) (pS (snd r)))) (take_row (wp 0 x))) mo) =
       two * (kap ^ S (length (wp 0 x)) * coef (psumf (fun r => pscale (fst (fst r)) (MM (pS [a; snd (fst r)]) (pS (snd r)))) (take_row (wp 0 x))) mo))%Qc).
    { destruct (wp 0 x) as [|b l]; [cbn; ring|]. cbn [length Nat.pred Qcpower]. ring. }
    rewrite P1 in ET. transitivity (two * (kap ^ S (length (wp 0 x)) * coef (psumf (fun r => pscale (fst (fst r)) (MM (pS [a; snd (fst r)]) (pS (snd r)))) (take_row (wp 0 x))) mo) + two * (kap ^ S (length (wp 0 x)) * coef (MM (pS [a]) (pS (wp 0 x))) mo))%Qc; [ring|]. rewrite ET.
    cbn [Qcpower]. unfold two. ring.
  - intros mo. specialize (ET mo). rewrite coef_psub, !coef_pscale in ET. rewrite !coef_pscale, coef_padd.
    destruct (wp 0 x) as [|b l] eqn:El; [discriminate|]. cbn [length Nat.pred Qcpower] in ET |- *. change (coef pzero mo) with 0%Qc.
    match type of ET with ?l = ?r => transitivity l; [ring|]; rewrite ET; ring end.
Qed.
End Ab.
