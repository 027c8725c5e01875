(** Powers of the class S[1]: the recurrence of their coefficients and its solution. *)

From Coq Require Import ZArith List Lia Bool Permutation QArith Qcanon Setoid Morphisms.
From Verif Require Import Py OrderFacts PyFacts ModelPart ModelQcalc ModelPoly ModelStr ModelGr Spec SpecPieri SpecProd SpecDegree
  PolyFacts SuppFacts OpTheory ExprFacts Transfer PartialFrac DegreeAlg Sys Sys2 SysApi DualSys PartFacts CoefSys.
Import ListNotations.
Open Scope Z_scope.

Lemma qsum_int {A} (f : A -> Qc) l : (forall x, In x l -> exists z, f x = zq z) -> exists z, qsum f l = zq z.
Proof.
  induction l as [|x l IH]; intros H; [exists 0; rewrite zq_0; reflexivity|].
  destruct (H x (or_introl eq_refl)) as (a & Ea). destruct IH as (b & Eb); [intros; apply H; simpl; auto|]. exists (a + b). rewrite qsum_cons, Ea, Eb, zq_add. reflexivity.
Qed.

(** ** One step *)
Section G.
Context {g : gr} {V : list Z -> Prop} {I : Z -> Prop} {mu : list Z -> nat}.
Notation pi := (pieri_fun g).
Hypothesis SYS : pieri_sys (g_type g) pi V I (g_k g) mu (giam_fuel g).
Hypothesis H1 : I 1.
Hypothesis V1 : V [1].
Hypothesis E1 : peq (pS [1]) (P pi 1 []).
(** the coefficients of the products with S[1] *)
Variable w : list Z -> list Z -> Qc.
Hypothesis Pw : forall l, V l -> (forall nu, coef (P pi 1 l) [vS nu] = w l nu) /\ (forall m, coef (P pi 1 l) m <> 0%Qc -> exists nu, V nu /\ m = [vS nu]).
Notation lq := (supp (linm V (eq VQ))).
Notation l0 := (supp (linm V (fun _ => False))).
Notation MM := (M (g_type g) pi (g_k g) (giam_fuel g)).
Definition X (N : nat) : poly := Nat.iter N (ext pi 1) (pS []).

Let Vn : V [] := ps_nil _ _ _ _ _ _ _ SYS.
Lemma no_q v : False -> isqv v. Proof. intros []. Qed.
Lemma l0_lq p : l0 p -> lq p.
Proof. intros H m Hm. destruct (H m Hm) as (l & qm & A & B & C). exists l, qm. split; auto. split; auto. eapply Forall_impl; [|exact C]. intros ? []. Qed.
Lemma l0_single p : (forall m, coef p m <> 0%Qc -> exists nu, V nu /\ m = [vS nu]) -> l0 p.
Proof. intros H m Hm. destruct (H m Hm) as (nu & Hn & ->). exists nu, []. split; auto. Qed.
Lemma l0_one : l0 (pS []).
Proof.
  apply l0_single. intros m Hm. unfold pS, pvar, coef in Hm. cbn [fold_right fst snd] in Hm. destruct (mono_eqb _ m) eqn:E; [|congruence].
  apply mono_eqb_perm, Permutation_length_1_inv in E. eauto.
Qed.
Lemma X_l0 N : l0 (X N).
Proof.
  induction N as [|N IH]; [apply l0_one|]. cbn [X Nat.iter]. fold (X N).
  apply (ext_lin pi V (fun i => i = 1) (fun _ => False) no_q); auto. intros i l -> Hl. apply l0_single. apply Pw; auto.
Qed.
Lemma power_poly_in N : poly_in V (power_of_S1 N).
Proof.
  unfold power_of_S1. induction N as [|N IH].
  - intros mo Hmo. destruct mo; [constructor|]. exfalso. apply Hmo. change (special_product (repeat 1 0)) with pone. unfold pone, pconst, coef. cbn [fold_right].
    destruct (mono_eqb [] (v :: mo)) eqn:E; [|reflexivity]. apply mono_eqb_perm, Permutation_length in E. discriminate.
  - cbn [repeat special_product map pprod fold_right]. apply poly_in_pmul; [|exact IH]. apply (lin_comb_poly_in), lin_comb_pS. auto.
Qed.
Lemma power_X N : peq (MM (power_of_S1 N) (pS [])) (X N).
Proof.
  induction N as [|N IH].
  - change (power_of_S1 0) with pone. cbn [X Nat.iter]. unfold M. transitivity (OpN (g_type g) pi pone (pS [])).
    + apply OpN_peq; [|reflexivity]. apply psubst_pone.
    + pose proof (sys_lq_one SYS) as Hl. destruct SYS. eapply (OpN_pone (g_type g) pi V I (eq VQ) eqVQ_isqv); eassumption.
  - cbn [X Nat.iter]. fold (X N). change (power_of_S1 (S N)) with (pmul (pS [1]) (power_of_S1 N)).
    assert (Hv : supp (polym V) (power_of_S1 N)) by (apply poly_in_iff, power_poly_in).
    pose proof (sys_lq_one SYS) as Hl.
    rewrite (sys_pmul SYS); auto; [|apply sys_lq_vp, sys_lq_pS; auto].
    rewrite (sys_pieri SYS 1 [1]); auto; [|apply (sys_lin SYS); auto]. apply ext_proper. exact IH.
Qed.

Lemma ext_sum nu Ls : NoDup Ls -> (forall l, V l -> w l nu <> 0%Qc -> In l Ls) -> forall x, l0 x ->
  coef (ext pi 1 x) [vS nu] = qsum (fun l => coef x [vS l] * w l nu)%Qc Ls.
Proof.
  intros HN HL. apply (lin_ind V (fun _ => False) (fun x => coef (ext pi 1 x) [vS nu] = qsum (fun l => coef x [vS l] * w l nu)%Qc Ls)).
  - intros p r E Hp. rewrite <- (ext_proper pi 1 p r E [vS nu]), Hp. apply qsum_ext. intros l _. rewrite (E [vS l]). reflexivity.
  - change (ext pi 1 pzero) with pzero. symmetry. apply qsum_zero. intros l _. change (coef pzero [vS l]) with 0%Qc. ring.
  - intros qm l c p Hl Hq Hp IH. destruct qm as [|v qm]; [|inversion Hq; contradiction].
    assert (E0 : peq (pmul (pmono []) (pS l)) (pS l)) by (change (pmono []) with pone; ring).
    assert (E : peq (ext pi 1 (padd (pscale c (pmul (pmono []) (pS l))) p)) (padd (pscale c (P pi 1 l)) (ext pi 1 p))).
    { rewrite ext_padd, ext_pscale, E0, ext_pS. reflexivity. }
    rewrite (E _), coef_padd, coef_pscale, IH, (proj1 (Pw l Hl)).
    rewrite (qsum_ext (fun l' => coef (padd (pscale c (pmul (pmono []) (pS l))) p) [vS l'] * w l' nu)%Qc
      (fun l' => (if list_eq_dec Z.eq_dec l' l then c * w l' nu else 0) + coef p [vS l'] * w l' nu)%Qc).
    + rewrite qsum_add. f_equal. rewrite (CoefSys.qsum_delta (list_eq_dec Z.eq_dec) (fun l' => c * w l' nu)%Qc Ls l HN).
      destruct (in_dec _ l Ls) as [Hi|Hi]; [reflexivity|]. destruct (Qc_eq_dec (w l nu) 0%Qc) as [->|Hw]; [ring|]. exfalso. auto.
    + intros l' _. rewrite coef_padd, coef_pscale, (E0 _). unfold pS, pvar, coef at 1. cbn [fold_right fst snd].
      destruct (list_eq_dec Z.eq_dec l' l) as [->|Hn].
      * rewrite (proj2 (mono_eqb_perm _ _)) by reflexivity. ring.
      * rewrite (proj2 (mono_eqb_false _ _)); [ring|]. intros HP. apply Permutation_length_1 in HP. injection HP as ->. congruence.
Qed.

(** the solution of the recurrence *)
Variables (f : Z -> list Z -> Qc) (L : list Z -> list (list Z)).
Hypothesis size0 : forall nu, V nu -> 0 <= size nu /\ (size nu = 0 -> nu = []).
Hypothesis f0 : f 0 [] = 1%Qc.
Hypothesis L_nodup : forall nu, V nu -> NoDup (L nu).
Hypothesis L_cover : forall nu l, V nu -> V l -> w l nu <> 0%Qc -> In l (L nu).
Hypothesis L_size : forall nu l, V nu -> In l (L nu) -> V l -> size nu = size l + 1.
Hypothesis f_rec : forall nu c, V nu -> 1 <= size nu -> (forall l, V l -> In l (L nu) -> c l = f (size nu - 1) l) -> (forall l, ~ V l -> c l = 0%Qc) ->
  qsum (fun l => c l * w l nu)%Qc (L nu) = f (size nu) nu.

Lemma X_out N l : ~ V l -> coef (X N) [vS l] = 0%Qc.
Proof.
  intros H. destruct (Qc_eq_dec (coef (X N) [vS l]) 0%Qc) as [|Hc]; auto. exfalso. apply X_l0 in Hc. destruct Hc as (l' & qm & A & B & C).
  destruct qm as [|? ?]; [|inversion C; contradiction]. apply Permutation_length_1 in B. injection B as ->. auto.
Qed.
Lemma X_coef N : forall nu, V nu -> coef (X N) [vS nu] = if size nu =? Z.of_nat N then f (size nu) nu else 0%Qc.
Proof.
  induction N as [|N IH]; intros nu Hn; destruct (size0 nu Hn) as (S0 & S1).
  - change (X 0) with (pS []). destruct (Z.eqb_spec (size nu) (Z.of_nat 0)) as [E|E].
    + rewrite (S1 E). change (size []) with 0. rewrite f0. reflexivity.
    + unfold pS, pvar, coef. cbn [fold_right fst snd]. rewrite (proj2 (mono_eqb_false _ _)); [reflexivity|]. intros HP. apply Permutation_length_1 in HP. injection HP as <-. apply E. reflexivity.
  - change (X (S N)) with (ext pi 1 (X N)). rewrite (ext_sum nu (L nu)); [|auto|intros l Hl Hw; apply L_cover; auto|apply X_l0].
    destruct (Z.eqb_spec (size nu) (Z.of_nat (S N))) as [E|E].
    + apply f_rec; auto; [lia| |intros; apply X_out; auto].
      intros l Hl Hi. rewrite IH by auto. pose proof (L_size nu l Hn Hi Hl). replace (size l) with (size nu - 1) by lia.
      destruct (Z.eqb_spec (size nu - 1) (Z.of_nat N)); [reflexivity|lia].
    + apply qsum_zero. intros l Hi. destruct (Qc_eq_dec (coef (X N) [vS l]) 0%Qc) as [->|Hc]; [ring|].
      assert (Hl : V l). { destruct (X_l0 N _ Hc) as (l' & qm & A & B & C). destruct qm as [|? ?]; [|inversion C; contradiction]. apply Permutation_length_1 in B. injection B as ->. auto. }
      rewrite IH by auto. pose proof (L_size nu l Hn Hi Hl). destruct (Z.eqb_spec (size l) (Z.of_nat N)); [lia|ring].
Qed.
Hypothesis w_int : forall l nu, V l -> V nu -> exists z, w l nu = zq z.
Lemma X_in N l : coef (X N) [vS l] <> 0%Qc -> V l.
Proof. intros Hc. destruct (X_l0 N _ Hc) as (l' & qm & A & B & C). destruct qm as [|? ?]; [|inversion C; contradiction]. apply Permutation_length_1 in B. injection B as ->. auto. Qed.
Lemma X_int N : forall nu, V nu -> exists z, coef (X N) [vS nu] = zq z.
Proof.
  induction N as [|N IH]; intros nu Hn.
  - rewrite (X_coef 0) by auto. destruct (Z.eqb_spec (size nu) (Z.of_nat 0)) as [E|E]; [|exists 0; rewrite zq_0; reflexivity].
    rewrite (proj2 (size0 nu Hn) E). change (size []) with 0. rewrite f0. exists 1. rewrite zq_1. reflexivity.
  - change (X (S N)) with (ext pi 1 (X N)). rewrite (ext_sum nu (L nu)); [|auto|intros l Hl Hw; apply L_cover; auto|apply X_l0].
    apply qsum_int. intros l _. destruct (Qc_eq_dec (coef (X N) [vS l]) 0%Qc) as [->|Hc]; [exists 0; rewrite zq_0; ring|].
    apply X_in in Hc. destruct (IH l Hc) as (a & ->). destruct (w_int l nu Hc Hn) as (b & ->). exists (a * b). rewrite zq_mul. reflexivity.
Qed.
Lemma power_toS N : exists r, toS g (power_of_S1 N) = Ok r /\ lin_comb0 V r /\
  forall nu, V nu -> exists c, coef r [vS nu] = zq c /\ (size nu <> Z.of_nat N -> c = 0) /\ (size nu = Z.of_nat N -> zq c = f (Z.of_nat N) nu).
Proof.
  destruct (api_prod SYS (power_of_S1 N) (pS [])) as (r & E & Pr & _).
  - apply power_poly_in.
  - apply lin_comb_pS. auto.
  - exists r. split; [exact E|]. split.
    + intros m Hm. rewrite (Pr m), (power_X N m) in Hm. apply X_l0 in Hm. destruct Hm as (l & qm & A & B & C). destruct qm as [|? ?]; [|inversion C; contradiction].
      exists l. split; auto. apply Permutation_length_1_inv, Permutation_sym in B || apply Permutation_sym, Permutation_length_1_inv in B; auto.
    + intros nu Hn. destruct (X_int N nu Hn) as (c & Ec). exists c. rewrite (Pr _), (power_X N _). split; auto.
      rewrite X_coef in Ec by auto. split; intros E0.
      * destruct (Z.eqb_spec (size nu) (Z.of_nat N)); [contradiction|]. apply zq_inj. rewrite <- Ec, zq_0. reflexivity.
      * rewrite E0, Z.eqb_refl in Ec. auto.
Qed.
End G.
