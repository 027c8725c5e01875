(** The relations of C63 present the ring of Gr(m,n). *)

From Coq Require Import ZArith List Lia Bool Permutation QArith Qcanon Setoid Morphisms.
From Verif Require Import Py OrderFacts PyFacts ModelPart ModelQcalc ModelPoly ModelStr ModelGr Spec SpecDet SpecPres
  PolyFacts SuppFacts OpTheory Enum FillFacts PartFacts PieriA QPieriA CylA WSum Sys Sys2 RingA FactsA
  SysApi ApiA Transfer CoefSys CommD2 Schub ConjFacts RimFacts DualSys LRCore LRSum LRMult LRQuant Kostka DetFacts GiamDet ExprFacts PresA.
Import ListNotations.
Open Scope Z_scope.

(** ** ideals *)
Section J.
Variables A R : poly -> Prop.
Hypothesis A_one : A pone.
Hypothesis A_mul : forall a b, A a -> A b -> A (pmul a b).
Hypothesis A_const : forall c, A (pconst c).
Notation J := (in_ideal A R).
Lemma J_peq p r : peq p r -> J p -> J r.
Proof. intros E (l & H1 & H2). exists l. split; auto. rewrite <- E. exact H2. Qed.
Lemma J_zero : J pzero.
Proof. exists []. split; [intros x []|reflexivity]. Qed.
Lemma J_add p r : J p -> J r -> J (padd p r).
Proof.
  intros (l & H1 & H2) (l' & H1' & H2'). exists (l ++ l'). split; [intros x Hx; apply in_app_iff in Hx; destruct Hx; auto|].
  rewrite psumf_app, H2, H2'. reflexivity.
Qed.
Lemma J_mul c p : A c -> J p -> J (pmul c p).
Proof.
  intros Hc (l & H1 & H2). exists (map (fun x => (pmul c (fst x), snd x)) l). split.
  - intros x Hx. apply in_map_iff in Hx. destruct Hx as (y & <- & Hy). cbn [fst snd]. destruct (H1 y Hy). auto.
  - rewrite psumf_map, H2, <- psumf_mul. apply psumf_ext. intros x _. cbn [fst snd]. ring.
Qed.
Lemma J_gen p : R p -> J p.
Proof. intros Hp. exists [(pone, p)]. split; [intros x [<-|[]]; auto|]. rewrite psumf_cons. cbn [fst snd psumf fold_right]. ring. Qed.
Lemma J_opp p : J p -> J (popp p).
Proof. intros Hp. apply (J_peq (pmul (pconst (- (1))%Qc) p)); [|apply J_mul; auto]. rewrite pconst_opp. change (pconst 1%Qc) with pone. ring. Qed.
Lemma J_scale c p : J p -> J (pscale c p).
Proof. intros Hp. apply (J_peq (pmul (pconst c) p)); [rewrite pscale_pmul; reflexivity|apply J_mul; auto]. Qed.
Lemma J_sum {B} (f : B -> poly) l : (forall x, In x l -> J (f x)) -> J (psumf f l).
Proof. induction l as [|x l IH]; intros H; [apply J_zero|]. rewrite psumf_cons. apply J_add; [apply H; left; auto|apply IH; intros; apply H; right; auto]. Qed.
Lemma J_W {B} (c : B -> poly) g : forall F, (forall x, In x g -> J (c x)) -> (forall r, S (length r) = length g -> A (F r)) -> J (W c F g).
Proof.
  induction g as [|x g IH]; intros F Hc HF; [apply J_zero|]. cbn [W]. apply J_add.
  - apply J_mul; [apply A_const|]. apply (J_peq (pmul (F g) (c x))); [ring|]. apply J_mul; [apply HF; reflexivity|apply Hc; left; auto].
  - apply IH; [intros; apply Hc; right; auto|]. intros r Hr. apply HF. cbn [length]. lia.
Qed.
End J.

(** ** column operations *)
Section Col.
Context {B : Type}.
Variable E : nat -> B -> poly.
Lemma W_addc c c' F (g : list B) : peq (W (fun x => padd (c x) (c' x)) F g) (padd (W c F g) (W c' F g)).
Proof. revert F. induction g as [|x g IH]; intros F; cbn [W]; [ring|]. rewrite IH. ring. Qed.
Lemma W_mulc e c F (g : list B) : peq (W (fun x => pmul e (c x)) F g) (pmul e (W c F g)).
Proof. revert F. induction g as [|x g IH]; intros F; cbn [W]; [ring|]. rewrite IH. ring. Qed.
Lemma W_twice n : forall i (g : list B), (i < n)%nat -> peq (W (E i) (dd n E) g) pzero.
Proof.
  induction n as [|n IH]; intros i g Hi; [lia|]. cbn [dd]. destruct (Nat.eq_dec i n) as [->|Hne].
  - apply self_opp. apply W_cols.
  - rewrite W_cols. rewrite (W_zero (E n)); [ring|]. intros r _ _. apply IH. lia.
Qed.
Lemma W_combc n e J (g : list B) : (J <= n)%nat ->
  peq (W (fun x => psumf (fun j => pmul (e j) (E (n - j)%nat x)) (seq 0 (S J))) (dd n E) g) (pmul (e 0%nat) (dd (S n) E g)).
Proof.
  induction J as [|J IH]; intros HJ.
  - cbn [seq psumf fold_right]. rewrite W_addc, W_mulc. replace (n - 0)%nat with n by lia. cbn [dd].
    assert (Ez : peq (W (fun _ => pzero) (dd n E) g) pzero).
    { transitivity (W (fun x => pmul pzero (E 0%nat x)) (dd n E) g); [apply W_ext; [intros; ring|reflexivity]|]. rewrite W_mulc. ring. }
    rewrite Ez. ring.
  - transitivity (W (fun x => padd (psumf (fun j => pmul (e j) (E (n - j)%nat x)) (seq 0 (S J))) (pmul (e (S J)) (E (n - S J)%nat x))) (dd n E) g).
    { apply W_ext; [|reflexivity]. intros x _. rewrite (seq_S (S J)), psumf_app. cbn [Nat.add psumf fold_right]. ring. }
    rewrite W_addc, W_mulc, IH, W_twice by lia. ring.
Qed.
End Col.

(** ** the recursion of the columns *)
Section EC.
Variable k : Z.
Hypothesis Hk : 1 <= k.
Notation h := (hclass k).
Notation e := (EE k).
Lemma pm_add a b : peq (pm (a + b)) (pmul (pm a) (pm b)).
Proof. induction a as [|a IH]; cbn [Nat.add]; [rewrite pm_0; ring|]. rewrite !pm_S, IH. ring. Qed.
Lemma pm_sq a : peq (pmul (pm a) (pm a)) pone.
Proof. induction a as [|a IH]; [rewrite pm_0; ring|]. rewrite pm_S. transitivity (pmul (pm a) (pm a)); [ring|exact IH]. Qed.
Lemma he n : (1 <= n)%nat -> peq (psumf (fun j => pmul (pmul (pm j) (e j)) (h (Z.of_nat n - Z.of_nat j))) (seq 0 (S n))) pzero.
Proof.
  intros Hn. destruct n as [|n]; [lia|]. rewrite (seq_S (S n)), psumf_app. cbn [Nat.add]. rewrite psumf_cons. replace (Z.of_nat (S n) - Z.of_nat (S n)) with 0 by lia.
  change (h 0) with pone. rewrite (EE_S k n). change (psumf (fun j => pmul (pmul (pm j) (e j)) (h (Z.of_nat (S n) - Z.of_nat j))) []) with pzero.
  transitivity (padd (psumf (fun j => pmul (pmul (pm j) (e j)) (h (Z.of_nat (S n) - Z.of_nat j))) (seq 0 (S n)))
     (psumf (fun j => popp (pmul (pmul (pm j) (e j)) (h (Z.of_nat (S n) - Z.of_nat j)))) (seq 0 (S n)))).
  - apply padd_proper; [reflexivity|]. rewrite pm_S. transitivity (pmul (popp (pm n)) (psumf (fun i => pscale (sign (i + n)) (pmul (h (Z.of_nat (S n) - Z.of_nat i)) (e i))) (seq 0 (S n)))); [ring|].
    rewrite <- psumf_mul. apply psumf_ext. intros j _. rewrite pscale_pmul. fold (pm (j + n)). rewrite pm_add.
    transitivity (popp (pmul (pmul (pm n) (pm n)) (pmul (pmul (pm j) (e j)) (h (Z.of_nat (S n) - Z.of_nat j))))); [ring|]. rewrite pm_sq. ring.
  - rewrite psumf_opp. ring.
Qed.
(** the column with the first m+1 terms *)
Definition Cx (m : nat) (x : Z) : poly := psumf (fun j => pmul (pmul (pm j) (e j)) (h (x - Z.of_nat j))) (seq 0 (S m)).
Lemma Cx_small m x : 1 <= x <= Z.of_nat m -> peq (Cx m x) pzero.
Proof.
  intros Hx. set (n := Z.to_nat x). unfold Cx. replace (S m) with (S n + (m - n))%nat by lia. rewrite seq_app, psumf_app.
  replace x with (Z.of_nat n) by lia. rewrite he by lia. rewrite psumf_zero; [ring|]. intros j Hj. apply in_seq in Hj. rewrite hclass_neg by lia. ring.
Qed.
Lemma Cx_large m x : Z.of_nat m < x -> peq (Cx m x) (popp (psumf (fun j => pmul (pmul (pm j) (e j)) (h (x - Z.of_nat j))) (seq (S m) (Z.to_nat x - m)))).
Proof.
  intros Hx. set (n := Z.to_nat x). pose proof (he n ltac:(lia)) as H0. replace (S n) with (S m + (n - m))%nat in H0 by lia. rewrite seq_app, psumf_app in H0.
  replace (Z.of_nat n) with x in H0 by lia. fold (Cx m x) in H0. cbn [Nat.add] in H0.
  set (S2 := psumf _ (seq (S m) (n - m))) in *. transitivity (padd (padd (Cx m x) S2) (popp S2)); [ring|]. rewrite H0. ring.
Qed.
End EC.

(** ** the determinants with m+1 rows, modulo the relations *)
Section P.
Variables m k : Z.
Hypothesis Hm : 1 <= m.
Hypothesis Hk : 1 <= k.
Variable qq : bool.
Let Hk0 : 0 <= k. Proof. lia. Qed.
Notation Mn := (Z.to_nat m).
Notation SR := (fun l : list Z => exists i, 1 <= i <= k /\ l = [i]).
Notation A := (special_poly k).
Definition RR (p : poly) : Prop := if qq then qrelation m k p else relation m k p.
Notation J := (in_ideal A RR).
Notation h := (hclass k).
Notation e := (EE k).

Lemma A_iff p : A p <-> supp (polym SR) p.
Proof. apply poly_in_iff. Qed.
Lemma A_peq p r : peq p r -> A p -> A r.
Proof. rewrite !A_iff. apply supp_peq. Qed.
Lemma A_mul a b : A a -> A b -> A (pmul a b).
Proof. rewrite !A_iff. apply vpoly_pmul. Qed.
Lemma A_add a b : A a -> A b -> A (padd a b).
Proof. rewrite !A_iff. apply supp_padd. Qed.
Lemma A_scale c a : A a -> A (pscale c a).
Proof. rewrite !A_iff. apply supp_pscale. Qed.
Lemma A_one : A pone.
Proof. apply A_iff. apply supp_pone; [apply polym_inv|constructor]. Qed.
Lemma A_zero : A pzero.
Proof. apply A_iff. apply supp_zero. Qed.
Lemma A_const c : A (pconst c).
Proof. apply (A_peq (pscale c pone)); [rewrite pscale_pmul; ring|]. apply A_scale, A_one. Qed.
Lemma A_q : A (pvar VQ).
Proof. apply A_iff. change (pvar VQ) with (pmono [VQ]). apply supp_pmono; [apply polym_inv|]. repeat constructor. Qed.
Lemma A_S i : 1 <= i <= k -> A (pS [i]).
Proof. intros Hi. apply A_iff. change (pS [i]) with (pmono [vS [i]]). apply supp_pmono; [apply polym_inv|]. apply Forall_cons; [right; exists [i]; eauto|constructor]. Qed.
Lemma A_h i : A (h i).
Proof.
  unfold hclass. destruct (i =? 0); [apply A_one|]. destruct (Z.ltb_spec 0 i); [destruct (Z.leb_spec i k)|]; cbn [andb]; try apply A_zero. apply A_S. lia.
Qed.
Lemma A_psumf {B} (f : B -> poly) l : (forall x, In x l -> A (f x)) -> A (psumf f l).
Proof. induction l as [|x l IH]; intros H; [apply A_zero|]. rewrite psumf_cons. apply A_add; [apply H; left; auto|apply IH; intros; apply H; right; auto]. Qed.
Lemma A_det d : forall M, (forall r c, A (M r c)) -> A (det d M).
Proof. induction d as [|d IH]; intros M HM; [apply A_one|]. cbn [det]. apply A_psumf. intros x _. apply A_scale, A_mul; auto. Qed.
Lemma A_W {B} (c : B -> poly) g : forall F, (forall x, A (c x)) -> (forall r, A (F r)) -> A (W c F g).
Proof. induction g as [|x g IH]; intros F Hc HF; [apply A_zero|]. cbn [W]. apply A_add; [apply A_mul; [apply A_const|apply A_mul; auto]|apply IH; auto]. Qed.
Lemma A_dd {B} n E (g : list B) : (forall j x, A (E j x)) -> A (dd n E g).
Proof. intros HE. revert g. induction n as [|n IH]; intros g; [apply A_one|]. cbn [dd]. apply A_W; auto. Qed.
Lemma A_e d : A (e d).
Proof. apply A_det. intros. apply A_h. Qed.
Let JP := J_peq A RR.
Let JM := J_mul A RR A_mul.
Let JO := J_opp A RR A_mul A_const.
Let JA := J_add A RR.

Lemma J_e d : m < Z.of_nat d <= m + k -> (qq = true -> Z.of_nat d < m + k) -> J (e d).
Proof.
  intros Hd Hq. apply (JP (column k d)); [apply EE_jt|]. apply J_gen; [apply A_one|]. unfold RR. destruct qq; [left; exists d; split; auto; specialize (Hq eq_refl); lia|exists d; auto].
Qed.
Lemma J_q : qq = true -> J (psub (e (Z.to_nat (m + k))) (pscale (sign (Z.to_nat (k - 1))) (pvar VQ))).
Proof.
  intros Eq. apply (JP (psub (column k (Z.to_nat (m + k))) (pscale (sign (Z.to_nat (k - 1))) (pvar VQ)))); [unfold column; rewrite EE_jt; reflexivity|].
  apply J_gen; [apply A_one|]. unfold RR. rewrite Eq. right. reflexivity.
Qed.
Lemma Cx_J x : 1 <= x < m + k -> J (Cx k Mn x).
Proof.
  intros Hx. destruct (Z.le_gt_cases x m) as [Hl|Hl].
  - apply (JP pzero); [symmetry; apply Cx_small; lia|]. apply J_zero.
  - eapply JP; [symmetry; apply (Cx_large k Mn x); lia|]. apply JO. apply J_sum. intros j Hj. apply in_seq in Hj.
    apply (JP (pmul (pmul (pm j) (h (x - Z.of_nat j))) (e j))); [ring|]. apply JM; [apply A_mul; [apply A_const|apply A_h]|]. apply J_e; lia.
Qed.
Definition top : poly := if qq then pmul (pm Mn) (pvar VQ) else pzero.
Lemma Cx_top : J (psub (Cx k Mn (m + k)) top).
Proof.
  assert (E : peq (Cx k Mn (m + k)) (padd (popp (psumf (fun j => pmul (pmul (pm j) (e j)) (h (m + k - Z.of_nat j))) (seq (S Mn) (Z.to_nat (m + k) - Mn - 1)))) (popp (pmul (pm (Z.to_nat (m + k))) (e (Z.to_nat (m + k))))))).
  { rewrite (Cx_large k Mn (m + k)) by lia. replace (Z.to_nat (m + k) - Mn)%nat with (S (Z.to_nat (m + k) - Mn - 1)) by lia. rewrite seq_S, psumf_app, psumf_cons.
    replace (S Mn + (S (Z.to_nat (m + k) - Mn - 1) - 1))%nat with (Z.to_nat (m + k)) by lia. replace (S Mn + (Z.to_nat (m + k) - Mn - 1))%nat with (Z.to_nat (m + k)) by lia.
    replace (m + k - Z.of_nat (Z.to_nat (m + k))) with 0 by lia. change (h 0) with pone. replace (S (Z.to_nat (m + k) - Mn - 1) - 1)%nat with (Z.to_nat (m + k) - Mn - 1)%nat by lia. cbn [psumf fold_right]. fold (psumf (fun j => pmul (pmul (pm j) (e j)) (h (m + k - Z.of_nat j))) (seq (S Mn) (Z.to_nat (m + k) - Mn - 1))). ring. }
  set (S1 := psumf _ (seq (S Mn) (Z.to_nat (m + k) - Mn - 1))) in *.
  assert (H1 : J S1).
  { apply J_sum. intros j Hj. apply in_seq in Hj. apply (JP (pmul (pmul (pm j) (h (m + k - Z.of_nat j))) (e j))); [ring|]. apply JM; [apply A_mul; [apply A_const|apply A_h]|]. apply J_e; lia. }
  unfold top. destruct qq eqn:Eq.
  - apply (JP (padd (popp S1) (popp (pmul (pm (Z.to_nat (m + k))) (psub (e (Z.to_nat (m + k))) (pscale (sign (Z.to_nat (k - 1))) (pvar VQ))))))).
    + rewrite E, pscale_pmul. fold (pm (Z.to_nat (k - 1))). replace (Z.to_nat (m + k)) with (Mn + S (Z.to_nat (k - 1)))%nat at 1 3 by lia. rewrite !pm_add, pm_S.
      set (s := pm (Z.to_nat (k - 1))). assert (Es : peq (pmul s s) pone) by apply pm_sq.
      transitivity (psub (psub (pmul (pmul (pm Mn) s) (e (Z.to_nat (m + k)))) S1) (pmul (pmul (pm Mn) (pmul s s)) (pvar VQ))); [ring|]. rewrite Es. ring.
    + apply JA; [apply JO; auto|]. apply JO. apply JM; [apply A_const|]. apply J_q. auto.
  - apply (JP (padd (popp S1) (popp (pmul (pm (Z.to_nat (m + k))) (e (Z.to_nat (m + k))))))); [rewrite E; ring|].
    apply JA; [apply JO; auto|]. apply JO. apply JM; [apply A_const|]. apply J_e; [lia|rewrite Eq; discriminate].
Qed.
(** a determinant with m+1 rows *)
Notation E1 := (fun (j : nat) (x : Z) => h (x + Z.of_nat j - m)).
Lemma dd_top x1 rest : length rest = Mn -> 1 <= x1 <= m + k -> (forall x, In x rest -> 1 <= x < m + k) ->
  J (psub (dd (S Mn) E1 (x1 :: rest)) (if qq && (x1 =? m + k) then pmul (pvar VQ) (dd Mn E1 rest) else pzero)).
Proof.
  intros Hl Hx1 Hr.
  assert (E : peq (dd (S Mn) E1 (x1 :: rest)) (W (Cx k Mn) (dd Mn E1) (x1 :: rest))).
  { pose proof (W_combc E1 Mn (fun j => pmul (pm j) (e j)) Mn (x1 :: rest) (le_n _)) as HW. cbv beta in HW.
    transitivity (pmul (pmul (pm 0) (e 0)) (dd (S Mn) E1 (x1 :: rest))); [rewrite pm_0; change (e 0) with pone; ring|]. rewrite <- HW.
    apply W_ext; [|reflexivity]. intros x _. unfold Cx. apply psumf_ext. intros j Hj. apply in_seq in Hj.
    replace (x + Z.of_nat (Mn - j) - m) with (x - Z.of_nat j) by lia. reflexivity. }
  cbn [W] in E. rewrite Hl in E.
  assert (HF : forall r : list Z, A (dd Mn E1 r)) by (intros r; apply A_dd; intros; apply A_h).
  assert (H2 : J (W (Cx k Mn) (fun r => dd Mn E1 (x1 :: r)) rest)) by (apply (J_W A RR A_mul A_const); [intros; apply Cx_J; auto|auto]).
  set (T := W (Cx k Mn) (fun r => dd Mn E1 (x1 :: r)) rest) in *. destruct (Z.eqb_spec x1 (m + k)) as [E2|E2].
  - rewrite andb_true_r. subst x1. pose proof Cx_top as HC. apply (JP (padd (pmul (pmul (pm Mn) (dd Mn E1 rest)) (psub (Cx k Mn (m + k)) top)) T)).
    + rewrite E. unfold top. destruct qq; [|ring].
      transitivity (psub (padd (pmul (pm Mn) (pmul (Cx k Mn (m + k)) (dd Mn E1 rest))) T) (pmul (pmul (pm Mn) (pm Mn)) (pmul (pvar VQ) (dd Mn E1 rest)))); [ring|]. rewrite pm_sq. ring.
    + apply JA; auto. apply JM; auto. apply A_mul; [apply A_const|auto].
  - rewrite andb_false_r. apply (JP (padd (pmul (pmul (pm Mn) (dd Mn E1 rest)) (Cx k Mn x1)) T)); [rewrite E; ring|].
    apply JA; auto. apply JM; [apply A_mul; [apply A_const|auto]|]. apply Cx_J. lia.
Qed.

(** ** the Pieri rule with m+1 rows, sorted by the last row *)
Definition gx (u : list Z) : list (nat * list Z) :=
  if last u 0 =? 0 then [(0%nat, removelast u)]
  else if qq && (hd 0 u =? k) then [(1%nat, map (fun y => y - 1) (tl u))] else [].
Lemma padm_S l : in_box m k l -> padm (m + 1) l = padm m l ++ [0].
Proof.
  intros (_ & Hl & _). unfold padm. rewrite <- app_assoc. f_equal. unfold zlen. replace (m + 1 - Z.of_nat (length l)) with ((m - Z.of_nat (length l)) + 1) by lia.
  unfold repz. replace (Z.to_nat (m - Z.of_nat (length l) + 1)) with (Z.to_nat (m - Z.of_nat (length l)) + 1)%nat by lia. rewrite repeat_app. reflexivity.
Qed.
Lemma intl_snoc w : forall o u z, intl o (w ++ [0]) (u ++ [z]) <-> intl o w u /\ 0 <= z <= last w o.
Proof.
  induction w as [|x w IH]; intros o u z.
  - cbn [app last]. destruct u as [|y [|y' u]]; cbn [app intl]; intuition lia.
  - destruct u as [|y u]; cbn [app intl].
    + destruct w; cbn [app intl]; intuition lia.
    + rewrite IH. replace (last (x :: w) o) with (last w x); [tauto|]. clear. revert x o. induction w as [|a w IH]; intros x o; [reflexivity|].
      cbn [last] in *. destruct w; auto.
Qed.
Lemma intl_pred t : forall x u, (intl x (t ++ [0]) u /\ 1 <= last u 0) <-> intl (x - 1) (map (fun y => y - 1) t ++ [0]) (map (fun y => y - 1) u).
Proof.
  induction t as [|a t IH]; intros x u; destruct u as [|y u]; cbn [app map intl last].
  - intuition lia.
  - destruct u as [|y' u]; cbn [map intl]; intuition lia.
  - intuition lia.
  - rewrite <- IH. destruct u as [|y' u]; [destruct t; cbn [app intl]; intuition lia|]. intuition lia.
Qed.
Lemma clip_same w : zlen (part_clip w) = zlen w -> part_clip w = w.
Proof.
  intros H. destruct (part_clip_spec w) as (c & Hc & E). assert (HL : zlen w = zlen (part_clip w) + c) by (rewrite E at 1; rewrite zlen_app, zlen_repz; lia). assert (c = 0) by lia. subst c.
  transitivity (part_clip w ++ repz 0 0); [cbn; rewrite app_nil_r; reflexivity|symmetry; exact E].
Qed.
Lemma clip_last w : last w 0 <> 0 -> part_clip w = w.
Proof.
  intros H. destruct (part_clip_spec w) as (c & Hc & E). destruct (Z.eq_dec c 0) as [->|Hne]; [transitivity (part_clip w ++ repz 0 0); [cbn; rewrite app_nil_r; reflexivity|symmetry; exact E]|]. exfalso. apply H. rewrite E.
  unfold repz. replace (Z.to_nat c) with (S (Z.to_nat c - 1)) by lia. rewrite <- (rev_involutive (part_clip w ++ _)).
  replace (repeat 0 (S (Z.to_nat c - 1))) with (repeat 0 (Z.to_nat c - 1) ++ [0]).
  - rewrite app_assoc, rev_involutive, last_last. reflexivity.
  - clear. induction (Z.to_nat c - 1)%nat as [|n IH]; [reflexivity|]. cbn [repeat app]. rewrite IH. reflexivity.
Qed.
Lemma last_def {B} (l : list B) a b : l <> [] -> last l a = last l b.
Proof. induction l as [|x l IH]; [congruence|]. intros _. cbn [last]. destruct l; auto. apply IH. discriminate. Qed.
Lemma last_cons {B} (l : list B) x a : l <> [] -> last (x :: l) a = last l a.
Proof. destruct l; [congruence|reflexivity]. Qed.
Lemma zsum_pred l : zsum (map (fun y => y - 1) l) = zsum l - zlen l.
Proof. induction l as [|x l IH]; [reflexivity|]. cbn [map zsum fold_right] in *. unfold zlen in *. cbn [length]. unfold zsum in *. cbn [fold_right]. lia. Qed.
Lemma zsum_snoc l z : zsum (l ++ [z]) = zsum l + z.
Proof. induction l as [|x l IH]; cbn; [lia|]. unfold zsum in *. cbn [app fold_right] in *. lia. Qed.

Definition L1 (i : Z) (l : list Z) : list (list Z) := map snd (EA (m + 1) k false i (padm (m + 1) l)).
Lemma box_S l : in_box m k l -> in_box (m + 1) k l.
Proof. intros (H1 & H2 & H3). split; auto. split; auto. lia. Qed.
Lemma L1_in i l u : in_box m k l -> (In u (L1 i l) <-> intl k (padm m l ++ [0]) u /\ zsum u = zsum (padm m l) + i).
Proof.
  intros Hl. unfold L1. rewrite in_map_iff. rewrite <- padm_S by auto. assert (HZ : zsum (padm (m + 1) l) = zsum (padm m l)) by (rewrite padm_S, zsum_snoc by auto; lia).
  assert (Hw := in_box_wbox _ _ _ (box_S l Hl)). split.
  - intros ([d v] & <- & Hi). apply (EA_in (m + 1) k) in Hi; auto; try lia. cbn [snd]. destruct Hi as [(_ & H1 & H2)|(? & _)]; [|discriminate]. split; auto. lia.
  - intros [H1 H2]. exists (0%nat, u). split; auto. apply (EA_in (m + 1) k); auto; try lia. left. split; auto. split; auto. lia.
Qed.
Lemma L1_nodup i l : NoDup (L1 i l).
Proof.
  unfold L1, EA. rewrite app_nil_r, map_map. cbn [snd]. rewrite map_id. apply NoDup_filter, alll_nodup.
Qed.
Lemma nodup_flat {B C} (g : B -> list C) l : NoDup l -> (forall x, NoDup (g x)) -> (forall x y z, In x l -> In y l -> In z (g x) -> In z (g y) -> x = y) -> NoDup (flat_map g l).
Proof.
  induction 1 as [|x l Hx Hn IH]; intros Hg Hi; [constructor|]. cbn [flat_map]. apply nodup_app; auto.
  - apply IH; auto. intros; eapply Hi; eauto; right; auto.
  - intros z Hz Hz'. apply in_flat_map in Hz'. destruct Hz' as (y & Hy & Hzy). assert (x = y) by (eapply Hi; eauto; [left; auto|right; auto]). subst y. contradiction.
Qed.
Lemma gx_inv u d v : (1 <= length u)%nat -> In (d, v) (gx u) ->
  (d = 0%nat /\ u = v ++ [0]) \/ (d = 1%nat /\ qq = true /\ last u 0 <> 0 /\ u = k :: map (fun y => y + 1) v).
Proof.
  intros Hu. unfold gx. assert (Hne : u <> []) by (destruct u; [cbn in Hu; lia|discriminate]).
  destruct (Z.eqb_spec (last u 0) 0) as [E|E].
  - intros [Eq|[]]. inversion Eq; subst. left. split; auto. rewrite (app_removelast_last 0 Hne) at 1. rewrite E. reflexivity.
  - destruct qq; cbn [andb]; [|intros []]. destruct (Z.eqb_spec (hd 0 u) k) as [E2|E2]; [|intros []]. intros [Eq|[]]. inversion Eq; subst. right. split; auto. split; auto. split; auto.
    destruct u as [|y u]; [congruence|]. cbn [hd tl] in *. f_equal; [auto|]. rewrite map_map. rewrite <- (map_id u) at 1. apply map_ext. intros a. lia.
Qed.
Lemma flat_perm i l : 1 <= i <= k -> in_box m k l -> Permutation (flat_map gx (L1 i l)) (EA m k qq i (padm m l)).
Proof.
  intros Hi Hl. assert (Hw := in_box_wbox _ _ _ Hl). set (w := padm m l) in *. assert (Lw : length w = Mn) by (destruct Hw as [_ H2]; unfold zlen in H2; lia).
  assert (HLu : forall u, In u (L1 i l) -> length u = S Mn). { intros u Hu. apply L1_in in Hu; auto. fold w in Hu. destruct Hu as [H1 _]. apply intl_len in H1. rewrite app_length in H1. cbn [length] in H1. lia. }
  destruct (wbox_facts m k Hm Hk0 w Hw) as (_ & Wpos & _ & W0).
  apply NoDup_Permutation; [apply nodup_flat|apply EA_nodup|].
  - apply L1_nodup.
  - intros u. unfold gx. destruct (_ =? _); [repeat constructor; intros []|]. destruct (_ && _); repeat constructor. intros [].
  - intros x y [d v] Hx Hy Zx Zy. apply gx_inv in Zx; [|rewrite HLu; auto; lia]. apply gx_inv in Zy; [|rewrite HLu; auto; lia].
    destruct Zx as [(D1 & X)|(D1 & _ & _ & X)], Zy as [(D2 & Y)|(D2 & _ & _ & Y)]; congruence.
  - intros [d v]. rewrite in_flat_map, (EA_in m k) by (auto; lia). destruct w as [|x t] eqn:Ew; [cbn in Lw; lia|]. split.
    + intros (u & Hu & Hg). pose proof (HLu u Hu) as Lu. apply L1_in in Hu; auto. fold w in Hu. rewrite Ew in Hu. destruct Hu as [H1 H2].
      apply gx_inv in Hg; [|lia]. destruct Hg as [(-> & ->)|(-> & Eq & Hlast & ->)].
      * left. split; auto. apply intl_snoc in H1. split; [tauto|]. rewrite zsum_snoc in H2. lia.
      * right. split; auto. split; auto. cbn [length] in Lu. rewrite map_length in Lu.
        assert (Hv : map (fun y : Z => y + 1) v <> []) by (destruct v; [cbn in Lu; lia|discriminate]).
        rewrite (last_cons _ k 0 Hv) in Hlast.
        assert (Hlt : last (x :: t) 0 <> 0 /\ 1 <= last (map (fun y => y + 1) v) 0).
        { destruct (exists_last Hv) as (v' & z & Ev). rewrite Ev in *. change (k :: v' ++ [z]) with ((k :: v') ++ [z]) in H1. apply intl_snoc in H1. rewrite last_last in *.
          rewrite (last_def (x :: t) k 0) in H1 by discriminate. lia. }
        destruct Hlt as [Hlt1 Hlt2]. assert (Ec : part_clip (x :: t) = x :: t) by (apply clip_last; auto). rewrite Ec.
        split; [apply Hw|]. split.
        -- cbn [qint]. cbn [app intl] in H1. destruct H1 as [_ H1]. pose proof (proj1 (intl_pred t x _) (conj H1 Hlt2)) as H3. assert (Ev : map (fun y => y - 1) (map (fun y => y + 1) v) = v) by (rewrite map_map, (map_ext _ (fun y => y)), map_id by (intros; lia); reflexivity). rewrite Ev in H3. exact H3.
        -- assert (EZ : zsum v = zsum (map (fun y => y + 1) v) - m).
           { pose proof (zsum_pred (map (fun y => y + 1) v)) as Z1. rewrite map_map in Z1. rewrite (map_ext _ (fun y => y)), map_id in Z1 by (intros; lia). rewrite Z1. f_equal. unfold zlen. rewrite map_length. lia. }
           change (zsum (k :: map (fun y => y + 1) v)) with (k + zsum (map (fun y => y + 1) v)) in H2. lia.
    + intros [(-> & H1 & H2)|(Eq & -> & H1 & H2 & H3)].
      * exists (v ++ [0]). split.
        -- apply L1_in; auto. fold w. rewrite Ew. split; [|rewrite zsum_snoc; lia]. apply intl_snoc. split; auto. split; [lia|].
           rewrite (last_def (x :: t) k 0) by discriminate. destruct (exists_last (l := x :: t) ltac:(discriminate)) as (w' & z & Ez). rewrite Ez, last_last.
           pose proof (Wpos (length w')) as Wz. rewrite Ez in Wz. unfold part in Wz. rewrite app_nth2, Nat.sub_diag in Wz by lia. exact Wz.
        -- unfold gx. rewrite last_last. rewrite removelast_last. left. reflexivity.
      * assert (Ec : part_clip (x :: t) = x :: t) by (apply clip_same; destruct Hw as [_ Hw2]; lia). rewrite Ec in H2. pose proof (qint_len _ _ H2) as Lv. cbn [qint] in H2.
        set (v' := map (fun y => y + 1) v). assert (Ev : map (fun y => y - 1) v' = v) by (unfold v'; rewrite map_map, (map_ext _ (fun y => y)), map_id by (intros; lia); reflexivity).
        rewrite <- Ev in H2. apply intl_pred in H2. destruct H2 as [H2 H4].
        assert (Hv : v' <> []) by (intros E0; rewrite E0 in H4; cbn in H4; lia).
        exists (k :: v'). split.
        -- apply L1_in; auto. fold w. rewrite Ew. split.
           ++ cbn [app intl]. split; auto. change (part (x :: t) 0) with x in W0. lia.
           ++ change (zsum (k :: v')) with (k + zsum v'). pose proof (zsum_pred v') as Z1. rewrite Ev in Z1. assert (zlen v' = m) by (unfold v', zlen; rewrite map_length; unfold zlen in *; lia). lia.
        -- unfold gx. rewrite last_cons by auto. destruct (Z.eqb_spec (last v' 0) 0); [lia|]. rewrite Eq. cbn [hd tl andb]. rewrite Z.eqb_refl, Ev. left. reflexivity.
Qed.
End P.
