(** Determinants: rows and columns alternate; the sum of a Jacobi-Trudi
    determinant over all ways to add a composition to its rows. *)

From Coq Require Import ZArith List Lia Bool Permutation QArith Qcanon Setoid Morphisms.
From Verif Require Import Py OrderFacts PyFacts ModelPart ModelQcalc ModelPoly Spec SpecDet PolyFacts
  RingA CylA Transfer CommD2 Schub LRCore LRSum.
Import ListNotations.
Open Scope Z_scope.

(** ** sums *)
Lemma psumf_cons {A} (f : A -> poly) x l : psumf f (x :: l) = padd (f x) (psumf f l).
Proof. reflexivity. Qed.
Lemma psumf_ext {A} (f g : A -> poly) l : (forall x, In x l -> peq (f x) (g x)) -> peq (psumf f l) (psumf g l).
Proof.
  induction l as [|x l IH]; intros H; [reflexivity|]. rewrite !psumf_cons, (H x), IH; [reflexivity|intros; apply H|]; simpl; auto.
Qed.
Lemma psumf_app {A} (f : A -> poly) l l' : peq (psumf f (l ++ l')) (padd (psumf f l) (psumf f l')).
Proof.
  induction l as [|x l IH]; cbn [app]; [unfold psumf at 2; cbn [fold_right]; ring|]. rewrite !psumf_cons, IH. ring.
Qed.
Lemma psumf_map {A B} (g : A -> B) (f : B -> poly) l : psumf f (map g l) = psumf (fun x => f (g x)) l.
Proof. induction l as [|x l IH]; auto. cbn [map]. rewrite !psumf_cons, IH. reflexivity. Qed.
Lemma psumf_add {A} (f g : A -> poly) l : peq (psumf (fun x => padd (f x) (g x)) l) (padd (psumf f l) (psumf g l)).
Proof. induction l as [|x l IH]; [unfold psumf; cbn [fold_right]; ring|]. rewrite !psumf_cons, IH. ring. Qed.
Lemma psumf_mul {A} c (f : A -> poly) l : peq (psumf (fun x => pmul c (f x)) l) (pmul c (psumf f l)).
Proof. induction l as [|x l IH]; [unfold psumf; cbn [fold_right]; ring|]. rewrite !psumf_cons, IH. ring. Qed.
Lemma psumf_opp {A} (f : A -> poly) l : peq (psumf (fun x => popp (f x)) l) (popp (psumf f l)).
Proof. induction l as [|x l IH]; [unfold psumf; cbn [fold_right]; ring|]. rewrite !psumf_cons, IH. ring. Qed.
Lemma psumf_zero {A} (f : A -> poly) l : (forall x, In x l -> peq (f x) pzero) -> peq (psumf f l) pzero.
Proof. induction l as [|x l IH]; intros H; [reflexivity|]. rewrite psumf_cons, (H x), IH; [ring|intros; apply H|]; simpl; auto. Qed.
Lemma psumf_swap {A B} (f : A -> B -> poly) l l' :
  peq (psumf (fun x => psumf (f x) l') l) (psumf (fun y => psumf (fun x => f x y) l) l').
Proof.
  induction l as [|x l IH].
  - symmetry. apply psumf_zero. reflexivity.
  - rewrite psumf_cons, IH, <- psumf_add. apply psumf_ext. reflexivity.
Qed.
Lemma coef_psumf {A} (f : A -> poly) l mo : coef (psumf f l) mo = qsum (fun x => coef (f x) mo) l.
Proof. induction l as [|x l IH]; [reflexivity|]. rewrite psumf_cons, coef_padd, IH, qsum_cons. reflexivity. Qed.
Lemma psumf_rev {A} (f : A -> poly) l : peq (psumf f (rev l)) (psumf f l).
Proof. intros mo. rewrite !coef_psumf. apply qsum_perm. symmetry. apply Permutation_rev. Qed.
Lemma self_opp p : peq p (popp p) -> peq p pzero.
Proof.
  intros H mo. rewrite coef_nil. apply Qc_self_opp. rewrite (H mo) at 1. unfold popp. rewrite coef_pscale. ring.
Qed.

Definition pm (n : nat) : poly := pconst (sign n).
Lemma sign_S n : sign (S n) = (- sign n)%Qc.
Proof. unfold sign. rewrite Nat.even_succ, <- Nat.negb_even. destruct (Nat.even n); reflexivity. Qed.
Lemma pconst_opp c : peq (pconst (- c)%Qc) (popp (pconst c)).
Proof. intros mo. unfold popp, pconst. rewrite coef_pscale. simpl. destruct (mono_eqb [] mo); ring. Qed.
Lemma pm_S n : peq (pm (S n)) (popp (pm n)).
Proof. unfold pm. rewrite sign_S. apply pconst_opp. Qed.
Lemma pm_0 : pm 0 = pone.
Proof. reflexivity. Qed.

(** ** expansion along a column *)
Section W.
Context {A : Type}.

(** the sum over all positions of [g]: sign, entry [c x], and [F] of the other rows *)
Fixpoint W (c : A -> poly) (F : list A -> poly) (g : list A) : poly :=
  match g with
  | [] => pzero
  | x :: t => padd (pmul (pm (length t)) (pmul (c x) (F t))) (W c (fun r => F (x :: r)) t)
  end.

Lemma W_ext c c' F F' g : (forall x, In x g -> peq (c x) (c' x)) ->
  (forall r, S (length r) = length g -> (forall x, In x r -> In x g) -> peq (F r) (F' r)) -> peq (W c F g) (W c' F' g).
Proof.
  revert F F'. induction g as [|x g IH]; intros F F' Hc HF; [reflexivity|]. cbn [W].
  rewrite (Hc x), (HF g); [|reflexivity|simpl; auto|simpl; auto]. rewrite (IH (fun r => F (x :: r)) (fun r => F' (x :: r))); [reflexivity|intros; apply Hc; simpl; auto|].
  intros r Hr Hi. apply HF; simpl; [lia|]. intros y [->|Hy]; auto.
Qed.
Lemma W_add c F F' g : peq (W c (fun r => padd (F r) (F' r)) g) (padd (W c F g) (W c F' g)).
Proof.
  revert F F'. induction g as [|x g IH]; intros F F'; cbn [W]; [ring|]. rewrite IH. ring.
Qed.
Lemma W_mul c F p g : peq (W c (fun r => pmul p (F r)) g) (pmul p (W c F g)).
Proof. revert F. induction g as [|x g IH]; intros F; cbn [W]; [ring|]. rewrite IH. ring. Qed.
Lemma W_opp c F g : peq (W c (fun r => popp (F r)) g) (popp (W c F g)).
Proof. revert F. induction g as [|x g IH]; intros F; cbn [W]; [ring|]. rewrite IH. ring. Qed.
Lemma W_zero c F g : (forall r, S (length r) = length g -> (forall x, In x r -> In x g) -> peq (F r) pzero) -> peq (W c F g) pzero.
Proof.
  intros H. rewrite (W_ext c c F (fun _ => pmul pzero pzero) g); [|reflexivity|].
  - rewrite W_mul. ring.
  - intros r H1 H2. rewrite H; auto. ring.
Qed.
Lemma W_sum {B} c (F : B -> list A -> poly) l g : peq (W c (fun r => psumf (fun b => F b r) l) g) (psumf (fun b => W c (F b) g) l).
Proof.
  induction l as [|b l IH].
  - apply W_zero. reflexivity.
  - rewrite psumf_cons, <- IH, <- W_add. reflexivity.
Qed.

(** two columns alternate *)
Lemma W_cols c d F g : peq (W c (W d F) g) (popp (W d (W c F) g)).
Proof.
  revert F. induction g as [|x g IH]; intros F; [cbn [W]; ring|]. cbn [W].
  rewrite !W_add. destruct g as [|y g].
  - cbn [W]. ring.
  - rewrite (IH (fun r => F (x :: r))).
    assert (E : forall c d, peq (W c (fun r => pmul (pm (length r)) (pmul (d x) (F r))) (y :: g)) (popp (pmul (pm (S (length g))) (pmul (d x) (W c F (y :: g)))))).
    { intros c' d'. rewrite (W_ext c' c' _ (fun r => pmul (pmul (pm (length g)) (d' x)) (F r))).
      - rewrite W_mul, pm_S. ring.
      - reflexivity.
      - intros r Hr _. simpl in Hr. injection Hr as ->. ring. }
    rewrite (E c d), (E d c). change (length (y :: g)) with (S (length g)). ring.
Qed.

(** rows alternate *)
Lemma W_app c F u v : peq (W c F (u ++ v)) (padd (pmul (pm (length v)) (W c (fun r => F (r ++ v)) u)) (W c (fun r => F (u ++ r)) v)).
Proof.
  revert F. induction u as [|x u IH]; intros F; cbn [W app]; [change (W c (fun r => F r) v) with (W c F v); ring|]. rewrite IH.
  assert (E : peq (pm (length (u ++ v))) (pmul (pm (length v)) (pm (length u)))).
  { clear. induction u as [|x u IH]; cbn [app length]; [rewrite pm_0; ring|]. rewrite !pm_S, IH. ring. }
  rewrite E. ring.
Qed.
Definition alt (F : list A -> poly) (n : nat) : Prop :=
  forall u a b v, length (u ++ a :: b :: v) = n -> peq (F (u ++ b :: a :: v)) (popp (F (u ++ a :: b :: v))).
Lemma W_rows c F n : alt F n -> alt (W c F) (S n).
Proof.
  intros HF u a b v Hl. rewrite app_length in Hl. cbn [length] in Hl. rewrite !W_app. cbn [W length].
  rewrite (W_ext c c (fun r => F (r ++ b :: a :: v)) (fun r => popp (F (r ++ a :: b :: v))) u); [|reflexivity|].
  2:{ intros r Hr _. apply HF. rewrite app_length. cbn [length]. lia. }
  rewrite (W_ext c c (fun r => F (u ++ b :: a :: r)) (fun r => popp (F (u ++ a :: b :: r))) v); [|reflexivity|].
  2:{ intros r Hr _. apply HF. rewrite app_length. cbn [length]. lia. }
  rewrite !W_opp, !pm_S. ring.
Qed.

(** ** determinants *)
Fixpoint dd (n : nat) (E : nat -> A -> poly) (g : list A) : poly :=
  match n with O => pone | S n' => W (E n') (dd n' E) g end.
Lemma dd_alt n E : alt (dd n E) n.
Proof.
  induction n as [|n IH]; [|apply W_rows; auto]. intros u a b v H. rewrite app_length in H. simpl in H. lia.
Qed.
Lemma W_ext0 c F F' g : (forall r, S (length r) = length g -> peq (F r) (F' r)) -> peq (W c F g) (W c F' g).
Proof. intros H. apply W_ext; auto. reflexivity. Qed.
Lemma dd_ext n E E' g : (forall j x, (j < n)%nat -> In x g -> peq (E j x) (E' j x)) -> length g = n -> peq (dd n E g) (dd n E' g).
Proof.
  revert g. induction n as [|n IH]; intros g H Hl; [reflexivity|]. cbn [dd]. apply W_ext; [intros; apply H; auto|].
  intros r Hr Hi. apply IH; [|lia]. intros j x Hj Hx. apply H; auto.
Qed.
(** a row of zeros *)
Lemma W_row0 c F g x : In x g -> peq (c x) pzero -> (forall r, S (length r) = length g -> In x r -> peq (F r) pzero) -> peq (W c F g) pzero.
Proof.
  revert F. induction g as [|y g IH]; intros F Hx Hc HF; [contradiction|]. cbn [W].
  destruct Hx as [->|Hx].
  - rewrite Hc, (W_zero c (fun r => F (x :: r)) g); [ring|]. intros r Hr _. apply HF; simpl; auto.
  - rewrite (HF g); simpl; auto. rewrite IH; auto; [ring|]. intros r Hr Hi. apply HF; simpl; auto.
Qed.
Lemma dd_row0 n E g x : length g = n -> In x g -> (forall j, (j < n)%nat -> peq (E j x) pzero) -> peq (dd n E g) pzero.
Proof.
  revert g. induction n as [|n IH]; intros g Hl Hx HE; [destruct g; [contradiction|discriminate]|]. cbn [dd].
  apply (W_row0 _ _ _ x); auto. intros r Hr Hi. apply IH; auto; lia.
Qed.
(** a last row with a single entry *)
Lemma W_last c F u x n : length u = n -> (forall r, length r = n -> In x r -> peq (F r) pzero) ->
  peq (W c F (u ++ [x])) (pmul (c x) (F u)).
Proof.
  intros Hu HF. rewrite W_app. cbn [W length]. rewrite pm_0, app_nil_r.
  rewrite (W_zero c (fun r => F (r ++ [x])) u); [ring|]. intros r Hr _. apply HF; [rewrite app_length; simpl; lia|]. apply in_or_app. right. simpl. auto.
Qed.
End W.

Lemma W_map {A B} (f : A -> B) c F g : peq (W c F (map f g)) (W (fun x => c (f x)) (fun r => F (map f r)) g).
Proof. revert F. induction g as [|x g IH]; intros F; cbn [map W]; [ring|]. rewrite IH, map_length. reflexivity. Qed.
Lemma dd_map {A B} (f : A -> B) n E g : length g = n -> peq (dd n E (map f g)) (dd n (fun j x => E j (f x)) g).
Proof.
  revert g. induction n as [|n IH]; intros g Hl; [reflexivity|]. cbn [dd]. rewrite W_map. apply W_ext0. intros r Hr. apply IH. lia.
Qed.

(** ** adding compositions to the rows *)
Section H.
Variable N : Z.
Fixpoint hs (F : list Z -> poly) (p : Z) (g : list Z) : poly :=
  match g with
  | [] => if p =? 0 then F [] else pzero
  | x :: t => psumf (fun b => hs (fun r => F (x + b :: r)) (p - b) t) (zrange 0 (N + 1))
  end.
Lemma hs_ext F F' p g : (forall r, length r = length g -> peq (F r) (F' r)) -> peq (hs F p g) (hs F' p g).
Proof.
  revert F F' p. induction g as [|x g IH]; intros F F' p H; cbn [hs].
  - destruct (p =? 0); [apply H; reflexivity|reflexivity].
  - apply psumf_ext. intros b _. apply IH. intros r Hr. apply H. simpl. lia.
Qed.
Lemma hs_add F F' p g : peq (hs (fun r => padd (F r) (F' r)) p g) (padd (hs F p g) (hs F' p g)).
Proof.
  revert F F' p. induction g as [|x g IH]; intros F F' p; cbn [hs].
  - destruct (p =? 0); ring.
  - rewrite <- psumf_add. apply psumf_ext. intros b _. apply IH.
Qed.
Lemma hs_mul c F p g : peq (hs (fun r => pmul c (F r)) p g) (pmul c (hs F p g)).
Proof.
  revert F p. induction g as [|x g IH]; intros F p; cbn [hs].
  - destruct (p =? 0); ring.
  - rewrite <- psumf_mul. apply psumf_ext. intros b _. apply IH.
Qed.
Lemma hs_neg F p g : p < 0 -> peq (hs F p g) pzero.
Proof.
  revert F p. induction g as [|x g IH]; intros F p Hp; cbn [hs].
  - destruct (Z.eqb_spec p 0); [lia|reflexivity].
  - apply psumf_zero. intros b Hb. apply in_zrange in Hb. apply IH. lia.
Qed.
Lemma hs_W c F p g : peq (hs (W c F) p g) (psumf (fun t => W (fun x => c (x + t)) (hs F (p - t)) g) (zrange 0 (N + 1))).
Proof.
  revert F p. induction g as [|x g IH]; intros F p; cbn [hs].
  - symmetry. rewrite psumf_zero; [destruct (p =? 0); reflexivity|]. reflexivity.
  - transitivity (psumf (fun b => padd (pmul (pm (length g)) (pmul (c (x + b)) (hs F (p - b) g)))
      (psumf (fun t => W (fun x0 => c (x0 + t)) (hs (fun r => F (x + b :: r)) (p - b - t)) g) (zrange 0 (N + 1)))) (zrange 0 (N + 1))).
    { apply psumf_ext. intros b _. cbn [W]. rewrite hs_add, IH.
      rewrite (hs_ext _ (fun r => pmul (pmul (pm (length g)) (c (x + b))) (F r))).
      - rewrite hs_mul. ring.
      - intros r Hr. rewrite Hr. ring. }
    rewrite psumf_add.
    transitivity (psumf (fun t => padd (pmul (pm (length g)) (pmul (c (x + t)) (hs F (p - t) g)))
      (psumf (fun b => W (fun x0 => c (x0 + t)) (hs (fun r => F (x + b :: r)) (p - t - b)) g) (zrange 0 (N + 1)))) (zrange 0 (N + 1))).
    + rewrite psumf_add. apply padd_proper; [reflexivity|]. rewrite psumf_swap. apply psumf_ext. intros t _. apply psumf_ext. intros b _.
      replace (p - b - t) with (p - t - b) by lia. reflexivity.
    + apply psumf_ext. intros t _. cbn [W hs]. rewrite W_sum. reflexivity.
Qed.

(** the determinant with columns [eta (x + j)] *)
Variable eta : Z -> poly.
Notation D n := (dd n (fun j x => eta (x + Z.of_nat j))).

Lemma zrange_rev f p : peq (psumf f (zrange 0 p)) (psumf (fun t => f (p - 1 - t)) (zrange 0 p)).
Proof.
  intros mo. rewrite !coef_psumf. rewrite <- (qsum_map (fun t => p - 1 - t) (fun t => coef (f t) mo)). apply qsum_perm.
  apply NoDup_Permutation; [apply zrange_nodup| |].
  - apply FinFun.Injective_map_NoDup; [intros a b E; lia|apply zrange_nodup].
  - intros z. rewrite in_zrange, in_map_iff. split.
    + intros Hz. exists (p - 1 - z). rewrite in_zrange. lia.
    + intros (y & E & Hy). apply in_zrange in Hy. lia.
Qed.

Lemma hs_D n p g : length g = S n -> 0 <= p <= N ->
  peq (hs (D (S n)) p g) (W (fun x => eta (x + Z.of_nat n + p)) (D n) g).
Proof.
  revert p g. induction n as [|n IH]; intros p g Hl Hp.
  - destruct g as [|x [|y g]]; try discriminate. cbn [hs dd W length]. rewrite pm_0.
    transitivity (psumf (fun b => if b =? p then eta (x + p) else pzero) (zrange 0 (N + 1))).
    { apply psumf_ext. intros b _. destruct (Z.eqb_spec (p - b) 0), (Z.eqb_spec b p); try lia; [|reflexivity]. replace (x + b + Z.of_nat 0) with (x + p) by lia. ring. }
    intros mo. rewrite coef_psumf. rewrite (zrange_split 0 p (N + 1)) by lia. rewrite (zrange_split p (p + 1) (N + 1)) by lia. rewrite !qsum_app.
    assert (Z0 : forall a b, (b <= p \/ p < a) -> qsum (fun b0 => coef (if b0 =? p then eta (x + p) else pzero) mo) (zrange a b) = 0%Qc).
    { intros a b Hab. apply qsum_zero. intros y Hy. apply in_zrange in Hy. destruct (Z.eqb_spec y p); [lia|reflexivity]. }
    rewrite (Z0 0 p), (Z0 (p + 1) (N + 1)) by lia.
    replace (zrange p (p + 1)) with [p] by (unfold zrange; replace (p + 1 - p) with 1 by lia; simpl; f_equal; lia).
    rewrite qsum_cons, qsum_nil, Z.eqb_refl. rewrite Qcplus_0_l, !Qcplus_0_r.
    assert (E : peq (padd (pmul pone (pmul (eta (x + Z.of_nat 0 + p)) pone)) pzero) (eta (x + p))) by (replace (x + Z.of_nat 0 + p) with (x + p) by lia; ring).
    symmetry. apply E.
  - change (D (S (S n))) with (W (fun x => eta (x + Z.of_nat (S n))) (D (S n))). rewrite hs_W.
    set (T := fun a b => W (fun x => eta (x + a)) (W (fun x => eta (x + b)) (D n)) g).
    assert (HT : forall a b, peq (T a b) (popp (T b a))) by (intros; apply W_cols).
    transitivity (psumf (fun t => T (Z.of_nat n + 1 + t) (Z.of_nat n + p - t)) (zrange 0 (p + 1))).
    { rewrite (zrange_split 0 (p + 1) (N + 1)) by lia. rewrite psumf_app, (psumf_zero _ (zrange (p + 1) (N + 1))).
      2:{ intros t Ht. apply in_zrange in Ht. apply W_zero. intros r _ _. apply hs_neg. lia. }
      transitivity (psumf (fun t => W (fun x => eta (x + t + Z.of_nat (S n))) (hs (D (S n)) (p - t)) g) (zrange 0 (p + 1))); [ring|].
      apply psumf_ext. intros t Ht. apply in_zrange in Ht. unfold T. apply W_ext.
      - intros x _. replace (x + t + Z.of_nat (S n)) with (x + (Z.of_nat n + 1 + t)) by lia. reflexivity.
      - intros r Hr _. rewrite IH by lia. apply W_ext; [|reflexivity]. intros x _. replace (x + Z.of_nat n + (p - t)) with (x + (Z.of_nat n + p - t)) by lia. reflexivity. }
    rewrite (zrange_split 0 p (p + 1)) by lia. rewrite psumf_app.
    replace (zrange p (p + 1)) with [p] by (unfold zrange; replace (p + 1 - p) with 1 by lia; simpl; f_equal; lia).
    set (R := psumf _ (zrange 0 p)). assert (HR : peq R pzero).
    { apply self_opp. unfold R. rewrite <- psumf_opp. etransitivity; [apply zrange_rev|]. apply psumf_ext. intros t _. rewrite HT.
      replace (Z.of_nat n + p - (p - 1 - t)) with (Z.of_nat n + 1 + t) by lia. replace (Z.of_nat n + 1 + (p - 1 - t)) with (Z.of_nat n + p - t) by lia. reflexivity. }
    rewrite HR, psumf_cons. unfold psumf. cbn [fold_right]. unfold T.
    rewrite (W_ext (fun x => eta (x + (Z.of_nat n + 1 + p))) (fun x => eta (x + Z.of_nat (S n) + p)) _ (D (S n))); [ring| |].
    + intros x _. replace (x + (Z.of_nat n + 1 + p)) with (x + Z.of_nat (S n) + p) by lia. reflexivity.
    + intros r _ _. cbn [dd]. apply W_ext; [|reflexivity]. intros x _. replace (x + (Z.of_nat n + p - p)) with (x + Z.of_nat n) by lia. reflexivity.
Qed.

(** when the last row vanishes except in the last column *)
Lemma hs_last n p u : length u = n -> 0 <= p <= N -> (forall z, z < Z.of_nat n -> peq (eta z) pzero) -> peq (eta (Z.of_nat n)) pone ->
  peq (hs (D (S n)) p (u ++ [0])) (pmul (eta (Z.of_nat n + p)) (D (S n) (u ++ [0]))).
Proof.
  intros Hu Hp H0 H1. rewrite hs_D; [|rewrite app_length; simpl; lia|auto].
  assert (HZ : forall r, length r = n -> In 0 r -> peq (D n r) pzero).
  { intros r Hr Hi. apply (dd_row0 _ _ _ 0); auto. intros j Hj. apply H0. lia. }
  cbn [dd]. rewrite !(W_last _ (D n) u 0 n) by auto. rewrite !Z.add_0_l, H1. ring.
Qed.
End H.

Lemma coef_hs N F mo : forall g u p, coef (hs N (fun r => F (u ++ r)) p g) mo = FL N (fun r => coef (F r) mo) u g p.
Proof.
  induction g as [|x g IH]; intros u p.
  - cbn [hs]. unfold FL. cbn [length alll]. rewrite qsum_cons, qsum_nil. cbn [zsum fold_right vadd].
    rewrite Z.eqb_sym. destruct (0 =? p); [ring|rewrite coef_nil; ring].
  - cbn [hs]. rewrite coef_psumf, FL_cons. apply qsum_ext. intros b _. rewrite <- IH.
    apply hs_ext. intros r _. rewrite <- app_assoc. reflexivity.
Qed.
