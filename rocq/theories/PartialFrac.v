(** Two sums of products of differences (partial fractions). *)

From Coq Require Import ZArith List Lia QArith Qcanon Field.
From Verif Require Import Transfer.
Import ListNotations.
Open Scope Qc_scope.

Section F.
Variables (u w : Z -> Qc).
Definition fac (t : Qc) (y : Z) : Qc := 1 - w y / (t - u y).
Definition prodl (t : Qc) (l : list Z) : Qc := fold_right (fun y s => fac t y * s) 1 l.
(** the product over all [y] in [l] except [x] *)
Definition cc (l : list Z) (x : Z) : Qc := fold_right (fun y s => if Z.eq_dec x y then s else fac (u x) y * s) 1 l.
Definition apart (l : list Z) : Prop := NoDup l /\ forall x y, In x l -> In y l -> x <> y -> u x <> u y.

Lemma apart_tl y l : apart (y :: l) -> apart l /\ ~ In y l /\ forall x, In x l -> u x <> u y.
Proof.
  intros (N & H). inversion N; subst. split; [split; auto; intros; apply H; simpl; auto|]. split; auto.
  intros x Hx. apply H; simpl; auto. intros ->. auto.
Qed.
Lemma cc_other y l x : x <> y -> cc (y :: l) x = fac (u x) y * cc l x.
Proof. intros H. cbn [cc fold_right]. fold (cc l x). destruct (Z.eq_dec x y); [contradiction|reflexivity]. Qed.
Lemma cc_out l x : ~ In x l -> cc l x = prodl (u x) l.
Proof.
  induction l as [|y l IH]; intros H; [reflexivity|]. rewrite cc_other by (intros ->; apply H; simpl; auto). cbn [prodl fold_right]. fold (prodl (u x) l).
  rewrite IH; [reflexivity|]. intros Hx. apply H. simpl. auto.
Qed.
Lemma cc_self y l : ~ In y l -> cc (y :: l) y = prodl (u y) l.
Proof. intros H. rewrite <- cc_out by auto. cbn [cc fold_right]. destruct (Z.eq_dec y y); [reflexivity|congruence]. Qed.
Lemma sub_ne (a b : Qc) : a <> b -> a - b <> 0.
Proof. intros H E. apply H. replace a with (a - b + b) by ring. rewrite E. ring. Qed.

(** the expansion in partial fractions *)
Lemma partial_fractions l : apart l -> forall t, (forall x, In x l -> t <> u x) ->
  prodl t l = 1 - qsum (fun x => w x * cc l x / (t - u x)) l.
Proof.
  induction l as [|y l IH]; intros Ha t Ht; [cbn; ring|]. destruct (apart_tl _ _ Ha) as (Hl & Hy & Hu).
  cbn [prodl fold_right]. fold (prodl t l). rewrite IH by (auto; intros; apply Ht; simpl; auto). rewrite qsum_cons, cc_self by auto.
  rewrite (IH Hl (u y)) by (intros x Hx; apply not_eq_sym; auto).
  assert (Hty : t - u y <> 0) by (apply sub_ne, Ht; simpl; auto).
  rewrite (qsum_ext (fun x => w x * cc (y :: l) x / (t - u x))
    (fun x => 1 * (w x * cc l x / (t - u x)) + (- (w y / (t - u y)) * (w x * cc l x / (t - u x)) + w y / (t - u y) * (w x * cc l x / (u y - u x))))).
  - rewrite !qsum_add, !qsum_mul. unfold fac. field. auto.
  - intros x Hx. rewrite cc_other by (intros ->; auto). unfold fac.
    assert (H1 : t - u x <> 0) by (apply sub_ne, Ht; simpl; auto). assert (H2 : u x - u y <> 0) by (apply sub_ne; auto).
    assert (H3 : u y - u x <> 0) by (apply sub_ne, not_eq_sym; auto). field. auto.
Qed.

Lemma sum_w l : apart l -> qsum (fun x => w x * cc l x) l = qsum w l.
Proof.
  induction l as [|y l IH]; intros Ha; [reflexivity|]. destruct (apart_tl _ _ Ha) as (Hl & Hy & Hu). rewrite !qsum_cons, cc_self by auto.
  rewrite (partial_fractions l Hl (u y)) by (intros x Hx; apply not_eq_sym; auto). rewrite <- IH by auto.
  rewrite (qsum_ext (fun x => w x * cc (y :: l) x) (fun x => 1 * (w x * cc l x) + w y * (w x * cc l x / (u y - u x)))).
  - rewrite qsum_add, !qsum_mul. ring.
  - intros x Hx. rewrite cc_other by (intros ->; auto). unfold fac. assert (H2 : u x - u y <> 0) by (apply sub_ne; auto).
    assert (H3 : u y - u x <> 0) by (apply sub_ne, not_eq_sym; auto). field. auto.
Qed.
Fixpoint pairsum (l : list Z) : Qc := match l with [] => 0 | y :: l' => w y * qsum w l' + pairsum l' end.
Lemma sum_wu l : apart l -> qsum (fun x => w x * u x * cc l x) l = qsum (fun x => w x * u x) l - pairsum l.
Proof.
  induction l as [|y l IH]; intros Ha; [cbn; ring|]. destruct (apart_tl _ _ Ha) as (Hl & Hy & Hu). rewrite !qsum_cons, cc_self by auto. cbn [pairsum].
  rewrite (partial_fractions l Hl (u y)) by (intros x Hx; apply not_eq_sym; auto). rewrite <- (sum_w l Hl).
  replace (qsum (fun x => w x * u x) l) with (qsum (fun x => w x * u x * cc l x) l + pairsum l) by (rewrite IH by auto; ring).
  rewrite (qsum_ext (fun x => w x * u x * cc (y :: l) x)
     (fun x => 1 * (w x * u x * cc l x) + (- w y * (w x * cc l x) + w y * u y * (w x * cc l x / (u y - u x))))).
  - rewrite !qsum_add, !qsum_mul. ring.
  - intros x Hx. rewrite cc_other by (intros ->; auto). unfold fac. assert (H2 : u x - u y <> 0) by (apply sub_ne; auto).
    assert (H3 : u y - u x <> 0) by (apply sub_ne, not_eq_sym; auto). field. auto.
Qed.
End F.
