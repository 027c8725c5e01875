(** Vocabulary: duality on the spaces with two quantum parameters. *)

From Coq Require Import ZArith List QArith Qcanon.
From Verif Require Import Py ModelPoly Spec SpecPieri.
Import ListNotations.
Open Scope Z_scope.

(** S[lam] * S[mu] contains the point class [pt] with coefficient 1 if S[mu] is the
    dual class of S[lam], and otherwise not; it never contains q1^d1 q2^d2 times the
    point class *)
Definition duality_law12 (V : list Z -> Prop) (mul : poly -> poly -> res poly) (dual : poly -> res poly) (pt : list Z) : Prop :=
  forall lam mu, V lam -> V mu ->
    exists d r, dual (pS lam) = Ok d /\ mul (pS lam) (pS mu) = Ok r /\
      (peq d (pS mu) -> coef r [vS pt] = 1%Qc) /\ (~ peq d (pS mu) -> coef r [vS pt] = 0%Qc) /\
      (forall d1 d2, (1 <= d1 + d2)%nat -> coef r (q12S d1 d2 pt) = 0%Qc).
(** the coefficient of q1^d1 q2^d2 S[nu] in S[lam] * S[mu] is that of q1^d1 q2^d2 S[mu]*
    in S[lam] * S[nu]*, where the star stands for the dual class *)
Definition symmetric_constants12 (V : list Z -> Prop) (mul : poly -> poly -> res poly) (dual : poly -> res poly) : Prop :=
  forall lam mu nu, V lam -> V mu -> V nu ->
    exists mu' nu' dm dn r s, V mu' /\ V nu' /\
      dual (pS mu) = Ok dm /\ peq dm (pS mu') /\ dual (pS nu) = Ok dn /\ peq dn (pS nu') /\
      mul (pS lam) (pS mu) = Ok r /\ mul (pS lam) (pS nu') = Ok s /\
      forall d1 d2, coef r (q12S d1 d2 nu) = coef s (q12S d1 d2 mu').

(** the class [y] occurs in [r], with any powers of q1 and q2 *)
Definition occurs12 (r : poly) (y : list Z) : Prop := exists d1 d2, coef r (q12S d1 d2 y) <> 0%Qc.
(** a sequence of classes from [x] to [y], each of which occurs in one of the products
    [op i], i in [J], of the previous one *)
Inductive chain12 (op : Z -> poly -> res poly) (J : Z -> Prop) (x : list Z) : list Z -> Prop :=
| chain12_refl : chain12 op J x x
| chain12_step y z i r : chain12 op J x y -> J i -> op i (pS y) = Ok r -> occurs12 r z -> chain12 op J x z.
(** no product of two classes is zero, and there is a chain from every class to every class *)
Definition never_zero12 (V : list Z -> Prop) (mul : poly -> poly -> res poly) (op : Z -> poly -> res poly) (J : Z -> Prop) : Prop :=
  (forall lam mu, V lam -> V mu -> exists r, mul (pS lam) (pS mu) = Ok r /\ ~ peq r pzero) /\
  (forall lam mu, V lam -> V mu -> chain12 op J lam mu).
