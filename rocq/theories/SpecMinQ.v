(** The smallest power of q in a quantum product. *)

From Coq Require Import ZArith List QArith Qcanon.
From Verif Require Import Py ModelPoly ModelGr Spec.
Import ListNotations.
Open Scope Z_scope.

(** [chain_q op J x d y]: there is a sequence of classes from [x] to [y], each of which
    occurs with some power of q in one of the products [op i], i in [J], of the
    previous one; together these are [d] factors q *)
Inductive chain_q (op : Z -> poly -> res poly) (J : Z -> Prop) (x : list Z) : nat -> list Z -> Prop :=
| chain_q_refl : chain_q op J x 0 x
| chain_q_step d y i r e z : chain_q op J x d y -> J i -> op i (pS y) = Ok r -> coef r (qS e z) <> 0%Qc -> chain_q op J x (d + e) z.

(** q^e is the smallest power of q that occurs in [r] *)
Definition smallest_q (r : poly) (e : nat) : Prop :=
  (exists x, coef r (qS e x) <> 0%Qc) /\ forall f x, coef r (qS f x) <> 0%Qc -> (e <= f)%nat.

(** the smallest power of q in the product of two classes is the smallest number
    of factors q on the way from the first to the dual of the second *)
Definition smallest_q_law (V : list Z -> Prop) (mul : poly -> poly -> res poly) (dual : poly -> res poly)
    (op : Z -> poly -> res poly) (J : Z -> Prop) : Prop :=
  forall lam mu, V lam -> V mu ->
    exists r d nu e, mul (pS lam) (pS mu) = Ok r /\ dual (pS mu) = Ok d /\ V nu /\ peq d (pS nu) /\
      smallest_q r e /\ chain_q op J lam e nu /\ forall f, chain_q op J lam f nu -> (e <= f)%nat.
