(** Chains of Pieri products, and products that are not zero. *)

From Coq Require Import ZArith List QArith Qcanon.
From Verif Require Import Py ModelPoly ModelGr Spec.
Import ListNotations.
Open Scope Z_scope.

(** the class [y] occurs in [r], with any power of q *)
Definition occurs (r : poly) (y : list Z) : Prop := exists d, coef r (qS d y) <> 0%Qc.

(** [chain op J x y]: there is a sequence of classes from [x] to [y], each of which
    occurs in one of the products [op i], i in [J], of the previous one *)
Inductive chain (op : Z -> poly -> res poly) (J : Z -> Prop) (x : list Z) : list Z -> Prop :=
| chain_refl : chain op J x x
| chain_step y z i r : chain op J x y -> J i -> op i (pS y) = Ok r -> occurs r z -> chain op J x z.

(** the product of two classes is zero exactly if there is no chain from the
    first to the dual of the second *)
Definition nonzero_law (V : list Z -> Prop) (mul : poly -> poly -> res poly) (dual : poly -> res poly)
    (op : Z -> poly -> res poly) (J : Z -> Prop) : Prop :=
  forall lam mu, V lam -> V mu ->
    exists r d nu, mul (pS lam) (pS mu) = Ok r /\ dual (pS mu) = Ok d /\ V nu /\ peq d (pS nu) /\
      (~ peq r pzero <-> chain op J lam nu).

(** ... exactly if the diagram of the first class is not contained in that of the
    dual of the second *)
Definition nested_law (V : list Z -> Prop) (mul : poly -> poly -> res poly) (dual : poly -> res poly) : Prop :=
  forall lam mu, V lam -> V mu ->
    exists r d nu, mul (pS lam) (pS mu) = Ok r /\ dual (pS mu) = Ok d /\ V nu /\ peq d (pS nu) /\
      (~ peq r pzero <-> forall j, part lam j <= part nu j).

(** no product of two classes is zero, and there is a chain from every class to
    every class *)
Definition never_zero (V : list Z -> Prop) (mul : poly -> poly -> res poly) (op : Z -> poly -> res poly) (J : Z -> Prop) : Prop :=
  (forall lam mu, V lam -> V mu -> exists r, mul (pS lam) (pS mu) = Ok r /\ ~ peq r pzero) /\
  (forall lam mu, V lam -> V mu -> chain op J lam mu).
