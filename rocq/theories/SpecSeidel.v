(** Specification of a symmetry of the structure constants of a quantum product.

    [lam], [mu] and [nu] range over the classes, [L] is one class whose product with
    every class is a single term.  If the product takes [lam] to [q^a lam'] and [nu] to
    [q^b nu'], then the coefficient of [q^d nu] in [lam * mu] is the coefficient of
    [q^(d+b-a) nu'] in [lam' * mu]; where one of the two exponents would be negative,
    the other coefficient is zero. *)

From Coq Require Import ZArith List QArith Qcanon.
From Verif Require Import Py ModelPoly ModelStr Spec ModelPart.
Import ListNotations.

Definition top_sym (mul : poly -> poly -> res poly) (V : list Z -> Prop) (L : list Z) : Prop := forall lam mu nu lam' nu' a b rl rn, V lam -> V mu -> V nu ->
  mul (pS L) (pS lam) = Ok rl -> is_sum_of rl (fun e kap => e = a /\ kap = lam') ->
  mul (pS L) (pS nu) = Ok rn -> is_sum_of rn (fun e kap => e = b /\ kap = nu') ->
  exists r r', mul (pS lam) (pS mu) = Ok r /\ mul (pS lam') (pS mu) = Ok r' /\
    (forall d e, (a + e = d + b)%nat -> coef r (qS d nu) = coef r' (qS e nu')) /\
    (forall d, (d + b < a)%nat -> coef r (qS d nu) = 0%Qc) /\
    (forall e, (a + e < b)%nat -> coef r' (qS e nu') = 0%Qc).

(** The indices n and n+1 of 1, ..., 2n are exchanged if n is odd. *)
Open Scope Z_scope.
Definition middle (n a : Z) : Z :=
  if Z.odd n then if a =? n then n + 1 else if a =? n + 1 then n else a else a.
(** The class S[n-1,n-2,...,n-m]; the last row has length k = n-m, and the class is the one of
    the second type exactly if k is odd. *)
Definition spin_class (m n : Z) : list Z :=
  map (fun j => n - 1 - j) (zrange 0 m) ++ (if Z.odd (n - m) then [0] else []).
