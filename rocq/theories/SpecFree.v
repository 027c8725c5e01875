(** Products without multiplicities on Gr(m,n): the words in which C81 is stated. *)

From Coq Require Import ZArith List QArith Qcanon.
From Verif Require Import ModelPoly Spec.
Import ListNotations.
Open Scope Z_scope.

(** every coefficient of [r] is 0 or 1 *)
Definition multiplicity_free (r : poly) : Prop := forall mo, coef r mo = 0%Qc \/ coef r mo = 1%Qc.

(** [lam], a class of the [m] x [k] rectangle, is one row away from a rectangle: all its rows but
    the first are equal, or all its rows but the last, or all but one of its rows are full or empty *)
Definition near_rectangle (m k : Z) (lam : list Z) : Prop :=
  (forall i j, 1 <= Z.of_nat i < m -> 1 <= Z.of_nat j < m -> part lam i = part lam j) \/
  (forall i j, Z.of_nat i < m - 1 -> Z.of_nat j < m - 1 -> part lam i = part lam j) \/
  (forall i j, 0 < part lam i < k -> 0 < part lam j < k -> i = j).
