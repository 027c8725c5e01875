(** The powers of q in a quantum product on Gr(m,n). *)

From Coq Require Import ZArith List QArith Qcanon.
From Verif Require Import Py ModelPoly ModelGr Spec.
Import ListNotations.
Open Scope Z_scope.

(** q^d occurs in [r] *)
Definition has_power (r : poly) (d : nat) : Prop := exists x, coef r (qS d x) <> 0%Qc.

(** [mu] turned by 180 degrees and [lam], moved against each other by [d] rows and
    [d] columns on the torus with [m] rows and [k] columns, overlap nowhere *)
Definition q_overlap (m k : Z) (lam mu : list Z) (d : nat) : Prop :=
  Z.of_nat d <= m /\ forall j, Z.of_nat j < m ->
    ((j < d)%nat -> k + Z.of_nat d <= part lam j + part mu (d - 1 - j)) /\
    ((d <= j)%nat -> Z.of_nat d <= part lam j + part mu (Z.to_nat m - 1 + d - j) <= k + Z.of_nat d).
