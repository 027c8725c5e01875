(** Specification of the products on Gr(2,n), the variety of lines in the projective
    space of dimension n-1. *)

From Coq Require Import ZArith List Bool.
From Verif Require Import Py ModelPoly Spec.
Import ListNotations.
Open Scope Z_scope.

(** the partition with the rows [a] >= [b] >= 0 *)
Definition two_rows (a b : Z) : list Z :=
  if b =? 0 then (if a =? 0 then [] else [a]) else [a; b].

(** the term of a product that the shape with the rows [x] >= [y] contributes:
    q^d S_nu.  A shape with x > n-2 loses a rim hook of n boxes, which leaves the
    rows y-1 and x-n+1, and gives a factor q. *)
Definition lines_term (n x y : Z) (d : nat) (nu : list Z) : Prop :=
  (x <= n - 2 /\ d = 0%nat /\ nu = two_rows x y) \/
  (n - 2 < x /\ y < n /\ d = 1%nat /\ nu = two_rows (y - 1) (x - n + 1)) \/
  (n <= y /\ d = 2%nat /\ nu = two_rows (x - n) (y - n)).

(** the values of i that occur in the product of the classes with the rows a, b and
    c, e: those of the Clebsch-Gordan rule for a-b and c-e, cut off at n-2 *)
Definition lines_index (n a b c e i : Z) : Prop :=
  0 <= i /\ i <= a - b /\ i <= c - e /\ (a - b) + (c - e) - i <= n - 2.
