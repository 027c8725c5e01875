(** Vocabulary: cylindric tableaux. *)

From Coq Require Import ZArith List.
From Verif Require Import Py Spec.
Import ListNotations.
Open Scope Z_scope.

(** The boundary of a partition in the m x k rectangle, continued periodically:
    row j + m has k boxes less than row j. *)
Definition periodic_row (m k : Z) (lam : list Z) (j : Z) : Z :=
  part lam (Z.to_nat (j mod m)) - k * (j / m).
(** The same boundary moved d steps along the diagonal; rows 0, ..., m - 1. *)
Definition moved (m k d : Z) (lam : list Z) : list Z :=
  map (fun j => periodic_row m k lam (j - d) + d) (zrange 0 m).
(** [w] is [v] with i boxes added, no two of them in one column; row 0 of [w]
    meets row m - 1 of [v] on the other side of the cylinder. *)
Definition cyl_strip (m k : Z) (v w : list Z) (i : Z) : Prop :=
  zlen w = m /\
  (forall j, 0 <= j < m -> part v (Z.to_nat j) <= part w (Z.to_nat j)) /\
  (forall j, 1 <= j < m -> part w (Z.to_nat j) <= part v (Z.to_nat (j - 1))) /\
  part w 0 <= part v (Z.to_nat (m - 1)) + k /\
  size w = size v + i.
(** [T] is a chain of such steps which starts at [v], with i_1, ..., i_r boxes. *)
Fixpoint cyl_tableau (m k : Z) (v : list Z) (c : list Z) (T : list (list Z)) : Prop :=
  match c, T with
  | [], [] => True
  | i :: c', w :: T' => cyl_strip m k v w i /\ cyl_tableau m k w c' T'
  | _, _ => False
  end.
