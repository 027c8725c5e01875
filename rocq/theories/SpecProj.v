(** Specification of the products on projective spaces and quadrics.  [row a] is
    the class of codimension [a] of a projective space. *)

From Coq Require Import ZArith List Bool QArith Qcanon.
From Verif Require Import Py ModelPoly Spec SpecRel.
Import ListNotations.
Open Scope Z_scope.

(** [x] is the classical and [y] the quantum product of the classes of
    codimension [a] and [b] of the projective space of dimension [N-1] *)
Definition projective_products (N a b : Z) (x y : poly) : Prop :=
  (a + b < N -> peq x (pS (row (a + b))) /\ peq y (pS (row (a + b)))) /\
  (N <= a + b -> peq x pzero /\ peq y (pmul (pvar VQ) (pS (row (a + b - N))))).

(** ** Quadrics of dimension D *)

(** the sum of the classes of codimension [c] *)
Definition level (D c : Z) : poly := if 2 * c =? D then padd (pS [c]) (pS [c; 0]) else pS (row c).

(** [x] is the classical and [y] the quantum product of the classes S[a] and S[b],
    none of them of codimension D/2.  (The power of the hyperplane class is [level D a]
    for a <= D/2 and 2 S[a] for D/2 < a < D.) *)
Definition quadric_products (D a b : Z) (x y : poly) : Prop :=
  (a + b <= D -> peq x (if (2 * Z.max a b <? D) && (D <? 2 * (a + b)) then pscale (1 + 1)%Qc (level D (a + b)) else level D (a + b))) /\
  (D < a + b -> peq x pzero) /\
  (a + b < D -> peq y x) /\
  (a + b = D -> peq y (padd (pS [D]) (pmul (pvar VQ) (pS [])))) /\
  (D < a + b -> Z.max a b < D ->
     peq y (pmul (pvar VQ)
       (if (2 * Z.min a b <? D) || (D <? 2 * (a + b - D)) then pscale (1 + 1)%Qc (level D (a + b - D)) else level D (a + b - D)))) /\
  (Z.max a b = D -> Z.min a b < D -> peq y (pmul (pvar VQ) (pS [Z.min a b]))) /\
  (Z.min a b = D -> peq y (pmul (pvar VQ) (pmul (pvar VQ) (pS [])))).

(** D = 2 k: the two classes of codimension k *)
Definition middle (k : Z) (second : bool) : list Z := if second then [k; 0] else [k].
(** ... the product of one of them with S[b], b <> k *)
Definition middle_products (k b : Z) (s : bool) (x y : poly) : Prop :=
  (b < k -> peq x (pS [k + b]) /\ peq y (pS [k + b])) /\
  (k < b -> peq x pzero) /\
  (k < b < 2 * k -> peq y (pmul (pvar VQ) (pS [b - k]))) /\
  (b = 2 * k -> peq y (pmul (pvar VQ) (pS (middle k (negb s))))).
(** ... the product of two of them *)
Definition middle_pair (k : Z) (s s' : bool) (x y : poly) : Prop :=
  if Bool.eqb (Bool.eqb s s') (Z.even k)
  then peq x (pS [2 * k]) /\ peq y (pS [2 * k])
  else peq x pzero /\ peq y (pmul (pvar VQ) (pS [])).
