(** Vocabulary: products of several factors. *)

From Coq Require Import ZArith List QArith Qcanon.
From Verif Require Import Py ModelPoly Spec.
Import ListNotations.
Open Scope Z_scope.

(** the product of the polynomials of a list *)
Definition pprod (l : list poly) : poly := fold_right pmul pone l.
(** the expression S[i_1] * ... * S[i_r] *)
Definition special_product (c : list Z) : poly := pprod (map (fun i => pS [i]) c).
(** the expression contains the symbol of a class (or of a pair) *)
Definition has_class (p : poly) : Prop := exists m s, coef p m <> Q2Qc 0 /\ In (VS s) m.
