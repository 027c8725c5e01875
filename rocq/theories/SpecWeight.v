(** Degrees of polynomials in the classes and in q: the words in which C83 and C84 are stated. *)

From Coq Require Import ZArith List QArith Qcanon.
From Verif Require Import Py ModelPart ModelQcalc ModelPoly Spec SpecPieri.
Import ListNotations.
Open Scope Z_scope.

(** the degree of a variable: a class has its size, each quantum parameter has degree [dq] *)
Definition var_degree (dq : Z) (v : var) : Z :=
  match v with VS (SP l) => size l | VS _ => 0 | _ => dq end.
Fixpoint mono_degree (dq : Z) (m : mono) : Z :=
  match m with [] => 0 | v :: t => var_degree dq v + mono_degree dq t end.
(** all monomials of [p] have degree [d] *)
Definition weighted (dq d : Z) (p : poly) : Prop := forall m, coef p m <> 0%Qc -> mono_degree dq m = d.

(** [op], applied to a class, gives a polynomial with integer coefficients, homogeneous of the degree of the class *)
Definition keeps_degree (V : list Z -> Prop) (dq : Z) (op : poly -> res poly) : Prop :=
  forall lam, V lam -> exists e, op (pS lam) = Ok e /\ weighted dq (size lam) e /\ integral e.

(** the parts of [p] and [r] without quantum parameters agree *)
Definition same_part_without_q (p r : poly) : Prop :=
  forall m, ~ In VQ m -> ~ In VQ1 m -> ~ In VQ2 m -> coef p m = coef r m.
