(** Positivity: the words in which C82 is stated. *)

From Coq Require Import ZArith List QArith Qcanon.
From Verif Require Import Py ModelPoly ModelGr Spec SpecRing SpecPieri.
Import ListNotations.
Open Scope Z_scope.

(** acting with a polynomial of [E] on a linear combination of [L], both with positive integers
    as coefficients, gives a linear combination of [L] with positive integers as coefficients *)
Definition acts_positively (E L : poly -> Prop) (act : poly -> poly -> res poly) : Prop :=
  forall e c, E e -> L c -> positive_coefs e -> positive_coefs c ->
  exists r, act e c = Ok r /\ L r /\ positive_coefs r.
(** the same for the product of the special class of index [i], for [i] in [I] *)
Definition specials_positive (I : Z -> Prop) (L : poly -> Prop) (mul : poly -> poly -> res poly) : Prop :=
  forall i c, I i -> L c -> positive_coefs c ->
  exists r, mul (pS (special_class i)) c = Ok r /\ L r /\ positive_coefs r.
