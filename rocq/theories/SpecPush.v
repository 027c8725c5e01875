(** Vocabulary: the classes of a larger space with the dual that a class has on a smaller one. *)

From Coq Require Import ZArith List QArith Qcanon.
From Verif Require Import Py ModelPoly ModelGr Spec SpecRing.
Import ListNotations.
Open Scope Z_scope.

(** dualize maps S[x] to S[y] *)
Definition dual_to (g : gr) (x y : list Z) : Prop := exists d, dualize g (pS x) = Ok d /\ peq d (pS y).
(** the dual of S[l'] on the larger space [g'] is that of S[l] on the smaller space [g] *)
Definition pushed (g g' : gr) (l l' : list Z) : Prop := exists x, dual_to g l x /\ dual_to g' l' x.

(** [V] and [V'] are the classes of [g] and [g'] *)
Definition push_law (V V' : list Z -> Prop) (g g' : gr) : Prop :=
  (** every class of the smaller space has exactly one partner *)
  (forall l, V l -> exists l', V' l' /\ pushed g g' l l' /\ forall z, V' z -> pushed g g' l z -> z = l') /\
  (** the product with the partner is the product, with every class replaced by its partner *)
  (forall a l l', V a -> V l -> V' l' -> pushed g g' l l' ->
     exists s r, mult g (pS a) (pS l) = Ok s /\ mult g' (pS a) (pS l') = Ok r /\
       (forall nu nu', V nu -> V' nu' -> pushed g g' nu nu' -> coef r (qS 0 nu') = coef s (qS 0 nu)) /\
       (forall nu', V' nu' -> (forall nu, V nu -> ~ pushed g g' nu nu') -> coef r (qS 0 nu') = 0%Qc)) /\
  (** the other classes give 0 *)
  (forall a l l', V' a -> ~ V a -> V l -> V' l' -> pushed g g' l l' ->
     exists r, mult g' (pS a) (pS l') = Ok r /\ forall nu', V' nu' -> coef r (qS 0 nu') = 0%Qc).
