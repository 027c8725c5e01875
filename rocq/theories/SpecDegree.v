(** Vocabulary: powers of the class S[1] (degrees of Grassmannians). *)

From Coq Require Import ZArith List QArith Qcanon.
From Verif Require Import Py ModelPoly ModelStr Spec SpecProd.
Import ListNotations.
Open Scope Z_scope.

(** S[1] * ... * S[1] *)
Definition power_of_S1 (N : nat) : poly := special_product (repeat 1 N).
Definition factorial (x : Z) : Z := fold_right Z.mul 1 (map Z.of_nat (seq 1 (Z.to_nat x))).
Definition product (l : list Z) : Z := fold_right Z.mul 1 l.
(** the product of all f x y, x before y in the list *)
Fixpoint over_pairs (f : Z -> Z -> Z) (l : list Z) : Z :=
  match l with [] => 1 | x :: l' => product (map (f x) l') * over_pairs f l' end.
(** lam_1 + m-1, lam_2 + m-2, ..., lam_m *)
Definition stair (m : Z) (lam : list Z) : list Z :=
  map (fun j => part lam j + (m - 1 - Z.of_nat j)) (seq 0 (Z.to_nat m)).

(** Frobenius: N! prod_(i<j) (l_i - l_j) / prod l_i!, l the list [stair m lam] *)
Definition frobenius (m : Z) (N : nat) (lam : list Z) (c : Z) : Prop :=
  c * product (map factorial (stair m lam)) = factorial (Z.of_nat N) * over_pairs Z.sub (stair m lam).
(** Schur: t times N! prod_(i<j) (lam_i - lam_j)/(lam_i + lam_j) / prod lam_i! *)
Definition schur_formula (t : Z) (N : nat) (lam : list Z) (c : Z) : Prop :=
  c * product (map factorial lam) * over_pairs Z.add lam = t * factorial (Z.of_nat N) * over_pairs Z.sub lam.
(** The power S[1]^N over the classes of [V]: the coefficients are integers, the
    class of nu occurs only if |nu| = N, and then its coefficient c is given by
    [formula nu c]. *)
Definition power_law (V : list Z -> Prop) (to_s : poly -> res poly) (formula : nat -> list Z -> Z -> Prop) : Prop :=
  forall N, exists r, to_s (power_of_S1 N) = Ok r /\ lin_comb0 V r /\
    forall nu, V nu -> exists c, coef r [vS nu] = Q2Qc (inject_Z c) /\
      (size nu <> Z.of_nat N -> c = 0) /\ (size nu = Z.of_nat N -> formula N nu c).
