(** Determinants of matrices of polynomials, for the properties about
    Giambelli's formula. *)

From Coq Require Import ZArith List QArith Qcanon.
From Verif Require Import Py ModelPoly Spec.
Import ListNotations.
Open Scope Z_scope.

(** the sum of [f x] over a list *)
Definition psumf {A} (f : A -> poly) (l : list A) : poly := fold_right (fun x s => padd (f x) s) pzero l.

(** (-1)^n *)
Definition sign (n : nat) : Qc := if Nat.even n then 1%Qc else (-(1))%Qc.

(** the row of the matrix that is row [r] after deleting row [i] *)
Definition without (i r : nat) : nat := if (r <? i)%nat then r else S r.

(** the determinant of the matrix with entries [M i j], 0 <= i, j < n, expanded
    along its last column *)
Fixpoint det (n : nat) (M : nat -> nat -> poly) : poly :=
  match n with
  | O => pone
  | S n' => psumf (fun i => pscale (sign (i + n')) (pmul (M i n') (det n' (fun r c => M (without i r) c))))
                  (seq 0 n)
  end.

(** the special classes S[1], ..., S[k], with S[0] = 1 and 0 otherwise *)
Definition hclass (k i : Z) : poly :=
  if i =? 0 then pone else if (0 <? i) && (i <=? k) then pS [i] else pzero.

(** the Jacobi-Trudi determinant of [lam] in the special classes S[1], ..., S[k]:
    the entry in row i and column j is the class of lam_i + j - i *)
Definition jacobi_trudi (k : Z) (lam : list Z) : poly :=
  det (length lam) (fun i j => hclass k (part lam i + Z.of_nat j - Z.of_nat i)).
