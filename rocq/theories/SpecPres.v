(** The presentation of the ring of Gr(m,n) by generators and relations. *)

From Coq Require Import ZArith List QArith Qcanon.
From Verif Require Import Py ModelPoly Spec SpecDet.
Import ListNotations.
Open Scope Z_scope.

(** [p] is a combination of polynomials in [R] with coefficients in [A] *)
Definition in_ideal (A R : poly -> Prop) (p : poly) : Prop :=
  exists l : list (poly * poly), (forall x, In x l -> A (fst x) /\ R (snd x)) /\ peq p (psumf (fun x => pmul (fst x) (snd x)) l).

(** the polynomials in S[1], ..., S[k] and q *)
Definition special_poly (k : Z) (p : poly) : Prop := poly_in (fun l => exists i, 1 <= i <= k /\ l = [i]) p.

(** the determinant of the column with [d] rows, in the special classes *)
Definition column (k : Z) (d : nat) : poly := jacobi_trudi k (repeat 1 d).

(** the relations of Gr(m,m+k): the columns with more than m rows, up to m+k rows *)
Definition relation (m k : Z) (p : poly) : Prop := exists d, m < Z.of_nat d <= m + k /\ p = column k d.
(** the quantum relations: the last one is the column with m+k rows minus (-1)^(k-1) q *)
Definition qrelation (m k : Z) (p : poly) : Prop :=
  (exists d, m < Z.of_nat d < m + k /\ p = column k d) \/
  p = psub (column k (Z.to_nat (m + k))) (pscale (sign (Z.to_nat (k - 1))) (pvar VQ)).
