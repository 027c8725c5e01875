(** Properties C62 and C63: Giambelli's formula as a determinant, the relations of
    the ring.  Determinants and the special classes are defined in SpecDet.v. *)

From Coq Require Import ZArith List QArith Qcanon.
From Verif Require Import Py ModelPart ModelQcalc ModelPoly ModelStr ModelGr Spec SpecDet Check GiamDet PresA.
Import ListNotations.
Open Scope Z_scope.

(** C62: on Gr(m,n) giambelli and qgiambelli of a class are the Jacobi-Trudi
    determinant det(S[lam_i + j - i]) as polynomials in the special classes. *)
Theorem C62_jacobi_trudi_A : forall m n g lam,
  Grassmannian m n = Ok g -> 1 <= m -> in_box m (n - m) lam ->
  (exists e, giambelli g (pS lam) = Ok e /\ peq e (jacobi_trudi (n - m) lam)) /\
  (exists e, qgiambelli g (pS lam) = Ok e /\ peq e (jacobi_trudi (n - m) lam)).
Proof. exact c62. Qed.
Print Assumptions C62_jacobi_trudi_A.

Example C62_case : Grassmannian 3 7 = Ok (mkGr TA 4 7) /\ in_boxb 3 4 [3; 2; 2] = true /\
  giambelli (mkGr TA 4 7) (pS [3; 2; 2]) = Ok (pnorm (jacobi_trudi 4 [3; 2; 2])) /\
  qgiambelli (mkGr TA 4 7) (pS [3; 2; 2]) = Ok (pnorm (jacobi_trudi 4 [3; 2; 2])) /\
  length (pnorm (jacobi_trudi 4 [3; 2; 2])) = 4%nat /\
  pnorm (jacobi_trudi 4 [2; 1]) = pnorm (psub (pmul (pS [2]) (pS [1])) (pS [3])).
Proof. repeat split; vm_compute; reflexivity. Qed.

(** C63: the relations of the ring of Gr(m,n).  Write E_d for the determinant
    det(S[1 + j - i]) of size d in the special classes S[1], ..., S[n-m].  [toS] and [qtoS]
    send E_d to the class S[1^d] for d <= m and to 0 for m < d < n.  For d = n
    [toS] gives 0 and [qtoS] gives (-1)^(n-m-1) q. *)
Theorem C63_relations_A : forall m n g d,
  Grassmannian m n = Ok g -> 1 <= m < n -> Z.of_nat d <= n ->
  exists r s, toS g (jacobi_trudi (n - m) (repeat 1 d)) = Ok r /\ qtoS g (jacobi_trudi (n - m) (repeat 1 d)) = Ok s /\
    (Z.of_nat d <= m -> peq r (pS (repeat 1 d)) /\ peq s (pS (repeat 1 d))) /\
    (m < Z.of_nat d -> peq r pzero) /\
    (m < Z.of_nat d < n -> peq s pzero) /\
    (Z.of_nat d = n -> peq s (pscale (sign (Z.to_nat (n - m - 1))) (pmul (pvar VQ) (pS [])))).
Proof. exact c63. Qed.
Print Assumptions C63_relations_A.

Example C63_case : Grassmannian 2 4 = Ok (mkGr TA 2 4) /\
  toS (mkGr TA 2 4) (jacobi_trudi 2 [1; 1]) = Ok (pS [1; 1]) /\
  qtoS (mkGr TA 2 4) (jacobi_trudi 2 [1; 1; 1]) = Ok pzero /\
  toS (mkGr TA 2 4) (jacobi_trudi 2 [1; 1; 1; 1]) = Ok pzero /\
  qtoS (mkGr TA 2 4) (jacobi_trudi 2 [1; 1; 1; 1]) = Ok (pnorm (pscale (-(1))%Qc (pmul (pvar VQ) (pS [])))) /\
  pnorm (jacobi_trudi 2 [1; 1; 1]) = pnorm (psub (pmul (pS [1]) (pmul (pS [1]) (pS [1]))) (pscale (1 + 1)%Qc (pmul (pS [1]) (pS [2])))).
Proof. repeat split; vm_compute; reflexivity. Qed.
