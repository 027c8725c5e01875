(** The relations between the special classes of OG(m,N) with N even. *)

From Coq Require Import ZArith List QArith Qcanon.
From Verif Require Import Py ModelPoly Spec SpecDet SpecRel SpecTwoD.
Import ListNotations.
Open Scope Z_scope.

(** in degree k the two special classes S[k] and S[k,0]:
    S[k] S[k,0] - s_{k+1} s_{k-1} + s_{k+2} s_{k-2} - ... *)
Definition relation_k (c k : Z) : poly :=
  padd (pmul (pS [k]) (pS [k; 0]))
       (psumf (fun i => pscale (sign i) (pmul (hclass c (k + Z.of_nat i)) (hclass c (k - Z.of_nat i)))) (seq 1 (Z.to_nat k))).
