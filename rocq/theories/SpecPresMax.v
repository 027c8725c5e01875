(** The relations that present the rings of the maximal isotropic Grassmannians. *)

From Coq Require Import ZArith List QArith Qcanon.
From Verif Require Import Py ModelPoly Spec SpecDet SpecRel SpecPres.
Import ListNotations.
Open Scope Z_scope.

(** IG(n,2n): s_r^2 - 2 s_{r+1} s_{r-1} + 2 s_{r+2} s_{r-2} - ... = 0 for r = 1, ..., n, where
    s_i = S[i] for i = 1, ..., n, s_0 = 1 and s_i = 0 otherwise *)
Definition relation_LG (n : Z) (p : poly) : Prop :=
  exists r, 1 <= r <= n /\ p = quadratic n r weight_IG.
(** with q: the right hand side is (-1)^(n-r) s_{2r-n-1} q if 2r > n *)
Definition qrelation_LG (n : Z) (p : poly) : Prop :=
  exists r, 1 <= r <= n /\
    p = psub (quadratic n r weight_IG) (if n <? 2 * r then pscale (sign (Z.to_nat (n - r))) (pmul (pvar VQ) (hclass n (2 * r - n - 1))) else pzero).

(** OG(n,2n+1) and OG(n+1,2n+2): s_r^2 - 2 s_{r+1} s_{r-1} + ... -+ 2 s_{2r-1} s_1 +- s_{2r} = 0 *)
Definition relation_OG (n : Z) (p : poly) : Prop :=
  exists r, 1 <= r <= n /\ p = quadratic n r (weight_OG 0 r).
(** with q: s_n^2 = q instead of 0 *)
Definition qrelation_OG (n : Z) (p : poly) : Prop :=
  exists r, 1 <= r <= n /\ p = psub (quadratic n r (weight_OG 0 r)) (if r =? n then pvar VQ else pzero).

(** Two polynomials in S[1], ..., S[n] and q have the same value under [conv] exactly when they
    differ by a combination of the relations [R]. *)
Definition presents (n : Z) (R : poly -> Prop) (conv : poly -> res poly) : Prop :=
  forall p p', special_poly n p -> special_poly n p' ->
    exists r r', conv p = Ok r /\ conv p' = Ok r' /\ (peq r r' <-> in_ideal (special_poly n) R (psub p p')).
