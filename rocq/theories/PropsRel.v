(** Property C67: the quadratic relations between the special classes of isotropic
    Grassmannians.  The quadratic expressions are defined in SpecRel.v. *)

From Coq Require Import ZArith List QArith Qcanon.
From Verif Require Import Py ModelPart ModelQcalc ModelPoly ModelStr ModelGr Spec SpecDet SpecRel RelBC.
Import ListNotations.
Open Scope Z_scope.

(** C67, IG(m,N): for k < r <= N - m, where k = N/2 - m, the expression
    s_r^2 - 2 s_{r+1} s_{r-1} + 2 s_{r+2} s_{r-2} - ... in the special classes
    s_i = S[i] is zero under [toS].  Under [qtoS] it is (-1)^(N-m-r) q s_{2r-(N-m+1)},
    with s_0 = 1, and zero if 2r <= N - m. *)
Theorem C67_relations_IG : forall m N g r,
  IsotropicGrassmannian m N = Ok g -> 1 <= m -> N / 2 - m < r <= N - m ->
  exists x y, toS g (quadratic (N - m) r weight_IG) = Ok x /\ peq x pzero /\
    qtoS g (quadratic (N - m) r weight_IG) = Ok y /\
    (2 * r <= N - m -> peq y pzero) /\
    (N - m < 2 * r -> peq y (pscale (sign (Z.to_nat (N - m - r))) (pmul (pvar VQ) (pS (row (2 * r - (N - m + 1))))))).
Proof. exact c67_IG. Qed.
Print Assumptions C67_relations_IG.

Example C67_case_IG : IsotropicGrassmannian 2 6 = Ok (mkGr TC 1 3) /\
  pnorm (quadratic 4 2 weight_IG) =
    pnorm (padd (pmul (pS [2]) (pS [2])) (padd (pscale (- (1 + 1))%Qc (pmul (pS [3]) (pS [1]))) (pscale (1 + 1)%Qc (pS [4])))) /\
  toS (mkGr TC 1 3) (quadratic 4 2 weight_IG) = Ok pzero /\
  qtoS (mkGr TC 1 3) (quadratic 4 2 weight_IG) = Ok pzero /\
  toS (mkGr TC 1 3) (quadratic 4 3 weight_IG) = Ok pzero /\
  qtoS (mkGr TC 1 3) (quadratic 4 3 weight_IG) = Ok (pnorm (pscale (-(1))%Qc (pmul (pvar VQ) (pS [1])))) /\
  qtoS (mkGr TC 1 3) (quadratic 4 4 weight_IG) = Ok (pnorm (pmul (pvar VQ) (pS [3]))) /\
  qtoS (mkGr TC 1 3) (quadratic 4 1 weight_IG) <> Ok pzero.
Proof. repeat split; try (vm_compute; reflexivity). vm_compute. discriminate. Qed.

(** C67, OG(m,N) with N odd: for k < r <= N - 1 - m, where k = N/2 - m, the expression
    s_r^2 - 2 s_{r+1} s_{r-1} + 2 s_{r+2} s_{r-2} - ... with the weights 2 replaced
    by 1 from s_{2r-k} s_k on is zero under [toS].  It is zero under [qtoS] for
    r < N - 1 - m.  For r = N - 1 - m [qtoS] gives q if m = N/2 and q^2 otherwise. *)
Theorem C67_relations_OG_odd : forall m N g r,
  OrthogonalGrassmannian m N = Ok g -> Z.odd N = true -> 1 <= m <= N / 2 -> N / 2 - m < r <= N - 1 - m ->
  exists x y, toS g (quadratic (N - 1 - m) r (weight_OG (N / 2 - m) r)) = Ok x /\ peq x pzero /\
    qtoS g (quadratic (N - 1 - m) r (weight_OG (N / 2 - m) r)) = Ok y /\
    (r < N - 1 - m -> peq y pzero) /\
    (r = N - 1 - m -> peq y (if m =? N / 2 then pmul (pvar VQ) (pS []) else pmul (pvar VQ) (pmul (pvar VQ) (pS [])))).
Proof. exact c67_OG. Qed.
Print Assumptions C67_relations_OG_odd.

Example C67_case_OG : OrthogonalGrassmannian 2 7 = Ok (mkGr TB 1 3) /\
  pnorm (quadratic 4 3 (weight_OG 1 3)) =
    pnorm (padd (pmul (pS [3]) (pS [3])) (pscale (- (1 + 1))%Qc (pmul (pS [4]) (pS [2])))) /\
  pnorm (quadratic 4 2 (weight_OG 1 2)) =
    pnorm (padd (pmul (pS [2]) (pS [2])) (padd (pscale (-(1))%Qc (pmul (pS [3]) (pS [1]))) (pS [4]))) /\
  toS (mkGr TB 1 3) (quadratic 4 2 (weight_OG 1 2)) = Ok pzero /\
  qtoS (mkGr TB 1 3) (quadratic 4 2 (weight_OG 1 2)) = Ok pzero /\
  qtoS (mkGr TB 1 3) (quadratic 4 3 (weight_OG 1 3)) = Ok pzero /\
  toS (mkGr TB 1 3) (quadratic 4 4 (weight_OG 1 4)) = Ok pzero /\
  qtoS (mkGr TB 1 3) (quadratic 4 4 (weight_OG 1 4)) = Ok (pnorm (pmul (pvar VQ) (pmul (pvar VQ) (pS [])))) /\
  qtoS (mkGr TB 0 3) (quadratic 3 3 (weight_OG 0 3)) = Ok (pnorm (pmul (pvar VQ) (pS []))).
Proof. repeat split; vm_compute; reflexivity. Qed.
