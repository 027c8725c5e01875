(** Property C67 for OG(m,N) with N even: the relations between the special classes.
    The expressions are defined in SpecTwoD.v and SpecRelD.v. *)

From Coq Require Import ZArith List QArith Qcanon.
From Verif Require Import Py ModelPart ModelQcalc ModelPoly ModelStr ModelGr Spec SpecDet SpecRel SpecTwoD SpecRelD RelD.
Import ListNotations.
Open Scope Z_scope.

(** C67, OG(m,N) with N even: for k < r <= N - 1 - m, where k = N/2 - m, the expression
    s_r^2 - 2 s_{r+1} s_{r-1} + 2 s_{r+2} s_{r-2} - ... with the weights 2 replaced
    by 1 from s_{2r-k} s_k on, and with the sum S[k] + S[k,0] for s_k, is zero under
    [toS].  It is zero under [qtoS] for r < N - 1 - m.  For r = N - 1 - m [qtoS] gives
    q if m = N/2 and q^2 otherwise.  m = N/2 - 1, where there are two quantum
    parameters, is excluded for [qtoS]. *)
Theorem C67_relations_OG_even : forall m N g r,
  OrthogonalGrassmannian m N = Ok g -> Z.even N = true -> 1 <= m <= N / 2 -> N / 2 - m < r <= N - 1 - m ->
  (exists x, toS g (products (both_class (N - 1 - m) (N / 2 - m)) r r (weight_OG (N / 2 - m) r)) = Ok x /\ peq x pzero) /\
  (m <> N / 2 - 1 -> exists y, qtoS g (products (both_class (N - 1 - m) (N / 2 - m)) r r (weight_OG (N / 2 - m) r)) = Ok y /\
    (r < N - 1 - m -> peq y pzero) /\
    (r = N - 1 - m -> peq y (if m =? N / 2 then pmul (pvar VQ) (pS []) else pmul (pvar VQ) (pmul (pvar VQ) (pS []))))).
Proof. exact c67_OG_even. Qed.
Print Assumptions C67_relations_OG_even.

(** C67, OG(m,N) with N even: S[k] S[k,0] - s_{k+1} s_{k-1} + s_{k+2} s_{k-2} - ... is
    zero under [toS] and under [qtoS], where k = N/2 - m > 0.  m = N/2 - 1 is excluded
    for [qtoS]. *)
Theorem C67_relation_of_degree_2k_OG_even : forall m N g,
  OrthogonalGrassmannian m N = Ok g -> Z.even N = true -> 1 <= m < N / 2 ->
  (exists x, toS g (relation_k (N - 1 - m) (N / 2 - m)) = Ok x /\ peq x pzero) /\
  (m <> N / 2 - 1 -> exists y, qtoS g (relation_k (N - 1 - m) (N / 2 - m)) = Ok y /\ peq y pzero).
Proof. exact c67_OG_even_k. Qed.
Print Assumptions C67_relation_of_degree_2k_OG_even.

Example C67_case_OG_even : OrthogonalGrassmannian 2 8 = Ok (mkGr TD 2 3) /\
  pnorm (products (both_class 5 2) 4 4 (weight_OG 2 4)) =
    pnorm (padd (pmul (pS [4]) (pS [4])) (pscale (- (1 + 1))%Qc (pmul (pS [5]) (pS [3])))) /\
  pnorm (products (both_class 5 2) 3 3 (weight_OG 2 3)) =
    pnorm (padd (pmul (pS [3]) (pS [3])) (padd (pscale (-(1))%Qc (pmul (pS [4]) (padd (pS [2]) (pS [2; 0])))) (pmul (pS [5]) (pS [1])))) /\
  pnorm (relation_k 5 2) = pnorm (padd (pmul (pS [2]) (pS [2; 0])) (padd (pscale (-(1))%Qc (pmul (pS [3]) (pS [1]))) (pS [4]))) /\
  toS (mkGr TD 2 3) (products (both_class 5 2) 3 3 (weight_OG 2 3)) = Ok pzero /\
  qtoS (mkGr TD 2 3) (products (both_class 5 2) 4 4 (weight_OG 2 4)) = Ok pzero /\
  qtoS (mkGr TD 2 3) (products (both_class 5 2) 5 5 (weight_OG 2 5)) = Ok (pnorm (pmul (pvar VQ) (pmul (pvar VQ) (pS [])))) /\
  qtoS (mkGr TD 2 3) (relation_k 5 2) = Ok pzero /\
  qtoS (mkGr TD 0 3) (products (both_class 3 0) 3 3 (weight_OG 0 3)) = Ok (pnorm (pmul (pvar VQ) (pS []))) /\
  toS (mkGr TD 2 3) (pmul (pS [2]) (pS [2; 0])) <> Ok pzero.
Proof. repeat split; try (vm_compute; reflexivity). vm_compute. discriminate. Qed.
