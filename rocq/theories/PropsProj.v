(** Products on projective spaces and quadrics. *)

From Coq Require Import ZArith List Bool QArith Qcanon.
From Verif Require Import Py ModelPart ModelQcalc ModelPoly ModelStr ModelGr Spec SpecRel SpecProj ApiProj ApiQuad.
Import ListNotations.
Open Scope Z_scope.

(** C72, Gr(1,N): the projective space of dimension N-1.  The classes are the powers
    of the hyperplane class, and its N-th power is q. *)
Theorem C72_projective_A : forall N g a b, Grassmannian 1 N = Ok g -> 0 <= a < N -> 0 <= b < N ->
  exists x y, mult g (pS (row a)) (pS (row b)) = Ok x /\ qmult g (pS (row a)) (pS (row b)) = Ok y /\ projective_products N a b x y.
Proof. exact c72_A. Qed.
Print Assumptions C72_projective_A.

(** C72, IG(1,N): every line is isotropic, so IG(1,N) is the same projective space,
    although the code takes another path. *)
Theorem C72_projective_IG : forall N g a b, IsotropicGrassmannian 1 N = Ok g -> 0 <= a < N -> 0 <= b < N ->
  exists x y, mult g (pS (row a)) (pS (row b)) = Ok x /\ qmult g (pS (row a)) (pS (row b)) = Ok y /\ projective_products N a b x y.
Proof. exact c72_IG. Qed.
Print Assumptions C72_projective_IG.

Example C72_case_projective : Grassmannian 1 4 = Ok (mkGr TA 3 4) /\ IsotropicGrassmannian 1 4 = Ok (mkGr TC 1 2) /\
  mult (mkGr TA 3 4) (pS [2]) (pS [1]) = Ok (pS [3]) /\ mult (mkGr TC 1 2) (pS [2]) (pS [1]) = Ok (pS [3]) /\
  mult (mkGr TA 3 4) (pS [2]) (pS [3]) = Ok pzero /\ mult (mkGr TC 1 2) (pS [2]) (pS [3]) = Ok pzero /\
  qmult (mkGr TA 3 4) (pS [2]) (pS [3]) = Ok (pnorm (pmul (pvar VQ) (pS [1]))) /\
  qmult (mkGr TC 1 2) (pS [2]) (pS [3]) = Ok (pnorm (pmul (pvar VQ) (pS [1]))).
Proof. repeat split; vm_compute; reflexivity. Qed.

(** C72, OG(1,N): the quadric of dimension N-2, both parities of N. *)
Theorem C72_quadric : forall N g a b, OrthogonalGrassmannian 1 N = Ok g -> 5 <= N ->
  1 <= a <= N - 2 -> 1 <= b <= N - 2 -> 2 * a <> N - 2 -> 2 * b <> N - 2 ->
  exists x y, mult g (pS [a]) (pS [b]) = Ok x /\ qmult g (pS [a]) (pS [b]) = Ok y /\ quadric_products (N - 2) a b x y.
Proof. exact c72_quadric. Qed.
Print Assumptions C72_quadric.

Example C72_case_quadric : OrthogonalGrassmannian 1 7 = Ok (mkGr TB 2 3) /\ OrthogonalGrassmannian 1 8 = Ok (mkGr TD 3 3) /\
  mult (mkGr TB 2 3) (pS [1]) (pS [2]) = Ok (pnorm (pscale (1 + 1)%Qc (pS [3]))) /\
  qmult (mkGr TB 2 3) (pS [3]) (pS [4]) = Ok (pnorm (pmul (pvar VQ) (pS [2]))) /\
  mult (mkGr TD 3 3) (pS [1]) (pS [2]) = Ok (pnorm (padd (pS [3]) (pS [3; 0]))) /\
  mult (mkGr TD 3 3) (pS [2]) (pS [2]) = Ok (pnorm (pscale (1 + 1)%Qc (pS [4]))) /\
  qmult (mkGr TD 3 3) (pS [4]) (pS [5]) = Ok (pnorm (pmul (pvar VQ) (padd (pS [3]) (pS [3; 0])))) /\
  qmult (mkGr TD 3 3) (pS [6]) (pS [6]) = Ok (pnorm (pmul (pvar VQ) (pmul (pvar VQ) (pS [])))).
Proof. repeat split; vm_compute; reflexivity. Qed.

(** C72, OG(1,N) with N even: the products with the two classes of codimension
    N/2-1, in both orders of the factors. *)
Theorem C72_quadric_middle : forall N g b s, OrthogonalGrassmannian 1 N = Ok g -> Z.even N = true -> 6 <= N ->
  1 <= b <= N - 2 -> b <> N / 2 - 1 ->
  exists x y x' y', mult g (pS (middle (N / 2 - 1) s)) (pS [b]) = Ok x /\ qmult g (pS (middle (N / 2 - 1) s)) (pS [b]) = Ok y /\
    mult g (pS [b]) (pS (middle (N / 2 - 1) s)) = Ok x' /\ qmult g (pS [b]) (pS (middle (N / 2 - 1) s)) = Ok y' /\
    middle_products (N / 2 - 1) b s x y /\ peq x x' /\ peq y y'.
Proof. exact c72_middle. Qed.
Print Assumptions C72_quadric_middle.

(** C72: and with each other.  Which of the products is the class of a point depends
    on the parity of N/2-1. *)
Theorem C72_quadric_pair : forall N g s s', OrthogonalGrassmannian 1 N = Ok g -> Z.even N = true -> 6 <= N ->
  exists x y, mult g (pS (middle (N / 2 - 1) s)) (pS (middle (N / 2 - 1) s')) = Ok x /\
    qmult g (pS (middle (N / 2 - 1) s)) (pS (middle (N / 2 - 1) s')) = Ok y /\ middle_pair (N / 2 - 1) s s' x y.
Proof. exact c72_pair. Qed.
Print Assumptions C72_quadric_pair.

Example C72_case_middle : OrthogonalGrassmannian 1 6 = Ok (mkGr TD 2 2) /\ OrthogonalGrassmannian 1 8 = Ok (mkGr TD 3 3) /\
  qmult (mkGr TD 2 2) (pS [2; 0]) (pS [3]) = Ok (pnorm (pmul (pvar VQ) (pS [1]))) /\
  qmult (mkGr TD 2 2) (pS [2; 0]) (pS [4]) = Ok (pnorm (pmul (pvar VQ) (pS [2]))) /\
  qmult (mkGr TD 2 2) (pS [2; 0]) (pS [2; 0]) = Ok (pS [4]) /\
  qmult (mkGr TD 2 2) (pS [2; 0]) (pS [2]) = Ok (pnorm (pmul (pvar VQ) (pS []))) /\
  qmult (mkGr TD 3 3) (pS [3; 0]) (pS [3; 0]) = Ok (pnorm (pmul (pvar VQ) (pS []))) /\
  qmult (mkGr TD 3 3) (pS [3; 0]) (pS [3]) = Ok (pS [6]).
Proof. repeat split; vm_compute; reflexivity. Qed.
