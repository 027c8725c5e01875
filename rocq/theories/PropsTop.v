(** Property C68: products with the special class of the largest degree on OG(m,N).  (For
    Gr(m,n) see C54.) *)

From Coq Require Import ZArith List QArith Qcanon.
From Verif Require Import Py ModelPart ModelQcalc ModelPoly ModelStr ModelGr Spec SpecPieri TopClass.
Import ListNotations.
Open Scope Z_scope.

(** C68, OG(m,N) with N odd: with t = N - 1 - m, S[t] adds a row of length t if
    there is none yet and if there is room for one.  If there is no room, the
    classical product is zero and the quantum product is q times the class.  If
    there already is a row of length t, the classical product is zero and the
    quantum product removes this row, with the factor q^2 (q for m = N/2). *)
Theorem C68_top_class_OG_odd : forall m N g lam,
  OrthogonalGrassmannian m N = Ok g -> Z.odd N = true -> 1 <= m <= N / 2 -> class_OG m N lam ->
  exists x y, mult g (pS [N - 1 - m]) (pS lam) = Ok x /\ qmult g (pS [N - 1 - m]) (pS lam) = Ok y /\
    (part lam 0 < N - 1 - m -> Z.of_nat (length lam) < m -> peq x (pS (N - 1 - m :: lam)) /\ peq y (pS (N - 1 - m :: lam))) /\
    (part lam 0 < N - 1 - m -> Z.of_nat (length lam) = m -> peq x pzero /\ peq y (pmul (pvar VQ) (pS lam))) /\
    (part lam 0 = N - 1 - m -> peq x pzero /\
       peq y (if m =? N / 2 then pmul (pvar VQ) (pS (tl lam)) else pmul (pvar VQ) (pmul (pvar VQ) (pS (tl lam))))).
Proof. exact c68_odd. Qed.
Print Assumptions C68_top_class_OG_odd.

Example C68_case_OG_odd : OrthogonalGrassmannian 2 7 = Ok (mkGr TB 1 3) /\
  mult (mkGr TB 1 3) (pS [4]) (pS [3]) = Ok (pS [4; 3]) /\
  qmult (mkGr TB 1 3) (pS [4]) (pS [3; 1]) = Ok (pnorm (pmul (pvar VQ) (pS [3; 1]))) /\
  mult (mkGr TB 1 3) (pS [4]) (pS [3; 1]) = Ok pzero /\
  qmult (mkGr TB 1 3) (pS [4]) (pS [4; 2]) = Ok (pnorm (pmul (pvar VQ) (pmul (pvar VQ) (pS [2])))) /\
  qmult (mkGr TB 0 3) (pS [3]) (pS [3; 2]) = Ok (pnorm (pmul (pvar VQ) (pS [2]))).
Proof. repeat split; vm_compute; reflexivity. Qed.

(** C68, OG(m,N) with N even: likewise, except that the quantum product with a
    class without room for another row also exchanges the two types. *)
Theorem C68_top_class_OG_even : forall m N g lam,
  OrthogonalGrassmannian m N = Ok g -> Z.even N = true -> 4 <= N -> 1 <= m <= N / 2 -> class_OG m N lam ->
  exists x, mult g (pS [N - 1 - m]) (pS lam) = Ok x /\
    (part lam 0 < N - 1 - m -> Z.of_nat (length (shape lam)) < m -> peq x (pS (N - 1 - m :: lam))) /\
    (part lam 0 < N - 1 - m -> Z.of_nat (length (shape lam)) = m -> peq x pzero) /\
    (part lam 0 = N - 1 - m -> peq x pzero) /\
    (m <> N / 2 - 1 -> exists y, qmult g (pS [N - 1 - m]) (pS lam) = Ok y /\
    (part lam 0 < N - 1 - m -> Z.of_nat (length (shape lam)) < m -> peq y (pS (N - 1 - m :: lam))) /\
    (part lam 0 < N - 1 - m -> Z.of_nat (length (shape lam)) = m -> peq y (pmul (pvar VQ) (pS (swap_type (N / 2 - m) lam)))) /\
    (part lam 0 = N - 1 - m ->
       peq y (if m =? N / 2 then pmul (pvar VQ) (pS (tl lam)) else pmul (pvar VQ) (pmul (pvar VQ) (pS (tl lam)))))).
Proof. exact c68_even. Qed.
Print Assumptions C68_top_class_OG_even.

Example C68_case_OG_even : OrthogonalGrassmannian 2 8 = Ok (mkGr TD 2 3) /\
  mult (mkGr TD 2 3) (pS [5]) (pS [2; 0]) = Ok (pS [5; 2; 0]) /\
  mult (mkGr TD 2 3) (pS [5]) (pS [4; 2]) = Ok pzero /\
  qmult (mkGr TD 2 3) (pS [5]) (pS [4; 2]) = Ok (pnorm (pmul (pvar VQ) (pS [4; 2; 0]))) /\
  qmult (mkGr TD 2 3) (pS [5]) (pS [5; 2; 0]) = Ok (pnorm (pmul (pvar VQ) (pmul (pvar VQ) (pS [2; 0])))) /\
  qmult (mkGr TD 0 3) (pS [3]) (pS [3; 1]) = Ok (pnorm (pmul (pvar VQ) (pS [1]))).
Proof. repeat split; vm_compute; reflexivity. Qed.
