(** Property C69: the polynomials of the classes with two rows of isotropic
    Grassmannians.  They are defined in SpecTwo.v. *)

From Coq Require Import ZArith List QArith Qcanon.
From Verif Require Import Py ModelPart ModelQcalc ModelPoly ModelStr ModelGr Spec SpecDet SpecRel SpecTwo GiamTwo.
Import ListNotations.
Open Scope Z_scope.

(** C69, IG(m,N): let k = N/2 - m and c = N - m.  For a class S[a,b], [giambelli]
    gives s_a s_b - 2 s_{a+1} s_{b-1} + 2 s_{a+2} s_{b-2} - ... if a + b > 2k + 1, and
    s_a s_b - s_{a+1} s_{b-1} otherwise, as polynomials in the special classes
    s_i = S[i].  [qgiambelli] gives the same if a + b <= c; otherwise it adds the term
    (-1)^(c+1-a) q s_{a+b-(c+1)}. *)
Theorem C69_two_rows_IG : forall m N g a b,
  IsotropicGrassmannian m N = Ok g -> class_IG m N [a; b] ->
  (exists x, giambelli g (pS [a; b]) = Ok x /\ peq x (two_row (N - m) a b (weight_two (N / 2 - m) a b))) /\
  (exists y, qgiambelli g (pS [a; b]) = Ok y /\
    (a + b <= N - m -> peq y (two_row (N - m) a b (weight_two (N / 2 - m) a b))) /\
    (N - m < a + b -> peq y (padd (two_row (N - m) a b (weight_two (N / 2 - m) a b))
       (pscale (sign (Z.to_nat (N - m + 1 - a))) (pmul (pvar VQ) (hclass (N - m) (a + b - (N - m + 1)))))))).
Proof. exact c69_IG. Qed.
Print Assumptions C69_two_rows_IG.

Example C69_case_IG : IsotropicGrassmannian 2 6 = Ok (mkGr TC 1 3) /\
  giambelli (mkGr TC 1 3) (pS [2; 1]) = Ok (pnorm (psub (pmul (pS [2]) (pS [1])) (pS [3]))) /\
  giambelli (mkGr TC 1 3) (pS [3; 2]) = Ok (pnorm (psub (pmul (pS [3]) (pS [2])) (pscale (1 + 1)%Qc (pmul (pS [4]) (pS [1]))))) /\
  qgiambelli (mkGr TC 1 3) (pS [3; 2]) = Ok (pnorm (padd (psub (pmul (pS [3]) (pS [2])) (pscale (1 + 1)%Qc (pmul (pS [4]) (pS [1])))) (pvar VQ))) /\
  qgiambelli (mkGr TC 1 3) (pS [4; 3]) = Ok (pnorm (psub (pmul (pS [4]) (pS [3])) (pmul (pvar VQ) (pS [2])))) /\
  giambelli (mkGr TC 1 3) (pS [3; 1]) = Ok (pnorm (two_row 4 3 1 (weight_two 1 3 1))) /\
  giambelli (mkGr TC 1 3) (pS [1; 1]) = Ok (pnorm (two_row 4 1 1 (weight_two 1 1 1))) /\
  class_IG 2 6 [3; 2].
Proof.
  do 7 (split; [vm_compute; reflexivity|]). split; [split; [split|split]|]; try (intros [|[|[|j]]]; vm_compute; intros; try discriminate; try reflexivity; exfalso; Lia.lia).
  - vm_compute. discriminate.
  - vm_compute. discriminate.
Qed.

(** C69, OG(m,N) with N odd, m <= N/2: let k = N/2 - m.  [giambelli] and [qgiambelli] of a class S[a,b]
    give s_a s_b + w_1 s_{a+1} s_{b-1} + ... with the weights of IG, where each special
    class s_i with i > k is replaced by 2 s_i and the class is divided by 2 for each row
    longer than k. *)
Theorem C69_two_rows_OG_odd : forall m N g a b,
  OrthogonalGrassmannian m N = Ok g -> Z.odd N = true -> m <= N / 2 -> class_OG m N [a; b] ->
  (exists x, giambelli g (pS [a; b]) = Ok x /\ peq x (two_row (N - 1 - m) a b (weight_two_OG (N / 2 - m) a b))) /\
  (exists y, qgiambelli g (pS [a; b]) = Ok y /\ peq y (two_row (N - 1 - m) a b (weight_two_OG (N / 2 - m) a b))).
Proof. exact c69_OG. Qed.
Print Assumptions C69_two_rows_OG_odd.

Example C69_case_OG : OrthogonalGrassmannian 2 7 = Ok (mkGr TB 1 3) /\
  giambelli (mkGr TB 1 3) (pS [1; 1]) = Ok (pnorm (psub (pmul (pS [1]) (pS [1])) (pscale (1 + 1)%Qc (pS [2])))) /\
  qgiambelli (mkGr TB 1 3) (pS [2; 1]) = Ok (pnorm (psub (pmul (pS [2]) (pS [1])) (pS [3]))) /\
  qgiambelli (mkGr TB 1 3) (pS [3; 2]) = Ok (pnorm (psub (pmul (pS [3]) (pS [2])) (pmul (pS [4]) (pS [1])))) /\
  qgiambelli (mkGr TB 1 3) (pS [4; 3]) = Ok (pnorm (pmul (pS [4]) (pS [3]))) /\
  giambelli (mkGr TB 1 3) (pS [3; 1]) = Ok (pnorm (two_row 4 3 1 (weight_two_OG 1 3 1))) /\
  class_OG 2 7 [3; 2].
Proof.
  do 6 (split; [vm_compute; reflexivity|]). split; [split; [split|split]|]; try (intros [|[|[|j]]]; vm_compute; intros; try discriminate; try reflexivity; exfalso; Lia.lia).
  - vm_compute. discriminate.
  - vm_compute. discriminate.
Qed.
