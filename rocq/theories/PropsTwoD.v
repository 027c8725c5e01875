(** Property C69 for OG(m,N) with N even.  The polynomials are defined in
    SpecTwoD.v. *)

From Coq Require Import ZArith List QArith Qcanon.
From Verif Require Import Py ModelPart ModelQcalc ModelPoly ModelStr ModelGr Spec SpecDet SpecRel SpecTwo SpecTwoD GiamTwoD.
Import ListNotations.
Open Scope Z_scope.

(** C69, OG(m,N) with N even, m <= N/2: let k = N/2 - m.  In degree k there are two
    special classes, S[k] and S[k,0].
    - If neither a nor b is k, [giambelli] of S[a,b] is s_a s_b + w_1 s_{a+1} s_{b-1} + ...
      with the weights 1, -2, 2, ... if a + b > 2k and 1, -1, 0, ... otherwise, where s_i is
      replaced by 2 s_i for i > k and by S[k] + S[k,0] for i = k, and the class is divided
      by 2 for each row longer than k.
    - If exactly one of them is k, it is s_a s_b - s_{a+1} s_{b-1} + s_{a+2} s_{b-2} - ... if
      a > k and s_a s_b - s_{a+1} s_{b-1} if b < k, where s_k is the special class of the
      type of the class.
    - If both are k, it is s_k s_k - s_{k+2} s_{k-2} + s_{k+3} s_{k-3} - ...
    [qgiambelli] gives the same; here m <> N/2 - 1. *)
Theorem C69_two_rows_OG_even : forall m N g a b second,
  OrthogonalGrassmannian m N = Ok g -> Z.even N = true -> m <= N / 2 -> 1 <= b ->
  class_OG m N (mark second [a; b]) ->
  (exists x, giambelli g (pS (mark second [a; b])) = Ok x /\
     peq x (two_row_D (N - 1 - m) (N / 2 - m) second a b)) /\
  (m <> N / 2 - 1 -> exists y, qgiambelli g (pS (mark second [a; b])) = Ok y /\
     peq y (two_row_D (N - 1 - m) (N / 2 - m) second a b)).
Proof. exact c69_OG_even. Qed.
Print Assumptions C69_two_rows_OG_even.

Example C69_case_OG_even : OrthogonalGrassmannian 2 8 = Ok (mkGr TD 2 3) /\
  giambelli (mkGr TD 2 3) (pS [1; 1]) = Ok (pnorm (psub (pmul (pS [1]) (pS [1])) (padd (pS [2]) (pS [2; 0])))) /\
  giambelli (mkGr TD 2 3) (pS [2; 1]) = Ok (pnorm (psub (pmul (pS [2]) (pS [1])) (pS [3]))) /\
  giambelli (mkGr TD 2 3) (pS [2; 2]) = Ok (pnorm (psub (pmul (pS [2]) (pS [2])) (pS [4]))) /\
  qgiambelli (mkGr TD 2 3) (pS [2; 2; 0]) = Ok (pnorm (psub (pmul (pS [2; 0]) (pS [2; 0])) (pS [4]))) /\
  qgiambelli (mkGr TD 2 3) (pS [3; 2; 0]) =
    Ok (pnorm (padd (psub (pmul (pS [3]) (pS [2; 0])) (pmul (pS [4]) (pS [1]))) (pS [5]))) /\
  qgiambelli (mkGr TD 2 3) (pS [4; 3]) =
    Ok (pnorm (psub (pmul (pS [4]) (pS [3])) (pmul (pS [5]) (padd (pS [2]) (pS [2; 0]))))) /\
  giambelli (mkGr TD 2 3) (pS [5; 4]) = Ok (pnorm (two_row_D 5 2 false 5 4)) /\
  class_OG 2 8 (mark true [3; 2]).
Proof.
  do 8 (split; [vm_compute; reflexivity|]). right. exists [3; 2]. split; [reflexivity|]. split; [reflexivity|]. split; [right; left; reflexivity|].
  split; [split; [split|split]|]; try (intros [|[|[|j]]]; vm_compute; intros; try discriminate; try reflexivity; exfalso; Lia.lia).
  - vm_compute. discriminate.
  - vm_compute. discriminate.
Qed.
