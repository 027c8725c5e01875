(** C111: products with the classes pushed forward from a smaller space. *)

From Coq Require Import ZArith List Lia Bool QArith Qcanon.
From Verif Require Import Py ModelPart ModelQcalc ModelPoly ModelStr ModelGr Spec SpecRing SpecPush PolyFacts Check Push.
Import ListNotations.
Open Scope Z_scope.

Theorem C111_type_A : forall m n i j g g', 1 <= m -> 0 <= i -> 0 <= j -> Grassmannian m n = Ok g -> Grassmannian (m + i) (n + i + j) = Ok g' ->
  push_law (in_box m (n - m)) (in_box (m + i) (n - m + j)) g g'.
Proof. exact c111_A. Qed.
Print Assumptions C111_type_A.

(** on Gr(m,n) the partner of S[l] has i full rows, followed by those of l, all longer by j *)
Theorem C111_type_A_shape : forall m n i j g g' l l', 1 <= m -> 0 <= i -> 0 <= j -> Grassmannian m n = Ok g -> Grassmannian (m + i) (n + i + j) = Ok g' ->
  in_box m (n - m) l -> in_box (m + i) (n - m + j) l' -> pushed g g' l l' ->
  (forall r, 0 <= r < i -> part l' (Z.to_nat r) = n - m + j) /\ (forall r, 0 <= r < m -> part l' (Z.to_nat (i + r)) = part l (Z.to_nat r) + j).
Proof. exact c111_shape. Qed.
Print Assumptions C111_type_A_shape.

Theorem C111_symplectic : forall m N j g g', 1 <= m -> 0 <= j -> IsotropicGrassmannian m N = Ok g -> IsotropicGrassmannian (m + j) (N + 2 * j) = Ok g' ->
  push_law (class_IG m N) (class_IG (m + j) (N + 2 * j)) g g'.
Proof. exact c111_IG. Qed.
Print Assumptions C111_symplectic.

Theorem C111_orthogonal_odd : forall m n j h h', 1 <= m <= n -> 0 <= j ->
  OrthogonalGrassmannian m (2 * n + 1) = Ok h -> OrthogonalGrassmannian (m + j) (2 * n + 1 + 2 * j) = Ok h' ->
  push_law (class_OG m (2 * n + 1)) (class_OG (m + j) (2 * n + 1 + 2 * j)) h h'.
Proof. exact c111_odd. Qed.
Print Assumptions C111_orthogonal_odd.

Theorem C111_orthogonal_even : forall m n j h h', 1 <= m <= n + 1 -> 1 <= n -> 0 <= j ->
  OrthogonalGrassmannian m (2 * n + 2) = Ok h -> OrthogonalGrassmannian (m + j) (2 * n + 2 + 2 * j) = Ok h' ->
  push_law (class_OG m (2 * n + 2)) (class_OG (m + j) (2 * n + 2 + 2 * j)) h h'.
Proof. exact c111_even. Qed.
Print Assumptions C111_orthogonal_even.

(** Gr(2,4) and Gr(3,6): the partner of S[1] is S[3,2,1], and S[1] * S[1] = S[1,1] + S[2] becomes S[1] * S[3,2,1] = S[3,2,2] + S[3,3,1];
    S[3] gives 0. *)
Example C111_case : Grassmannian 2 4 = Ok (mkGr TA 2 4) /\ Grassmannian (2 + 1) (4 + 1 + 1) = Ok (mkGr TA 3 6) /\
  pushed (mkGr TA 2 4) (mkGr TA 3 6) [1] [3; 2; 1] /\ pushed (mkGr TA 2 4) (mkGr TA 3 6) [1; 1] [3; 2; 2] /\
  pushed (mkGr TA 2 4) (mkGr TA 3 6) [2] [3; 3; 1] /\
  (exists s r z, mult (mkGr TA 2 4) (pS [1]) (pS [1]) = Ok s /\ mult (mkGr TA 3 6) (pS [1]) (pS [3; 2; 1]) = Ok r /\ mult (mkGr TA 3 6) (pS [3]) (pS [3; 2; 1]) = Ok z /\
     pnorm s = pnorm (padd (pS [1; 1]) (pS [2])) /\ pnorm r = pnorm (padd (pS [3; 2; 2]) (pS [3; 3; 1])) /\ pnorm z = []).
Proof.
  split; [reflexivity|]. split; [reflexivity|].
  split; [exists [2; 1]; split; eexists; (split; [vm_compute; reflexivity|reflexivity])|].
  split; [exists [1; 1]; split; eexists; (split; [vm_compute; reflexivity|reflexivity])|].
  split; [exists [2]; split; eexists; (split; [vm_compute; reflexivity|reflexivity])|].
  eexists _, _, _. split; [vm_compute; reflexivity|]. split; [vm_compute; reflexivity|]. split; [vm_compute; reflexivity|]. split; [vm_compute; reflexivity|]. split; vm_compute; reflexivity.
Qed.

(** IG(2,6) and IG(3,8): S[1] * S[1] = S[1,1] + S[2] becomes S[1] * S[5,1] = S[5,1,1] + S[5,2]. *)
Example C111_case_IG : IsotropicGrassmannian 2 6 = Ok (mkGr TC 1 3) /\ IsotropicGrassmannian (2 + 1) (6 + 2 * 1) = Ok (mkGr TC 1 4) /\
  pushed (mkGr TC 1 3) (mkGr TC 1 4) [1] [5; 1] /\ pushed (mkGr TC 1 3) (mkGr TC 1 4) [1; 1] [5; 1; 1] /\
  pushed (mkGr TC 1 3) (mkGr TC 1 4) [2] [5; 2] /\
  (exists s r, mult (mkGr TC 1 3) (pS [1]) (pS [1]) = Ok s /\ mult (mkGr TC 1 4) (pS [1]) (pS [5; 1]) = Ok r /\
     pnorm s = pnorm (padd (pS [1; 1]) (pS [2])) /\ pnorm r = pnorm (padd (pS [5; 1; 1]) (pS [5; 2]))).
Proof.
  split; [reflexivity|]. split; [reflexivity|].
  split; [exists [4; 2]; split; eexists; (split; [vm_compute; reflexivity|reflexivity])|].
  split; [exists [3; 2]; split; eexists; (split; [vm_compute; reflexivity|reflexivity])|].
  split; [exists [4; 1]; split; eexists; (split; [vm_compute; reflexivity|reflexivity])|].
  eexists _, _. split; [vm_compute; reflexivity|]. split; [vm_compute; reflexivity|]. split; vm_compute; reflexivity.
Qed.
