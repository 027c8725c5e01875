(** C109: the Giambelli polynomials of Gr(m,n), IG(m,N) and OG(m,N) are those of Gr(m+i,n+i+j), IG(m+j,N+2j) and OG(m+j,N+2j) with
    the special classes that do not fit replaced by 0. *)

From Coq Require Import ZArith List Lia Bool QArith Qcanon.
From Verif Require Import Py ModelPart ModelQcalc ModelPoly ModelStr ModelGr Spec SpecPieri SpecRing SpecAct SpecQG SpecRows PolyFacts Check StabGiam.
Import ListNotations.
Open Scope Z_scope.

Theorem C109_type_A : forall m n i j g g' a, 1 <= m -> 0 <= i -> 0 <= j -> Grassmannian m n = Ok g -> Grassmannian (m + i) (n + i + j) = Ok g' ->
  poly_in (in_box m (n - m)) a ->
  (exists e e', giambelli g a = Ok e /\ giambelli g' a = Ok e' /\ peq e (put (rows_above (n - m)) e')) /\
  (exists e e', qgiambelli g a = Ok e /\ qgiambelli g' a = Ok e' /\ peq e (put (rows_above (n - m)) e')).
Proof. exact c109_A. Qed.
Print Assumptions C109_type_A.

Theorem C109_symplectic : forall m N j g g' a, 0 <= j -> IsotropicGrassmannian m N = Ok g -> IsotropicGrassmannian (m + j) (N + 2 * j) = Ok g' ->
  poly_in (class_IG m N) a ->
  exists e e', giambelli g a = Ok e /\ giambelli g' a = Ok e' /\ peq e (put (rows_above (N - m)) e').
Proof. exact c109_IG. Qed.
Print Assumptions C109_symplectic.

Theorem C109_orthogonal_odd : forall m n j h h' a, 1 <= m <= n -> 0 <= j ->
  OrthogonalGrassmannian m (2 * n + 1) = Ok h -> OrthogonalGrassmannian (m + j) (2 * n + 1 + 2 * j) = Ok h' -> poly_in (class_OG m (2 * n + 1)) a ->
  exists e e', giambelli h a = Ok e /\ giambelli h' a = Ok e' /\ peq e (put (rows_above (2 * n - m)) e').
Proof. exact c109_odd. Qed.
Print Assumptions C109_orthogonal_odd.

Theorem C109_orthogonal_even : forall m n j h h' a, 1 <= m <= n + 1 -> 1 <= n -> 0 <= j ->
  OrthogonalGrassmannian m (2 * n + 2) = Ok h -> OrthogonalGrassmannian (m + j) (2 * n + 2 + 2 * j) = Ok h' -> poly_in (class_OG m (2 * n + 2)) a ->
  exists e e', giambelli h a = Ok e /\ giambelli h' a = Ok e' /\ peq e (put (rows_above (2 * n + 1 - m)) e').
Proof. exact c109_even. Qed.
Print Assumptions C109_orthogonal_even.

(** S[3,2] on OG(2,7) and OG(3,9): the larger space has the terms with S[5], which is 0 on the smaller one. *)
Example C109_case : OrthogonalGrassmannian 2 (2 * 3 + 1) = Ok (mkGr TB 1 3) /\ OrthogonalGrassmannian (2 + 1) (2 * 3 + 1 + 2 * 1) = Ok (mkGr TB 1 4) /\
  class_OG 2 7 [3; 2] /\
  (exists e e', giambelli (mkGr TB 1 3) (pS [3; 2]) = Ok e /\ giambelli (mkGr TB 1 4) (pS [3; 2]) = Ok e' /\
     coef e [vS [5]] = 0%Qc /\ coef e' [vS [5]] <> 0%Qc /\ pnorm e = pnorm (put (rows_above 4) e')).
Proof.
  split; [reflexivity|]. split; [reflexivity|].
  split; [split; [apply in_boxb_ok; reflexivity|]; intros [|[|[|j]]]; unfold part; simpl; lia|].
  eexists _, _. split; [vm_compute; reflexivity|split; [vm_compute; reflexivity|]].
  split; [vm_compute; reflexivity|]. split; [vm_compute; discriminate|]. vm_compute; reflexivity.
Qed.

(** Gr(2,5) and Gr(3,8), where S[3,2] has the extra term with S[4]. *)
Example C109_case_A : Grassmannian 2 5 = Ok (mkGr TA 3 5) /\ Grassmannian (2 + 1) (5 + 1 + 2) = Ok (mkGr TA 5 8) /\ in_box 2 3 [3; 2] /\
  (exists e e', giambelli (mkGr TA 3 5) (pS [3; 2]) = Ok e /\ giambelli (mkGr TA 5 8) (pS [3; 2]) = Ok e' /\
     pnorm e = pnorm (pmul (pS [3]) (pS [2])) /\ pnorm e' = pnorm (psub (pmul (pS [3]) (pS [2])) (pmul (pS [4]) (pS [1])))).
Proof.
  split; [reflexivity|]. split; [reflexivity|]. split; [apply in_boxb_ok; reflexivity|].
  eexists _, _. split; [vm_compute; reflexivity|split; [vm_compute; reflexivity|]]. split; vm_compute; reflexivity.
Qed.

(** OG(3,10) and OG(4,12); S[2,1,0] is of the second type. *)
Example C109_case_even : OrthogonalGrassmannian 3 (2 * 4 + 2) = Ok (mkGr TD 2 4) /\ OrthogonalGrassmannian (3 + 1) (2 * 4 + 2 + 2 * 1) = Ok (mkGr TD 2 5) /\
  class_OG 3 10 [2; 1; 0] /\ class_OG 3 10 [4; 3] /\
  (exists e e', giambelli (mkGr TD 2 4) (pS [4; 3]) = Ok e /\ giambelli (mkGr TD 2 5) (pS [4; 3]) = Ok e' /\
     coef e [vS [7]] = 0%Qc /\ coef e' [vS [7]] <> 0%Qc /\ pnorm e = pnorm (put (rows_above 6) e')).
Proof.
  split; [reflexivity|]. split; [reflexivity|].
  split; [right; exists [2; 1]; split; [reflexivity|]; split; [reflexivity|]; split; [left; reflexivity|];
          split; [apply in_boxb_ok; reflexivity|]; intros [|[|[|j]]]; unfold part; simpl; lia|].
  split; [left; split; [apply in_boxb_ok; reflexivity|]; intros [|[|[|j]]]; unfold part; simpl; lia|].
  eexists _, _. split; [vm_compute; reflexivity|split; [vm_compute; reflexivity|]].
  split; [vm_compute; reflexivity|]. split; [vm_compute; discriminate|]. vm_compute; reflexivity.
Qed.
