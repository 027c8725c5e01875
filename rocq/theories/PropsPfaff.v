(** C102: expanding a class of a maximal isotropic Grassmannian along its rows. *)

From Coq Require Import ZArith List Lia Bool QArith Qcanon.
From Verif Require Import Py ModelPart ModelQcalc ModelPoly ModelStr ModelGr Spec SpecRing SpecPieri SpecPfaff PartFacts Check Pfaff3.
Import ListNotations.
Open Scope Z_scope.

Theorem C102_LG : forall n g, 1 <= n -> IsotropicGrassmannian n (2 * n) = Ok g ->
  row_expansions (class_IG n (2 * n)) (mult g) /\ row_expansions (class_IG n (2 * n)) (qmult g).
Proof. exact c102_LG. Qed.
Print Assumptions C102_LG.

Theorem C102_OG_odd : forall n g, 1 <= n -> OrthogonalGrassmannian n (2 * n + 1) = Ok g ->
  row_expansions (class_OG n (2 * n + 1)) (mult g) /\ row_expansions (class_OG n (2 * n + 1)) (qmult g).
Proof. exact c102_odd. Qed.
Print Assumptions C102_OG_odd.

Theorem C102_OG_even : forall n g, 1 <= n -> OrthogonalGrassmannian (n + 1) (2 * n + 2) = Ok g ->
  row_expansions (class_OG (n + 1) (2 * n + 2)) (mult g) /\ row_expansions (class_OG (n + 1) (2 * n + 2)) (qmult g).
Proof. exact c102_even. Qed.
Print Assumptions C102_OG_even.

(** On IG(3,6) the three products of the first expansion of S[3,2,1] have q-terms, with
    coefficients 1, 2 and 1, which cancel. *)
Example C102_case : IsotropicGrassmannian 3 (2 * 3) = Ok (mkGr TC 0 3) /\ class_IG 3 (2 * 3) [3; 2; 1] /\
  take_row [3; 2; 1] = [(1%Qc, 3, [2; 1]); ((- (1))%Qc, 2, [3; 1]); ((- - (1))%Qc, 1, [3; 2])] /\
  exists r1 r2 r3, qmult (mkGr TC 0 3) (pS [3]) (pS [2; 1]) = Ok r1 /\ qmult (mkGr TC 0 3) (pS [2]) (pS [3; 1]) = Ok r2 /\
    qmult (mkGr TC 0 3) (pS [1]) (pS [3; 2]) = Ok r3 /\
    coef r1 (qS 1 [2]) = Q2Qc 1 /\ coef r2 (qS 1 [2]) = Q2Qc 2 /\ coef r3 (qS 1 [2]) = Q2Qc 1.
Proof.
  split; [reflexivity|]. split; [split; [apply in_boxb_ok; reflexivity|]; intros [|[|[|[|j]]]]; unfold part; simpl; lia|].
  split; [reflexivity|]. eexists _, _, _. split; [vm_compute; reflexivity|]. split; [vm_compute; reflexivity|]. split; [vm_compute; reflexivity|].
  split; [vm_compute; reflexivity|]. split; vm_compute; reflexivity.
Qed.
(** On OG(3,7) the class S[3,2,1] = S[3] S[2,1] + S[3,2] S[1] - S[3,1] S[2]. *)
Example C102_case_OG : OrthogonalGrassmannian 3 (2 * 3 + 1) = Ok (mkGr TB 0 3) /\ class_OG 3 (2 * 3 + 1) [3; 2; 1] /\
  exists r1 r2 r3, qmult (mkGr TB 0 3) (pS [3]) (pS [2; 1]) = Ok r1 /\ qmult (mkGr TB 0 3) (pS [3; 2]) (pS [1]) = Ok r2 /\
    qmult (mkGr TB 0 3) (pS [3; 1]) (pS [2]) = Ok r3 /\
    coef r1 (qS 1 []) = Q2Qc 0 /\ coef r2 (qS 1 []) = Q2Qc 1 /\ coef r3 (qS 1 []) = Q2Qc 1.
Proof.
  split; [reflexivity|]. split; [split; [apply in_boxb_ok; reflexivity|]; intros [|[|[|[|j]]]]; unfold part; simpl; lia|].
  eexists _, _, _. split; [vm_compute; reflexivity|]. split; [vm_compute; reflexivity|]. split; [vm_compute; reflexivity|].
  split; [vm_compute; reflexivity|]. split; vm_compute; reflexivity.
Qed.
