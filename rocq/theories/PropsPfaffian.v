(** C103: the Pfaffian formula for the classes of a maximal isotropic Grassmannian. *)

From Coq Require Import ZArith List Lia Bool QArith Qcanon.
From Verif Require Import Py ModelPart ModelQcalc ModelPoly ModelStr ModelGr Spec SpecRing SpecPieri SpecPfaff PartFacts Check PfaffFull.
Import ListNotations.
Open Scope Z_scope.

Theorem C103_LG : forall n g, 1 <= n -> IsotropicGrassmannian n (2 * n) = Ok g ->
  pfaffian_formula (class_IG n (2 * n)) (mult g) /\ pfaffian_formula (class_IG n (2 * n)) (qmult g).
Proof. exact c103_LG. Qed.
Print Assumptions C103_LG.

Theorem C103_OG_odd : forall n g, 1 <= n -> OrthogonalGrassmannian n (2 * n + 1) = Ok g ->
  pfaffian_formula (class_OG n (2 * n + 1)) (mult g) /\ pfaffian_formula (class_OG n (2 * n + 1)) (qmult g).
Proof. exact c103_odd. Qed.
Print Assumptions C103_OG_odd.

Theorem C103_OG_even : forall n g, 1 <= n -> OrthogonalGrassmannian (n + 1) (2 * n + 2) = Ok g ->
  pfaffian_formula (class_OG (n + 1) (2 * n + 2)) (mult g) /\ pfaffian_formula (class_OG (n + 1) (2 * n + 2)) (qmult g).
Proof. exact c103_even. Qed.
Print Assumptions C103_OG_even.

(** On IG(4,8) the Pfaffian of [4,3,2,1] is S[4,3] S[2,1] - S[4,2] S[3,1] + S[4,1] S[3,2];
    qmult of its terms has q-terms, which cancel in the class. *)
Example C103_case : IsotropicGrassmannian 4 (2 * 4) = Ok (mkGr TC 0 4) /\ class_IG 4 (2 * 4) [4; 3; 2; 1] /\
  coef (pfaffian [4; 3; 2; 1]) [vS [4; 3]; vS [2; 1]] = Q2Qc 1 /\
  coef (pfaffian [4; 3; 2; 1]) [vS [4; 2]; vS [3; 1]] = Q2Qc (-1) /\
  coef (pfaffian [4; 3; 2; 1]) [vS [4; 1]; vS [3; 2]] = Q2Qc 1 /\
  (exists r, qmult (mkGr TC 0 4) (pS [4; 2]) (pS [3; 1]) = Ok r /\ coef r (qS 1 [4; 1]) <> Q2Qc 0) /\
  exists r, qmult (mkGr TC 0 4) (pfaffian [4; 3; 2; 1]) (pS []) = Ok r /\ coef r (qS 0 [4; 3; 2; 1]) = Q2Qc 1 /\ coef r (qS 1 [4; 1]) = Q2Qc 0.
Proof.
  split; [reflexivity|]. split; [split; [apply in_boxb_ok; reflexivity|]; intros [|[|[|[|[|j]]]]]; unfold part; simpl; lia|].
  split; [vm_compute; reflexivity|]. split; [vm_compute; reflexivity|]. split; [vm_compute; reflexivity|].
  split; [eexists; split; [vm_compute; reflexivity|vm_compute; discriminate]|].
  eexists. split; [vm_compute; reflexivity|]. split; vm_compute; reflexivity.
Qed.
