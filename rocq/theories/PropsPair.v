(** C85, C86: duality and products that are not zero on the spaces with two quantum
    parameters.  The vocabulary is that of SpecPair.v. *)

From Coq Require Import ZArith List Lia QArith Qcanon.
From Verif Require Import Py ModelPart ModelQcalc ModelPoly ModelGr Spec SpecRing SpecPieri SpecPair PartFacts Check ApiTwo ApiTwoZ.
Import ListNotations.
Open Scope Z_scope.

(** C85: on OG(m,2m+2), 2m + 2 <= 16, dualize gives the dual basis for the quantum
    product, and the constants of the product are symmetric. *)
Theorem C85_duality : forall m N g, OrthogonalGrassmannian m N = Ok g ->
  Z.even N = true -> N <= 16 -> 1 <= m -> m = N / 2 - 1 ->
  duality_law12 (class_OG m N) (qmult g) (dualize g) (point_class g).
Proof. exact w_duality. Qed.
Print Assumptions C85_duality.

Theorem C85_symmetric : forall m N g, OrthogonalGrassmannian m N = Ok g ->
  Z.even N = true -> N <= 16 -> 1 <= m -> m = N / 2 - 1 ->
  symmetric_constants12 (class_OG m N) (qmult g) (dualize g).
Proof. exact w_symmetric. Qed.
Print Assumptions C85_symmetric.

(** On OG(2,6) the point class is S[3,2] and the dual of S[2,1] is S[1,1,0]. *)
Example C85_case : OrthogonalGrassmannian 2 6 = Ok (mkGr TD 1 2) /\ class_OG 2 6 [2; 1] /\ class_OG 2 6 [1; 1; 0] /\
  point_class (mkGr TD 1 2) = [3; 2] /\
  dualize (mkGr TD 1 2) (pS [2; 1]) = Ok (pS [1; 1; 0]) /\
  qmult (mkGr TD 1 2) (pS [2; 1]) (pS [1; 1; 0]) = Ok [([vS [3; 2]], 1%Qc)].
Proof.
  split; [reflexivity|]. split; [left; split; [apply in_boxb_ok; reflexivity|]; intros [|[|[|j]]]; unfold part; simpl; lia|].
  split; [right; exists [1; 1]; split; [reflexivity|]; split; [reflexivity|]; split; [left; reflexivity|]; split; [apply in_boxb_ok; reflexivity|]; intros [|[|[|j]]]; unfold part; simpl; lia|].
  split; [vm_compute; reflexivity|]. split; vm_compute; reflexivity.
Qed.

(** C86: no quantum product of two classes is zero on these spaces, and every class is
    joined to every class by a chain of terms of quantum Pieri products. *)
Theorem C86_never_zero : forall m N g, OrthogonalGrassmannian m N = Ok g ->
  Z.even N = true -> N <= 16 -> 1 <= m -> m = N / 2 - 1 ->
  never_zero12 (class_OG m N) (qmult g) (qpieri g) (index_even m N).
Proof. exact w_never. Qed.
Print Assumptions C86_never_zero.

(** On OG(2,6) the classical square of the point class is zero, the quantum one is not. *)
Example C86_case : OrthogonalGrassmannian 2 6 = Ok (mkGr TD 1 2) /\ class_OG 2 6 [3; 2] /\
  mult (mkGr TD 1 2) (pS [3; 2]) (pS [3; 2]) = Ok pzero /\
  qmult (mkGr TD 1 2) (pS [3; 2]) (pS [3; 2]) = Ok [([vS [3; 1]; VQ1; VQ2], 1%Qc); ([vS [3; 1; 0]; VQ1; VQ2], 1%Qc)].
Proof.
  split; [reflexivity|]. split; [left; split; [apply in_boxb_ok; reflexivity|]; intros [|[|[|j]]]; unfold part; simpl; lia|].
  split; vm_compute; reflexivity.
Qed.
