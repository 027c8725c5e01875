(** Poincare duality and symmetric structure constants, classical and quantum.
    The vocabulary is that of Spec.v and SpecRing.v. *)

From Coq Require Import ZArith List Lia QArith Qcanon.
From Verif Require Import Py ModelPart ModelQcalc ModelPoly ModelStr ModelGr Spec SpecRing Check ApiDual.
Import ListNotations.
Open Scope Z_scope.

(** C48: in the product of two classes the class of a point has coefficient 1 if
    dualize exchanges the two classes, and 0 otherwise; it never comes with a
    power of q. *)
Theorem C48_duality_A : forall m n g, Grassmannian m n = Ok g -> 1 <= m ->
  duality_law (in_box m (n - m)) (mult g) (dualize g) (point_class g) /\
  duality_law (in_box m (n - m)) (qmult g) (dualize g) (point_class g).
Proof. exact (fun m n g Hg Hm => conj (proj1 (proj1 (c48_A m n g Hg Hm))) (proj1 (proj2 (c48_A m n g Hg Hm)))). Qed.
Print Assumptions C48_duality_A.

Theorem C48_duality_IG : forall m N g, IsotropicGrassmannian m N = Ok g -> 1 <= m ->
  duality_law (class_IG m N) (mult g) (dualize g) (point_class g) /\
  duality_law (class_IG m N) (qmult g) (dualize g) (point_class g).
Proof. exact (fun m N g Hg Hm => conj (proj1 (proj1 (c48_IG m N g Hg Hm))) (proj1 (proj2 (c48_IG m N g Hg Hm)))). Qed.
Print Assumptions C48_duality_IG.

Theorem C48_duality_OG_odd : forall m N g, OrthogonalGrassmannian m N = Ok g -> Z.odd N = true -> 1 <= m <= N / 2 ->
  duality_law (class_OG m N) (mult g) (dualize g) (point_class g) /\
  duality_law (class_OG m N) (qmult g) (dualize g) (point_class g).
Proof. exact (fun m N g Hg HN Hm => conj (proj1 (proj1 (c48_OGodd m N g Hg HN Hm))) (proj1 (proj2 (c48_OGodd m N g Hg HN Hm)))). Qed.
Print Assumptions C48_duality_OG_odd.

Theorem C48_duality_OG_even : forall m N g,
  OrthogonalGrassmannian m N = Ok g -> Z.even N = true -> 4 <= N -> 1 <= m <= N / 2 ->
  duality_law (class_OG m N) (mult g) (dualize g) (point_class g) /\
  (m <> N / 2 - 1 -> duality_law (class_OG m N) (qmult g) (dualize g) (point_class g)).
Proof.
  exact (fun m N g Hg HN H4 Hm => conj (proj1 (proj1 (c48_OGeven m N g Hg HN H4 Hm)))
    (fun H => proj1 (proj2 (c48_OGeven m N g Hg HN H4 Hm) H))).
Qed.
Print Assumptions C48_duality_OG_even.

(** C49: the structure constants are symmetric. *)
Theorem C49_symmetric_A : forall m n g, Grassmannian m n = Ok g -> 1 <= m ->
  symmetric_constants (in_box m (n - m)) (mult g) (dualize g) /\
  symmetric_constants (in_box m (n - m)) (qmult g) (dualize g).
Proof. exact (fun m n g Hg Hm => conj (proj2 (proj1 (c48_A m n g Hg Hm))) (proj2 (proj2 (c48_A m n g Hg Hm)))). Qed.
Print Assumptions C49_symmetric_A.

Theorem C49_symmetric_IG : forall m N g, IsotropicGrassmannian m N = Ok g -> 1 <= m ->
  symmetric_constants (class_IG m N) (mult g) (dualize g) /\
  symmetric_constants (class_IG m N) (qmult g) (dualize g).
Proof. exact (fun m N g Hg Hm => conj (proj2 (proj1 (c48_IG m N g Hg Hm))) (proj2 (proj2 (c48_IG m N g Hg Hm)))). Qed.
Print Assumptions C49_symmetric_IG.

Theorem C49_symmetric_OG_odd : forall m N g, OrthogonalGrassmannian m N = Ok g -> Z.odd N = true -> 1 <= m <= N / 2 ->
  symmetric_constants (class_OG m N) (mult g) (dualize g) /\
  symmetric_constants (class_OG m N) (qmult g) (dualize g).
Proof. exact (fun m N g Hg HN Hm => conj (proj2 (proj1 (c48_OGodd m N g Hg HN Hm))) (proj2 (proj2 (c48_OGodd m N g Hg HN Hm)))). Qed.
Print Assumptions C49_symmetric_OG_odd.

Theorem C49_symmetric_OG_even : forall m N g,
  OrthogonalGrassmannian m N = Ok g -> Z.even N = true -> 4 <= N -> 1 <= m <= N / 2 ->
  symmetric_constants (class_OG m N) (mult g) (dualize g) /\
  (m <> N / 2 - 1 -> symmetric_constants (class_OG m N) (qmult g) (dualize g)).
Proof.
  exact (fun m N g Hg HN H4 Hm => conj (proj2 (proj1 (c48_OGeven m N g Hg HN H4 Hm)))
    (fun H => proj2 (proj2 (c48_OGeven m N g Hg HN H4 Hm) H))).
Qed.
Print Assumptions C49_symmetric_OG_even.

(** Cases.  Gr(2,5): S[2,1] is its own dual. *)
Example C48_case_A : Grassmannian 2 5 = Ok (mkGr TA 3 5) /\ in_box 2 3 [2; 1] /\
  dualize (mkGr TA 3 5) (pS [2; 1]) = Ok (pS [2; 1]) /\ point_class (mkGr TA 3 5) = [3; 3] /\
  qmult (mkGr TA 3 5) (pS [2; 1]) (pS [2; 1]) = Ok [([vS [1]; VQ], 1%Qc); ([vS [3; 3]], 1%Qc)].
Proof. split; [reflexivity|]. split; [apply in_boxb_ok; reflexivity|]. split; [|split]; vm_compute; reflexivity. Qed.
(** IG(2,6): S[2,1] is the dual of S[3,1]; and the coefficient of q S[4,1] in
    S[3,1] * S[4,2] is that of q S[1] in S[3,1] * S[2]. *)
Example C49_case_IG : IsotropicGrassmannian 2 6 = Ok (mkGr TC 1 3) /\ class_IG 2 6 [3; 1] /\ class_IG 2 6 [4; 2] /\ class_IG 2 6 [4; 1] /\
  dualize (mkGr TC 1 3) (pS [3; 1]) = Ok (pS [2; 1]) /\ point_class (mkGr TC 1 3) = [4; 3] /\
  qmult (mkGr TC 1 3) (pS [3; 1]) (pS [2; 1]) = Ok [([vS [2]; VQ], 1%Qc); ([vS [4; 3]], 1%Qc)] /\
  dualize (mkGr TC 1 3) (pS [4; 2]) = Ok (pS [1]) /\ dualize (mkGr TC 1 3) (pS [4; 1]) = Ok (pS [2]) /\
  qmult (mkGr TC 1 3) (pS [3; 1]) (pS [4; 2]) = Ok [([vS []; VQ; VQ], 1%Qc); ([vS [4; 1]; VQ], 1%Qc)] /\
  qmult (mkGr TC 1 3) (pS [3; 1]) (pS [2]) = Ok [([vS [1]; VQ], 1%Qc); ([vS [4; 2]], 1%Qc)].
Proof.
  split; [reflexivity|]. do 3 (split; [split; [apply in_boxb_ok; reflexivity|]; intros [|[|[|j]]]; unfold part; simpl; lia|]).
  repeat split; vm_compute; reflexivity.
Qed.
(** OG(2,8): the dual of S[2,1] of type 1 is S[4,2] of type 1, not S[4,2,0]. *)
Example C48_case_OG_even : OrthogonalGrassmannian 2 8 = Ok (mkGr TD 2 3) /\ 2 <> 8 / 2 - 1 /\
  dualize (mkGr TD 2 3) (pS [2; 1]) = Ok (pS [4; 2]) /\ point_class (mkGr TD 2 3) = [5; 4] /\
  qmult (mkGr TD 2 3) (pS [2; 1]) (pS [4; 2]) = Ok [([vS [3; 1]; VQ], 1%Qc); ([vS [5; 4]], 1%Qc)] /\
  mult (mkGr TD 2 3) (pS [2; 1]) (pS [4; 2; 0]) = Ok [].
Proof. split; [reflexivity|]. split; [vm_compute; congruence|]. repeat split; vm_compute; reflexivity. Qed.
