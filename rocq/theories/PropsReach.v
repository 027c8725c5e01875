(** Properties C71 and C75: which products of two classes are zero.  The vocabulary is
    that of Spec.v, SpecRing.v and SpecReach.v. *)

From Coq Require Import ZArith List Lia Bool QArith Qcanon.
From Verif Require Import Py ModelPart ModelQcalc ModelPoly ModelGr Spec SpecRing SpecReach Check ApiReach ReachQ ReachMax.
Import ListNotations.
Open Scope Z_scope.

(** C71: the classical product of S[lam] and S[mu] is not zero exactly if the dual
    of S[mu] is at the end of a chain of terms of classical Pieri products that
    starts with S[lam]. *)
Theorem C71_nonzero_A : forall m n g, Grassmannian m n = Ok g -> 1 <= m ->
  nonzero_law (in_box m (n - m)) (mult g) (dualize g) (pieri g) (fun i => 1 <= i <= n - m).
Proof. exact c71_A. Qed.
Print Assumptions C71_nonzero_A.

Theorem C71_nonzero_IG : forall m N g, IsotropicGrassmannian m N = Ok g -> 1 <= m ->
  nonzero_law (class_IG m N) (mult g) (dualize g) (pieri g) (fun i => 1 <= i <= N - m).
Proof. exact c71_IG. Qed.
Print Assumptions C71_nonzero_IG.

Theorem C71_nonzero_OG_odd : forall m N g, OrthogonalGrassmannian m N = Ok g -> Z.odd N = true -> 1 <= m <= N / 2 ->
  nonzero_law (class_OG m N) (mult g) (dualize g) (pieri g) (fun i => 1 <= i <= N - 1 - m).
Proof. exact c71_OGodd. Qed.
Print Assumptions C71_nonzero_OG_odd.

Theorem C71_nonzero_OG_even : forall m N g, OrthogonalGrassmannian m N = Ok g -> Z.even N = true -> 4 <= N -> 1 <= m <= N / 2 ->
  nonzero_law (class_OG m N) (mult g) (dualize g) (pieri g) (index_even m N).
Proof. exact c71_OGeven. Qed.
Print Assumptions C71_nonzero_OG_even.

(** On Gr(m,n) this means that the diagram of lam and that of mu, rotated by a half
    turn into the opposite corner of the rectangle, do not overlap. *)
Theorem C71_overlap_A : forall m n g lam mu,
  Grassmannian m n = Ok g -> 1 <= m -> in_box m (n - m) lam -> in_box m (n - m) mu ->
  exists r, mult g (pS lam) (pS mu) = Ok r /\
    (~ peq r pzero <-> forall j, Z.of_nat j < m -> part lam j + part mu (Z.to_nat (m - 1 - Z.of_nat j)) <= n - m).
Proof. exact c71_box. Qed.
Print Assumptions C71_overlap_A.

(** On the maximal isotropic Grassmannians IG(n,2n), OG(n,2n+1) and OG(n,2n): the
    diagram of lam is contained in that of the dual class of mu. *)
Theorem C71_nested_LG : forall N g, IsotropicGrassmannian (N / 2) N = Ok g -> 2 <= N ->
  nested_law (class_IG (N / 2) N) (mult g) (dualize g).
Proof. exact c71_LG. Qed.
Print Assumptions C71_nested_LG.

Theorem C71_nested_OG_max : forall N g, OrthogonalGrassmannian (N / 2) N = Ok g -> 3 <= N ->
  nested_law (class_OG (N / 2) N) (mult g) (dualize g).
Proof. exact c71_OGmax. Qed.
Print Assumptions C71_nested_OG_max.

(** C75: quantum products of classes are never zero, and every class is joined to
    every class by a chain of terms of quantum Pieri products. *)
Theorem C75_never_zero_A : forall m n g, Grassmannian m n = Ok g -> 1 <= m ->
  never_zero (in_box m (n - m)) (qmult g) (qpieri g) (fun i => 1 <= i <= n - m).
Proof. exact c75_A. Qed.
Print Assumptions C75_never_zero_A.

Theorem C75_never_zero_IG : forall m N g, IsotropicGrassmannian m N = Ok g -> 1 <= m ->
  never_zero (class_IG m N) (qmult g) (qpieri g) (fun i => 1 <= i <= N - m).
Proof. exact c75_IG. Qed.
Print Assumptions C75_never_zero_IG.

Theorem C75_never_zero_OG_odd : forall m N g, OrthogonalGrassmannian m N = Ok g -> Z.odd N = true -> 1 <= m <= N / 2 ->
  never_zero (class_OG m N) (qmult g) (qpieri g) (fun i => 1 <= i <= N - 1 - m).
Proof. exact c75_OGodd. Qed.
Print Assumptions C75_never_zero_OG_odd.

(** The hypothesis m <> N/2 - 1 excludes the spaces with two quantum parameters. *)
Theorem C75_never_zero_OG_even : forall m N g,
  OrthogonalGrassmannian m N = Ok g -> Z.even N = true -> 4 <= N -> 1 <= m <= N / 2 -> m <> N / 2 - 1 ->
  never_zero (class_OG m N) (qmult g) (qpieri g) (index_even m N).
Proof. exact c75_OGeven. Qed.
Print Assumptions C75_never_zero_OG_even.

(** Cases: products that are zero and the quantum products of the same classes. *)
Example C71_case : Grassmannian 2 5 = Ok (mkGr TA 3 5) /\
  mult (mkGr TA 3 5) (pS [2]) (pS [2; 2]) = Ok pzero /\
  qmult (mkGr TA 3 5) (pS [2]) (pS [2; 2]) = Ok [([vS [1]; VQ], 1%Qc)] /\
  mult (mkGr TA 3 5) (pS [2]) (pS [2; 1]) = Ok [([vS [3; 2]], 1%Qc)] /\
  mult (mkGr TC 1 3) (pS [4]) (pS [3; 1]) = Ok pzero /\
  qmult (mkGr TC 1 3) (pS [4]) (pS [3; 1]) = Ok [([vS [2; 1]; VQ], 1%Qc)] /\
  dualize (mkGr TC 1 3) (pS [3]) = Ok (pS [4]) /\ pieri (mkGr TC 1 3) 1 (pS [4]) = Ok (pS [4; 1]).
Proof. repeat split; vm_compute; reflexivity. Qed.

Example C71_case_LG : IsotropicGrassmannian 3 6 = Ok (mkGr TC 0 3) /\
  mult (mkGr TC 0 3) (pS [2; 1]) (pS [3]) = Ok [([vS [3; 2; 1]], 1%Qc)] /\ dualize (mkGr TC 0 3) (pS [3]) = Ok (pS [2; 1]) /\
  mult (mkGr TC 0 3) (pS [3; 1]) (pS [3]) = Ok pzero /\
  OrthogonalGrassmannian 3 6 = Ok (mkGr TD 0 2) /\ mult (mkGr TD 0 2) (pS [2]) (pS [2]) = Ok pzero.
Proof. repeat split; vm_compute; reflexivity. Qed.
