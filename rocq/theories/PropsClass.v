(** Properties C11 (dualize), C12, C13, C15, C17: the classes of the
    Grassmannians and their conversions.  The vocabulary is that of Spec.v. *)

From Coq Require Import ZArith List Lia Bool Permutation QArith Qcanon.
From Verif Require Import Py ModelPart ModelQcalc ModelPoly ModelStr ModelGr Spec Check
  ApiConvA GrInv CountFacts.
Import ListNotations.
Open Scope Z_scope.

(** C12: schub_classes of Gr(m,n), m >= 1. *)
Theorem C12_schub_classes_A : forall m n g,
  Grassmannian m n = Ok g -> 1 <= m ->
  exists L, schub_classes g = Ok L /\ strictly_increasing L /\
    (forall l, In l L <-> in_box m (n - m) l) /\
    Z.of_nat (length L) = binom (Z.to_nat n) (Z.to_nat m).
Proof. exact c12. Qed.
Print Assumptions C12_schub_classes_A.

Example C12_case : Grassmannian 2 5 = Ok (mkGr TA 3 5) /\
  schub_classes (mkGr TA 3 5) =
    Ok [[]; [1]; [1; 1]; [2]; [2; 1]; [2; 2]; [3]; [3; 1]; [3; 2]; [3; 3]].
Proof. split; vm_compute; reflexivity. Qed.

(** For m = 0 the only class S[] is missing. *)
Theorem C12_m0_refuted : forall n g, Grassmannian 0 n = Ok g ->
  schub_classes g = Ok [] /\ in_box 0 (n - 0) [].
Proof. exact c12_m0. Qed.
Print Assumptions C12_m0_refuted.

(** C13: all_kstrict lists the k-strict partitions in a rectangle. *)
Theorem C13_all_kstrict : forall k rows cols,
  0 <= k <= cols -> 0 <= rows ->
  exists L, all_kstrict k rows cols = Ok L /\ NoDup L /\
    forall l, In l L <-> kstrict_in k rows cols l.
Proof. exact c13_kstrict. Qed.
Print Assumptions C13_all_kstrict.

(** Outside 0 <= k <= cols the first partition produced does not fit. *)
Theorem C13_cols_refuted : exists k rows cols L l,
  0 <= k /\ 0 <= rows /\ 0 <= cols /\
  all_kstrict k rows cols = Ok L /\ In l L /\ ~ kstrict_in k rows cols l.
Proof. exact c13_cols. Qed.
Print Assumptions C13_cols_refuted.

Theorem C13_schub_classes_IG : forall m N g,
  IsotropicGrassmannian m N = Ok g ->
  exists L, schub_classes g = Ok L /\ strictly_increasing L /\ (forall l, In l L <-> class_IG m N l).
Proof. exact c13_IG. Qed.
Print Assumptions C13_schub_classes_IG.

Theorem C13_schub_classes_OG : forall m N g,
  OrthogonalGrassmannian m N = Ok g -> m <= N / 2 -> 1 <= N ->
  exists L, schub_classes g = Ok L /\ strictly_increasing L /\ (forall l, In l L <-> class_OG m N l).
Proof. exact c13_OG. Qed.
Print Assumptions C13_schub_classes_OG.

Example C13_case : OrthogonalGrassmannian 2 6 = Ok (mkGr TD 1 2) /\
  schub_classes (mkGr TD 1 2) =
    Ok [[]; [1]; [1; 0]; [1; 1]; [1; 1; 0]; [2]; [2; 1]; [2; 1; 0]; [3]; [3; 1]; [3; 1; 0]; [3; 2]] /\
  IsotropicGrassmannian 2 6 = Ok (mkGr TC 1 3) /\
  schub_classes (mkGr TC 1 3) =
    Ok [[]; [1]; [1; 1]; [2]; [2; 1]; [3]; [3; 1]; [3; 2]; [4]; [4; 1]; [4; 2]; [4; 3]].
Proof. repeat split; vm_compute; reflexivity. Qed.

(** C15: part2index and index2part in type A.  The first theorem gives the
    index set of a class, the second says that the two conversions are inverse
    bijections, extended to all expressions in classes. *)
Theorem C15_part2index_A : forall m n g lam,
  Grassmannian m n = Ok g -> in_box m (n - m) lam ->
  exists idx x, part2index g (pS lam) = Ok x /\ peq x (pS idx) /\ index_set m n idx /\
    (forall j, Z.of_nat j < m -> part idx j = (n - m) + Z.of_nat j + 1 - part lam j).
Proof. exact c15_class. Qed.
Print Assumptions C15_part2index_A.

Theorem C15_inverse_A : forall m n g,
  Grassmannian m n = Ok g ->
  mutually_inverse (on_list (in_box m (n - m))) (on_list (index_set m n)) (part2index g) (index2part g).
Proof. exact c15. Qed.
Print Assumptions C15_inverse_A.

Example C15_case : in_box 3 4 [4; 2] /\
  part2index (mkGr TA 4 7) (pS [4; 2]) = Ok (pS [1; 4; 7]) /\
  index2part (mkGr TA 4 7) (pS [1; 4; 7]) = Ok (pS [4; 2]).
Proof. split; [apply in_boxb_ok; reflexivity|]. split; vm_compute; reflexivity. Qed.

(** C17 in type A. *)
Theorem C17_dualize_class_A : forall m n g lam,
  Grassmannian m n = Ok g -> in_box m (n - m) lam ->
  exists mu r, dualize g (pS lam) = Ok r /\ peq r (pS mu) /\ in_box m (n - m) mu /\
    complementary m (n - m) lam mu /\ size mu = m * (n - m) - size lam.
Proof. exact c17_class. Qed.
Print Assumptions C17_dualize_class_A.

Theorem C17_dualize_involution_A : forall m n g p,
  Grassmannian m n = Ok g -> expr_in (on_list (in_box m (n - m))) p ->
  exists x y, dualize g p = Ok x /\ expr_in (on_list (in_box m (n - m))) x /\
    dualize g x = Ok y /\ peq y p.
Proof. exact c17_inv. Qed.
Print Assumptions C17_dualize_involution_A.

Theorem C17_dualize_point_A : forall m n g,
  Grassmannian m n = Ok g -> exists r, dualize g (pS []) = Ok r /\ peq r (pS (point_class g)).
Proof. exact c17_point. Qed.
Print Assumptions C17_dualize_point_A.

Example C17_case : dualize (mkGr TA 4 7) (pS [4; 2]) = Ok (pS [4; 2]) /\
  dualize (mkGr TA 4 7) (pS [3; 1]) = Ok (pS [4; 3; 1]).
Proof. split; vm_compute; reflexivity. Qed.

(** C11: Poincare duality, in terms of dualize. *)
Theorem C11_dualize_A : forall m n g lam mu,
  Grassmannian m n = Ok g -> 1 <= m -> in_box m (n - m) lam -> in_box m (n - m) mu ->
  exists d r, dualize g (pS lam) = Ok d /\ mult g (pS lam) (pS mu) = Ok r /\
    (peq d (pS mu) -> coef r [vS (point_class g)] = 1%Qc) /\
    (~ peq d (pS mu) -> coef r [vS (point_class g)] = 0%Qc).
Proof. exact c11_dual. Qed.
Print Assumptions C11_dualize_A.

(** C61: the number of classes. *)
Theorem C61_count_IG : forall m N g, IsotropicGrassmannian m N = Ok g ->
  exists L, schub_classes g = Ok L /\
    Z.of_nat (length L) = 2 ^ m * binom (Z.to_nat (N / 2)) (Z.to_nat m).
Proof. exact c61_IG. Qed.
Print Assumptions C61_count_IG.

(** on OG(N/2,N) for even N schub_classes lists one of the two components *)
Theorem C61_count_OG : forall m N g, OrthogonalGrassmannian m N = Ok g -> m <= N / 2 -> 1 <= N ->
  exists L, schub_classes g = Ok L /\
    Z.of_nat (length L) =
      (if 2 * m =? N then 2 ^ (m - 1) else 2 ^ m * binom (Z.to_nat (N / 2)) (Z.to_nat m)).
Proof. exact c61_OG. Qed.
Print Assumptions C61_count_OG.

Example C61_case : IsotropicGrassmannian 2 6 = Ok (mkGr TC 1 3) /\
  (2 ^ 2 * binom 3 2 = 12)%Z /\
  OrthogonalGrassmannian 3 6 = Ok (mkGr TD 0 2) /\
  schub_classes (mkGr TD 0 2) = Ok [[]; [1]; [2]; [2; 1]] /\ 2 ^ (3 - 1) = 4.
Proof. repeat split; vm_compute; reflexivity. Qed.
