(** Properties C16 and C17 for isotropic Grassmannians: index sets and duality.
    The vocabulary is that of Spec.v. *)

From Coq Require Import ZArith List Lia Bool Permutation QArith Qcanon.
From Verif Require Import Py ModelPart ModelQcalc ModelPoly ModelStr ModelGr Spec Check ApiIndex.
Import ListNotations.
Open Scope Z_scope.

(** C16: the index set of a class is isotropic and has the given jumps;
    part2index and index2part are inverse bijections between the classes and the
    isotropic index sets, extended to all expressions. *)
Theorem C16_part2index_IG : forall m N g lam,
  IsotropicGrassmannian m N = Ok g -> class_IG m N lam ->
  exists idx x, part2index g (pS lam) = Ok x /\ peq x (pS idx) /\
    isotropic_set m N idx /\ jumps_IG m N lam idx.
Proof. exact c16_class_IG. Qed.
Print Assumptions C16_part2index_IG.

Theorem C16_part2index_OG : forall m N g,
  OrthogonalGrassmannian m N = Ok g -> m <= N / 2 -> 1 <= N -> forall lam, class_OG m N lam ->
  exists idx x, part2index g (pS lam) = Ok x /\ peq x (pS idx) /\
    isotropic_set_OG m N idx /\ jumps_OG m N lam idx.
Proof. exact c16_class_OG. Qed.
Print Assumptions C16_part2index_OG.

Theorem C16_inverse_IG : forall m N g, IsotropicGrassmannian m N = Ok g ->
  mutually_inverse (on_list (class_IG m N)) (on_list (isotropic_set m N)) (part2index g) (index2part g).
Proof. exact c16_IG. Qed.
Print Assumptions C16_inverse_IG.

Theorem C16_inverse_OG : forall m N g, OrthogonalGrassmannian m N = Ok g -> m <= N / 2 -> 1 <= N ->
  mutually_inverse (on_list (class_OG m N)) (on_list (isotropic_set_OG m N)) (part2index g) (index2part g).
Proof. exact c16_OG. Qed.
Print Assumptions C16_inverse_OG.

(** [S[5,2,1]] on IG(3,10), and the two classes of shape (3,2) on OG(3,10). *)
Example C16_case_IG : class_IG 3 10 [5; 2; 1] /\ IsotropicGrassmannian 3 10 = Ok (mkGr TC 2 5) /\
  part2index (mkGr TC 2 5) (pS [5; 2; 1]) = Ok (pS [3; 6; 9]) /\
  index2part (mkGr TC 2 5) (pS [3; 6; 9]) = Ok (pS [5; 2; 1]).
Proof.
  split; [|vm_compute; auto]. split; [apply in_boxb_ok; reflexivity|].
  intros [|[|[|[|j]]]]; unfold part; simpl; lia.
Qed.
Example C16_case_OG : OrthogonalGrassmannian 3 10 = Ok (mkGr TD 2 4) /\
  part2index (mkGr TD 2 4) (pS [3; 2]) = Ok (pS [4; 6; 10]) /\
  part2index (mkGr TD 2 4) (pS [3; 2; 0]) = Ok (pS [4; 5; 10]) /\
  index2part (mkGr TD 2 4) (pS [4; 5; 10]) = Ok (pS [3; 2; 0]).
Proof. vm_compute; auto. Qed.

(** C17: dualize is an involution on expressions, sends a class to a class of
    complementary degree, and the fundamental class to the class of a point. *)
Theorem C17_involution_IG : forall m N g p,
  IsotropicGrassmannian m N = Ok g -> expr_in (on_list (class_IG m N)) p ->
  exists x y, dualize g p = Ok x /\ expr_in (on_list (class_IG m N)) x /\ dualize g x = Ok y /\ peq y p.
Proof. exact c17_IG_inv. Qed.
Print Assumptions C17_involution_IG.

Theorem C17_class_IG : forall m N g lam,
  IsotropicGrassmannian m N = Ok g -> class_IG m N lam ->
  exists mu r, dualize g (pS lam) = Ok r /\ peq r (pS mu) /\ class_IG m N mu /\
    size mu = dim_IG m N - size lam.
Proof. exact c17_IG_class. Qed.
Print Assumptions C17_class_IG.

Theorem C17_point_IG : forall m N g, IsotropicGrassmannian m N = Ok g ->
  exists r, dualize g (pS []) = Ok r /\ peq r (pS (point_class g)).
Proof. exact c17_IG_point. Qed.
Print Assumptions C17_point_IG.

Theorem C17_involution_OG : forall m N g,
  OrthogonalGrassmannian m N = Ok g -> m <= N / 2 -> 1 <= N ->
  forall p, expr_in (on_list (class_OG m N)) p ->
  exists x y, dualize g p = Ok x /\ expr_in (on_list (class_OG m N)) x /\ dualize g x = Ok y /\ peq y p.
Proof. exact c17_OG_inv. Qed.
Print Assumptions C17_involution_OG.

Theorem C17_class_OG : forall m N g,
  OrthogonalGrassmannian m N = Ok g -> m <= N / 2 -> 1 <= N ->
  (forall lam, class_OG m N lam ->
    exists mu r, dualize g (pS lam) = Ok r /\ peq r (pS mu) /\ class_OG m N mu /\
      size mu = dim_OG m N - size lam) /\
  (exists r, dualize g (pS []) = Ok r /\ peq r (pS (point_class g))).
Proof. exact OG_dual. Qed.
Print Assumptions C17_class_OG.

Example C17_case_IG : IsotropicGrassmannian 3 10 = Ok (mkGr TC 2 5) /\ dim_IG 3 10 = 18 /\
  dualize (mkGr TC 2 5) (pS [5; 2; 1]) = Ok (pS [6; 3; 1]) /\
  dualize (mkGr TC 2 5) (pS []) = Ok (pS [7; 6; 5]) /\ point_class (mkGr TC 2 5) = [7; 6; 5].
Proof. vm_compute; auto. Qed.
(** On OG(3,10) (n+1 odd) the swap of the two middle indices changes the type. *)
Example C17_case_OG : dim_OG 3 10 = 15 /\ 
  dualize (mkGr TD 2 4) (pS [3; 2]) = Ok (pS [6; 2; 2]) /\
  dualize (mkGr TD 2 4) (pS [3; 2; 0]) = Ok (pS [6; 2; 2; 0]).
Proof. vm_compute; auto. Qed.
