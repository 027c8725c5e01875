(** Properties C27 and C45-C47: the (quantum) cohomology rings of isotropic
    Grassmannians.  The vocabulary is that of Spec.v and SpecRing.v. *)

From Coq Require Import ZArith List Lia Bool Permutation QArith Qcanon.
From Verif Require Import Py ModelPart ModelQcalc ModelPoly ModelStr ModelGr Spec SpecRing Check ApiRing.
Import ListNotations.
Open Scope Z_scope.

(** C27: mult and qmult are commutative, associative, unital and bilinear. *)
Theorem C27_ring_IG : forall m N g, IsotropicGrassmannian m N = Ok g ->
  product_laws (class_IG m N) (mult g) /\ product_laws (class_IG m N) (qmult g).
Proof. exact c27_IG. Qed.
Print Assumptions C27_ring_IG.

Theorem C27_ring_OG_odd : forall m N g, OrthogonalGrassmannian m N = Ok g -> Z.odd N = true -> 1 <= m <= N / 2 ->
  product_laws (class_OG m N) (mult g) /\ product_laws (class_OG m N) (qmult g).
Proof. exact c27_OGodd. Qed.
Print Assumptions C27_ring_OG_odd.

(** toS and qtoS are ring homomorphisms that fix linear combinations of classes. *)
Theorem C27_toS_IG : forall m N g, IsotropicGrassmannian m N = Ok g ->
  conversion_laws (class_IG m N) (mult g) (toS g) /\ conversion_laws (class_IG m N) (qmult g) (qtoS g).
Proof. exact c27_conv_IG. Qed.
Print Assumptions C27_toS_IG.

Theorem C27_toS_OG_odd : forall m N g, OrthogonalGrassmannian m N = Ok g -> Z.odd N = true -> 1 <= m <= N / 2 ->
  conversion_laws (class_OG m N) (mult g) (toS g) /\ conversion_laws (class_OG m N) (qmult g) (qtoS g).
Proof. exact c27_conv_OGodd. Qed.
Print Assumptions C27_toS_OG_odd.

(** giambelli terminates with a polynomial in the special classes that gives the
    class back. *)
Theorem C27_giambelli_IG : forall m N g, IsotropicGrassmannian m N = Ok g ->
  giambelli_laws (class_IG m N) (special_upto (N - m)) (giambelli g) (act g) /\
  giambelli_laws (class_IG m N) (special_upto (N - m)) (qgiambelli g) (qact g).
Proof. exact c27_giam_IG. Qed.
Print Assumptions C27_giambelli_IG.

Theorem C27_giambelli_OG_odd : forall m N g, OrthogonalGrassmannian m N = Ok g -> Z.odd N = true -> 1 <= m <= N / 2 ->
  giambelli_laws (class_OG m N) (special_upto (N - 1 - m)) (giambelli g) (act g) /\
  giambelli_laws (class_OG m N) (special_upto (N - 1 - m)) (qgiambelli g) (qact g).
Proof. exact c27_giam_OGodd. Qed.
Print Assumptions C27_giambelli_OG_odd.

(** The Pieri operators commute. *)
Theorem C27_pieri_commute_IG : forall m N g, IsotropicGrassmannian m N = Ok g ->
  operators_commute (class_IG m N) (fun i => 1 <= i <= N - m) (pieri g) /\
  operators_commute (class_IG m N) (fun i => 1 <= i <= N - m) (qpieri g).
Proof. exact c27_comm_IG. Qed.
Print Assumptions C27_pieri_commute_IG.

Theorem C27_pieri_commute_OG_odd : forall m N g, OrthogonalGrassmannian m N = Ok g -> Z.odd N = true -> 1 <= m <= N / 2 ->
  operators_commute (class_OG m N) (fun i => 1 <= i <= N - 1 - m) (pieri g) /\
  operators_commute (class_OG m N) (fun i => 1 <= i <= N - 1 - m) (qpieri g).
Proof. exact c27_comm_OGodd. Qed.
Print Assumptions C27_pieri_commute_OG_odd.

(** Cases: IG(2,6) and OG(2,7). *)
Example C27_case_IG : IsotropicGrassmannian 2 6 = Ok (mkGr TC 1 3) /\ class_IG 2 6 [3; 1] /\ class_IG 2 6 [4; 2] /\
  qmult (mkGr TC 1 3) (pS [3; 1]) (pS [4; 2]) = Ok [([vS []; VQ; VQ], 1%Qc); ([vS [4; 1]; VQ], 1%Qc)] /\
  giambelli (mkGr TC 1 3) (pS [2; 1]) = Ok [([vS [1]; vS [2]], 1%Qc); ([vS [3]], qz (-1))].
Proof.
  split; [reflexivity|]. split; [|split].
  - split; [apply in_boxb_ok; reflexivity|]. intros [|[|[|j]]]; unfold part; simpl; lia.
  - split; [apply in_boxb_ok; reflexivity|]. intros [|[|[|j]]]; unfold part; simpl; lia.
  - split; vm_compute; reflexivity.
Qed.
Example C27_case_OG : OrthogonalGrassmannian 2 7 = Ok (mkGr TB 1 3) /\ class_OG 2 7 [3; 1] /\ class_OG 2 7 [4; 2] /\
  qmult (mkGr TB 1 3) (pS [3; 1]) (pS [4; 2]) =
    Ok [([vS [1; 1]; VQ; VQ], 1%Qc); ([vS [2]; VQ; VQ], 1%Qc); ([vS [4; 2]; VQ], 1%Qc)].
Proof.
  split; [reflexivity|]. split; [|split].
  - split; [apply in_boxb_ok; reflexivity|]. intros [|[|[|j]]]; unfold part; simpl; lia.
  - split; [apply in_boxb_ok; reflexivity|]. intros [|[|[|j]]]; unfold part; simpl; lia.
  - vm_compute; reflexivity.
Qed.

(** C45: multiplying by a special class is applying its Pieri operator. *)
Theorem C45_special_IG : forall m N g i c,
  IsotropicGrassmannian m N = Ok g -> 1 <= m -> 1 <= i <= N - m -> lin_comb (class_IG m N) c ->
  (exists r r', mult g (pS [i]) c = Ok r /\ pieri g i c = Ok r' /\ peq r r') /\
  (exists r r', qmult g (pS [i]) c = Ok r /\ qpieri g i c = Ok r' /\ peq r r').
Proof. exact c45_IG. Qed.
Print Assumptions C45_special_IG.

Theorem C45_special_OG_odd : forall m N g,
  OrthogonalGrassmannian m N = Ok g -> Z.odd N = true -> 1 <= m <= N / 2 ->
  forall i c, 1 <= i <= N - 1 - m -> lin_comb (class_OG m N) c ->
  (exists r r', mult g (pS [i]) c = Ok r /\ pieri g i c = Ok r' /\ peq r r') /\
  (exists r r', qmult g (pS [i]) c = Ok r /\ qpieri g i c = Ok r' /\ peq r r').
Proof. exact c45_OGodd. Qed.
Print Assumptions C45_special_OG_odd.

(** C46: products of classes are homogeneous with integral coefficients. *)
Theorem C46_homogeneous_IG : forall m N g lam nu,
  IsotropicGrassmannian m N = Ok g -> 1 <= m -> class_IG m N lam -> class_IG m N nu ->
  (exists r, mult g (pS lam) (pS nu) = Ok r /\ homogeneous (degree_q g) (size lam + size nu) r /\ integral r) /\
  (exists r, qmult g (pS lam) (pS nu) = Ok r /\ homogeneous (degree_q g) (size lam + size nu) r /\ integral r).
Proof. exact c46_IG. Qed.
Print Assumptions C46_homogeneous_IG.

Theorem C46_homogeneous_OG_odd : forall m N g,
  OrthogonalGrassmannian m N = Ok g -> Z.odd N = true -> 1 <= m <= N / 2 ->
  forall lam nu, class_OG m N lam -> class_OG m N nu ->
  (exists r, mult g (pS lam) (pS nu) = Ok r /\ homogeneous (degree_q g) (size lam + size nu) r /\ integral r) /\
  (exists r, qmult g (pS lam) (pS nu) = Ok r /\ homogeneous (degree_q g) (size lam + size nu) r /\ integral r).
Proof. exact c46_OGodd. Qed.
Print Assumptions C46_homogeneous_OG_odd.

(** C47: at q = 0 the quantum product is the classical one. *)
Theorem C47_q0_IG : forall m N g, IsotropicGrassmannian m N = Ok g -> 1 <= m ->
  (forall a b, lin_comb0 (class_IG m N) a -> lin_comb0 (class_IG m N) b ->
     exists x r, qmult g a b = Ok x /\ mult g a b = Ok r /\ same_q_free_part x r) /\
  (forall a, poly_in (class_IG m N) a -> (forall mo, In VQ mo -> coef a mo = 0%Qc) ->
     exists x r, qtoS g a = Ok x /\ toS g a = Ok r /\ same_q_free_part x r).
Proof. exact c47_IG. Qed.
Print Assumptions C47_q0_IG.

Theorem C47_q0_OG_odd : forall m N g, OrthogonalGrassmannian m N = Ok g -> Z.odd N = true -> 1 <= m <= N / 2 ->
  (forall a b, lin_comb0 (class_OG m N) a -> lin_comb0 (class_OG m N) b ->
     exists x r, qmult g a b = Ok x /\ mult g a b = Ok r /\ same_q_free_part x r) /\
  (forall a, poly_in (class_OG m N) a -> (forall mo, In VQ mo -> coef a mo = 0%Qc) ->
     exists x r, qtoS g a = Ok x /\ toS g a = Ok r /\ same_q_free_part x r).
Proof. exact c47_OGodd. Qed.
Print Assumptions C47_q0_OG_odd.
