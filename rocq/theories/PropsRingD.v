(** Properties C27 and C45-C47 for OG(m,N), N even.  The quantum statements leave
    out m = N/2 - 1, where the library uses two quantum parameters. *)

From Coq Require Import ZArith List Lia Bool Permutation QArith Qcanon.
From Verif Require Import Py ModelPart ModelQcalc ModelPoly ModelStr ModelGr Spec SpecRing Check ApiRingD.
Import ListNotations.
Open Scope Z_scope.

(** C27: mult and qmult are commutative, associative, unital and bilinear. *)
Theorem C27_ring_OG_even : forall m N g,
  OrthogonalGrassmannian m N = Ok g -> Z.even N = true -> 4 <= N -> 1 <= m <= N / 2 ->
  product_laws (class_OG m N) (mult g) /\ (m <> N / 2 - 1 -> product_laws (class_OG m N) (qmult g)).
Proof. exact c27_OGeven. Qed.
Print Assumptions C27_ring_OG_even.

(** toS and qtoS are ring homomorphisms that fix linear combinations of classes. *)
Theorem C27_toS_OG_even : forall m N g,
  OrthogonalGrassmannian m N = Ok g -> Z.even N = true -> 4 <= N -> 1 <= m <= N / 2 ->
  conversion_laws (class_OG m N) (mult g) (toS g) /\
  (m <> N / 2 - 1 -> conversion_laws (class_OG m N) (qmult g) (qtoS g)).
Proof. exact c27_conv_OGeven. Qed.
Print Assumptions C27_toS_OG_even.

(** giambelli terminates with a polynomial in the special classes that gives the
    class back. *)
Theorem C27_giambelli_OG_even : forall m N g,
  OrthogonalGrassmannian m N = Ok g -> Z.even N = true -> 4 <= N -> 1 <= m <= N / 2 ->
  giambelli_laws (class_OG m N) (special_even m N) (giambelli g) (act g) /\
  (m <> N / 2 - 1 -> giambelli_laws (class_OG m N) (special_even m N) (qgiambelli g) (qact g)).
Proof. exact c27_giam_OGeven. Qed.
Print Assumptions C27_giambelli_OG_even.

(** The Pieri operators commute. *)
Theorem C27_pieri_commute_OG_even : forall m N g,
  OrthogonalGrassmannian m N = Ok g -> Z.even N = true -> 4 <= N -> 1 <= m <= N / 2 ->
  operators_commute (class_OG m N) (index_even m N) (pieri g) /\
  (m <> N / 2 - 1 -> operators_commute (class_OG m N) (index_even m N) (qpieri g)).
Proof. exact c27_comm_OGeven. Qed.
Print Assumptions C27_pieri_commute_OG_even.

(** A case: OG(2,8), with classes of all three types. *)
Example C27_case_OG_even : OrthogonalGrassmannian 2 8 = Ok (mkGr TD 2 3) /\ 2 <> 8 / 2 - 1 /\
  class_OG 2 8 [3; 2] /\ class_OG 2 8 [2; 1; 0] /\ class_OG 2 8 [3; 1] /\
  qmult (mkGr TD 2 3) (pS [3; 2]) (pS [2; 1; 0]) = Ok [([vS [3]; VQ], 1%Qc)] /\
  mult (mkGr TD 2 3) (pS [2; 0]) (pS [2; 1; 0]) =
    Ok [([vS [3; 2; 0]], 1%Qc); ([vS [4; 1]], 1%Qc); ([vS [5]], 1%Qc)] /\
  giambelli (mkGr TD 2 3) (pS [2; 2; 0]) = Ok [([vS [2; 0]; vS [2; 0]], 1%Qc); ([vS [4]], qz (-1))].
Proof.
  split; [reflexivity|]. split; [vm_compute; congruence|]. split; [|split; [|split]].
  - left. split; [apply in_boxb_ok; reflexivity|]. intros [|[|[|j]]]; unfold part; simpl; lia.
  - right. exists [2; 1]. split; [reflexivity|]. split; [reflexivity|]. split; [left; reflexivity|].
    split; [apply in_boxb_ok; reflexivity|]. intros [|[|[|j]]]; unfold part; simpl; lia.
  - left. split; [apply in_boxb_ok; reflexivity|]. intros [|[|[|j]]]; unfold part; simpl; lia.
  - split; [|split]; vm_compute; reflexivity.
Qed.

(** C45: multiplying by a special class is applying its Pieri operator. *)
Theorem C45_special_OG_even : forall m N g,
  OrthogonalGrassmannian m N = Ok g -> Z.even N = true -> 4 <= N -> 1 <= m <= N / 2 ->
  forall i c, index_even m N i -> lin_comb (class_OG m N) c ->
  (exists r r', mult g (pS (special_class i)) c = Ok r /\ pieri g i c = Ok r' /\ peq r r') /\
  (m <> N / 2 - 1 ->
   exists r r', qmult g (pS (special_class i)) c = Ok r /\ qpieri g i c = Ok r' /\ peq r r').
Proof. exact c45_OGeven. Qed.
Print Assumptions C45_special_OG_even.

(** C46: products of classes are homogeneous with integral coefficients. *)
Theorem C46_homogeneous_OG_even : forall m N g,
  OrthogonalGrassmannian m N = Ok g -> Z.even N = true -> 4 <= N -> 1 <= m <= N / 2 ->
  forall lam nu, class_OG m N lam -> class_OG m N nu ->
  (exists r, mult g (pS lam) (pS nu) = Ok r /\ homogeneous (degree_q g) (size lam + size nu) r /\ integral r) /\
  (m <> N / 2 - 1 ->
   exists r, qmult g (pS lam) (pS nu) = Ok r /\ homogeneous (degree_q g) (size lam + size nu) r /\ integral r).
Proof. exact c46_OGeven. Qed.
Print Assumptions C46_homogeneous_OG_even.

(** C47: at q = 0 the quantum product is the classical one. *)
Theorem C47_q0_OG_even : forall m N g,
  OrthogonalGrassmannian m N = Ok g -> Z.even N = true -> 4 <= N -> 1 <= m <= N / 2 -> m <> N / 2 - 1 ->
  (forall a b, lin_comb0 (class_OG m N) a -> lin_comb0 (class_OG m N) b ->
     exists x r, qmult g a b = Ok x /\ mult g a b = Ok r /\ same_q_free_part x r) /\
  (forall a, poly_in (class_OG m N) a -> (forall mo, In VQ mo -> coef a mo = 0%Qc) ->
     exists x r, qtoS g a = Ok x /\ toS g a = Ok r /\ same_q_free_part x r).
Proof. exact c47_OGeven. Qed.
Print Assumptions C47_q0_OG_even.

(** A case for the index of the special class of the second type: OG(2,8). *)
Example C45_case_OG_even : index_even 2 8 (-2) /\ special_class (-2) = [2; 0] /\ class_OG 2 8 [5; 2; 0] /\
  qpieri (mkGr TD 2 3) (-2) (pS [5; 2; 0]) = qmult (mkGr TD 2 3) (pS [2; 0]) (pS [5; 2; 0]) /\
  qpieri (mkGr TD 2 3) (-2) (pS [5; 2; 0]) = Ok [([vS [2; 2]; VQ], 1%Qc); ([vS [5; 4]], 1%Qc)].
Proof.
  split; [right; vm_compute; split; reflexivity|]. split; [reflexivity|]. split; [|split; vm_compute; reflexivity].
  right. exists [5; 2]. split; [reflexivity|]. split; [reflexivity|]. split; [right; left; reflexivity|].
  split; [apply in_boxb_ok; reflexivity|]. intros [|[|[|j]]]; unfold part; simpl; lia.
Qed.

(** The exception of C27: OG(N/2-1,N) has two quantum parameters, and there qmult
    raises ValueError as soon as its left argument contains one of them.  So
    (S[2,1] * S[1]) * S[1] is an error although S[1] * (S[2,1] * S[1]) is not. *)
Theorem C27_two_parameters_refuted : exists m N g lam mu nu r s,
  OrthogonalGrassmannian m N = Ok g /\ class_OG m N lam /\ class_OG m N mu /\ class_OG m N nu /\
  qmult g (pS lam) (pS mu) = Ok r /\ qmult g r (pS nu) = Err ValueError /\ qmult g (pS nu) r = Ok s.
Proof. exact c27_two_parameters. Qed.
Print Assumptions C27_two_parameters_refuted.
