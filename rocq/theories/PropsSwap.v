(** Properties C58, C59 and C60: symmetries of the rings of the orthogonal
    Grassmannians, and their relation to the isotropic ones. *)

From Coq Require Import ZArith List Lia Bool Permutation QArith Qcanon.
From Verif Require Import Py ModelPart ModelQcalc ModelPoly ModelStr ModelGr Spec SpecPieri SpecRing Check SwapRing PowTwo.
Import ListNotations.
Open Scope Z_scope.

(** C58: on OG(m,N), N even, type_swap(a * b) = type_swap(a) * type_swap(b), for
    mult and, away from m = N/2 - 1, for qmult. *)
Theorem C58_type_swap : forall m N g,
  OrthogonalGrassmannian m N = Ok g -> Z.even N = true -> 4 <= N -> 1 <= m <= N / 2 ->
  respects_product (class_OG m N) (mult g) (type_swap g) /\
  (m <> N / 2 - 1 -> respects_product (class_OG m N) (qmult g) (type_swap g)).
Proof. exact c58. Qed.
Print Assumptions C58_type_swap.

(** The Pieri operators: the two special classes of degree N/2 - m, with indices
    N/2 - m and -(N/2 - m), change places. *)
Theorem C58_type_swap_pieri : forall m N g,
  OrthogonalGrassmannian m N = Ok g -> Z.even N = true -> 4 <= N -> 1 <= m <= N / 2 ->
  forall i a, index_even m N i -> lin_comb (class_OG m N) a ->
  (exists r x a' y, pieri g i a = Ok r /\ type_swap g r = Ok x /\ type_swap g a = Ok a' /\
     pieri g (if Z.abs i =? N / 2 - m then - i else i) a' = Ok y /\ peq x y) /\
  (m <> N / 2 - 1 -> exists r x a' y, qpieri g i a = Ok r /\ type_swap g r = Ok x /\ type_swap g a = Ok a' /\
     qpieri g (if Z.abs i =? N / 2 - m then - i else i) a' = Ok y /\ peq x y).
Proof. exact c58_pieri. Qed.
Print Assumptions C58_type_swap_pieri.

(** A case: in OG(2,8) type_swap exchanges the two products below. *)
Example C58_case : OrthogonalGrassmannian 2 8 = Ok (mkGr TD 2 3) /\ 2 <> 8 / 2 - 1 /\
  class_OG 2 8 [2; 1] /\ class_OG 2 8 [5; 2] /\
  type_swap (mkGr TD 2 3) (pS [2; 1]) = Ok (pS [2; 1; 0]) /\ type_swap (mkGr TD 2 3) (pS [5; 2]) = Ok (pS [5; 2; 0]) /\
  qmult (mkGr TD 2 3) (pS [2; 1]) (pS [5; 2]) =
    Ok [([vS []; VQ; VQ], 1%Qc); ([vS [3; 2; 0]; VQ], 1%Qc); ([vS [4; 1]; VQ], 1%Qc)] /\
  qmult (mkGr TD 2 3) (pS [2; 1; 0]) (pS [5; 2; 0]) =
    Ok [([vS []; VQ; VQ], 1%Qc); ([vS [3; 2]; VQ], 1%Qc); ([vS [4; 1]; VQ], 1%Qc)].
Proof.
  split; [reflexivity|]. split; [vm_compute; congruence|]. split; [|split].
  - left. split; [apply in_boxb_ok; reflexivity|]. intros [|[|[|j]]]; unfold part; simpl; lia.
  - left. split; [apply in_boxb_ok; reflexivity|]. intros [|[|[|j]]]; unfold part; simpl; lia.
  - split; [|split; [|split]]; vm_compute; reflexivity.
Qed.

(** C59: OG(n,2n+1) and OG(n+1,2n+2), which are isomorphic varieties, have the same
    classes and the same products. *)
Theorem C59_spinor : forall n g g', 1 <= n ->
  OrthogonalGrassmannian n (2 * n + 1) = Ok g -> OrthogonalGrassmannian (n + 1) (2 * n + 2) = Ok g' ->
  (forall lam, class_OG n (2 * n + 1) lam <-> class_OG (n + 1) (2 * n + 2) lam) /\
  forall a b, lin_comb (class_OG n (2 * n + 1)) a -> lin_comb (class_OG n (2 * n + 1)) b ->
  (exists r r', mult g a b = Ok r /\ mult g' a b = Ok r' /\ peq r r') /\
  (exists r r', qmult g a b = Ok r /\ qmult g' a b = Ok r' /\ peq r r').
Proof. exact c59. Qed.
Print Assumptions C59_spinor.

(** A case: n = 3. *)
Example C59_case : OrthogonalGrassmannian 3 7 = Ok (mkGr TB 0 3) /\ OrthogonalGrassmannian 4 8 = Ok (mkGr TD 0 3) /\
  class_OG 3 7 [3; 1] /\ class_OG 3 7 [2; 1] /\
  qmult (mkGr TB 0 3) (pS [3; 1]) (pS [2; 1]) = qmult (mkGr TD 0 3) (pS [3; 1]) (pS [2; 1]) /\
  qmult (mkGr TB 0 3) (pS [3; 1]) (pS [2; 1]) = Ok [([vS [1]; VQ], 1%Qc)].
Proof.
  split; [reflexivity|]. split; [reflexivity|]. split; [|split].
  - split; [apply in_boxb_ok; reflexivity|]. intros [|[|[|j]]]; unfold part; simpl; lia.
  - split; [apply in_boxb_ok; reflexivity|]. intros [|[|[|j]]]; unfold part; simpl; lia.
  - split; vm_compute; reflexivity.
Qed.

(** C60: IG(m,2n) and OG(m,2n+1) have the same classes, and their products differ by
    powers of 2: with long(lam) the number of rows of lam longer than n - m, the
    coefficient of S[nu] in S[lam]*S[mu] on IG times 2^long(nu) is the one on OG times
    2^(long(lam)+long(mu)). *)
Theorem C60_powers_of_two : forall m n g h, 1 <= m ->
  IsotropicGrassmannian m (2 * n) = Ok g -> OrthogonalGrassmannian m (2 * n + 1) = Ok h ->
  (forall lam, class_IG m (2 * n) lam <-> class_OG m (2 * n + 1) lam) /\
  forall lam mu, class_IG m (2 * n) lam -> class_IG m (2 * n) mu ->
    exists r s, mult g (pS lam) (pS mu) = Ok r /\ mult h (pS lam) (pS mu) = Ok s /\
    forall nu, (coef r [vS nu] * two_to (count_ge nu (n - m + 1)) =
      two_to (count_ge lam (n - m + 1) + count_ge mu (n - m + 1)) * coef s [vS nu])%Qc.
Proof. exact c60. Qed.
Print Assumptions C60_powers_of_two.

(** A case: IG(2,6) and OG(2,7), with n - m = 1. *)
Example C60_case : IsotropicGrassmannian 2 6 = Ok (mkGr TC 1 3) /\ OrthogonalGrassmannian 2 7 = Ok (mkGr TB 1 3) /\
  class_IG 2 6 [2] /\ count_ge [2] 2 = 1 /\ count_ge [3; 1] 2 = 1 /\ count_ge [4] 2 = 1 /\
  mult (mkGr TC 1 3) (pS [2]) (pS [2]) = Ok [([vS [3; 1]], two_to 1); ([vS [4]], two_to 1)] /\
  mult (mkGr TB 1 3) (pS [2]) (pS [2]) = Ok [([vS [3; 1]], 1%Qc); ([vS [4]], 1%Qc)].
Proof.
  split; [reflexivity|]. split; [reflexivity|]. split; [|split; [|split; [|split; [|split]]]]; try (vm_compute; reflexivity).
  split; [apply in_boxb_ok; reflexivity|]. intros [|[|[|j]]]; unfold part; simpl; lia.
Qed.
