(** Property C97: on IG(m,2n) the class of the longest rows acts by the rotation by n. *)

From Coq Require Import ZArith List Lia QArith Qcanon.
From Verif Require Import Py ModelPart ModelQcalc ModelPoly ModelStr ModelGr Spec SeidelC Check.
Import ListNotations.
Open Scope Z_scope.

(** C97: the quantum product of S[lam] with S[n,n-1,...,n-m+1] is a single term
    q^d S[mu].  The index set of mu is that of lam rotated by n in 1, ..., 2n, and d
    is the number of rows of lam longer than n-m. *)
Theorem C97_rotation_IG : forall m n g lam,
  IsotropicGrassmannian m (2 * n) = Ok g -> 1 <= m -> class_IG m (2 * n) lam ->
  exists r mu d x y idx idx',
    qmult g (pS (map (fun j => n - j) (zrange 0 m))) (pS lam) = Ok r /\ class_IG m (2 * n) mu /\
    is_sum_of r (fun e nu => e = d /\ nu = mu) /\
    part2index g (pS lam) = Ok x /\ peq x (pS idx) /\ part2index g (pS mu) = Ok y /\ peq y (pS idx') /\
    (forall a, In a idx' <-> 1 <= a <= 2 * n /\ In (if a <=? n then a + n else a - n) idx) /\
    Z.of_nat d = count_ge lam (n - m + 1).
Proof. exact (fun m n g lam Hg Hm => c97_rot m n g Hg Hm lam). Qed.
Print Assumptions C97_rotation_IG.

(** Its square is q^m. *)
Theorem C97_square_IG : forall m n g,
  IsotropicGrassmannian m (2 * n) = Ok g -> 1 <= m ->
  exists r, qmult g (pS (map (fun j => n - j) (zrange 0 m))) (pS (map (fun j => n - j) (zrange 0 m))) = Ok r /\
    is_sum_of r (fun e nu => e = Z.to_nat m /\ nu = []).
Proof. exact c97_square. Qed.
Print Assumptions C97_square_IG.

(** The rotation permutes the structure constants: if it takes lam to q^a lam' and
    nu to q^b nu', the coefficient of q^d nu in lam * mu is the coefficient of
    q^(d+b-a) nu' in lam' * mu. *)
Theorem C97_symmetry_IG : forall m n g lam mu nu lam' nu' a b rl rn,
  IsotropicGrassmannian m (2 * n) = Ok g -> 1 <= m ->
  class_IG m (2 * n) lam -> class_IG m (2 * n) mu -> class_IG m (2 * n) nu ->
  qmult g (pS (map (fun j => n - j) (zrange 0 m))) (pS lam) = Ok rl -> is_sum_of rl (fun e kap => e = a /\ kap = lam') ->
  qmult g (pS (map (fun j => n - j) (zrange 0 m))) (pS nu) = Ok rn -> is_sum_of rn (fun e kap => e = b /\ kap = nu') ->
  exists r r', qmult g (pS lam) (pS mu) = Ok r /\ qmult g (pS lam') (pS mu) = Ok r' /\
    (forall d e, (a + e = d + b)%nat -> coef r (qS d nu) = coef r' (qS e nu')) /\
    (forall d, (d + b < a)%nat -> coef r (qS d nu) = 0%Qc) /\
    (forall e, (a + e < b)%nat -> coef r' (qS e nu') = 0%Qc).
Proof. exact (fun m n g lam mu nu lam' nu' a b rl rn Hg Hm => c97_sym m n g Hg Hm lam mu nu lam' nu' a b rl rn). Qed.
Print Assumptions C97_symmetry_IG.

Example C97_case : IsotropicGrassmannian 2 6 = Ok (mkGr TC 1 3) /\ class_IG 2 6 [4; 2] /\ class_IG 2 6 [1] /\
  map (fun j => 3 - j) (zrange 0 2) = [3; 2] /\ count_ge [4; 2] 2 = 2 /\
  part2index (mkGr TC 1 3) (pS [4; 2]) = Ok (pS [1; 3]) /\ part2index (mkGr TC 1 3) (pS [1]) = Ok (pS [4; 6]) /\
  (exists r, qmult (mkGr TC 1 3) (pS [3; 2]) (pS [4; 2]) = Ok r /\ coef r (qS 2 [1]) = 1%Qc) /\
  (exists r, qmult (mkGr TC 1 3) (pS [3; 2]) (pS [3; 2]) = Ok r /\ coef r (qS 2 []) = 1%Qc).
Proof.
  split; [reflexivity|]. do 2 (split; [split; [apply in_boxb_ok; reflexivity|]; intros [|[|[|j]]]; unfold part; simpl; lia|]).
  do 4 (split; [vm_compute; reflexivity|]).
  split; eexists; split; vm_compute; reflexivity.
Qed.
