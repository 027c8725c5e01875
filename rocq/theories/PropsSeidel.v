(** Property C73: the rectangles of full width or full height act on Gr(m,n) by rotations. *)

From Coq Require Import ZArith List QArith Qcanon.
From Verif Require Import Py ModelPart ModelQcalc ModelPoly ModelStr ModelGr Spec Seidel Check.
Import ListNotations.
Open Scope Z_scope.

(** C73: the quantum product of S[lam] with the rectangle of j full rows is a
    single term q^d S[mu].  The index set of mu is that of lam rotated by j, and
    d is the number of the elements n-j+1, ..., n missing in the index set of lam. *)
Theorem C73_rows_A : forall m n g j lam,
  Grassmannian m n = Ok g -> 1 <= m < n -> 0 <= j <= m -> in_box m (n - m) lam ->
  exists r mu d x y idx idx',
    qmult g (pS (repeat (n - m) (Z.to_nat j))) (pS lam) = Ok r /\ in_box m (n - m) mu /\
    is_sum_of r (fun e nu => e = d /\ nu = mu) /\
    part2index g (pS lam) = Ok x /\ peq x (pS idx) /\ part2index g (pS mu) = Ok y /\ peq y (pS idx') /\
    (forall a, In a idx' <-> 1 <= a <= n /\ In (if a <=? j then a - j + n else a - j) idx) /\
    Z.of_nat d = j - Z.of_nat (length (filter (fun a => n - j <? a) idx)).
Proof. exact (fun m n g j lam Hg Hm => c73_row m n g Hg Hm j lam). Qed.
Print Assumptions C73_rows_A.

(** ... with j full columns: rotated by -j, and d is the number of the elements
    1, ..., j in the index set of lam. *)
Theorem C73_columns_A : forall m n g j lam,
  Grassmannian m n = Ok g -> 1 <= m < n -> 0 < j <= n - m -> in_box m (n - m) lam ->
  exists r mu d x y idx idx',
    qmult g (pS (repeat j (Z.to_nat m))) (pS lam) = Ok r /\ in_box m (n - m) mu /\
    is_sum_of r (fun e nu => e = d /\ nu = mu) /\
    part2index g (pS lam) = Ok x /\ peq x (pS idx) /\ part2index g (pS mu) = Ok y /\ peq y (pS idx') /\
    (forall a, In a idx' <-> 1 <= a <= n /\ In (if n - j <? a then a + j - n else a + j) idx) /\
    Z.of_nat d = Z.of_nat (length (filter (fun a => a <=? j) idx)).
Proof. exact (fun m n g j lam Hg Hm => c73_col m n g Hg Hm j lam). Qed.
Print Assumptions C73_columns_A.

(** Rotations permute the structure constants: if the rectangle R takes lam to
    q^a lam' and nu to q^b nu', the coefficient of q^d nu in lam * mu is the
    coefficient of q^(d+b-a) nu' in lam' * mu. *)
Theorem C73_symmetry_A : forall m n g R lam mu nu lam' nu' a b rl rn,
  Grassmannian m n = Ok g -> 1 <= m < n ->
  (exists j, 0 <= j <= m /\ R = repeat (n - m) (Z.to_nat j)) \/ (exists j, 0 < j <= n - m /\ R = repeat j (Z.to_nat m)) ->
  in_box m (n - m) lam -> in_box m (n - m) mu -> in_box m (n - m) nu ->
  qmult g (pS R) (pS lam) = Ok rl -> is_sum_of rl (fun e kap => e = a /\ kap = lam') ->
  qmult g (pS R) (pS nu) = Ok rn -> is_sum_of rn (fun e kap => e = b /\ kap = nu') ->
  exists r r', qmult g (pS lam) (pS mu) = Ok r /\ qmult g (pS lam') (pS mu) = Ok r' /\
    (forall d e, (a + e = d + b)%nat -> coef r (qS d nu) = coef r' (qS e nu')) /\
    (forall d, (d + b < a)%nat -> coef r (qS d nu) = 0%Qc) /\
    (forall e, (a + e < b)%nat -> coef r' (qS e nu') = 0%Qc).
Proof. exact (fun m n g R lam mu nu lam' nu' a b rl rn Hg Hm => c73_sym m n g Hg Hm R lam mu nu lam' nu' a b rl rn). Qed.
Print Assumptions C73_symmetry_A.

Example C73_case : in_box 3 4 [4; 2; 1] /\ in_box 3 4 [2; 1] /\
  part2index (mkGr TA 4 7) (pS [4; 2; 1]) = Ok (pS [1; 4; 6]) /\
  (exists r, qmult (mkGr TA 4 7) (pS [4; 4]) (pS [4; 2; 1]) = Ok r /\ coef r (qS 1 [4; 3; 1]) = 1%Qc) /\
  part2index (mkGr TA 4 7) (pS [4; 3; 1]) = Ok (pS [1; 3; 6]) /\
  (exists r, qmult (mkGr TA 4 7) (pS [3; 3; 3]) (pS [4; 2; 1]) = Ok r /\ coef r (qS 1 [4; 3; 2]) = 1%Qc) /\
  part2index (mkGr TA 4 7) (pS [4; 3; 2]) = Ok (pS [1; 3; 5]).
Proof.
  split; [apply in_boxb_ok; reflexivity|]. split; [apply in_boxb_ok; reflexivity|]. split; [vm_compute; reflexivity|].
  split; [eexists; split; vm_compute; reflexivity|]. split; [vm_compute; reflexivity|].
  split; [eexists; split; vm_compute; reflexivity|]. vm_compute; reflexivity.
Qed.
