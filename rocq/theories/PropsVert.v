(** Products with columns, the symmetry between Gr(m,n) and Gr(n-m,n), and products
    with a full row or column.  The vocabulary is that of Spec.v and SpecMisc.v. *)

From Coq Require Import ZArith List Lia QArith Qcanon.
From Verif Require Import Py ModelPart ModelQcalc ModelPoly ModelStr ModelGr Spec SpecMisc Check ConjFacts ApiVert.
Import ListNotations.
Open Scope Z_scope.

(** C52: the product with the class of a column of [j] boxes is the vertical Pieri
    rule. *)
Theorem C52_vertical_pieri_A : forall m n g j lam,
  Grassmannian m n = Ok g -> 1 <= m < n -> in_box m (n - m) lam -> 1 <= j <= m ->
  exists r, mult g (pS (repeat 1 (Z.to_nat j))) (pS lam) = Ok r /\
    is_sum_of r (fun d mu => d = 0%nat /\ in_box m (n - m) mu /\ adds_vertical_strip lam mu /\ size mu = size lam + j).
Proof. exact c52_classical. Qed.
Print Assumptions C52_vertical_pieri_A.

Theorem C52_vertical_qpieri_A : forall m n g j lam,
  Grassmannian m n = Ok g -> 1 <= m < n -> in_box m (n - m) lam -> 1 <= j <= m ->
  exists r, qmult g (pS (repeat 1 (Z.to_nat j))) (pS lam) = Ok r /\
    is_sum_of r (fun d mu => in_box m (n - m) mu /\
      ((d = 0%nat /\ adds_vertical_strip lam mu /\ size mu = size lam + j) \/
       (d = 1%nat /\ bertram_columns (n - m) lam mu /\ size mu = size lam + j - n))).
Proof. exact c52. Qed.
Print Assumptions C52_vertical_qpieri_A.

Example C52_case :
  Grassmannian 3 7 = Ok (mkGr TA 4 7) /\ in_box 3 4 [4; 2; 1] /\ adds_vertical_strip [4; 2; 1] [4; 3; 2] /\
  bertram_columns 4 [4; 2; 1] [1; 1] /\
  exists r, qmult (mkGr TA 4 7) (pS [1; 1]) (pS [4; 2; 1]) = Ok r /\ coef r [vS [4; 3; 2]] = 1%Qc /\
    coef r [vS [1; 1]; VQ] = 1%Qc /\ coef r [vS [2]; VQ] = 1%Qc.
Proof.
  split; [reflexivity|]. split; [apply in_boxb_ok; reflexivity|].
  split; [intros [|[|[|[|j]]]]; cbn; lia|]. split; [split; [reflexivity|]; intros [|[|[|[|j]]]]; cbn; lia|].
  eexists. split; [vm_compute; reflexivity|]. vm_compute. auto.
Qed.

(** C53: conjugation of partitions takes the products of Gr(m,n) to those of
    Gr(n-m,n). *)
Theorem C53_conjugate_mult_A : forall m n g g' lam mu lam' mu',
  Grassmannian m n = Ok g -> Grassmannian (n - m) n = Ok g' -> 1 <= m < n ->
  in_box m (n - m) lam -> in_box m (n - m) mu -> is_conjugate lam lam' -> is_conjugate mu mu' ->
  exists r r', mult g (pS lam) (pS mu) = Ok r /\ mult g' (pS lam') (pS mu') = Ok r' /\
    lin_comb0 (in_box m (n - m)) r /\ lin_comb0 (in_box (n - m) m) r' /\
    forall nu nu', in_box m (n - m) nu -> is_conjugate nu nu' -> coef r [vS nu] = coef r' [vS nu'].
Proof. exact c53_classical. Qed.
Print Assumptions C53_conjugate_mult_A.

Theorem C53_conjugate_qmult_A : forall m n g g' lam mu lam' mu',
  Grassmannian m n = Ok g -> Grassmannian (n - m) n = Ok g' -> 1 <= m < n ->
  in_box m (n - m) lam -> in_box m (n - m) mu -> is_conjugate lam lam' -> is_conjugate mu mu' ->
  exists r r', qmult g (pS lam) (pS mu) = Ok r /\ qmult g' (pS lam') (pS mu') = Ok r' /\
    lin_comb (in_box m (n - m)) r /\ lin_comb (in_box (n - m) m) r' /\
    forall d nu nu', in_box m (n - m) nu -> is_conjugate nu nu' -> coef r (qS d nu) = coef r' (qS d nu').
Proof. exact c53. Qed.
Print Assumptions C53_conjugate_qmult_A.

Example C53_case :
  Grassmannian 2 5 = Ok (mkGr TA 3 5) /\ Grassmannian 3 5 = Ok (mkGr TA 2 5) /\
  in_box 2 3 [3; 1] /\ is_conjugate [3; 1] [2; 1; 1] /\ is_conjugate [2] [1; 1] /\ is_conjugate [1] [1] /\
  exists r r', qmult (mkGr TA 3 5) (pS [3; 1]) (pS [2]) = Ok r /\ qmult (mkGr TA 2 5) (pS [2; 1; 1]) (pS [1; 1]) = Ok r' /\
    coef r [vS [1]; VQ] = 1%Qc /\ coef r' [vS [1]; VQ] = 1%Qc.
Proof.
  split; [reflexivity|]. split; [reflexivity|]. split; [apply in_boxb_ok; reflexivity|].
  assert (C : forall l, in_boxb 2 3 l = true -> is_conjugate l (part_conj l)).
  { intros l Hl. apply ConjFacts.part_conj_conjugate. apply (in_boxb_ok 2 3 l Hl). }
  split; [exact (C [3; 1] eq_refl)|]. split; [exact (C [2] eq_refl)|]. split; [exact (C [1] eq_refl)|].
  eexists. eexists. split; [vm_compute; reflexivity|]. split; [vm_compute; reflexivity|]. vm_compute. auto.
Qed.

(** C54: the product with a full row or with a full column is a single term. *)
Theorem C54_full_row_A : forall m n g lam,
  Grassmannian m n = Ok g -> 1 <= m < n -> in_box m (n - m) lam ->
  exists r, qmult g (pS [n - m]) (pS lam) = Ok r /\
    (Z.of_nat (length lam) < m -> is_sum_of r (fun d nu => d = 0%nat /\ nu = n - m :: lam)) /\
    (Z.of_nat (length lam) = m -> exists mu, in_box m (n - m) mu /\
       (forall j, Z.of_nat j < m -> part mu j = part lam j - 1) /\ is_sum_of r (fun d nu => d = 1%nat /\ nu = mu)).
Proof. exact c54_row. Qed.
Print Assumptions C54_full_row_A.

Theorem C54_full_column_A : forall m n g lam,
  Grassmannian m n = Ok g -> 1 <= m < n -> in_box m (n - m) lam ->
  exists r, qmult g (pS (repeat 1 (Z.to_nat m))) (pS lam) = Ok r /\
    (part lam 0 < n - m -> exists mu, in_box m (n - m) mu /\
       (forall j, Z.of_nat j < m -> part mu j = part lam j + 1) /\ is_sum_of r (fun d nu => d = 0%nat /\ nu = mu)) /\
    (part lam 0 = n - m -> is_sum_of r (fun d nu => d = 1%nat /\ nu = tl lam)).
Proof. exact c54_col. Qed.
Print Assumptions C54_full_column_A.

Example C54_case :
  in_box 3 4 [4; 2; 1] /\ in_box 3 4 [3; 1] /\
  (exists r, qmult (mkGr TA 4 7) (pS [4]) (pS [4; 2; 1]) = Ok r /\ coef r [vS [3; 1]; VQ] = 1%Qc) /\
  (exists r, qmult (mkGr TA 4 7) (pS [4]) (pS [3; 1]) = Ok r /\ coef r [vS [4; 3; 1]] = 1%Qc) /\
  (exists r, qmult (mkGr TA 4 7) (pS [1; 1; 1]) (pS [4; 2; 1]) = Ok r /\ coef r [vS [2; 1]; VQ] = 1%Qc) /\
  (exists r, qmult (mkGr TA 4 7) (pS [1; 1; 1]) (pS [3; 1]) = Ok r /\ coef r [vS [4; 2; 1]] = 1%Qc).
Proof.
  split; [apply in_boxb_ok; reflexivity|]. split; [apply in_boxb_ok; reflexivity|].
  split; [|split; [|split]]; (eexists; split; [vm_compute; reflexivity|]; vm_compute; auto).
Qed.
