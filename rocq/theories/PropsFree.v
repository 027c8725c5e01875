(** Products without multiplicities on Gr(m,n) (C81). *)

From Coq Require Import ZArith List Lia Bool Permutation QArith Qcanon.
From Verif Require Import Py ModelPart ModelQcalc ModelPoly ModelStr ModelGr Spec SpecFree Check MultFree.
Import ListNotations.
Open Scope Z_scope.

(** C81: products with a class one row (or one column) away from a rectangle, and all products on
    Gr(m,n) with m <= 2 or n - m <= 2, have only the coefficients 0 and 1, also with q. *)
Theorem C81_near_rectangle_A : forall m n g lam mu,
  Grassmannian m n = Ok g -> 1 <= m < n -> in_box m (n - m) lam -> in_box m (n - m) mu ->
  near_rectangle m (n - m) lam \/ (exists lam', is_conjugate lam lam' /\ near_rectangle (n - m) m lam') ->
  exists x y, mult g (pS lam) (pS mu) = Ok x /\ qmult g (pS lam) (pS mu) = Ok y /\ multiplicity_free x /\ multiplicity_free y.
Proof. exact c81. Qed.
Print Assumptions C81_near_rectangle_A.

Theorem C81_two_rows_A : forall m n g lam mu,
  Grassmannian m n = Ok g -> 1 <= m < n -> m <= 2 \/ n - m <= 2 -> in_box m (n - m) lam -> in_box m (n - m) mu ->
  exists x y, mult g (pS lam) (pS mu) = Ok x /\ qmult g (pS lam) (pS mu) = Ok y /\ multiplicity_free x /\ multiplicity_free y.
Proof. exact c81_two. Qed.
Print Assumptions C81_two_rows_A.

(** The hypotheses can be met by classes whose products have several terms, and they are not
    superfluous: on Gr(3,6) the square of [2; 1] has a coefficient 2. *)
Example C81_case : in_box 3 3 [3; 1; 1] /\ in_box 3 3 [2; 1] /\ near_rectangle 3 3 [3; 1; 1] /\
  (exists r, qmult (mkGr TA 3 6) (pS [3; 1; 1]) (pS [2; 1]) = Ok r /\
     coef r (qS 0 [3; 3; 2]) = 1%Qc /\ coef r (qS 1 [2]) = 1%Qc /\ coef r (qS 1 [1; 1]) = 1%Qc /\ coef r (qS 0 [3; 2; 1]) = 0%Qc) /\
  (exists r, qmult (mkGr TA 4 6) (pS [3; 1]) (pS [2; 2]) = Ok r /\ coef r (qS 1 [2]) = 1%Qc) /\
  (exists r, mult (mkGr TA 3 6) (pS [2; 1]) (pS [2; 1]) = Ok r /\ ~ multiplicity_free r).
Proof.
  split; [apply in_boxb_ok; reflexivity|]. split; [apply in_boxb_ok; reflexivity|]. split.
  - left. intros [|[|[|i]]] [|[|[|j]]] Hi Hj; try lia; reflexivity.
  - split; [eexists; split; [vm_compute; reflexivity|vm_compute; repeat split; reflexivity]|].
    split; [eexists; split; [vm_compute; reflexivity|vm_compute; repeat split; reflexivity]|].
    eexists. split; [vm_compute; reflexivity|]. intros H. destruct (H [vS [3; 2; 1]]) as [E|E]; vm_compute in E; discriminate.
Qed.
