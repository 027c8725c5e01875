(** Property theorems: powers of the class S[1]. *)

From Coq Require Import ZArith List Lia QArith Qcanon.
From Verif Require Import Py ModelPoly ModelGr Spec SpecProd SpecDegree DegreeA DegreeMax.
Import ListNotations.
Open Scope Z_scope.

(** C96: the coefficients of toS(S[1]^N) are given by closed formulas.  Gr(m,n):
    the formula of Frobenius for the number of standard tableaux of shape nu. *)
Theorem C96_powers_A : forall m n g, Grassmannian m n = Ok g -> 1 <= m -> 1 <= n - m ->
  power_law (in_box m (n - m)) (toS g) (frobenius m).
Proof. exact c96_A. Qed.
Print Assumptions C96_powers_A.

(** IG(n,2n): Schur's formula times 2^(N - number of rows) *)
Theorem C96_powers_LG : forall N g, IsotropicGrassmannian (N / 2) N = Ok g -> 2 <= N ->
  power_law (class_IG (N / 2) N) (toS g) (fun M nu => schur_formula (2 ^ (Z.of_nat M - Z.of_nat (length nu))) M nu).
Proof. exact c96_LG. Qed.
Print Assumptions C96_powers_LG.

(** OG(n,2n+1) and OG(n+1,2n+2): Schur's formula *)
Theorem C96_powers_OG_max : forall N g, OrthogonalGrassmannian (N / 2) N = Ok g -> 3 <= N ->
  power_law (class_OG (N / 2) N) (toS g) (schur_formula 1).
Proof. exact c96_OG. Qed.
Print Assumptions C96_powers_OG_max.

(** the degrees of Gr(2,5), Gr(3,6), LG(3,6), LG(4,8), OG(5,10), and a run *)
Example C96_case :
  frobenius 2 6 [3; 3] 5 /\ frobenius 3 9 [3; 3; 3] 42 /\
  schur_formula (2 ^ (6 - 3)) 6 [3; 2; 1] 16 /\ schur_formula (2 ^ (10 - 4)) 10 [4; 3; 2; 1] 768 /\ schur_formula 1 10 [4; 3; 2; 1] 12 /\
  (exists g r, Grassmannian 2 4 = Ok g /\ toS g (power_of_S1 4) = Ok r /\ coef r [vS [2; 2]] = Q2Qc 2 /\ in_box 2 (4 - 2) [2; 2]) /\
  (exists g r, IsotropicGrassmannian (4 / 2) 4 = Ok g /\ toS g (power_of_S1 3) = Ok r /\ coef r [vS [2; 1]] = Q2Qc 2) /\
  (exists g r, OrthogonalGrassmannian (6 / 2) 6 = Ok g /\ toS g (power_of_S1 3) = Ok r /\ coef r [vS [2; 1]] = Q2Qc 1).
Proof.
  split; [reflexivity|]. split; [reflexivity|]. split; [reflexivity|]. split; [reflexivity|]. split; [reflexivity|]. split; [|split].
  - eexists. eexists. split; [reflexivity|]. split; [vm_compute; reflexivity|]. split; [vm_compute; reflexivity|].
    split; [|split; [simpl; lia|unfold part; simpl; lia]]. split; [intros [|[|j]] H; unfold part; simpl in *; lia|intros [|[|j]]; unfold part; simpl; try lia; destruct j; lia].
  - eexists. eexists. split; [reflexivity|]. split; [vm_compute; reflexivity|]. vm_compute; reflexivity.
  - eexists. eexists. split; [reflexivity|]. split; [vm_compute; reflexivity|]. vm_compute; reflexivity.
Qed.
