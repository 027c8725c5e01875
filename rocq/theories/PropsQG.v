(** C89: the quantum Giambelli formula of IG(m,N) is the classical one of IG(m+1,N+2). *)

From Coq Require Import ZArith List Lia QArith Qcanon.
From Verif Require Import Py ModelPart ModelQcalc ModelPoly ModelStr ModelGr Spec SpecPieri SpecRing SpecAct SpecWeight SpecQG ApiRing PolyFacts PartFacts Check ApiQG.
Import ListNotations.
Open Scope Z_scope.

Theorem C89_quantum : forall m N g g' a,
  IsotropicGrassmannian m N = Ok g -> IsotropicGrassmannian (m + 1) (N + 2) = Ok g' -> poly_in (class_IG m N) a ->
  exists e e', qgiambelli g a = Ok e /\ giambelli g' a = Ok e' /\ peq e (put (row_becomes (N + 1 - m) half_q) e').
Proof. exact c89_quantum. Qed.
Print Assumptions C89_quantum.

Theorem C89_classical : forall m N g g' a,
  IsotropicGrassmannian m N = Ok g -> IsotropicGrassmannian (m + 1) (N + 2) = Ok g' -> poly_in (class_IG m N) a ->
  exists e e', giambelli g a = Ok e /\ giambelli g' a = Ok e' /\ peq e (put (row_becomes (N + 1 - m) pzero) e').
Proof. exact c89_classical. Qed.
Print Assumptions C89_classical.

Theorem C89_small_degree : forall m N g lam,
  IsotropicGrassmannian m N = Ok g -> class_IG m N lam -> size lam < degree_q g ->
  exists e e', qgiambelli g (pS lam) = Ok e /\ giambelli g (pS lam) = Ok e' /\ peq e e'.
Proof. exact c89_small. Qed.
Print Assumptions C89_small_degree.

(** on IG(2,6) the class S[5] of IG(3,8) turns into q/2, respectively 0 *)
Example C89_case : IsotropicGrassmannian 2 6 = Ok (mkGr TC 1 3) /\ IsotropicGrassmannian (2 + 1) (6 + 2) = Ok (mkGr TC 1 4) /\ class_IG 2 6 [4; 1] /\
  qgiambelli (mkGr TC 1 3) (pS [4; 1]) = Ok [([vS [1]; vS [4]], 1%Qc); ([VQ], Q2Qc (-1))] /\
  giambelli (mkGr TC 1 4) (pS [4; 1]) = Ok [([vS [1]; vS [4]], 1%Qc); ([vS [5]], Q2Qc (-2))] /\
  giambelli (mkGr TC 1 3) (pS [4; 1]) = Ok [([vS [1]; vS [4]], 1%Qc)].
Proof.
  split; [reflexivity|]. split; [reflexivity|].
  split; [split; [apply in_boxb_ok; reflexivity|]; intros [|[|[|j]]]; unfold part; simpl; lia|].
  split; [vm_compute; reflexivity|]. split; vm_compute; reflexivity.
Qed.
(** the bound is sharp: [4; 1] has five boxes, q has degree five *)
Example C89_small_case : class_IG 2 6 [3; 1] /\ size [3; 1] = 4 /\ degree_q (mkGr TC 1 3) = 5 /\ size [4; 1] = 5.
Proof.
  split; [split; [apply in_boxb_ok; reflexivity|]; intros [|[|[|j]]]; unfold part; simpl; lia|].
  split; [reflexivity|]. split; reflexivity.
Qed.
