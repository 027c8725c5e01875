(** C83, C84: degrees of Giambelli polynomials and of products with two quantum parameters. *)

From Coq Require Import ZArith List Lia QArith Qcanon.
From Verif Require Import Py ModelPart ModelQcalc ModelPoly ModelGr Spec SpecRing SpecPieri SpecAct SpecWeight PartFacts Check ApiWeight.
Import ListNotations.
Open Scope Z_scope.

(** C83: the Giambelli polynomial of a class has integer coefficients and is homogeneous of the degree of the class. *)
Theorem C83_Gr : forall m n g, Grassmannian m n = Ok g -> 1 <= m ->
  keeps_degree (in_box m (n - m)) (degree_q g) (giambelli g) /\
  keeps_degree (in_box m (n - m)) (degree_q g) (qgiambelli g).
Proof. exact c83_A. Qed.
Print Assumptions C83_Gr.

Theorem C83_IG : forall m N g, IsotropicGrassmannian m N = Ok g -> 1 <= m ->
  keeps_degree (class_IG m N) (degree_q g) (giambelli g) /\
  keeps_degree (class_IG m N) (degree_q g) (qgiambelli g).
Proof. exact c83_IG. Qed.
Print Assumptions C83_IG.

Theorem C83_OG : forall m N g, OrthogonalGrassmannian m N = Ok g -> 3 <= N -> 1 <= m <= N / 2 ->
  keeps_degree (class_OG m N) (degree_q g) (giambelli g) /\
  keeps_degree (class_OG m N) (degree_q g) (qgiambelli g).
Proof. exact c83_OG. Qed.
Print Assumptions C83_OG.

(** On IG(2,4) q has degree 3, and S[2,1] = S[1] S[2] - q. *)
Example C83_case : IsotropicGrassmannian 2 4 = Ok (mkGr TC 0 2) /\ class_IG 2 4 [2; 1] /\
  degree_q (mkGr TC 0 2) = 3 /\
  qgiambelli (mkGr TC 0 2) (pS [2; 1]) = Ok [([vS [1]; vS [2]], 1%Qc); ([VQ], Q2Qc (-1))].
Proof.
  split; [reflexivity|]. split; [split; [apply in_boxb_ok; reflexivity|]; intros [|[|[|j]]]; unfold part; simpl; lia|].
  split; vm_compute; reflexivity.
Qed.

(** C84: OG(m,2m+2), 2m + 2 <= 16, with its two quantum parameters. *)
Theorem C84_homogeneous : forall m N g, OrthogonalGrassmannian m N = Ok g ->
  Z.even N = true -> N <= 16 -> 1 <= m -> m = N / 2 - 1 ->
  forall lam nu, class_OG m N lam -> class_OG m N nu ->
  exists r, qmult g (pS lam) (pS nu) = Ok r /\ homogeneous12 (degree_q g) (size lam + size nu) r /\ integral r.
Proof. exact two_homog. Qed.
Print Assumptions C84_homogeneous.

Theorem C84_q0 : forall m N g, OrthogonalGrassmannian m N = Ok g ->
  Z.even N = true -> N <= 16 -> 1 <= m -> m = N / 2 - 1 ->
  forall a b, lin_comb0 (class_OG m N) a -> lin_comb0 (class_OG m N) b ->
  exists x r, qmult g a b = Ok x /\ mult g a b = Ok r /\ same_part_without_q x r.
Proof. exact two_q0. Qed.
Print Assumptions C84_q0.

(** On OG(2,6) both parameters have degree 3. *)
Example C84_case : OrthogonalGrassmannian 2 6 = Ok (mkGr TD 1 2) /\ class_OG 2 6 [2; 1] /\ class_OG 2 6 [3] /\
  degree_q (mkGr TD 1 2) = 3 /\
  qmult (mkGr TD 1 2) (pS [2; 1]) (pS [2; 1]) = Ok [([vS [3]; VQ1], 1%Qc)] /\
  mult (mkGr TD 1 2) (pS [2; 1]) (pS [2; 1]) = Ok pzero.
Proof.
  split; [reflexivity|]. split; [left; split; [apply in_boxb_ok; reflexivity|]; intros [|[|[|j]]]; unfold part; simpl; lia|].
  split; [left; split; [apply in_boxb_ok; reflexivity|]; intros [|[|[|j]]]; unfold part; simpl; lia|].
  split; [reflexivity|]. split; vm_compute; reflexivity.
Qed.
