(** Properties C25, C26, C42 and C44: the classical and quantum Pieri rules of
    isotropic Grassmannians.  The vocabulary is that of Spec.v and SpecPieri.v. *)

From Coq Require Import ZArith List Lia Bool QArith Qcanon.
From Verif Require Import Py ModelPart ModelQcalc ModelPoly ModelGr Spec SpecPieri Check ApiPieriP TwoBad.
Import ListNotations.
Open Scope Z_scope.

(** C25: the coefficients of pieri and qpieri are positive integers. *)
Theorem C25_positive_IG : forall m N g p lam,
  IsotropicGrassmannian m N = Ok g -> class_IG m N lam ->
  (exists r, pieri g p (pS lam) = Ok r /\ positive_coefs r) /\
  (p <= N - m -> exists r, qpieri g p (pS lam) = Ok r /\ positive_coefs r).
Proof. exact c25_IG. Qed.
Print Assumptions C25_positive_IG.

Theorem C25_positive_OG : forall m N g p lam,
  OrthogonalGrassmannian m N = Ok g -> m <= N / 2 -> 1 <= N -> class_OG m N lam ->
  exists r, pieri g p (pS lam) = Ok r /\ positive_coefs r.
Proof. exact c25_OG. Qed.
Print Assumptions C25_positive_OG.

(** The last hypothesis excludes the cases in which qpieri may raise (C42). *)
Theorem C25_quantum_OG : forall m N g p lam,
  OrthogonalGrassmannian m N = Ok g -> 1 <= m <= N / 2 -> 3 <= N -> class_OG m N lam ->
  2 * m <> N - 2 \/ N <= 16 ->
  exists r, qpieri g p (pS lam) = Ok r /\ positive_coefs r.
Proof. exact c25_qOG. Qed.
Print Assumptions C25_quantum_OG.

(** C26: pieri and qpieri are homogeneous, q having degree degree_q(). *)
Theorem C26_homogeneous_IG : forall m N g p lam,
  IsotropicGrassmannian m N = Ok g -> class_IG m N lam ->
  (exists r, pieri g p (pS lam) = Ok r /\ homogeneous (degree_q g) (size lam + p) r) /\
  (p <= N - m -> exists r, qpieri g p (pS lam) = Ok r /\ homogeneous (degree_q g) (size lam + p) r).
Proof. exact c26_IG. Qed.
Print Assumptions C26_homogeneous_IG.

Theorem C26_homogeneous_OG : forall m N g p lam,
  OrthogonalGrassmannian m N = Ok g -> m <= N / 2 -> 1 <= N -> class_OG m N lam ->
  exists r, pieri g p (pS lam) = Ok r /\
    homogeneous (degree_q g) (size lam + if Z.even N then Z.abs p else p) r.
Proof. exact c26_OG. Qed.
Print Assumptions C26_homogeneous_OG.

Theorem C26_quantum_OG : forall m N g p lam,
  OrthogonalGrassmannian m N = Ok g -> 1 <= m <= N / 2 -> 3 <= N -> class_OG m N lam -> 2 * m <> N - 2 ->
  exists r, qpieri g p (pS lam) = Ok r /\
    homogeneous (degree_q g) (size lam + if Z.even N then Z.abs p else p) r.
Proof. exact c26_qOG. Qed.
Print Assumptions C26_quantum_OG.

(** OG(m,2m+2): q1 and q2 both have degree degree_q(). *)
Theorem C26_quantum_OG_two_parameters : forall m N g p lam,
  OrthogonalGrassmannian m N = Ok g -> N = 2 * m + 2 -> 1 <= m -> N <= 16 -> class_OG m N lam ->
  exists r, qpieri g p (pS lam) = Ok r /\ homogeneous12 (degree_q g) (size lam + Z.abs p) r.
Proof. exact c26_qOG_one. Qed.
Print Assumptions C26_quantum_OG_two_parameters.

(** C44: pieri and qpieri are the rules of Buch, Kresch and Tamvakis. *)
Theorem C44_pieri_IG : forall m N g p lam,
  IsotropicGrassmannian m N = Ok g -> class_IG m N lam ->
  exists r c, pieri g p (pS lam) = Ok r /\ expands0 r c /\
    forall mu, coef_IG (N / 2 - m) (N / 2) p 0 lam mu (c mu).
Proof. exact c44_IG'. Qed.
Print Assumptions C44_pieri_IG.

Theorem C44_qpieri_IG : forall m N g p lam,
  IsotropicGrassmannian m N = Ok g -> class_IG m N lam -> p <= N - m ->
  exists r c, qpieri g p (pS lam) = Ok r /\ expands r c /\ quantum_IG (N / 2 - m) (N / 2) p lam c.
Proof. exact c44_qIG'. Qed.
Print Assumptions C44_qpieri_IG.

Theorem C44_pieri_OG : forall m N g p lam,
  OrthogonalGrassmannian m N = Ok g -> m <= N / 2 -> 1 <= N -> class_OG m N lam ->
  exists r c, pieri g p (pS lam) = Ok r /\ expands0 r c /\
    forall mu, if Z.even N then coef_D (N / 2 - m) (N / 2 - 1) p lam mu (c mu)
               else coef_OG (N / 2 - m) (N / 2) p lam mu (c mu).
Proof. exact c44_OG'. Qed.
Print Assumptions C44_pieri_OG.

Theorem C44_qpieri_OG_odd : forall m N g p lam,
  OrthogonalGrassmannian m N = Ok g -> Z.odd N = true -> 1 <= m <= N / 2 -> class_OG m N lam ->
  exists r c, qpieri g p (pS lam) = Ok r /\ expands r c /\
    if m =? N / 2 then quantum_OGmax (N / 2) p lam c else quantum_OG (N / 2 - m) (N / 2) p lam c.
Proof. exact c44_qOG_odd'. Qed.
Print Assumptions C44_qpieri_OG_odd.

Theorem C44_qpieri_OG_even : forall m N g p lam,
  OrthogonalGrassmannian m N = Ok g -> Z.even N = true -> 4 <= N -> 1 <= m <= N / 2 -> m <> N / 2 - 1 ->
  class_OG m N lam ->
  exists r c, qpieri g p (pS lam) = Ok r /\ expands r c /\
    if m =? N / 2 then quantum_Dmax (N / 2 - 1) p lam c else quantum_D (N / 2 - m) (N / 2 - 1) p lam c.
Proof. exact c44_qOG_even'. Qed.
Print Assumptions C44_qpieri_OG_even.

Theorem C44_qpieri_OG_two_parameters : forall m N g p lam,
  OrthogonalGrassmannian m N = Ok g -> Z.even N = true -> N <= 16 -> 1 <= m -> m = N / 2 - 1 ->
  class_OG m N lam ->
  exists r c, qpieri g p (pS lam) = Ok r /\ expands12 r c /\ quantum_D1 m p lam c.
Proof. exact c44_qOG_one'. Qed.
Print Assumptions C44_qpieri_OG_two_parameters.

(** C42: qpieri returns on every class of every even orthogonal Grassmannian but
    the OG(N/2-1,N) with N > 16 ([C42_refuted] in PropsMisc.v). *)
Theorem C42_returns : forall m N g p lam,
  OrthogonalGrassmannian m N = Ok g -> Z.even N = true -> 4 <= N -> 1 <= m <= N / 2 ->
  m <> N / 2 - 1 \/ N <= 16 -> class_OG m N lam -> exists r, qpieri g p (pS lam) = Ok r.
Proof. exact c42_returns. Qed.
Print Assumptions C42_returns.

(** With two quantum parameters, qpieri returns a combination of classes on every
    class exactly up to N = 16: for every larger N there is a class on which it
    raises, or returns symbols that are not classes. *)
Theorem C42_two_parameters : forall m N g,
  OrthogonalGrassmannian m N = Ok g -> Z.even N = true -> 1 <= m -> m = N / 2 - 1 ->
  (N <= 16 <-> returns_classes (class_OG m N) (qpieri g)).
Proof. exact c42_iff. Qed.
Print Assumptions C42_two_parameters.
Example C42_case_20 : OrthogonalGrassmannian 9 20 = Ok (mkGr TD 1 9) /\ Z.even 20 = true /\ 9 = 20 / 2 - 1 /\
  class_OG 9 20 [10; 3; 1] /\ ~ returns_classes (class_OG 9 20) (qpieri (mkGr TD 1 9)).
Proof.
  split; [reflexivity|]. split; [reflexivity|]. split; [reflexivity|]. split.
  - left. split; [apply in_boxb_ok; reflexivity|]. intros [|[|[|[|j]]]]; unfold part; simpl; lia.
  - intros H. apply (c42_iff 9 20 (mkGr TD 1 9)) in H; [lia|reflexivity|reflexivity|lia|reflexivity].
Qed.

(** Cases: LG(3,6), IG(2,6), OG(2,7), OG(3,10) and OG(3,8). *)
Example C44_case_IG : IsotropicGrassmannian 3 6 = Ok (mkGr TC 0 3) /\
  pieri (mkGr TC 0 3) 1 (pS [2]) = Ok [([vS [2; 1]], 1%Qc); ([vS [3]], qz 2)] /\
  IsotropicGrassmannian 2 6 = Ok (mkGr TC 1 3) /\ class_IG 2 6 [3; 1] /\
  qpieri (mkGr TC 1 3) 2 (pS [3; 1]) = Ok [([vS [1]; VQ], 1%Qc); ([vS [4; 2]], 1%Qc)] /\ degree_q (mkGr TC 1 3) = 5.
Proof.
  split; [reflexivity|]. split; [vm_compute; reflexivity|]. split; [reflexivity|]. split.
  - split; [apply in_boxb_ok; reflexivity|]. intros [|[|[|j]]]; unfold part; simpl; lia.
  - split; vm_compute; reflexivity.
Qed.
Example C44_case_OG : OrthogonalGrassmannian 2 7 = Ok (mkGr TB 1 3) /\
  qpieri (mkGr TB 1 3) 3 (pS [4; 2]) = Ok [([vS [1]; VQ; VQ], 1%Qc); ([vS [3; 2]; VQ], 1%Qc)] /\
  OrthogonalGrassmannian 3 10 = Ok (mkGr TD 2 4) /\ class_OG 3 10 [6; 2; 1] /\
  qpieri (mkGr TD 2 4) (-2) (pS [6; 2; 1]) =
    Ok [([vS [3; 1; 1]; VQ], 1%Qc); ([vS [6; 3; 2]], 1%Qc); ([vS [6; 4; 1]], 1%Qc)] /\
  OrthogonalGrassmannian 3 8 = Ok (mkGr TD 1 3) /\
  qpieri (mkGr TD 1 3) 3 (pS [4; 2; 1]) = Ok [([vS [1; 1]; VQ1; VQ2], 1%Qc); ([vS [3; 2; 1; 0]; VQ1], 1%Qc)].
Proof.
  split; [reflexivity|]. split; [vm_compute; reflexivity|]. split; [reflexivity|]. split.
  - left. split; [apply in_boxb_ok; reflexivity|]. intros [|[|[|[|j]]]]; unfold part; simpl; lia.
  - split; [vm_compute; reflexivity|]. split; [reflexivity|]. vm_compute; reflexivity.
Qed.
