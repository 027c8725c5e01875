(** Properties C01-C11 and C43: (quantum) cohomology of the type A
    Grassmannian Gr(m,n).  The vocabulary is that of Spec.v. *)

From Coq Require Import ZArith List Lia Bool Permutation QArith Qcanon.
From Verif Require Import Py ModelPart ModelQcalc ModelPoly ModelStr ModelGr Spec Check ApiA.
Import ListNotations.
Open Scope Z_scope.

(** the concrete case used below: Gr(3,7) *)
Definition g37 : gr := mkGr TA 4 7.
Definition a37 : poly := [([VQ; vS [2; 1]], qz 1); ([vS [3]], qz 2)].
Definition b37 : poly := [([vS [4; 1]], Q2Qc (1 # 3)); ([VQ; VQ; vS [1; 1; 1]], qz (-5))].
Definition c37 : poly := [([vS [2; 2]; VQ], qz 1); ([vS []], qz 7)].

Example g37_ok : Grassmannian 3 7 = Ok g37.
Proof. reflexivity. Qed.
Example lam37_ok : in_box 3 4 [4; 2; 1] /\ in_box 3 4 [3; 3; 1].
Proof. split; apply in_boxb_ok; reflexivity. Qed.
Example abc37_ok : lin_comb (in_box 3 4) a37 /\ lin_comb (in_box 3 4) b37 /\ lin_comb (in_box 3 4) c37.
Proof. repeat split; apply lin_comb_box; vm_compute; reflexivity. Qed.

(** C01: pieri is the horizontal-strip rule. *)
Theorem C01_pieri_A : forall m n g i lam,
  Grassmannian m n = Ok g -> 1 <= m -> in_box m (n - m) lam -> 0 <= i ->
  exists p, pieri g i (pS lam) = Ok p /\
    is_sum_of p (fun d mu => d = O /\ in_box m (n - m) mu /\
                             adds_horizontal_strip lam mu /\ size mu = size lam + i).
Proof. exact c01. Qed.
Print Assumptions C01_pieri_A.

Example C01_case : exists p, pieri g37 2 (pS [3; 1]) = Ok p /\ coef p [vS [4; 2]] = 1%Qc /\
  coef p [vS [3; 2; 1]] = 1%Qc /\ coef p [vS [3; 3]] = 1%Qc /\ coef p [vS [4; 1; 1]] = 1%Qc.
Proof. eexists. split; [vm_compute; reflexivity|]. vm_compute. auto. Qed.

(** C02: qpieri is Bertram's rule. *)
Theorem C02_qpieri_A : forall m n g i lam,
  Grassmannian m n = Ok g -> 1 <= m -> in_box m (n - m) lam -> 1 <= i <= n - m ->
  exists p, qpieri g i (pS lam) = Ok p /\
    is_sum_of p (fun d mu => in_box m (n - m) mu /\
      ((d = 0%nat /\ adds_horizontal_strip lam mu /\ size mu = size lam + i) \/
       (d = 1%nat /\ bertram m lam mu /\ size mu = size lam + i - n))).
Proof. exact c02. Qed.
Print Assumptions C02_qpieri_A.

Example C02_case : exists p, qpieri g37 3 (pS [4; 2; 1]) = Ok p /\ coef p [VQ; vS [3]] = 1%Qc /\
  coef p [vS [4; 4; 2]] = 1%Qc.
Proof. eexists. split; [vm_compute; reflexivity|]. vm_compute. auto. Qed.

(** C03: the Pieri operators commute. *)
Theorem C03_pieri_commute_A : forall m n g c,
  Grassmannian m n = Ok g -> 1 <= m -> lin_comb (in_box m (n - m)) c ->
  (forall i j, 0 <= i -> 0 <= j ->
     exists x y x' y', pieri g i c = Ok x /\ pieri g j x = Ok y /\
       pieri g j c = Ok x' /\ pieri g i x' = Ok y' /\ peq y y') /\
  (forall i j, 1 <= i <= n - m -> 1 <= j <= n - m ->
     exists x y x' y', qpieri g i c = Ok x /\ qpieri g j x = Ok y /\
       qpieri g j c = Ok x' /\ qpieri g i x' = Ok y' /\ peq y y').
Proof. exact c03. Qed.
Print Assumptions C03_pieri_commute_A.

(** C04: giambelli terminates with a polynomial in the special classes which,
    acting on the unit, gives the class back; toS is the identity on linear
    combinations of classes. *)
Theorem C04_giambelli_A : forall m n g lam,
  Grassmannian m n = Ok g -> 1 <= m -> in_box m (n - m) lam ->
  (exists e r, giambelli g (pS lam) = Ok e /\
     poly_in (fun l => exists i, 1 <= i <= n - m /\ l = [i]) e /\
     act g e (pS []) = Ok r /\ peq r (pS lam)) /\
  (exists e r, qgiambelli g (pS lam) = Ok e /\
     poly_in (fun l => exists i, 1 <= i <= n - m /\ l = [i]) e /\
     qact g e (pS []) = Ok r /\ peq r (pS lam)).
Proof. exact c04. Qed.
Print Assumptions C04_giambelli_A.

Theorem C04_toS_A : forall m n g a,
  Grassmannian m n = Ok g -> lin_comb (in_box m (n - m)) a ->
  (exists r, toS g a = Ok r /\ peq r a) /\ (exists r, qtoS g a = Ok r /\ peq r a).
Proof. exact c04_lin. Qed.
Print Assumptions C04_toS_A.

Example C04_case : exists e, giambelli g37 (pS [2; 1]) = Ok e /\
  coef e [vS [1]; vS [2]] = 1%Qc /\ coef e [vS [3]] = qz (-1).
Proof. eexists. split; [vm_compute; reflexivity|]. vm_compute. auto. Qed.

(** C05: products commute. *)
Theorem C05_commutative_A : forall m n g a b,
  Grassmannian m n = Ok g -> lin_comb (in_box m (n - m)) a -> lin_comb (in_box m (n - m)) b ->
  (exists r r', mult g a b = Ok r /\ mult g b a = Ok r' /\ peq r r') /\
  (exists r r', qmult g a b = Ok r /\ qmult g b a = Ok r' /\ peq r r').
Proof. exact c05. Qed.
Print Assumptions C05_commutative_A.

Example C05_case : exists r, qmult g37 (pS [2; 1]) (pS [4; 2]) = Ok r /\
  coef r [vS [4; 4; 1]] = 1%Qc /\ coef r [vS [4; 3; 2]] = 1%Qc /\ coef r [VQ; vS [2]] = 1%Qc /\
  coef r [VQ; vS [1; 1]] = 1%Qc.
Proof. eexists. split; [vm_compute; reflexivity|]. vm_compute. auto. Qed.

(** C06: products are associative. *)
Theorem C06_associative_A : forall m n g a b c,
  Grassmannian m n = Ok g ->
  lin_comb (in_box m (n - m)) a -> lin_comb (in_box m (n - m)) b -> lin_comb (in_box m (n - m)) c ->
  (exists ab bc r r', mult g a b = Ok ab /\ mult g ab c = Ok r /\ mult g b c = Ok bc /\
     mult g a bc = Ok r' /\ peq r r') /\
  (exists ab bc r r', qmult g a b = Ok ab /\ qmult g ab c = Ok r /\ qmult g b c = Ok bc /\
     qmult g a bc = Ok r' /\ peq r r').
Proof. exact c06. Qed.
Print Assumptions C06_associative_A.

(** C07: S[] is the unit, products are additive and Q[q]-homogeneous in each
    argument. *)
Theorem C07_unit_A : forall m n g a,
  Grassmannian m n = Ok g -> lin_comb (in_box m (n - m)) a ->
  (exists r r', mult g (pS []) a = Ok r /\ mult g a (pS []) = Ok r' /\ peq r a /\ peq r' a) /\
  (exists r r', qmult g (pS []) a = Ok r /\ qmult g a (pS []) = Ok r' /\ peq r a /\ peq r' a).
Proof. exact c07_unit. Qed.
Print Assumptions C07_unit_A.

Theorem C07_additive_A : forall m n g a b c,
  Grassmannian m n = Ok g ->
  lin_comb (in_box m (n - m)) a -> lin_comb (in_box m (n - m)) b -> lin_comb (in_box m (n - m)) c ->
  ((exists r x y, mult g (padd a b) c = Ok r /\ mult g a c = Ok x /\ mult g b c = Ok y /\ peq r (padd x y)) /\
   (exists r x y, mult g a (padd b c) = Ok r /\ mult g a b = Ok x /\ mult g a c = Ok y /\ peq r (padd x y))) /\
  ((exists r x y, qmult g (padd a b) c = Ok r /\ qmult g a c = Ok x /\ qmult g b c = Ok y /\ peq r (padd x y)) /\
   (exists r x y, qmult g a (padd b c) = Ok r /\ qmult g a b = Ok x /\ qmult g a c = Ok y /\ peq r (padd x y))).
Proof. exact c07_add. Qed.
Print Assumptions C07_additive_A.

Theorem C07_scalar_A : forall m n g a b c,
  Grassmannian m n = Ok g -> lin_comb (in_box m (n - m)) a -> lin_comb (in_box m (n - m)) b ->
  (exists r x y, mult g a b = Ok r /\ mult g (pscale c a) b = Ok x /\ mult g a (pscale c b) = Ok y /\
    peq x (pscale c r) /\ peq y (pscale c r)) /\
  (exists r x y, qmult g a b = Ok r /\ qmult g (pscale c a) b = Ok x /\ qmult g a (pscale c b) = Ok y /\
    peq x (pscale c r) /\ peq y (pscale c r)).
Proof. exact c07_scale. Qed.
Print Assumptions C07_scalar_A.

Theorem C07_q_linear_A : forall m n g a b,
  Grassmannian m n = Ok g -> lin_comb (in_box m (n - m)) a -> lin_comb (in_box m (n - m)) b ->
  (exists r x y, mult g a b = Ok r /\ mult g (pmul (pvar VQ) a) b = Ok x /\
    mult g a (pmul (pvar VQ) b) = Ok y /\ peq x (pmul (pvar VQ) r) /\ peq y (pmul (pvar VQ) r)) /\
  (exists r x y, qmult g a b = Ok r /\ qmult g (pmul (pvar VQ) a) b = Ok x /\
    qmult g a (pmul (pvar VQ) b) = Ok y /\ peq x (pmul (pvar VQ) r) /\ peq y (pmul (pvar VQ) r)).
Proof. exact c07_q. Qed.
Print Assumptions C07_q_linear_A.

(** C08: toS and qtoS are ring homomorphisms. *)
Theorem C08_toS_mul_A : forall m n g a b,
  Grassmannian m n = Ok g -> poly_in (in_box m (n - m)) a -> poly_in (in_box m (n - m)) b ->
  (exists x y r s, toS g a = Ok x /\ toS g b = Ok y /\ toS g (pmul a b) = Ok r /\ mult g x y = Ok s /\
    peq r s /\ lin_comb (in_box m (n - m)) r) /\
  (exists x y r s, qtoS g a = Ok x /\ qtoS g b = Ok y /\ qtoS g (pmul a b) = Ok r /\ qmult g x y = Ok s /\
    peq r s /\ lin_comb (in_box m (n - m)) r).
Proof. exact c08_mul. Qed.
Print Assumptions C08_toS_mul_A.

Theorem C08_toS_add_A : forall m n g a b,
  Grassmannian m n = Ok g -> poly_in (in_box m (n - m)) a -> poly_in (in_box m (n - m)) b ->
  (exists x y r, toS g a = Ok x /\ toS g b = Ok y /\ toS g (padd a b) = Ok r /\ peq r (padd x y)) /\
  (exists x y r, qtoS g a = Ok x /\ qtoS g b = Ok y /\ qtoS g (padd a b) = Ok r /\ peq r (padd x y)).
Proof. exact c08_add. Qed.
Print Assumptions C08_toS_add_A.

Example C08_case : poly_in (in_box 3 4) [([vS [2; 1]; vS [2; 1]; vS [3]], qz 2); ([VQ; vS [4; 4]; vS [1]], qz 1)].
Proof. apply poly_in_box. vm_compute. reflexivity. Qed.

(** C09: q = 0. *)
Theorem C09_qmult_q0_A : forall m n g,
  Grassmannian m n = Ok g -> 1 <= m ->
  forall a b, lin_comb0 (in_box m (n - m)) a -> lin_comb0 (in_box m (n - m)) b ->
  exists x r, qmult g a b = Ok x /\ mult g a b = Ok r /\ same_q_free_part x r.
Proof. exact c09. Qed.
Print Assumptions C09_qmult_q0_A.

Theorem C09_qtoS_q0_A : forall m n g,
  Grassmannian m n = Ok g -> 1 <= m ->
  forall a, poly_in (in_box m (n - m)) a -> (forall mo, In VQ mo -> coef a mo = 0%Qc) ->
  exists x r, qtoS g a = Ok x /\ toS g a = Ok r /\ same_q_free_part x r.
Proof. exact c09_to. Qed.
Print Assumptions C09_qtoS_q0_A.

Theorem C09_qpieri_q0_A : forall m n g,
  Grassmannian m n = Ok g -> 1 <= m ->
  forall i lam, in_box m (n - m) lam -> 1 <= i <= n - m ->
  exists x r, qpieri g i (pS lam) = Ok x /\ pieri g i (pS lam) = Ok r /\ same_q_free_part x r.
Proof. exact c09_pieri. Qed.
Print Assumptions C09_qpieri_q0_A.

Example C09_case : lin_comb0 (in_box 3 4) (pS [4; 2; 1]) /\
  exists x, qmult g37 (pS [4; 2; 1]) (pS [3; 3; 1]) = Ok x /\ coef x [VQ; vS [3; 3; 1]] = 1%Qc.
Proof.
  split; [apply lin_comb0_pS; apply in_boxb_ok; reflexivity|].
  eexists. split; [vm_compute; reflexivity|]. vm_compute. auto.
Qed.

(** C10: degrees and integrality. *)
Theorem C10_pieri_degree_A : forall m n g i lam,
  Grassmannian m n = Ok g -> 1 <= m -> in_box m (n - m) lam -> 1 <= i <= n - m ->
  (exists r, pieri g i (pS lam) = Ok r /\ homogeneous (degree_q g) (size lam + i) r /\ integral r) /\
  (exists r, qpieri g i (pS lam) = Ok r /\ homogeneous (degree_q g) (size lam + i) r /\ integral r).
Proof. exact c10_pieri. Qed.
Print Assumptions C10_pieri_degree_A.

Theorem C10_mult_degree_A : forall m n g lam mu,
  Grassmannian m n = Ok g -> 1 <= m -> in_box m (n - m) lam -> in_box m (n - m) mu ->
  (exists r, mult g (pS lam) (pS mu) = Ok r /\ homogeneous (degree_q g) (size lam + size mu) r /\ integral r) /\
  (exists r, qmult g (pS lam) (pS mu) = Ok r /\ homogeneous (degree_q g) (size lam + size mu) r /\ integral r).
Proof. exact c10_mult. Qed.
Print Assumptions C10_mult_degree_A.

(** C11: Poincare duality. *)
Theorem C11_duality_A : forall m n g lam mu,
  Grassmannian m n = Ok g -> 1 <= m -> in_box m (n - m) lam -> in_box m (n - m) mu ->
  exists r, mult g (pS lam) (pS mu) = Ok r /\
    (complementary m (n - m) lam mu -> coef r [vS (point_class g)] = 1%Qc) /\
    (~ complementary m (n - m) lam mu -> coef r [vS (point_class g)] = 0%Qc).
Proof. exact c11. Qed.
Print Assumptions C11_duality_A.

Example C11_case : complementary 3 4 [4; 2; 1] [3; 2] /\
  exists r, mult g37 (pS [4; 2; 1]) (pS [3; 2]) = Ok r /\ coef r [vS [4; 4; 4]] = 1%Qc.
Proof.
  split.
  - intros j Hj. do 3 (destruct j as [|j]; [reflexivity|]). lia.
  - eexists. split; [vm_compute; reflexivity|]. vm_compute. auto.
Qed.

(** C43: multiplying by a special class is the Pieri rule. *)
Theorem C43_mult_special_A : forall m n g i c,
  Grassmannian m n = Ok g -> 1 <= m -> 1 <= i <= n - m -> lin_comb (in_box m (n - m)) c ->
  (exists r r', mult g (pS [i]) c = Ok r /\ pieri g i c = Ok r' /\ peq r r') /\
  (exists r r', qmult g (pS [i]) c = Ok r /\ qpieri g i c = Ok r' /\ peq r r').
Proof. exact c43_api. Qed.
Print Assumptions C43_mult_special_A.
