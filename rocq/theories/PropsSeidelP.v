(** Property C100: the class of a point on the spinor varieties OG(n,2n+1) and
    OG(n+1,2n+2). *)

From Coq Require Import ZArith List Lia QArith Qcanon.
From Verif Require Import Py ModelPart ModelQcalc ModelPoly ModelStr ModelGr Spec SpecPieri SpecSeidel SeidelP Check.
Import ListNotations.
Open Scope Z_scope.

(** C100: the quantum product of S[lam] with S[n,n-1,...,1], the class of a point, is a
    single term q^d S[mu].  A number j below n is a row of mu iff n-j is not a row of
    lam; n is a row of mu iff lam has an even number of rows; d is half the number of
    rows of lam, rounded up. *)
Theorem C100_point_OG_odd : forall n g lam,
  OrthogonalGrassmannian n (2 * n + 1) = Ok g -> 1 <= n -> class_OG n (2 * n + 1) lam ->
  exists r mu d, qmult g (pS (map (fun j => n - j) (zrange 0 n))) (pS lam) = Ok r /\ class_OG n (2 * n + 1) mu /\
  is_sum_of r (fun e nu => e = d /\ nu = mu) /\
  (forall j, In j mu <-> (j = n /\ Z.even (zlen lam) = true) \/ (1 <= j < n /\ ~ In (n - j) lam)) /\
  Z.of_nat d = (zlen lam + 1) / 2.
Proof. exact (fun n g lam Hg Hn => c100_rot n g Hg Hn lam). Qed.
Print Assumptions C100_point_OG_odd.

Theorem C100_point_OG_even : forall n g lam,
  OrthogonalGrassmannian (n + 1) (2 * n + 2) = Ok g -> 1 <= n -> class_OG (n + 1) (2 * n + 2) lam ->
  exists r mu d, qmult g (pS (map (fun j => n - j) (zrange 0 n))) (pS lam) = Ok r /\ class_OG (n + 1) (2 * n + 2) mu /\
  is_sum_of r (fun e nu => e = d /\ nu = mu) /\
  (forall j, In j mu <-> (j = n /\ Z.even (zlen lam) = true) \/ (1 <= j < n /\ ~ In (n - j) lam)) /\
  Z.of_nat d = (zlen lam + 1) / 2.
Proof. exact (fun n g lam Hg Hn => c100_rot2 n g Hg Hn lam). Qed.
Print Assumptions C100_point_OG_even.

(** The rotation permutes the structure constants. *)
Theorem C100_symmetry_OG_odd : forall n g, OrthogonalGrassmannian n (2 * n + 1) = Ok g -> 1 <= n ->
  top_sym (qmult g) (class_OG n (2 * n + 1)) (map (fun j => n - j) (zrange 0 n)).
Proof. exact c100_sym. Qed.
Print Assumptions C100_symmetry_OG_odd.
Theorem C100_symmetry_OG_even : forall n g, OrthogonalGrassmannian (n + 1) (2 * n + 2) = Ok g -> 1 <= n ->
  top_sym (qmult g) (class_OG (n + 1) (2 * n + 2)) (map (fun j => n - j) (zrange 0 n)).
Proof. exact c100_sym2. Qed.
Print Assumptions C100_symmetry_OG_even.

Example C100_case : OrthogonalGrassmannian 4 9 = Ok (mkGr TB 0 4) /\ OrthogonalGrassmannian 5 10 = Ok (mkGr TD 0 4) /\
  class_OG 4 9 [4; 2; 1] /\
  (exists r, qmult (mkGr TB 0 4) (pS [4; 3; 2; 1]) (pS [4; 2; 1]) = Ok r /\ coef r (qS 2 [1]) = 1%Qc) /\
  (exists r, qmult (mkGr TD 0 4) (pS [4; 3; 2; 1]) (pS [4; 2; 1]) = Ok r /\ coef r (qS 2 [1]) = 1%Qc) /\
  (exists r, qmult (mkGr TB 0 4) (pS [4; 3; 2; 1]) (pS [3; 1]) = Ok r /\ coef r (qS 1 [4; 2]) = 1%Qc).
Proof.
  split; [reflexivity|]. split; [reflexivity|]. split; [split; [apply in_boxb_ok; reflexivity|]; intros [|[|[|[|j]]]]; unfold part; simpl; lia|].
  split; [|split]; eexists; split; vm_compute; reflexivity.
Qed.
