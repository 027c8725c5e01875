(** C110: putting to 0 the classes of a larger space that are not classes of a smaller one respects mult and toS, for all polynomials in
    the classes: multiply on the larger space and put the classes to 0, or put them to 0 and multiply on the smaller space. *)

From Coq Require Import ZArith List Lia Bool QArith Qcanon.
From Verif Require Import Py ModelPart ModelQcalc ModelPoly ModelStr ModelGr Spec SpecPieri SpecRing SpecAct SpecQG SpecRows PolyFacts Check StabHom.
Import ListNotations.
Open Scope Z_scope.

Theorem C110_type_A : forall m n i j g g' a b, 1 <= m -> 0 <= i -> 0 <= j -> Grassmannian m n = Ok g -> Grassmannian (m + i) (n + i + j) = Ok g' ->
  poly_in (in_box (m + i) (n - m + j)) a -> lin_comb (in_box (m + i) (n - m + j)) b ->
  (exists r r', mult g (put (keep (fits_box m (n - m))) a) (put (keep (fits_box m (n - m))) b) = Ok r /\ mult g' a b = Ok r' /\
     peq r (put (keep (fits_box m (n - m))) r')) /\
  (exists r r', toS g (put (keep (fits_box m (n - m))) a) = Ok r /\ toS g' a = Ok r' /\ peq r (put (keep (fits_box m (n - m))) r')).
Proof. exact c110_A. Qed.
Print Assumptions C110_type_A.

Theorem C110_symplectic : forall m N j g g' a b, 0 <= j -> IsotropicGrassmannian m N = Ok g -> IsotropicGrassmannian (m + j) (N + 2 * j) = Ok g' ->
  poly_in (class_IG (m + j) (N + 2 * j)) a -> lin_comb (class_IG (m + j) (N + 2 * j)) b ->
  (exists r r', mult g (put (keep (fits_box m (N - m))) a) (put (keep (fits_box m (N - m))) b) = Ok r /\ mult g' a b = Ok r' /\
     peq r (put (keep (fits_box m (N - m))) r')) /\
  (exists r r', toS g (put (keep (fits_box m (N - m))) a) = Ok r /\ toS g' a = Ok r' /\ peq r (put (keep (fits_box m (N - m))) r')).
Proof. exact c110_IG. Qed.
Print Assumptions C110_symplectic.

Theorem C110_orthogonal_odd : forall m n j h h' a b, 1 <= m <= n -> 0 <= j ->
  OrthogonalGrassmannian m (2 * n + 1) = Ok h -> OrthogonalGrassmannian (m + j) (2 * n + 1 + 2 * j) = Ok h' ->
  poly_in (class_OG (m + j) (2 * n + 1 + 2 * j)) a -> lin_comb (class_OG (m + j) (2 * n + 1 + 2 * j)) b ->
  (exists r r', mult h (put (keep (fits_box m (2 * n - m))) a) (put (keep (fits_box m (2 * n - m))) b) = Ok r /\ mult h' a b = Ok r' /\
     peq r (put (keep (fits_box m (2 * n - m))) r')) /\
  (exists r r', toS h (put (keep (fits_box m (2 * n - m))) a) = Ok r /\ toS h' a = Ok r' /\ peq r (put (keep (fits_box m (2 * n - m))) r')).
Proof. exact c110_odd. Qed.
Print Assumptions C110_orthogonal_odd.

(** on OG(m,2n+2) a class is a k-strict partition with or without a final 0, which [shape] removes *)
Theorem C110_orthogonal_even : forall m n j h h' a b, 1 <= m <= n + 1 -> 1 <= n -> 0 <= j ->
  OrthogonalGrassmannian m (2 * n + 2) = Ok h -> OrthogonalGrassmannian (m + j) (2 * n + 2 + 2 * j) = Ok h' ->
  poly_in (class_OG (m + j) (2 * n + 2 + 2 * j)) a -> lin_comb (class_OG (m + j) (2 * n + 2 + 2 * j)) b ->
  let ok := fun l => fits_box m (2 * n + 1 - m) (shape l) in
  (exists r r', mult h (put (keep ok) a) (put (keep ok) b) = Ok r /\ mult h' a b = Ok r' /\ peq r (put (keep ok) r')) /\
  (exists r r', toS h (put (keep ok) a) = Ok r /\ toS h' a = Ok r' /\ peq r (put (keep ok) r')).
Proof. exact c110_even. Qed.
Print Assumptions C110_orthogonal_even.

(** S[2,1]*S[1] + S[3] by 1 + S[3,1] on Gr(2,4) inside Gr(3,6): S[3], S[2,1,1] and S[3,1] of the larger space are 0 on the smaller. *)
Example C110_case : Grassmannian 2 4 = Ok (mkGr TA 2 4) /\ Grassmannian (2 + 1) (4 + 1 + 1) = Ok (mkGr TA 3 6) /\
  poly_in (in_box (2 + 1) (4 - 2 + 1)) (padd (pmul (pS [2; 1]) (pS [1])) (pS [3])) /\ lin_comb (in_box (2 + 1) (4 - 2 + 1)) (padd (pS []) (pS [3; 1])) /\
  (exists r r', let f := put (keep (fits_box 2 2)) in
     mult (mkGr TA 2 4) (f (padd (pmul (pS [2; 1]) (pS [1])) (pS [3]))) (f (padd (pS []) (pS [3; 1]))) = Ok r /\
     mult (mkGr TA 3 6) (padd (pmul (pS [2; 1]) (pS [1])) (pS [3])) (padd (pS []) (pS [3; 1])) = Ok r' /\
     pnorm r = pnorm (f r') /\ pnorm r = pnorm (pS [2; 2]) /\ coef r' [vS [2; 1; 1]] = 1%Qc).
Proof.
  split; [reflexivity|]. split; [reflexivity|]. split; [apply poly_in_box; vm_compute; reflexivity|]. split; [apply lin_comb_box; vm_compute; reflexivity|].
  eexists _, _. cbv zeta. split; [vm_compute; reflexivity|split; [vm_compute; reflexivity|]]. split; [vm_compute; reflexivity|]. split; vm_compute; reflexivity.
Qed.

(** OG(2,7) and OG(3,9): S[3]*S[2] + S[5] *)
Example C110_case_OG : OrthogonalGrassmannian 2 (2 * 3 + 1) = Ok (mkGr TB 1 3) /\ OrthogonalGrassmannian (2 + 1) (2 * 3 + 1 + 2 * 1) = Ok (mkGr TB 1 4) /\
  class_OG 3 9 [5] /\ ~ class_OG 2 7 [5] /\
  (exists r r', let f := put (keep (fits_box 2 (2 * 3 - 2))) in
     toS (mkGr TB 1 3) (f (padd (pmul (pS [3]) (pS [2])) (pS [5]))) = Ok r /\ toS (mkGr TB 1 4) (padd (pmul (pS [3]) (pS [2])) (pS [5])) = Ok r' /\
     pnorm r = pnorm (f r') /\ pnorm r <> [] /\ pnorm r' <> pnorm r).
Proof.
  split; [reflexivity|]. split; [reflexivity|].
  split; [split; [apply in_boxb_ok; reflexivity|]; intros [|[|j]]; unfold part; simpl; lia|].
  split; [intros ((_ & _ & X) & _); vm_compute in X; apply X; reflexivity|].
  eexists _, _. cbv zeta. split; [vm_compute; reflexivity|split; [vm_compute; reflexivity|]]. split; [vm_compute; reflexivity|]. split; vm_compute; discriminate.
Qed.
