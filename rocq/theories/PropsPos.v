(** Positivity of products with special classes (C82). *)

From Coq Require Import ZArith List Lia Bool Permutation QArith Qcanon.
From Verif Require Import Py ModelPart ModelQcalc ModelPoly ModelStr ModelGr Spec SpecRing SpecPieri SpecAct SpecPos Check ApiPos.
Import ListNotations.
Open Scope Z_scope.

(** C82: acting with a polynomial in special classes and q whose coefficients are positive
    integers, and multiplying by a special class, take linear combinations of classes whose
    coefficients are positive integers to such linear combinations. *)
Theorem C82_Gr : forall m n g,
  Grassmannian m n = Ok g -> 1 <= m ->
  let I := fun i => 1 <= i <= n - m in
  let E := poly_in (special_upto (n - m)) in
  let L := lin_comb (in_box m (n - m)) in
  (acts_positively E L (act g) /\ specials_positive I L (mult g)) /\
  (acts_positively E L (qact g) /\ specials_positive I L (qmult g)).
Proof. exact c82_A. Qed.
Print Assumptions C82_Gr.

Theorem C82_IG : forall m N g,
  IsotropicGrassmannian m N = Ok g -> 1 <= m ->
  let I := fun i => 1 <= i <= N - m in
  let E := poly_in (special_upto (N - m)) in
  let L := lin_comb (class_IG m N) in
  (acts_positively E L (act g) /\ specials_positive I L (mult g)) /\
  (acts_positively E L (qact g) /\ specials_positive I L (qmult g)).
Proof. exact c82_IG. Qed.
Print Assumptions C82_IG.

Theorem C82_OG_odd : forall m N g,
  OrthogonalGrassmannian m N = Ok g -> Z.odd N = true -> 1 <= m <= N / 2 ->
  let I := fun i => 1 <= i <= N - 1 - m in
  let E := poly_in (special_upto (N - 1 - m)) in
  let L := lin_comb (class_OG m N) in
  (acts_positively E L (act g) /\ specials_positive I L (mult g)) /\
  (acts_positively E L (qact g) /\ specials_positive I L (qmult g)).
Proof. exact c82_OG_odd. Qed.
Print Assumptions C82_OG_odd.

Theorem C82_OG_even : forall m N g,
  OrthogonalGrassmannian m N = Ok g -> Z.even N = true -> 4 <= N -> 1 <= m <= N / 2 ->
  let I := index_even m N in
  let E := poly_in (special_even m N) in
  let L := lin_comb (class_OG m N) in
  (acts_positively E L (act g) /\ specials_positive I L (mult g)) /\
  (m <> N / 2 - 1 -> acts_positively E L (qact g) /\ specials_positive I L (qmult g)).
Proof. exact c82_OG_even. Qed.
Print Assumptions C82_OG_even.

(** OG(N/2-1,N), with coefficients in Q[q,q1,q2]; N <= 16 as in C76. *)
Theorem C82_OG_two : forall m N g,
  OrthogonalGrassmannian m N = Ok g -> Z.even N = true -> N <= 16 -> 1 <= m -> m = N / 2 - 1 ->
  let I := index_even m N in
  let E := poly_in (special_even m N) in
  let L := lin_comb_qs (class_OG m N) in
  acts_positively E L (qact g) /\ specials_positive I L (qmult g).
Proof. exact c82_OG_two. Qed.
Print Assumptions C82_OG_two.

(** (S[1]^2 S[2] + q) acting on S[3,1] of IG(2,6); the Giambelli polynomial of S[2,1] of Gr(2,5)
    has a negative coefficient, so the hypothesis on the acting polynomial says something. *)
Example C82_case :
  IsotropicGrassmannian 2 6 = Ok (mkGr TC 1 3) /\ special_upto 4 [1] /\ special_upto 4 [2] /\
  (exists r, qact (mkGr TC 1 3) (padd (pmul (pS [1]) (pmul (pS [1]) (pS [2]))) (pvar VQ)) (pS [3; 1]) = Ok r /\
     coef r (qS 1 [2; 1]) = Q2Qc 3 /\ coef r (qS 1 [3; 1]) = 1%Qc) /\
  (exists e, giambelli (mkGr TA 3 5) (pS [2; 1]) = Ok e /\ coef e [vS [3]] = (- (1))%Qc /\ ~ positive_coefs e).
Proof.
  split; [reflexivity|]. split; [exists 1; split; [lia|reflexivity]|]. split; [exists 2; split; [lia|reflexivity]|].
  split; [eexists; split; [vm_compute; reflexivity|vm_compute; split; reflexivity]|].
  eexists. split; [vm_compute; reflexivity|]. split; [vm_compute; reflexivity|]. intros H. unfold positive_coefs in H. specialize (H [vS [3]] ltac:(intros E0; apply (f_equal (fun c => Qnum (this c))) in E0; vm_compute in E0; discriminate)). destruct H as (z & Hz & E).
  assert (EQ : (-1 # 1 == inject_Z z)%Q).
  { rewrite <- (Qred_correct (inject_Z z)). change (Qred (inject_Z z)) with (this (Q2Qc (inject_Z z))). rewrite <- E. vm_compute. reflexivity. }
  unfold Qeq in EQ. cbn in EQ. lia.
Qed.
