(** C76: acting with polynomials in special classes.  C77: products on the spaces
    with two quantum parameters.  C78: when giambelli and qgiambelli agree. *)

From Coq Require Import ZArith List Lia Bool Permutation QArith Qcanon.
From Verif Require Import Py ModelQcalc ModelPoly ModelStr ModelGr Spec SpecPieri SpecRing SpecAct Check ApiAct GiamSame.
Import ListNotations.
Open Scope Z_scope.

(** ** C76: act and qact make the linear combinations of classes a module over the
    polynomials in the special classes, and a special class acts by its Pieri
    operator *)

Theorem C76_Gr : forall m n g,
  Grassmannian m n = Ok g -> 1 <= m ->
  let I := fun i => 1 <= i <= n - m in
  let E := poly_in (special_upto (n - m)) in
  let L := lin_comb (in_box m (n - m)) in
  (action_laws E L (act g) /\ special_acts I L (act g) (pieri g)) /\
  (action_laws E L (qact g) /\ special_acts I L (qact g) (qpieri g)).
Proof. exact c76_Gr. Qed.
Print Assumptions C76_Gr.

Theorem C76_IG : forall m N g,
  IsotropicGrassmannian m N = Ok g ->
  let I := fun i => 1 <= i <= N - m in
  let E := poly_in (special_upto (N - m)) in
  let L := lin_comb (class_IG m N) in
  (action_laws E L (act g) /\ special_acts I L (act g) (pieri g)) /\
  (action_laws E L (qact g) /\ special_acts I L (qact g) (qpieri g)).
Proof. exact c76_IG. Qed.
Print Assumptions C76_IG.

Theorem C76_OG_odd : forall m N g,
  OrthogonalGrassmannian m N = Ok g -> Z.odd N = true -> 1 <= m <= N / 2 ->
  let I := fun i => 1 <= i <= N - 1 - m in
  let E := poly_in (special_upto (N - 1 - m)) in
  let L := lin_comb (class_OG m N) in
  (action_laws E L (act g) /\ special_acts I L (act g) (pieri g)) /\
  (action_laws E L (qact g) /\ special_acts I L (qact g) (qpieri g)).
Proof. exact c76_OG_odd. Qed.
Print Assumptions C76_OG_odd.

Theorem C76_OG_even : forall m N g,
  OrthogonalGrassmannian m N = Ok g -> Z.even N = true -> 4 <= N -> 1 <= m <= N / 2 ->
  let I := index_even m N in
  let E := poly_in (special_even m N) in
  let L := lin_comb (class_OG m N) in
  (action_laws E L (act g) /\ special_acts I L (act g) (pieri g)) /\
  (m <> N / 2 - 1 -> action_laws E L (qact g) /\ special_acts I L (qact g) (qpieri g)).
Proof. exact c76_OG_even. Qed.
Print Assumptions C76_OG_even.

(** OG(N/2-1,N), with coefficients in Q[q,q1,q2].  The bound N <= 16 is the code's:
    beyond it qpieri is wrong (C42_two_parameters). *)
Theorem C76_OG_two : forall m N g,
  OrthogonalGrassmannian m N = Ok g -> Z.even N = true -> N <= 16 -> 1 <= m -> m = N / 2 - 1 ->
  let I := index_even m N in
  let E := poly_in (special_even m N) in
  let L := lin_comb_qs (class_OG m N) in
  action_laws E L (qact g) /\ special_acts I L (qact g) (qpieri g).
Proof. exact c76_OG_two. Qed.
Print Assumptions C76_OG_two.

(** (S[1] S[4] + q) acting on S[4,1] of IG(2,6) *)
Example C76_example_IG :
  IsotropicGrassmannian 2 6 = Ok (mkGr TC 1 3) /\ special_upto 4 [1] /\ special_upto 4 [4] /\ class_IG 2 6 [4; 1] /\
  qact (mkGr TC 1 3) (padd (pmul (pS [1]) (pS [4])) (pvar VQ)) (pS [4; 1]) =
    Ok [([vS []; VQ; VQ], 1%Qc); ([vS [3; 2]; VQ], 1%Qc); ([vS [4; 1]; VQ], Q2Qc 3)].
Proof.
  split; [reflexivity|]. split; [exists 1; split; [lia|reflexivity]|]. split; [exists 4; split; [lia|reflexivity]|]. split; [|vm_compute; reflexivity].
  split; [apply in_boxb_ok; reflexivity|]. intros [|[|[|j]]]; unfold part; simpl; lia.
Qed.
(** (S[1] S[1,0] + q) acting on S[2,1] of OG(2,6) *)
Example C76_example_two :
  OrthogonalGrassmannian 2 6 = Ok (mkGr TD 1 2) /\ 2 = 6 / 2 - 1 /\ special_even 2 6 [1] /\ special_even 2 6 [1; 0] /\ class_OG 2 6 [2; 1] /\
  qact (mkGr TD 1 2) (padd (pmul (pS [1]) (pS [1; 0])) (pvar VQ)) (pS [2; 1]) =
    Ok [([vS [1; 1; 0]; VQ1], 1%Qc); ([vS [2; 1]; VQ], 1%Qc)].
Proof.
  split; [reflexivity|]. split; [reflexivity|]. split; [left; exists 1; split; [lia|reflexivity]|]. split; [right; split; reflexivity|]. split; [|vm_compute; reflexivity].
  left. split; [apply in_boxb_ok; reflexivity|]. intros [|[|[|j]]]; unfold part; simpl; lia.
Qed.

(** ** C77: products on OG(N/2-1,N) *)

(** qmult a b is defined exactly if q1 and q2 do not occur in a (ValueError
    otherwise), and the products that are defined have the laws of a commutative
    ring over Q[q,q1,q2] *)
Theorem C77_product_laws : forall m N g,
  OrthogonalGrassmannian m N = Ok g -> Z.even N = true -> N <= 16 -> 1 <= m -> m = N / 2 - 1 ->
  partial_product_laws (class_OG m N) (special_even m N) (qgiambelli g) (qmult g).
Proof. exact c77. Qed.
Print Assumptions C77_product_laws.

(** multiplying with a special class is the quantum Pieri rule *)
Theorem C77_special : forall m N g i c,
  OrthogonalGrassmannian m N = Ok g -> Z.even N = true -> N <= 16 -> 1 <= m -> m = N / 2 - 1 ->
  index_even m N i -> lin_comb_qs (class_OG m N) c ->
  exists r r', qmult g (pS (special_class i)) c = Ok r /\ qpieri g i c = Ok r' /\ peq r r'.
Proof. exact c77_special. Qed.
Print Assumptions C77_special.

(** the quantum Pieri operators commute *)
Theorem C77_commute : forall m N g i j c,
  OrthogonalGrassmannian m N = Ok g -> Z.even N = true -> N <= 16 -> 1 <= m -> m = N / 2 - 1 ->
  index_even m N i -> index_even m N j -> lin_comb_qs (class_OG m N) c ->
  exists x y x' y', qpieri g i c = Ok x /\ qpieri g j x = Ok y /\ qpieri g j c = Ok x' /\ qpieri g i x' = Ok y' /\ peq y y'.
Proof. exact c77_commute. Qed.
Print Assumptions C77_commute.

Example C77_example :
  class_OG 2 6 [2; 1] /\ class_OG 2 6 [3; 2] /\ OrthogonalGrassmannian 2 6 = Ok (mkGr TD 1 2) /\
  no_q1_q2 (pS [3; 2]) /\ ~ no_q1_q2 (pmul (pvar VQ1) (pS [1])) /\
  qmult (mkGr TD 1 2) (pS [3; 2]) (pS [2; 1]) = qmult (mkGr TD 1 2) (pS [2; 1]) (pS [3; 2]) /\
  qmult (mkGr TD 1 2) (pS [2; 1]) (pS [1]) = Ok [([vS [1; 0]; VQ1], 1%Qc)] /\
  qmult (mkGr TD 1 2) (pmul (pvar VQ1) (pS [1])) (pS [1]) = Err ValueError.
Proof.
  split; [left; split; [apply in_boxb_ok; reflexivity|]; intros [|[|[|j]]]; unfold part; simpl; lia|].
  split; [left; split; [apply in_boxb_ok; reflexivity|]; intros [|[|[|j]]]; unfold part; simpl; lia|].
  split; [reflexivity|]. split.
  - intros m Hm. apply Sys.coef_pvar_neq0 in Hm. subst m. split; intros [H|[]]; discriminate.
  - split; [|vm_compute; repeat split; reflexivity].
    intros H. destruct (H [vS [1]; VQ1]) as (H1 & _); [vm_compute; discriminate|]. apply H1. right. left. reflexivity.
Qed.

(** ** C78: giambelli and qgiambelli *)

Theorem C78_Gr : forall m n g a,
  Grassmannian m n = Ok g -> poly_in_qs (in_box m (n - m)) a -> qgiambelli g a = giambelli g a.
Proof. exact c78_Gr. Qed.
Print Assumptions C78_Gr.

Theorem C78_OG : forall m N g a,
  OrthogonalGrassmannian m N = Ok g -> 3 <= N -> 1 <= m <= N / 2 ->
  poly_in_qs (class_OG m N) a -> qgiambelli g a = giambelli g a.
Proof. exact c78_OG. Qed.
Print Assumptions C78_OG.

Example C78_example :
  OrthogonalGrassmannian 2 6 = Ok (mkGr TD 1 2) /\ class_OG 2 6 [2; 1] /\
  qgiambelli (mkGr TD 1 2) (pS [2; 1]) = Ok [([vS [1]; vS [2]], 1%Qc); ([vS [3]], Q2Qc (-1))] /\
  qgiambelli (mkGr TA 2 4) (pS [2; 1]) = Ok [([vS [1]; vS [2]], 1%Qc)].
Proof.
  split; [reflexivity|]. split; [left; split; [apply in_boxb_ok; reflexivity|]; intros [|[|[|j]]]; unfold part; simpl; lia|].
  split; vm_compute; reflexivity.
Qed.

(** not on IG(m,N): S[2,1] = S[1] S[2] - q on IG(2,4) *)
Theorem C78_IG_refuted : exists m N g lam,
  IsotropicGrassmannian m N = Ok g /\ class_IG m N lam /\ qgiambelli g (pS lam) <> giambelli g (pS lam).
Proof. exact c78_IG. Qed.
Print Assumptions C78_IG_refuted.
