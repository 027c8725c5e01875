(** C107: the quantum product of IG(m,N) up to q^2, for two classes with at most m + 1 rows together, and the classical
    product of IG(m+1,N+2). *)

From Coq Require Import ZArith List Lia Bool QArith Qcanon.
From Verif Require Import Py ModelPart ModelQcalc ModelPoly ModelStr ModelGr Spec SpecPieri SpecRing PolyFacts Check IGQuant.
Import ListNotations.
Open Scope Z_scope.

(** [s] is the quantum product on IG(m,N), [r], [r1] and [r2] are the products on IG(m+1,N+2) without, with one and with
    two factors that have a row N+1-m in front. *)
Theorem C107_product : forall m N g g', IsotropicGrassmannian m N = Ok g -> IsotropicGrassmannian (m + 1) (N + 2) = Ok g' ->
  forall a b, class_IG m N a -> class_IG m N b -> Z.of_nat (length a + length b) <= m + 1 ->
  exists s r r1 r2, qmult g (pS a) (pS b) = Ok s /\ mult g' (pS a) (pS b) = Ok r /\
    mult g' (pS (N + 1 - m :: a)) (pS b) = Ok r1 /\ mult g' (pS (N + 1 - m :: a)) (pS (N + 1 - m :: b)) = Ok r2 /\
    (forall nu, class_IG m N nu ->
      coef r (qS 0 nu) = coef s (qS 0 nu) /\ coef r (qS 0 (N + 1 - m :: nu)) = ((1 + 1) * coef s (qS 1 nu))%Qc /\
      coef r1 (qS 0 (N + 1 - m :: nu)) = coef s (qS 0 nu)) /\
    (forall mo, coef r1 mo <> 0%Qc -> exists nu, class_IG m N nu /\ mo = qS 0 (N + 1 - m :: nu)) /\
    (Z.of_nat (length a + length b) <= m ->
      forall mo, coef r mo <> 0%Qc -> exists nu, class_IG m N nu /\ (mo = qS 0 nu \/ mo = qS 0 (N + 1 - m :: nu))) /\
    peq r2 pzero.
Proof. exact c107. Qed.
Print Assumptions C107_product.

(** On IG(2,6) the product of S[4] and S[3] is S[4,3] + S[2] q, on IG(3,8) it is S[4,3] + 2 S[5,2]; that of S[4,1] and S[2]
    is S[4,3] + S[2] q + S[1,1] q and S[4,3] + 2 S[5,2] + 2 S[5,1,1] + S[4,2,1]. *)
Example C107_case : IsotropicGrassmannian 2 6 = Ok (mkGr TC 1 3) /\ IsotropicGrassmannian (2 + 1) (6 + 2) = Ok (mkGr TC 1 4) /\
  class_IG 2 6 [4] /\ class_IG 2 6 [3] /\ class_IG 2 6 [4; 1] /\
  (exists s r, qmult (mkGr TC 1 3) (pS [4]) (pS [3]) = Ok s /\ mult (mkGr TC 1 4) (pS [4]) (pS [3]) = Ok r /\
     pnorm s = pnorm (padd (pS [4; 3]) (pmul (pvar VQ) (pS [2]))) /\ pnorm r = pnorm (padd (pS [4; 3]) (pscale (1 + 1)%Qc (pS [5; 2])))) /\
  (exists s r, qmult (mkGr TC 1 3) (pS [4; 1]) (pS [2]) = Ok s /\ mult (mkGr TC 1 4) (pS [4; 1]) (pS [2]) = Ok r /\
     pnorm s = pnorm (padd (pS [4; 3]) (pmul (pvar VQ) (padd (pS [2]) (pS [1; 1])))) /\
     pnorm r = pnorm (padd (padd (pS [4; 3]) (pS [4; 2; 1])) (pscale (1 + 1)%Qc (padd (pS [5; 2]) (pS [5; 1; 1]))))).
Proof.
  split; [reflexivity|]. split; [reflexivity|].
  split; [split; [apply in_boxb_ok; reflexivity|]; intros [|[|[|j]]]; unfold part; simpl; lia|].
  split; [split; [apply in_boxb_ok; reflexivity|]; intros [|[|[|j]]]; unfold part; simpl; lia|].
  split; [split; [apply in_boxb_ok; reflexivity|]; intros [|[|[|[|j]]]]; unfold part; simpl; lia|].
  split; (eexists _, _; split; [vm_compute; reflexivity|split; [vm_compute; reflexivity|split; vm_compute; reflexivity]]).
Qed.
(** The bound m + 1 on the rows cannot be left out: S[1,1] and S[2,1] have four rows together, and the coefficients of q on
    IG(2,6) and of S[5] on IG(3,8) do not match. *)
Example C107_rows_needed : exists s r, qmult (mkGr TC 1 3) (pS [1; 1]) (pS [2; 1]) = Ok s /\ mult (mkGr TC 1 4) (pS [1; 1]) (pS [2; 1]) = Ok r /\
  coef r (qS 0 [5]) <> ((1 + 1) * coef s (qS 1 []))%Qc.
Proof. eexists _, _. split; [vm_compute; reflexivity|]. split; [vm_compute; reflexivity|]. vm_compute. discriminate. Qed.
