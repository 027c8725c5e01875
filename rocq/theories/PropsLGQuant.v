(** C106: the classical product of IG(n+1,2n+2) and the quantum product of IG(n,2n) up to q^2 determine each other. *)

From Coq Require Import ZArith List Lia Bool QArith Qcanon.
From Verif Require Import Py ModelPart ModelQcalc ModelPoly ModelStr ModelGr Spec SpecPieri SpecRing PolyFacts Check LGQuant.
Import ListNotations.
Open Scope Z_scope.

(** The classes of IG(n+1,2n+2) are those of IG(n,2n), and those of IG(n,2n) with a row n+1 put in front. *)
Theorem C106_classes : forall n g g', 1 <= n -> IsotropicGrassmannian n (2 * n) = Ok g -> IsotropicGrassmannian (n + 1) (2 * n + 2) = Ok g' ->
  forall l, class_IG (n + 1) (2 * n + 2) l <-> class_IG n (2 * n) l \/ exists r, l = n + 1 :: r /\ class_IG n (2 * n) r.
Proof. exact c106_classes. Qed.
Print Assumptions C106_classes.

(** [s] is the quantum product on IG(n,2n), [r], [r1] and [r2] are the products on IG(n+1,2n+2) without, with one and with
    two factors that have the row n+1. *)
Theorem C106_product : forall n g g', 1 <= n -> IsotropicGrassmannian n (2 * n) = Ok g -> IsotropicGrassmannian (n + 1) (2 * n + 2) = Ok g' ->
  forall a b, class_IG n (2 * n) a -> class_IG n (2 * n) b ->
  exists s r r1 r2, qmult g (pS a) (pS b) = Ok s /\ mult g' (pS a) (pS b) = Ok r /\
    mult g' (pS (n + 1 :: a)) (pS b) = Ok r1 /\ mult g' (pS (n + 1 :: a)) (pS (n + 1 :: b)) = Ok r2 /\
    (forall nu, class_IG n (2 * n) nu ->
      coef r (qS 0 nu) = coef s (qS 0 nu) /\ coef r (qS 0 (n + 1 :: nu)) = ((1 + 1) * coef s (qS 1 nu))%Qc /\
      coef r1 (qS 0 nu) = 0%Qc /\ coef r1 (qS 0 (n + 1 :: nu)) = coef s (qS 0 nu)) /\
    peq r2 pzero.
Proof. exact c106_product. Qed.
Print Assumptions C106_product.

(** On IG(2,4) the product of S[2,1] and S[2] is S[2] q, on IG(3,6) it is 2 S[3,2]. *)
Example C106_case : IsotropicGrassmannian 2 (2 * 2) = Ok (mkGr TC 0 2) /\ IsotropicGrassmannian (2 + 1) (2 * 2 + 2) = Ok (mkGr TC 0 3) /\
  class_IG 2 (2 * 2) [2; 1] /\ class_IG 2 (2 * 2) [2] /\
  qmult (mkGr TC 0 2) (pS [2; 1]) (pS [2]) = Ok (pmul (pvar VQ) (pS [2])) /\
  mult (mkGr TC 0 3) (pS [2; 1]) (pS [2]) = Ok (pscale (1 + 1)%Qc (pS [3; 2])) /\
  mult (mkGr TC 0 3) (pS [3; 1]) (pS [1]) = Ok (pscale (1 + 1)%Qc (pS [3; 2])) /\
  qmult (mkGr TC 0 2) (pS [1]) (pS [1]) = Ok (pscale (1 + 1)%Qc (pS [2])) /\
  mult (mkGr TC 0 3) (pS [3; 1]) (pS [3]) = Ok pzero.
Proof.
  split; [reflexivity|]. split; [reflexivity|]. split; [split; [apply in_boxb_ok; reflexivity|]; intros [|[|[|[|j]]]]; unfold part; simpl; lia|]. split; [split; [apply in_boxb_ok; reflexivity|]; intros [|[|[|[|j]]]]; unfold part; simpl; lia|].
  split; [vm_compute; reflexivity|]. split; [vm_compute; reflexivity|]. split; [vm_compute; reflexivity|]. split; vm_compute; reflexivity.
Qed.
