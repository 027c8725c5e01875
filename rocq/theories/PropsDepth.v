(** C101: how deep [giambelli] and [qgiambelli] nest. *)

From Coq Require Import ZArith List Lia Bool QArith Qcanon.
From Verif Require Import Py ModelPart ModelQcalc ModelPoly ModelStr ModelGr Spec SpecRing SpecPieri SpecDepth PartFacts Check Depth.
Import ListNotations.
Open Scope Z_scope.

Theorem C101_Gr : forall m n g lam, Grassmannian m n = Ok g -> 1 <= m -> in_box m (n - m) lam ->
  shallow (fun d => giambelli_limited d g) (giambelli g) lam /\
  shallow (fun d => qgiambelli_limited d g) (qgiambelli g) lam.
Proof. exact c101_Gr. Qed.
Print Assumptions C101_Gr.

Theorem C101_IG : forall m N g lam, IsotropicGrassmannian m N = Ok g -> 1 <= m -> class_IG m N lam ->
  shallow (fun d => giambelli_limited d g) (giambelli g) lam /\
  shallow (fun d => qgiambelli_limited d g) (qgiambelli g) lam.
Proof. exact c101_IG. Qed.
Print Assumptions C101_IG.

(** OG(N/2-1,N) for even N has several quantum parameters: there only [giambelli]. *)
Theorem C101_OG : forall m N g lam, OrthogonalGrassmannian m N = Ok g -> 3 <= N -> 1 <= m <= N / 2 -> class_OG m N lam ->
  shallow (fun d => giambelli_limited d g) (giambelli g) lam /\
  (m <> N / 2 - 1 \/ Z.odd N = true -> shallow (fun d => qgiambelli_limited d g) (qgiambelli g) lam).
Proof. exact c101_OG. Qed.
Print Assumptions C101_OG.

(** The bound is reached: on Gr(3,6) the class S[1,1,1] has two boxes below its
    first row, needs a nesting of four, and three are not enough. *)
Example C101_case : Grassmannian 3 6 = Ok (mkGr TA 3 6) /\ in_box 3 (6 - 3) [1; 1; 1] /\
  boxes_below_first_row [1; 1; 1] = 2 /\
  giambelli_limited 3 (mkGr TA 3 6) (pS [1; 1; 1]) = Err RecursionError /\
  giambelli_limited 4 (mkGr TA 3 6) (pS [1; 1; 1]) = giambelli (mkGr TA 3 6) (pS [1; 1; 1]).
Proof. split; [reflexivity|]. split; [apply in_boxb_ok; reflexivity|]. split; [reflexivity|]. split; vm_compute; reflexivity. Qed.
(** IG(3,6): three boxes below the first row of S[3,2,1]. *)
Example C101_case_IG : IsotropicGrassmannian 3 6 = Ok (mkGr TC 0 3) /\ class_IG 3 6 [3; 2; 1] /\
  boxes_below_first_row [3; 2; 1] = 3 /\
  qgiambelli_limited 5 (mkGr TC 0 3) (pS [3; 2; 1]) = qgiambelli (mkGr TC 0 3) (pS [3; 2; 1]).
Proof.
  split; [reflexivity|]. split; [split; [apply in_boxb_ok; reflexivity|]; intros [|[|[|[|j]]]]; unfold part; simpl; lia|].
  split; [reflexivity|]. vm_compute; reflexivity.
Qed.
