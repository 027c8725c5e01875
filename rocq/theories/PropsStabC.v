(** C108: the classical products of Gr(m,n), IG(m,N) and OG(m,N) are those of Gr(m+i,n+i+j), IG(m+j,N+2j) and OG(m+j,N+2j),
    restricted to the classes of the smaller space. *)

From Coq Require Import ZArith List Lia Bool QArith Qcanon.
From Verif Require Import Py ModelPart ModelQcalc ModelPoly ModelStr ModelGr Spec SpecPieri SpecRing PolyFacts Check StabC StabD StabA.
Import ListNotations.
Open Scope Z_scope.

Theorem C108_symplectic : forall m N j g g', 0 <= j -> IsotropicGrassmannian m N = Ok g -> IsotropicGrassmannian (m + j) (N + 2 * j) = Ok g' ->
  (forall a, class_IG m N a -> class_IG (m + j) (N + 2 * j) a) /\
  (forall a b, class_IG m N a -> class_IG m N b -> exists s r, mult g (pS a) (pS b) = Ok s /\ mult g' (pS a) (pS b) = Ok r /\
     forall nu, class_IG m N nu -> coef r (qS 0 nu) = coef s (qS 0 nu)) /\
  (forall a b, class_IG (m + j) (N + 2 * j) a -> ~ class_IG m N a -> class_IG (m + j) (N + 2 * j) b -> exists r, mult g' (pS a) (pS b) = Ok r /\
     forall nu, class_IG m N nu -> coef r (qS 0 nu) = 0%Qc).
Proof. exact c108_IG. Qed.
Print Assumptions C108_symplectic.

Theorem C108_orthogonal_odd : forall m n j h h', 1 <= m <= n -> 0 <= j ->
  OrthogonalGrassmannian m (2 * n + 1) = Ok h -> OrthogonalGrassmannian (m + j) (2 * n + 1 + 2 * j) = Ok h' ->
  (forall a, class_OG m (2 * n + 1) a -> class_OG (m + j) (2 * n + 1 + 2 * j) a) /\
  (forall a b, class_OG m (2 * n + 1) a -> class_OG m (2 * n + 1) b -> exists s r, mult h (pS a) (pS b) = Ok s /\ mult h' (pS a) (pS b) = Ok r /\
     forall nu, class_OG m (2 * n + 1) nu -> coef r (qS 0 nu) = coef s (qS 0 nu)) /\
  (forall a b, class_OG (m + j) (2 * n + 1 + 2 * j) a -> ~ class_OG m (2 * n + 1) a -> class_OG (m + j) (2 * n + 1 + 2 * j) b ->
     exists r, mult h' (pS a) (pS b) = Ok r /\ forall nu, class_OG m (2 * n + 1) nu -> coef r (qS 0 nu) = 0%Qc).
Proof. exact c108_OG. Qed.
Print Assumptions C108_orthogonal_odd.

(** The product of S[1,1] and S[2,1] is S[3,2] + S[4,1] on IG(2,6) and S[3,2] + S[4,1] + 2 S[3,1,1] + S[5] on IG(3,8); S[1,1,1]
    is a class of IG(3,8) only. *)
Example C108_case : IsotropicGrassmannian 2 6 = Ok (mkGr TC 1 3) /\ IsotropicGrassmannian (2 + 1) (6 + 2 * 1) = Ok (mkGr TC 1 4) /\
  class_IG 2 6 [1; 1] /\ class_IG 2 6 [2; 1] /\ class_IG 3 8 [1; 1; 1] /\ ~ class_IG 2 6 [1; 1; 1] /\
  (exists s r, mult (mkGr TC 1 3) (pS [1; 1]) (pS [2; 1]) = Ok s /\ mult (mkGr TC 1 4) (pS [1; 1]) (pS [2; 1]) = Ok r /\
     pnorm s = pnorm (padd (pS [3; 2]) (pS [4; 1])) /\
     pnorm r = pnorm (padd (padd (pS [3; 2]) (pS [4; 1])) (padd (pscale (1 + 1)%Qc (pS [3; 1; 1])) (pS [5])))).
Proof.
  split; [reflexivity|]. split; [reflexivity|].
  split; [split; [apply in_boxb_ok; reflexivity|]; intros [|[|[|j]]]; unfold part; simpl; lia|].
  split; [split; [apply in_boxb_ok; reflexivity|]; intros [|[|[|j]]]; unfold part; simpl; lia|].
  split; [split; [apply in_boxb_ok; reflexivity|]; intros [|[|[|[|j]]]]; unfold part; simpl; lia|].
  split; [intros ((_ & H & _) & _); simpl in H; lia|].
  eexists _, _. split; [vm_compute; reflexivity|split; [vm_compute; reflexivity|]].
  split; vm_compute; reflexivity.
Qed.

Theorem C108_orthogonal_even : forall m n j h h', 1 <= m <= n + 1 -> 1 <= n -> 0 <= j ->
  OrthogonalGrassmannian m (2 * n + 2) = Ok h -> OrthogonalGrassmannian (m + j) (2 * n + 2 + 2 * j) = Ok h' ->
  (forall a, class_OG m (2 * n + 2) a -> class_OG (m + j) (2 * n + 2 + 2 * j) a) /\
  (forall a b, class_OG m (2 * n + 2) a -> class_OG m (2 * n + 2) b -> exists s r, mult h (pS a) (pS b) = Ok s /\ mult h' (pS a) (pS b) = Ok r /\
     forall nu, class_OG m (2 * n + 2) nu -> coef r (qS 0 nu) = coef s (qS 0 nu)) /\
  (forall a b, class_OG (m + j) (2 * n + 2 + 2 * j) a -> ~ class_OG m (2 * n + 2) a -> class_OG (m + j) (2 * n + 2 + 2 * j) b ->
     exists r, mult h' (pS a) (pS b) = Ok r /\ forall nu, class_OG m (2 * n + 2) nu -> coef r (qS 0 nu) = 0%Qc).
Proof. exact c108_OGeven. Qed.
Print Assumptions C108_orthogonal_even.

(** OG(3,10) and OG(4,12); S[2,1,0] is of the second type. *)
Example C108_case_even : OrthogonalGrassmannian 3 (2 * 4 + 2) = Ok (mkGr TD 2 4) /\ OrthogonalGrassmannian (3 + 1) (2 * 4 + 2 + 2 * 1) = Ok (mkGr TD 2 5) /\
  class_OG 3 10 [2; 1; 0] /\ class_OG 3 10 [2; 2] /\
  (exists s r, mult (mkGr TD 2 4) (pS [2; 1; 0]) (pS [2; 2]) = Ok s /\ mult (mkGr TD 2 5) (pS [2; 1; 0]) (pS [2; 2]) = Ok r /\
     pnorm s = pnorm (padd (padd (pS [4; 3]) (pS [5; 1; 1])) (padd (pscale (1 + 1)%Qc (pS [4; 2; 1])) (pS [4; 2; 1; 0]))) /\
     pnorm r = pnorm (padd (padd (padd (pS [4; 3]) (pS [5; 1; 1])) (padd (pscale (1 + 1)%Qc (pS [4; 2; 1])) (pS [4; 2; 1; 0])))
                           (padd (pS [3; 2; 1; 1]) (pS [4; 1; 1; 1])))).
Proof.
  split; [reflexivity|]. split; [reflexivity|].
  split; [right; exists [2; 1]; split; [reflexivity|]; split; [reflexivity|]; split; [left; reflexivity|];
          split; [apply in_boxb_ok; reflexivity|]; intros [|[|[|j]]]; unfold part; simpl; lia|].
  split; [left; split; [apply in_boxb_ok; reflexivity|]; intros [|[|[|j]]]; unfold part; simpl; lia|].
  eexists _, _. split; [vm_compute; reflexivity|split; [vm_compute; reflexivity|]].
  split; vm_compute; reflexivity.
Qed.

Theorem C108_type_A : forall m n i j g g', 1 <= m -> 0 <= i -> 0 <= j -> Grassmannian m n = Ok g -> Grassmannian (m + i) (n + i + j) = Ok g' ->
  (forall a, in_box m (n - m) a -> in_box (m + i) (n - m + j) a) /\
  (forall a b, in_box m (n - m) a -> in_box m (n - m) b -> exists s r, mult g (pS a) (pS b) = Ok s /\ mult g' (pS a) (pS b) = Ok r /\
     forall nu, in_box m (n - m) nu -> coef r (qS 0 nu) = coef s (qS 0 nu)) /\
  (forall a b, in_box (m + i) (n - m + j) a -> ~ in_box m (n - m) a -> in_box (m + i) (n - m + j) b -> exists r, mult g' (pS a) (pS b) = Ok r /\
     forall nu, in_box m (n - m) nu -> coef r (qS 0 nu) = 0%Qc).
Proof. exact c108_Gr. Qed.
Print Assumptions C108_type_A.

(** The square of S[2,1] has the terms S[3,3], 2 S[3,2,1], S[4,2] and others on Gr(4,8), of which S[3,3] remains on Gr(2,5). *)
Example C108_case_A : Grassmannian 2 5 = Ok (mkGr TA 3 5) /\ Grassmannian (2 + 2) (5 + 2 + 1) = Ok (mkGr TA 4 8) /\ in_box 2 3 [2; 1] /\ ~ in_box 2 3 [1; 1; 1] /\ in_box 4 4 [1; 1; 1] /\
  (exists s r, mult (mkGr TA 3 5) (pS [2; 1]) (pS [2; 1]) = Ok s /\ mult (mkGr TA 4 8) (pS [2; 1]) (pS [2; 1]) = Ok r /\
     pnorm s = pnorm (pS [3; 3]) /\ coef r (qS 0 [3; 3]) = 1%Qc /\ coef r (qS 0 [3; 2; 1]) = (1 + 1)%Qc /\ coef r (qS 0 [4; 2]) = 1%Qc).
Proof.
  split; [reflexivity|]. split; [reflexivity|]. split; [apply in_boxb_ok; reflexivity|]. split; [intros (_ & H & _); simpl in H; lia|]. split; [apply in_boxb_ok; reflexivity|].
  eexists _, _. split; [vm_compute; reflexivity|split; [vm_compute; reflexivity|]]. split; [vm_compute; reflexivity|]. split; [vm_compute; reflexivity|]. split; vm_compute; reflexivity.
Qed.
