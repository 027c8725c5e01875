(** All products on Gr(2,n), the variety of lines in a projective space. *)

From Coq Require Import ZArith List Bool Lia QArith Qcanon.
From Verif Require Import Py ModelPart ModelQcalc ModelPoly ModelStr ModelGr Spec SpecLines Lines.
Import ListNotations.
Open Scope Z_scope.

(** C93: every class of Gr(2,n) is S[a,b] with n-2 >= a >= b >= 0.  The product of
    S[a,b] and S[c,e] is the sum, over the i of the Clebsch-Gordan rule for a-b and
    c-e cut off at n-2, of the terms of the shapes with the rows a+c-i and b+e+i;
    they are distinct.  In the classical product the shapes that do not fit are left
    out. *)
Theorem C93_lines_A : forall n g a b c e,
  Grassmannian 2 n = Ok g -> 3 <= n -> 0 <= b <= a -> a <= n - 2 -> 0 <= e <= c -> c <= n - 2 ->
  exists r s, mult g (pS (two_rows a b)) (pS (two_rows c e)) = Ok r /\ qmult g (pS (two_rows a b)) (pS (two_rows c e)) = Ok s /\
    is_sum_of s (fun d nu => exists i, lines_index n a b c e i /\ lines_term n (a + c - i) (b + e + i) d nu) /\
    is_sum_of r (fun d nu => d = 0%nat /\
      exists i, lines_index n a b c e i /\ a + c - i <= n - 2 /\ nu = two_rows (a + c - i) (b + e + i)).
Proof. exact (fun n g a b c e Hg Hn => c93 n g Hg Hn a b c e). Qed.
Print Assumptions C93_lines_A.

(** these are all the classes *)
Theorem C93_classes_A : forall n g, Grassmannian 2 n = Ok g -> 3 <= n ->
  exists L, schub_classes g = Ok L /\
    forall l, In l L <-> exists a b, l = two_rows a b /\ 0 <= b <= a /\ a <= n - 2.
Proof. exact c93_classes. Qed.
Print Assumptions C93_classes_A.

(** on Gr(2,6): S[2,1] q is a term of S[3,1] * S[4,1], q S[4,2] = S[4,4] * S[3,1], and
    q^2 S[1,1] = S[4,4] * S[3,3] *)
Example C93_case : Grassmannian 2 6 = Ok (mkGr TA 4 6) /\
  lines_index 6 3 1 4 1 1 /\ lines_term 6 6 3 1 (two_rows 2 1) /\
  (exists s, qmult (mkGr TA 4 6) (pS [3; 1]) (pS [4; 1]) = Ok s /\ coef s (qS 1 [2; 1]) = 1%Qc) /\
  lines_index 6 4 4 3 1 0 /\ lines_term 6 7 5 1 (two_rows 4 2) /\
  (exists s, qmult (mkGr TA 4 6) (pS [4; 4]) (pS [3; 1]) = Ok s /\ coef s (qS 1 [4; 2]) = 1%Qc) /\
  lines_index 6 4 4 3 3 0 /\ lines_term 6 7 7 2 (two_rows 1 1) /\
  (exists s, qmult (mkGr TA 4 6) (pS [4; 4]) (pS [3; 3]) = Ok s /\ coef s (qS 2 [1; 1]) = 1%Qc).
Proof.
  unfold lines_index, lines_term. split; [reflexivity|]. split; [lia|]. split; [right; left; repeat split; lia|].
  split; [eexists; split; vm_compute; reflexivity|]. split; [lia|]. split; [right; left; repeat split; lia|].
  split; [eexists; split; vm_compute; reflexivity|]. split; [lia|]. split; [right; right; repeat split; lia|].
  eexists; split; vm_compute; reflexivity.
Qed.
