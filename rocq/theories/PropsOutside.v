(** Symbols and indices that do not belong to the space.  The vocabulary is that of
    Spec.v and SpecOutside.v. *)

From Coq Require Import ZArith List Lia QArith Qcanon.
From Verif Require Import Py ModelPart ModelQcalc ModelPoly ModelStr ModelGr Spec SpecOutside PyFacts Check Outside.
Import ListNotations.
Open Scope Z_scope.

(** C95: giambelli, toS, qgiambelli, qtoS of an expression with a symbol that is not
    a class of the space raise, and so do mult and qmult with such an expression as
    the left factor.  No value is returned for it, with any recursion limit. *)
Theorem C95_left_A : forall m n g, Grassmannian m n = Ok g -> 1 <= m ->
  refuses (in_box m (n - m)) g /\ endless (in_box m (n - m)) g.
Proof. exact c95_A. Qed.
Print Assumptions C95_left_A.

Theorem C95_left_IG : forall m N g, IsotropicGrassmannian m N = Ok g ->
  refuses (class_IG m N) g /\ endless (class_IG m N) g.
Proof. exact c95_IG. Qed.
Print Assumptions C95_left_IG.

Theorem C95_left_OG : forall m N g, OrthogonalGrassmannian m N = Ok g -> m <= N / 2 -> 1 <= N ->
  refuses (class_OG m N) g /\ endless (class_OG m N) g.
Proof. exact c95_OG. Qed.
Print Assumptions C95_left_OG.

(** The right factor is not checked: on Gr(2,4), where S[3] is no class, mult(S[1],
    S[3]) is the class of a point. *)
Theorem C95_right_refuted : ~ (forall m n g a b s, Grassmannian m n = Ok g -> 1 <= m ->
  not_in (in_box m (n - m)) s -> contains b s -> raises (mult g a b) \/ exists r, mult g a b = Ok r /\ peq r pzero).
Proof. exact c95_right. Qed.
Print Assumptions C95_right_refuted.

(** Nor is the index of pieri: on Gr(3,6) pieri(-1, S[2,1]) is S[1,1]. *)
Theorem C95_index_refuted : ~ (forall m n g i lam, Grassmannian m n = Ok g -> 1 <= m ->
  in_box m (n - m) lam -> i < 0 -> raises (pieri g i (pS lam)) \/ exists r, pieri g i (pS lam) = Ok r /\ peq r pzero).
Proof. exact c95_index. Qed.
Print Assumptions C95_index_refuted.

(** Nor that of qpieri: on Gr(2,3), where S[5] is no class, qpieri(5, S[1,1]) is q. *)
Theorem C95_qindex_refuted : ~ (forall m n g i lam, Grassmannian m n = Ok g -> 1 <= m ->
  in_box m (n - m) lam -> n - m < i -> raises (qpieri g i (pS lam)) \/ exists r, qpieri g i (pS lam) = Ok r /\ peq r pzero).
Proof. exact c95_qindex. Qed.
Print Assumptions C95_qindex_refuted.

(** Symbols that are no classes, on a space of each kind, and the call that raises. *)
Example C95_case :
  Grassmannian 2 4 = Ok (mkGr TA 2 4) /\ not_in (in_box 2 (4 - 2)) (SP [3]) /\
  contains (padd (pS [1]) (pS [3])) (SP [3]) /\ mult (mkGr TA 2 4) (padd (pS [1]) (pS [3])) (pS [1]) = Err RecursionError /\
  IsotropicGrassmannian 2 6 = Ok (mkGr TC 1 3) /\ not_in (class_IG 2 6) (SP [2; 2]) /\ contains (pS [2; 2]) (SP [2; 2]) /\
  OrthogonalGrassmannian 2 7 = Ok (mkGr TB 1 3) /\ not_in (class_OG 2 7) (SP [2; 2]).
Proof. exact c95_case. Qed.
