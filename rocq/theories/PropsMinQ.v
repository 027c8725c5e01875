(** C90: the smallest power of q in a quantum product of two classes. *)

From Coq Require Import ZArith List Lia Bool QArith Qcanon.
From Verif Require Import Py ModelPart ModelQcalc ModelPoly ModelGr Spec SpecRing SpecPieri SpecMinQ Check ApiMinQ.
Import ListNotations.
Open Scope Z_scope.

(** On every space it is the smallest number of factors q in a chain of quantum
    Pieri products from the first class to the dual of the second. *)
Theorem C90_A : forall m n g, Grassmannian m n = Ok g -> 1 <= m ->
  smallest_q_law (in_box m (n - m)) (qmult g) (dualize g) (qpieri g) (fun i => 1 <= i <= n - m).
Proof. exact c90_A. Qed.
Print Assumptions C90_A.

Theorem C90_IG : forall m N g, IsotropicGrassmannian m N = Ok g -> 1 <= m ->
  smallest_q_law (class_IG m N) (qmult g) (dualize g) (qpieri g) (fun i => 1 <= i <= N - m).
Proof. exact c90_IG. Qed.
Print Assumptions C90_IG.

Theorem C90_OG_odd : forall m N g, OrthogonalGrassmannian m N = Ok g -> Z.odd N = true -> 1 <= m <= N / 2 ->
  smallest_q_law (class_OG m N) (qmult g) (dualize g) (qpieri g) (fun i => 1 <= i <= N - 1 - m).
Proof. exact c90_OGodd. Qed.
Print Assumptions C90_OG_odd.

(** The hypothesis m <> N/2 - 1 excludes the spaces with two quantum parameters. *)
Theorem C90_OG_even : forall m N g,
  OrthogonalGrassmannian m N = Ok g -> Z.even N = true -> 4 <= N -> 1 <= m <= N / 2 -> m <> N / 2 - 1 ->
  smallest_q_law (class_OG m N) (qmult g) (dualize g) (qpieri g) (index_even m N).
Proof. exact c90_OGeven. Qed.
Print Assumptions C90_OG_even.

(** On Gr(m,n): the least d such that lam without its first d rows and d columns
    fits into the complement of mu. *)
Theorem C90_overlap_A : forall m n g, Grassmannian m n = Ok g -> 1 <= m -> forall lam mu,
  in_box m (n - m) lam -> in_box m (n - m) mu ->
  exists r e, qmult g (pS lam) (pS mu) = Ok r /\ smallest_q r e /\
    forall d, (e <= d)%nat <-> forall j, Z.of_nat j < m ->
      part lam (j + d) + part mu (Z.to_nat (m - 1 - Z.of_nat j)) <= n - m + Z.of_nat d.
Proof. exact c90_box. Qed.
Print Assumptions C90_overlap_A.

(** On IG(n,2n): the least d such that lam without its first d rows is contained in
    the dual of mu. *)
Theorem C90_rows_LG : forall N g, IsotropicGrassmannian (N / 2) N = Ok g -> 2 <= N -> forall lam mu,
  class_IG (N / 2) N lam -> class_IG (N / 2) N mu ->
  exists r d nu e, qmult g (pS lam) (pS mu) = Ok r /\ dualize g (pS mu) = Ok d /\ class_IG (N / 2) N nu /\ peq d (pS nu) /\
    smallest_q r e /\ forall f, (e <= f)%nat <-> forall j, part lam (j + f) <= part nu j.
Proof. exact c90_LG. Qed.
Print Assumptions C90_rows_LG.

(** On OG(n,2n+1) and OG(n,2n): ... without its first 2d rows. *)
Theorem C90_rows_OG_max : forall N g lam mu, OrthogonalGrassmannian (N / 2) N = Ok g -> 3 <= N ->
  class_OG (N / 2) N lam -> class_OG (N / 2) N mu ->
  exists r d nu e, qmult g (pS lam) (pS mu) = Ok r /\ dualize g (pS mu) = Ok d /\ class_OG (N / 2) N nu /\ peq d (pS nu) /\
    smallest_q r e /\ forall f, (e <= f)%nat <-> forall j, part lam (j + 2 * f) <= part nu j.
Proof. exact c90_OGmax. Qed.
Print Assumptions C90_rows_OG_max.

(** [3; 2] and [2; 1] overlap on Gr(2,5), after removing a row and a column they do not *)
Example C90_case_A : Grassmannian 2 5 = Ok (mkGr TA 3 5) /\ in_box 2 3 [3; 2] /\ in_box 2 3 [2; 1] /\
  qmult (mkGr TA 3 5) (pS [3; 2]) (pS [2; 1]) = Ok [([vS [2; 1]; VQ], 1%Qc); ([vS [3]; VQ], 1%Qc)].
Proof.
  split; [reflexivity|]. split; [apply in_boxb_ok; reflexivity|]. split; [apply in_boxb_ok; reflexivity|]. vm_compute. reflexivity.
Qed.
Example C90_case_LG : IsotropicGrassmannian 3 6 = Ok (mkGr TC 0 3) /\ class_IG 3 6 [3; 1] /\ class_IG 3 6 [2; 1] /\
  dualize (mkGr TC 0 3) (pS [2; 1]) = Ok (pS [3]) /\
  qmult (mkGr TC 0 3) (pS [3; 1]) (pS [2; 1]) = Ok [([vS [2; 1]; VQ], 1%Qc); ([vS [3]; VQ], Q2Qc 2)].
Proof.
  split; [reflexivity|]. do 2 (split; [split; [apply in_boxb_ok; reflexivity|]; intros [|[|[|j]]]; unfold part; simpl; lia|]).
  split; vm_compute; reflexivity.
Qed.
Example C90_case_OG : OrthogonalGrassmannian 3 7 = Ok (mkGr TB 0 3) /\ class_OG 3 7 [3; 2; 1] /\
  dualize (mkGr TB 0 3) (pS [3; 2; 1]) = Ok (pS []) /\
  qmult (mkGr TB 0 3) (pS [3; 2; 1]) (pS [3; 2; 1]) = Ok [([vS []; VQ; VQ], 1%Qc)].
Proof.
  split; [reflexivity|]. split; [split; [apply in_boxb_ok; reflexivity|]; intros [|[|[|[|j]]]]; unfold part; simpl; lia|].
  split; vm_compute; reflexivity.
Qed.
