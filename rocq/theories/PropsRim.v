(** Properties C29 and C51: quantum products on Gr(m,n) by removing rim hooks.
    The vocabulary is that of Spec.v and SpecMisc.v. *)

From Coq Require Import ZArith List Lia Bool QArith Qcanon Permutation.
From Verif Require Import Py ModelPart ModelQcalc ModelPoly ModelGr Spec SpecMisc Check ApiMisc ApiRim.
Import ListNotations.
Open Scope Z_scope.

(** C51: the coefficient of q^d S_nu in a quantum product on Gr(m,n) is the sum,
    over the classes S_ka of the classical product in Gr(m, m+K), K >= 2 (n - m),
    of their coefficients times the sign with which ka is reduced to nu by the
    removal of d rim hooks of n boxes. *)
Theorem C51_rim_hook_rule : forall m n g K g' lam mu, Grassmannian m n = Ok g -> 1 <= m ->
  in_box m (n - m) lam -> in_box m (n - m) mu -> 2 * (n - m) <= K -> Grassmannian m (m + K) = Ok g' ->
  exists r c, qmult g (pS lam) (pS mu) = Ok r /\ mult g' (pS lam) (pS mu) = Ok c /\
    forall d nu, in_box m (n - m) nu -> exists L, NoDup L /\
      (forall ka s, In (ka, s) L <-> coef c [vS ka] <> 0%Qc /\ rim_reduces m (n - m) ka d nu s) /\
      coef r (qS d nu) = signed_sum (fun ka => coef c [vS ka]) L.
Proof. exact c51. Qed.
Print Assumptions C51_rim_hook_rule.
Example C51_case : exists g g' r c, Grassmannian 2 4 = Ok g /\ Grassmannian 2 6 = Ok g' /\
  in_box 2 2 [2; 1] /\ qmult g (pS [2; 1]) (pS [2; 1]) = Ok r /\ mult g' (pS [2; 1]) (pS [2; 1]) = Ok c /\
  coef c [vS [4; 2]] = 1%Qc /\ coef c [vS [3; 3]] = 1%Qc /\ coef r (qS 1 [2]) = 1%Qc /\ coef r (qS 1 [1; 1]) = 1%Qc /\
  rim_reduces 2 2 [3; 3] 1 [2] 1 /\ rim_reduces 2 2 [4; 2] 1 [1; 1] 1.
Proof.
  do 4 eexists. split; [reflexivity|]. split; [reflexivity|]. split; [apply in_boxb_ok; reflexivity|].
  split; [vm_compute; reflexivity|]. split; [vm_compute; reflexivity|].
  do 4 (split; [vm_compute; apply Qc_is_canon; reflexivity|]).
  split.
  - change 1 with ((-1) ^ (2 - (Z.of_nat 1 + 1)) * 1). apply rr_hook with (mu := [2]).
    + intros (_ & _ & H). vm_compute in H. congruence.
    + split; [apply (in_boxb_ok 2 4); reflexivity|]. split; [apply (in_boxb_ok 2 4); reflexivity|]. split; [lia|]. split; [lia|].
      split; [intros [|[|j]] Hj; try lia; reflexivity|]. split; [reflexivity|]. intros [|[|[|j]]] Hj; try lia; reflexivity.
    + reflexivity.
    + apply rr_done. apply in_boxb_ok; reflexivity.
  - change 1 with ((-1) ^ (2 - (Z.of_nat 1 + 1)) * 1). apply rr_hook with (mu := [1; 1]).
    + intros (_ & _ & H). vm_compute in H. congruence.
    + split; [apply (in_boxb_ok 2 4); reflexivity|]. split; [apply (in_boxb_ok 2 4); reflexivity|]. split; [lia|]. split; [lia|].
      split; [intros [|[|j]] Hj; try lia; reflexivity|]. split; [reflexivity|]. intros [|[|[|j]]] Hj; try lia; reflexivity.
    + reflexivity.
    + apply rr_done. apply in_boxb_ok; reflexivity.
Qed.

(** C29: qmult_rh returns for all classes.  Its coefficient of q^d S_nu is such a
    sum too, over the product in Gr(m, 2n-1), but with the sign (-1)^(m - h), where
    h is the number of rows changed by all hooks together. *)
Theorem C29_terms : forall m n g lam mu, Grassmannian m n = Ok g -> 1 <= m -> in_box m (n - m) lam -> in_box m (n - m) mu ->
  exists g' r c, Grassmannian m (2 * n - 1) = Ok g' /\ qmult_rh g (pS lam) (pS mu) = Ok r /\ mult g' (pS lam) (pS mu) = Ok c /\
    lin_comb (in_box m (n - m)) r /\
    forall d nu, in_box m (n - m) nu -> exists L, NoDup L /\
      (forall ka s, In (ka, s) L <-> coef c [vS ka] <> 0%Qc /\ (exists s', rim_reduces m (n - m) ka d nu s') /\
         (d = O -> s = 1) /\ ((0 < d)%nat -> exists h, rows_changed ka nu h /\ s = (-1) ^ (m - h))) /\
      coef r (qS d nu) = signed_sum (fun ka => coef c [vS ka]) L.
Proof. exact c29_terms. Qed.
Print Assumptions C29_terms.

(** C29: so qmult_rh agrees with qmult in the terms with at most one q, and
    everywhere if the degree of the product is less than 2n; *)
Theorem C29_agrees : forall m n g lam mu, Grassmannian m n = Ok g -> 1 <= m -> in_box m (n - m) lam -> in_box m (n - m) mu ->
  exists x y, qmult_rh g (pS lam) (pS mu) = Ok x /\ qmult g (pS lam) (pS mu) = Ok y /\
    (forall d nu, (d <= 1)%nat -> in_box m (n - m) nu -> coef x (qS d nu) = coef y (qS d nu)) /\
    (size lam + size mu < 2 * n -> peq x y).
Proof. exact c29_low. Qed.
Print Assumptions C29_agrees.
Example C29_case : exists g x, Grassmannian 3 6 = Ok g /\ in_box 3 3 [2; 1] /\ in_box 3 3 [3; 2; 1] /\
  qmult_rh g (pS [2; 1]) (pS [3; 2; 1]) = Ok x /\ coef x (qS 1 [2; 1]) = Q2Qc (inject_Z 2) /\ size [2; 1] + size [3; 2; 1] < 2 * 6.
Proof.
  do 2 eexists. split; [reflexivity|]. split; [apply in_boxb_ok; reflexivity|]. split; [apply in_boxb_ok; reflexivity|].
  split; [vm_compute; reflexivity|]. split; [|vm_compute; reflexivity]. vm_compute. apply Qc_is_canon. reflexivity.
Qed.

(** but not always: in Gr(3,6) it finds
    S[3,2] * S[3,3,1] = q S[2,2,2] + q S[3,2,1] + 2 q^2 S[]. *)
Theorem C29_refuted : exists m n g a b x y, Grassmannian m n = Ok g /\
  in_box m (n - m) a /\ in_box m (n - m) b /\
  qmult_rh g (pS a) (pS b) = Ok x /\ qmult g (pS a) (pS b) = Ok y /\ ~ peq x y.
Proof. exact c29_refuted. Qed.
Print Assumptions C29_refuted.
