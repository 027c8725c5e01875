(** C92: strange duality, a symmetry of the quantum products on Gr(m,n) that takes
    q to its inverse. *)

From Coq Require Import ZArith List Lia Bool QArith Qcanon.
From Verif Require Import Py ModelPart ModelQcalc ModelPoly ModelGr Spec Check ApiStrange.
Import ListNotations.
Open Scope Z_scope.

(** If the class of a point takes S[mu] to q^e S[mu'], then the coefficient of
    q^d S[nu] in S[lam] * S[mu] is that of q^(e-d) S[mu'] in S[lam]* * S[nu], where
    the star stands for the dual class; both are 0 for larger powers of q. *)
Theorem C92_strange_A : forall m n g, Grassmannian m n = Ok g -> 1 <= m < n -> forall lam mu nu,
  in_box m (n - m) lam -> in_box m (n - m) mu -> in_box m (n - m) nu ->
  exists lam' mu' e dl rp r r',
  dualize g (pS lam) = Ok dl /\ peq dl (pS lam') /\
  qmult g (pS (point_class g)) (pS mu) = Ok rp /\ is_sum_of rp (fun d x => d = e /\ x = mu') /\
  qmult g (pS lam) (pS mu) = Ok r /\ qmult g (pS lam') (pS nu) = Ok r' /\
  (forall d f, (d + f = e)%nat -> coef r (qS d nu) = coef r' (qS f mu')) /\
  (forall d, (e < d)%nat -> coef r (qS d nu) = 0%Qc /\ coef r' (qS d mu') = 0%Qc).
Proof. exact c92. Qed.
Print Assumptions C92_strange_A.

(** The dual classes multiply in the same way, up to the class of a point, with the
    inverse of q: if the class of a point takes S[nu]* to q^e S[nu'], then the
    coefficient of q^d S[nu] in S[lam] * S[mu] is that of q^(e-d) S[nu'] in
    S[lam]* * S[mu]*. *)
Theorem C92_automorphism_A : forall m n g, Grassmannian m n = Ok g -> 1 <= m < n -> forall lam mu nu,
  in_box m (n - m) lam -> in_box m (n - m) mu -> in_box m (n - m) nu ->
  exists lam' mu' nu' nup e dl dm dn rp r r',
  dualize g (pS lam) = Ok dl /\ peq dl (pS lam') /\ dualize g (pS mu) = Ok dm /\ peq dm (pS mu') /\
  dualize g (pS nu) = Ok dn /\ peq dn (pS nu') /\
  qmult g (pS (point_class g)) (pS nu') = Ok rp /\ is_sum_of rp (fun d x => d = e /\ x = nup) /\
  qmult g (pS lam) (pS mu) = Ok r /\ qmult g (pS lam') (pS mu') = Ok r' /\
  (forall d f, (d + f = e)%nat -> coef r (qS d nu) = coef r' (qS f nup)) /\
  (forall d, (e < d)%nat -> coef r (qS d nu) = 0%Qc /\ coef r' (qS d nup) = 0%Qc).
Proof. exact c92_auto. Qed.
Print Assumptions C92_automorphism_A.

(** On Gr(3,6) the class of a point takes S[3,2,1] to q^2 S[2,1], and the dual of
    S[2,1] is S[3,2,1]; S[2,1] * S[3,2,1] contains S[3,3,3] and 2 q S[2,1],
    S[3,2,1] * S[3,3,3] is q^2 S[2,1] and S[3,2,1] * S[2,1] contains 2 q S[2,1]. *)
Example C92_case : Grassmannian 3 6 = Ok (mkGr TA 3 6) /\ point_class (mkGr TA 3 6) = [3; 3; 3] /\
  in_box 3 3 [2; 1] /\ in_box 3 3 [3; 2; 1] /\ in_box 3 3 [3; 3; 3] /\
  dualize (mkGr TA 3 6) (pS [2; 1]) = Ok (pS [3; 2; 1]) /\
  (exists r, qmult (mkGr TA 3 6) (pS [3; 3; 3]) (pS [3; 2; 1]) = Ok r /\ coef r (qS 2 [2; 1]) = 1%Qc) /\
  (exists r, qmult (mkGr TA 3 6) (pS [2; 1]) (pS [3; 2; 1]) = Ok r /\ coef r (qS 0 [3; 3; 3]) = 1%Qc /\ coef r (qS 1 [2; 1]) = (1 + 1)%Qc) /\
  (exists r, qmult (mkGr TA 3 6) (pS [3; 2; 1]) (pS [3; 3; 3]) = Ok r /\ coef r (qS 2 [2; 1]) = 1%Qc) /\
  (exists r, qmult (mkGr TA 3 6) (pS [3; 2; 1]) (pS [2; 1]) = Ok r /\ coef r (qS 1 [2; 1]) = (1 + 1)%Qc).
Proof.
  split; [vm_compute; reflexivity|]. split; [vm_compute; reflexivity|]. do 3 (split; [apply in_boxb_ok; reflexivity|]). split; [vm_compute; reflexivity|].
  repeat split; eexists; (split; [vm_compute; reflexivity|]); try split; vm_compute; reflexivity.
Qed.
