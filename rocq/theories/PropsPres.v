(** C104: two polynomials in the special classes of Gr(m,n) have the same value exactly when they
    differ by the defining relations. *)

From Coq Require Import ZArith List Lia Bool QArith Qcanon.
From Verif Require Import Py ModelPart ModelQcalc ModelPoly ModelStr ModelGr Spec SpecRing SpecDet SpecPres PartFacts Check PresIdeal2.
Import ListNotations.
Open Scope Z_scope.

Theorem C104_presentation_A : forall m n g p p',
  Grassmannian m n = Ok g -> 1 <= m < n -> special_poly (n - m) p -> special_poly (n - m) p' ->
  exists r r' s s', toS g p = Ok r /\ toS g p' = Ok r' /\ qtoS g p = Ok s /\ qtoS g p' = Ok s' /\
    (peq r r' <-> in_ideal (special_poly (n - m)) (relation m (n - m)) (psub p p')) /\
    (peq s s' <-> in_ideal (special_poly (n - m)) (qrelation m (n - m)) (psub p p')).
Proof. exact c104. Qed.
Print Assumptions C104_presentation_A.

(** On Gr(2,4) the polynomials S[2]^2 and S[1]^2 S[2] have the same classical value and different
    quantum values. *)
Example C104_case : Grassmannian 2 4 = Ok (mkGr TA 2 4) /\
  special_poly 2 (pmul (pS [2]) (pS [2])) /\ special_poly 2 (pmul (pS [1]) (pmul (pS [1]) (pS [2]))) /\
  toS (mkGr TA 2 4) (pmul (pS [2]) (pS [2])) = Ok (pS [2; 2]) /\
  toS (mkGr TA 2 4) (pmul (pS [1]) (pmul (pS [1]) (pS [2]))) = Ok (pS [2; 2]) /\
  qtoS (mkGr TA 2 4) (pmul (pS [2]) (pS [2])) = Ok (pS [2; 2]) /\
  qtoS (mkGr TA 2 4) (pmul (pS [1]) (pmul (pS [1]) (pS [2]))) = Ok (padd (pS [2; 2]) (pmul (pvar VQ) (pS []))).
Proof.
  assert (Hb : forall l, (match l with [i] => (1 <=? i) && (i <=? 2) | _ => false end) = true -> exists i, 1 <= i <= 2 /\ l = [i]).
  { intros [|i [|j l]] H; try discriminate. apply andb_prop in H. destruct H as [H1 H2]. apply Z.leb_le in H1, H2. exists i. auto. }
  split; [reflexivity|]. split; [apply (poly_inb_ok _ _ _ Hb); vm_compute; reflexivity|]. split; [apply (poly_inb_ok _ _ _ Hb); vm_compute; reflexivity|].
  split; [vm_compute; reflexivity|]. split; [vm_compute; reflexivity|]. split; vm_compute; reflexivity.
Qed.
