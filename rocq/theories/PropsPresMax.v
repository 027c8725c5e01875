(** C105: two polynomials in the special classes of a maximal isotropic Grassmannian have the same
    value exactly when they differ by the quadratic relations. *)

From Coq Require Import ZArith List Lia Bool QArith Qcanon.
From Verif Require Import Py ModelPart ModelQcalc ModelPoly ModelStr ModelGr Spec SpecRing SpecDet SpecRel SpecPres SpecPresMax PartFacts Check PresMax2.
Import ListNotations.
Open Scope Z_scope.

Theorem C105_presentation_LG : forall n g, 1 <= n -> IsotropicGrassmannian n (2 * n) = Ok g ->
  presents n (relation_LG n) (toS g) /\ presents n (qrelation_LG n) (qtoS g).
Proof. exact c105_LG. Qed.
Print Assumptions C105_presentation_LG.

Theorem C105_presentation_OG_odd : forall n, 1 <= n -> forall g, OrthogonalGrassmannian n (2 * n + 1) = Ok g ->
  presents n (relation_OG n) (toS g) /\ presents n (qrelation_OG n) (qtoS g).
Proof. exact c105_odd. Qed.
Print Assumptions C105_presentation_OG_odd.

Theorem C105_presentation_OG_even : forall n, 1 <= n -> forall g, OrthogonalGrassmannian (n + 1) (2 * n + 2) = Ok g ->
  presents n (relation_OG n) (toS g) /\ presents n (qrelation_OG n) (qtoS g).
Proof. exact c105_even. Qed.
Print Assumptions C105_presentation_OG_even.

(** On IG(2,4) the square of S[2] is 0 without q, and S[1] q with q; on OG(2,5) it is q with q. *)
Example C105_case : IsotropicGrassmannian 2 (2 * 2) = Ok (mkGr TC 0 2) /\ OrthogonalGrassmannian 2 (2 * 2 + 1) = Ok (mkGr TB 0 2) /\
  special_poly 2 (pmul (pS [2]) (pS [2])) /\ special_poly 2 (pmul (pvar VQ) (pS [1])) /\
  toS (mkGr TC 0 2) (pmul (pS [2]) (pS [2])) = Ok pzero /\
  qtoS (mkGr TC 0 2) (pmul (pS [2]) (pS [2])) = Ok (pmul (pvar VQ) (pS [1])) /\
  qtoS (mkGr TC 0 2) (pmul (pvar VQ) (pS [1])) = Ok (pmul (pvar VQ) (pS [1])) /\
  qtoS (mkGr TB 0 2) (pmul (pS [2]) (pS [2])) = Ok (pmul (pvar VQ) (pS [])) /\
  pnorm (quadratic 2 2 weight_IG) = pnorm (pmul (pS [2]) (pS [2])) /\
  pnorm (quadratic 2 1 weight_IG) = pnorm (psub (pmul (pS [1]) (pS [1])) (pscale (1 + 1)%Qc (pS [2]))) /\
  pnorm (quadratic 2 1 (weight_OG 0 1)) = pnorm (psub (pmul (pS [1]) (pS [1])) (pS [2])).
Proof.
  assert (Hb : forall l, (match l with [i] => (1 <=? i) && (i <=? 2) | _ => false end) = true -> exists i, 1 <= i <= 2 /\ l = [i]).
  { intros [|i [|j l]] H; try discriminate. apply andb_prop in H. destruct H as [H1 H2]. apply Z.leb_le in H1, H2. exists i. auto. }
  split; [reflexivity|]. split; [reflexivity|]. split; [apply (poly_inb_ok _ _ _ Hb); vm_compute; reflexivity|]. split; [apply (poly_inb_ok _ _ _ Hb); vm_compute; reflexivity|].
  split; [vm_compute; reflexivity|]. split; [vm_compute; reflexivity|]. split; [vm_compute; reflexivity|]. split; [vm_compute; reflexivity|]. split; [vm_compute; reflexivity|]. split; vm_compute; reflexivity.
Qed.
