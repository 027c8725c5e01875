(** Quantum products of special classes of the Grassmannians of type A.  The
    vocabulary is that of Spec.v, SpecProd.v and SpecCyl.v. *)

From Coq Require Import ZArith List Lia QArith Qcanon.
From Verif Require Import Py ModelPart ModelQcalc ModelPoly ModelStr ModelGr Spec SpecProd SpecCyl PyFacts Check QKostka.
Import ListNotations.
Open Scope Z_scope.

(** C94: the coefficient of q^d S[nu] in qmult(S[i_1] * ... * S[i_r], S[lam]) is
    the number of cylindric tableaux which start at [lam], end at [nu] moved by d,
    and have steps of i_1, ..., i_r boxes. *)
Theorem C94_qmult_A : forall m n g c lam,
  Grassmannian m n = Ok g -> 1 <= m -> (forall i, In i c -> 1 <= i <= n - m) -> in_box m (n - m) lam ->
  exists r, qmult g (special_product c) (pS lam) = Ok r /\ lin_comb (in_box m (n - m)) r /\
    forall d nu, in_box m (n - m) nu ->
      exists L, NoDup L /\
        (forall T, In T L <-> cyl_tableau m (n - m) (moved m (n - m) 0 lam) c T /\
           last T (moved m (n - m) 0 lam) = moved m (n - m) (Z.of_nat d) nu) /\
        coef r (qS d nu) = Q2Qc (inject_Z (zlen L)).
Proof. exact c94. Qed.
Print Assumptions C94_qmult_A.

(** The expansion of the product itself starts at m rows without boxes. *)
Theorem C94_qtoS_A : forall m n g c,
  Grassmannian m n = Ok g -> 1 <= m -> (forall i, In i c -> 1 <= i <= n - m) ->
  exists r, qtoS g (special_product c) = Ok r /\ lin_comb (in_box m (n - m)) r /\
    forall d nu, in_box m (n - m) nu ->
      exists L, NoDup L /\
        (forall T, In T L <-> cyl_tableau m (n - m) (repz 0 m) c T /\ last T (repz 0 m) = moved m (n - m) (Z.of_nat d) nu) /\
        coef r (qS d nu) = Q2Qc (inject_Z (zlen L)).
Proof. exact c94_qtoS. Qed.
Print Assumptions C94_qtoS_A.

(** In Gr(2,4) the class q occurs twice in S[1]^4; in Gr(3,6) the class q S[2]
    occurs in S[3] * S[2] times S[2,1]. *)
Example C94_case :
  Grassmannian 2 4 = Ok (mkGr TA 2 4) /\ in_box 2 2 [] /\ moved 2 2 1 [] = [3; 1] /\ moved 3 3 1 [2] = [4; 3; 1] /\
  cyl_tableau 2 2 (repz 0 2) [1; 1; 1; 1] [[1; 0]; [2; 0]; [2; 1]; [3; 1]] /\
  cyl_tableau 2 2 (repz 0 2) [1; 1; 1; 1] [[1; 0]; [1; 1]; [2; 1]; [3; 1]] /\
  (exists r, qtoS (mkGr TA 2 4) (special_product [1; 1; 1; 1]) = Ok r /\ coef r (qS 1 []) = Q2Qc (inject_Z 2)) /\
  cyl_tableau 3 3 (moved 3 3 0 [2; 1]) [3; 2] [[3; 2; 1]; [4; 3; 1]] /\
  (exists r, qmult (mkGr TA 3 6) (special_product [3; 2]) (pS [2; 1]) = Ok r /\ coef r (qS 1 [2]) = Q2Qc (inject_Z 1)).
Proof.
  assert (G : forall m k v w i, 1 <= m <= 3 -> zlen w = m -> size w = size v + i ->
    forallb (fun j => part v (Z.to_nat j) <=? part w (Z.to_nat j)) (zrange 0 m) = true ->
    forallb (fun j => part w (Z.to_nat j) <=? part v (Z.to_nat (j - 1))) (zrange 1 m) = true ->
    part w 0 <=? part v (Z.to_nat (m - 1)) + k = true -> cyl_strip m k v w i).
  { intros m k v w i Hm H1 H2 H3 H4 H5. rewrite forallb_forall in H3, H4. split; [auto|]. split; [|split; [|split; [apply Z.leb_le; auto|auto]]].
    - intros j Hj. apply Z.leb_le, H3, in_zrange; auto.
    - intros j Hj. apply Z.leb_le, H4, in_zrange; auto. }
  split; [reflexivity|]. split; [apply in_boxb_ok; reflexivity|]. split; [reflexivity|]. split; [reflexivity|].
  split; [|split; [|split; [|split]]].
  - cbn [cyl_tableau]. repeat (split; [apply G; try reflexivity; lia|]). exact I.
  - cbn [cyl_tableau]. repeat (split; [apply G; try reflexivity; lia|]). exact I.
  - eexists. split; vm_compute; reflexivity.
  - cbn [cyl_tableau]. repeat (split; [apply G; try reflexivity; lia|]). exact I.
  - eexists. split; vm_compute; reflexivity.
Qed.
