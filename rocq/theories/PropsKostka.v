(** Products of special classes of the Grassmannians of type A.  The vocabulary
    is that of Spec.v, SpecMisc.v and SpecProd.v. *)

From Coq Require Import ZArith List Lia QArith Qcanon.
From Verif Require Import Py ModelPart ModelQcalc ModelPoly ModelStr ModelGr ModelMisc Spec SpecMisc SpecProd Check ApiKostka.
Import ListNotations.
Open Scope Z_scope.

(** C70: the coefficient of S[lam] in S[i_1] * ... * S[i_r] is the number of
    semistandard tableaux of shape [lam] in which 1 occurs i_1 times, ..., r
    occurs i_r times; no other terms occur. *)
Theorem C70_kostka : forall m n g c,
  Grassmannian m n = Ok g -> 1 <= m -> (forall i, In i c -> 1 <= i <= n - m) ->
  exists r, toS g (special_product c) = Ok r /\ lin_comb0 (in_box m (n - m)) r /\
    forall lam, in_box m (n - m) lam ->
      exists L, NoDup L /\
        (forall T, In T L <-> ssyt (Z.of_nat (length c)) lam T /\ content (Z.of_nat (length c)) T = c) /\
        coef r [vS lam] = Q2Qc (inject_Z (Z.of_nat (length L))).
Proof. exact c70. Qed.
Print Assumptions C70_kostka.

(** It is also the coefficient of x_1^i_1 ... x_r^i_r in the polynomial that
    SchurPol returns for [lam] and r variables. *)
Theorem C70_SchurPol : forall m n g c lam,
  Grassmannian m n = Ok g -> 1 <= m -> c <> [] -> (forall i, In i c -> 1 <= i <= n - m) -> in_box m (n - m) lam ->
  exists r p, toS g (special_product c) = Ok r /\ snd (SchurPol (Z.of_nat (length c)) lam) = Ok p /\
    coef r [vS lam] = Q2Qc (inject_Z (Z.of_nat (count_occ (list_eq_dec Z.eq_dec) p c))).
Proof. exact c70_poly. Qed.
Print Assumptions C70_SchurPol.

(** In Gr(3,6) the class S[3,1] occurs twice in S[1]*S[2]*S[1], and S[2,1,1]
    once. *)
Example C70_case :
  Grassmannian 3 6 = Ok (mkGr TA 3 6) /\ in_box 3 3 [3; 1] /\ ssyt 3 [3; 1] [[1; 2; 2]; [3]] /\ ssyt 3 [3; 1] [[1; 2; 3]; [2]] /\
  content 3 [[1; 2; 2]; [3]] = [1; 2; 1] /\ content 3 [[1; 2; 3]; [2]] = [1; 2; 1] /\
  exists r p, toS (mkGr TA 3 6) (special_product [1; 2; 1]) = Ok r /\ coef r [vS [3; 1]] = Q2Qc (inject_Z 2) /\
    coef r [vS [2; 1; 1]] = 1%Qc /\ snd (SchurPol 3 [3; 1]) = Ok p /\ count_occ (list_eq_dec Z.eq_dec) p [1; 2; 1] = 2%nat.
Proof.
  split; [reflexivity|]. split; [apply in_boxb_ok; reflexivity|].
  assert (G : forall T, T = [[1; 2; 2]; [3]] \/ T = [[1; 2; 3]; [2]] -> ssyt 3 [3; 1] T).
  { intros T HT. split; [destruct HT; subst; reflexivity|]. unfold entry.
    split; [|split; [|split]]; intros i; try intros c; destruct HT; subst; destruct i as [|[|[|i]]]; try (destruct c as [|[|[|[|c]]]]); cbn; lia. }
  split; [apply G; auto|]. split; [apply G; auto|]. split; [reflexivity|]. split; [reflexivity|].
  do 2 eexists. split; [vm_compute; reflexivity|]. split; [vm_compute; reflexivity|]. split; [vm_compute; reflexivity|].
  split; [vm_compute; reflexivity|]. reflexivity.
Qed.
