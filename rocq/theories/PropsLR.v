(** The Littlewood-Richardson rule for products of Schubert classes of the
    Grassmannians of type A.  The vocabulary is that of Spec.v and SpecMisc.v. *)

From Coq Require Import ZArith List Lia QArith Qcanon.
From Verif Require Import Py ModelPart ModelQcalc ModelPoly ModelStr ModelGr Spec SpecMisc Check ApiLR.
Import ListNotations.
Open Scope Z_scope.

(** C50: the coefficient of S[nu] in the product of S[lam] and S[mu] is the number
    of Littlewood-Richardson tableaux of shape [lam] that lead from [mu] to [nu];
    no other terms occur. *)
Theorem C50_littlewood_richardson_A : forall m n g lam mu,
  Grassmannian m n = Ok g -> 1 <= m -> in_box m (n - m) lam -> in_box m (n - m) mu ->
  exists r, mult g (pS lam) (pS mu) = Ok r /\ lin_comb0 (in_box m (n - m)) r /\
    forall nu, in_box m (n - m) nu ->
      exists L, NoDup L /\ (forall T, In T L <-> lr_tableau m lam mu nu T) /\
        coef r [vS nu] = Q2Qc (inject_Z (Z.of_nat (length L))).
Proof. exact c50. Qed.
Print Assumptions C50_littlewood_richardson_A.

(** in Gr(3,6) the class S[3,2,1] occurs twice in the square of S[2,1]: there are
    two tableaux *)
Example C50_case :
  Grassmannian 3 6 = Ok (mkGr TA 3 6) /\ in_box 3 3 [2; 1] /\ in_box 3 3 [3; 2; 1] /\
  lr_tableau 3 [2; 1] [2; 1] [3; 2; 1] [[1; 2]; [3]] /\ lr_tableau 3 [2; 1] [2; 1] [3; 2; 1] [[1; 3]; [2]] /\
  exists r, mult (mkGr TA 3 6) (pS [2; 1]) (pS [2; 1]) = Ok r /\ coef r [vS [3; 2; 1]] = Q2Qc (inject_Z 2).
Proof.
  split; [reflexivity|]. split; [apply in_boxb_ok; reflexivity|]. split; [apply in_boxb_ok; reflexivity|].
  assert (G : forall T, T = [[1; 2]; [3]] \/ T = [[1; 3]; [2]] -> lr_tableau 3 [2; 1] [2; 1] [3; 2; 1] T).
  { intros T HT. split; [|split].
    - split; [destruct HT; subst; reflexivity|]. unfold entry.
      split; [|split; [|split]]; intros i; try intros c; destruct HT; subst; destruct i as [|[|[|i]]]; try (destruct c as [|[|[|c]]]); cbn; lia.
    - intros c r. unfold part, content, columns_from. destruct HT; subst; destruct c as [|[|[|c]]]; destruct r as [|[|[|[|r]]]]; vm_compute; intros HH; discriminate HH.
    - intros r. unfold part, content. destruct HT; subst; destruct r as [|[|[|[|r]]]]; reflexivity. }
  split; [apply G; auto|]. split; [apply G; auto|].
  eexists. split; [vm_compute; reflexivity|]. vm_compute. reflexivity.
Qed.
