(** Property C99: on OG(m,2n) the class S[n-1,n-2,...,n-m] acts by rotation. *)

From Coq Require Import ZArith List Lia QArith Qcanon.
From Verif Require Import Py ModelPart ModelQcalc ModelPoly ModelStr ModelGr Spec SpecPieri SpecSeidel SeidelDApi Check.
Import ListNotations.
Open Scope Z_scope.

(** C99: the quantum product of S[lam] with S[n-1,...,n-m] (of the second type if n-m is
    odd) is a single term q^d S[mu].  The index set of mu is that of lam, with the middle
    indices n and n+1 exchanged if n is odd, rotated by n in 1, ..., 2n; d is the number
    of indices of lam that, after that exchange, are at most n. *)
Theorem C99_rotation_OG_even : forall m n g lam,
  OrthogonalGrassmannian m (2 * n) = Ok g -> 1 <= m < n - 1 -> class_OG m (2 * n) lam ->
  exists r mu d x y idx idx',
    qmult g (pS (spin_class m n)) (pS lam) = Ok r /\ class_OG m (2 * n) mu /\
    is_sum_of r (fun e nu => e = d /\ nu = mu) /\
    part2index g (pS lam) = Ok x /\ peq x (pS idx) /\ part2index g (pS mu) = Ok y /\ peq y (pS idx') /\
    (forall a, In a idx' <-> 1 <= a <= 2 * n /\ In (middle n (if a <=? n then a + n else a - n)) idx) /\
    Z.of_nat d = zlen (filter (fun a => middle n a <=? n) idx).
Proof. exact (fun m n g lam Hg Hm => c99_rot m n g Hg Hm lam). Qed.
Print Assumptions C99_rotation_OG_even.

(** The rotation permutes the structure constants. *)
Theorem C99_symmetry_OG_even : forall m n g, OrthogonalGrassmannian m (2 * n) = Ok g -> 1 <= m < n - 1 ->
  top_sym (qmult g) (class_OG m (2 * n)) (spin_class m n).
Proof. exact c99_sym. Qed.
Print Assumptions C99_symmetry_OG_even.

Example C99_case : OrthogonalGrassmannian 2 8 = Ok (mkGr TD 2 3) /\ spin_class 2 4 = [3; 2] /\ class_OG 2 8 [4; 2] /\ class_OG 2 8 [2; 0] /\
  (exists r, qmult (mkGr TD 2 3) (pS [3; 2]) (pS [4; 2]) = Ok r /\ coef r (qS 2 [1]) = 1%Qc) /\
  (exists r, qmult (mkGr TD 2 3) (pS [3; 2]) (pS [2; 0]) = Ok r /\ coef r (qS 1 [2; 0]) = 1%Qc) /\
  (exists x, part2index (mkGr TD 2 3) (pS [4; 2]) = Ok x /\ coef x (qS 0 [2; 4]) = 1%Qc) /\
  (exists x, part2index (mkGr TD 2 3) (pS [1]) = Ok x /\ coef x (qS 0 [6; 8]) = 1%Qc).
Proof.
  assert (K : forall x, in_boxb 2 5 x = true -> (forall j, 2 < part x j -> part x (S j) < part x j) -> kstrict_in 2 2 5 x) by (intros x H1 H2; split; [apply in_boxb_ok; auto|auto]).
  split; [reflexivity|]. split; [reflexivity|]. split; [left; apply K; [reflexivity|intros [|[|[|j]]]; unfold part; simpl; lia]|].
  split; [right; exists [2]; do 2 (split; [first [reflexivity|lia]|]); split; [simpl; auto|]; apply K; [reflexivity|intros [|[|[|j]]]; unfold part; simpl; lia]|].
  split; [|split; [|split]]; eexists; split; vm_compute; reflexivity.
Qed.
Example C99_case_odd : OrthogonalGrassmannian 2 10 = Ok (mkGr TD 3 4) /\ spin_class 2 5 = [4; 3; 0] /\ middle 5 5 = 6 /\
  (exists r, qmult (mkGr TD 3 4) (pS [4; 3; 0]) (pS [4; 3; 0]) = Ok r /\ coef r (qS 1 [7]) = 1%Qc).
Proof. do 3 (split; [reflexivity|]). eexists; split; vm_compute; reflexivity. Qed.
