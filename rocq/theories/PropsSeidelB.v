(** Property C98: on OG(m,N) the special class of the greatest degree acts by an
    involution. *)

From Coq Require Import ZArith List Lia QArith Qcanon.
From Verif Require Import Py ModelPart ModelQcalc ModelPoly ModelStr ModelGr Spec SpecPieri SpecSeidel SeidelApi Check.
Import ListNotations.
Open Scope Z_scope.

(** C98: the quantum product of S[lam] with the special class of the greatest degree
    is a single term.  A row of that length is removed, at the price of q^2 (q, if m is
    greatest possible); a lam with all m rows is multiplied by q; otherwise the row is
    added. *)
Theorem C98_top_OG_odd : forall m n g lam,
  OrthogonalGrassmannian m (2 * n + 1) = Ok g -> 1 <= m <= n -> class_OG m (2 * n + 1) lam ->
  exists r, qmult g (pS [2 * n - m]) (pS lam) = Ok r /\
  (part lam 0 = 2 * n - m -> is_sum_of r (fun d nu => d = (if m =? n then 1%nat else 2%nat) /\ nu = tl lam)) /\
  (part lam 0 <> 2 * n - m -> count_ge lam 1 = m -> is_sum_of r (fun d nu => d = 1%nat /\ nu = lam)) /\
  (part lam 0 <> 2 * n - m -> count_ge lam 1 <> m -> is_sum_of r (fun d nu => d = 0%nat /\ nu = (2 * n - m) :: lam)).
Proof. exact (fun m n g lam Hg Hm => c98_odd m n g Hg Hm lam). Qed.
Print Assumptions C98_top_OG_odd.

(** N even: the same, except that the product with q exchanges the two types. *)
Theorem C98_top_OG_even : forall m n g lam,
  OrthogonalGrassmannian m (2 * n) = Ok g -> 1 <= m < n - 1 -> class_OG m (2 * n) lam ->
  exists r, qmult g (pS [2 * n - 1 - m]) (pS lam) = Ok r /\
  (part lam 0 = 2 * n - 1 - m -> is_sum_of r (fun d nu => d = 2%nat /\ nu = tl lam)) /\
  (part lam 0 <> 2 * n - 1 - m -> count_ge lam 1 = m -> is_sum_of r (fun d nu => d = 1%nat /\ nu = swap_type (n - m) lam)) /\
  (part lam 0 <> 2 * n - 1 - m -> count_ge lam 1 <> m -> is_sum_of r (fun d nu => d = 0%nat /\ nu = (2 * n - 1 - m) :: lam)).
Proof. exact (fun m n g lam Hg Hm => c98_even m n g Hg Hm lam). Qed.
Print Assumptions C98_top_OG_even.

(** The involution permutes the structure constants. *)
Theorem C98_symmetry_OG_odd : forall m n g, OrthogonalGrassmannian m (2 * n + 1) = Ok g -> 1 <= m <= n ->
  top_sym (qmult g) (class_OG m (2 * n + 1)) [2 * n - m].
Proof. exact c98_odd_sym. Qed.
Print Assumptions C98_symmetry_OG_odd.
Theorem C98_symmetry_OG_even : forall m n g, OrthogonalGrassmannian m (2 * n) = Ok g -> 1 <= m < n - 1 ->
  top_sym (qmult g) (class_OG m (2 * n)) [2 * n - 1 - m].
Proof. exact c98_even_sym. Qed.
Print Assumptions C98_symmetry_OG_even.

Example C98_case_odd : OrthogonalGrassmannian 2 7 = Ok (mkGr TB 1 3) /\ class_OG 2 7 [4; 1] /\ class_OG 2 7 [3; 1] /\
  (exists r, qmult (mkGr TB 1 3) (pS [4]) (pS [4; 1]) = Ok r /\ coef r (qS 2 [1]) = 1%Qc) /\
  (exists r, qmult (mkGr TB 1 3) (pS [4]) (pS [3; 1]) = Ok r /\ coef r (qS 1 [3; 1]) = 1%Qc).
Proof.
  split; [reflexivity|]. do 2 (split; [split; [apply in_boxb_ok; reflexivity|]; intros [|[|[|j]]]; unfold part; simpl; lia|]).
  split; eexists; split; vm_compute; reflexivity.
Qed.
Example C98_case_even : OrthogonalGrassmannian 2 8 = Ok (mkGr TD 2 3) /\ class_OG 2 8 [4; 2] /\ class_OG 2 8 [5; 2; 0] /\ class_OG 2 8 [2; 0] /\
  swap_type 2 [4; 2] = [4; 2; 0] /\
  (exists r, qmult (mkGr TD 2 3) (pS [5]) (pS [4; 2]) = Ok r /\ coef r (qS 1 [4; 2; 0]) = 1%Qc) /\
  (exists r, qmult (mkGr TD 2 3) (pS [5]) (pS [5; 2; 0]) = Ok r /\ coef r (qS 2 [2; 0]) = 1%Qc).
Proof.
  assert (K : forall x, in_boxb 2 5 x = true -> (forall j, 2 < part x j -> part x (S j) < part x j) -> kstrict_in 2 2 5 x) by (intros x H1 H2; split; [apply in_boxb_ok; auto|auto]).
  split; [reflexivity|]. split; [left; apply K; [reflexivity|intros [|[|[|j]]]; unfold part; simpl; lia]|].
  split; [right; exists [5; 2]; do 2 (split; [first [reflexivity|lia]|]); split; [simpl; auto|]; apply K; [reflexivity|intros [|[|[|j]]]; unfold part; simpl; lia]|].
  split; [right; exists [2]; do 2 (split; [first [reflexivity|lia]|]); split; [simpl; auto|]; apply K; [reflexivity|intros [|[|[|j]]]; unfold part; simpl; lia]|].
  split; [reflexivity|]. split; eexists; split; vm_compute; reflexivity.
Qed.
