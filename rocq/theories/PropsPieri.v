(** Properties C23 and C24: the index set of the Pieri rule for isotropic
    Grassmannians.  The vocabulary is that of Spec.v and SpecPieri.v. *)

From Coq Require Import ZArith List Lia Bool QArith Qcanon.
From Verif Require Import Py ModelPart ModelQcalc ModelPoly ModelGr Spec SpecPieri Check ApiPieri.
Import ListNotations.
Open Scope Z_scope.

(** C23: pieri_set never raises, and its entries are k-strict partitions of the
    right size in the right rectangle, in strictly decreasing lexicographic
    order (read backwards the list is strictly increasing). *)
Theorem C23_pieri_set : forall p lam k n d,
  0 <= k -> 0 <= n -> d = 0 \/ d = 1 -> k <= n + d -> kstrict_in k (n + d - k) (n + k) lam ->
  exists L, pieri_set p lam k n d = Ok L /\ strictly_increasing (rev L) /\ NoDup L /\
    forall mu, In mu L -> kstrict_in k (n + d - k) (n + k) mu /\ size mu = size lam + p.
Proof. exact c23. Qed.
Print Assumptions C23_pieri_set.

(** C24: it contains exactly the partitions related to [lam] by the rule of
    Buch, Kresch and Tamvakis. *)
Theorem C24_pieri_set : forall p lam k n d,
  0 <= k -> 0 <= n -> d = 0 \/ d = 1 -> k <= n + d -> kstrict_in k (n + d - k) (n + k) lam ->
  exists L, pieri_set p lam k n d = Ok L /\
    forall mu, In mu L <->
      kstrict_in k (n + d - k) (n + k) mu /\ size mu = size lam + p /\ pieri_arrow k d lam mu.
Proof. exact c24. Qed.
Print Assumptions C24_pieri_set.

(** In type C with k = 1, n = 3: (1,1) is related to (4), which loses the box
    (2,1); it is not related to (3): there the box (2,1) is
    related to no added box. *)
Example C24_case : kstrict_in 1 3 5 [2; 1; 1] /\
  pieri_set 2 [2; 1; 1] 1 4 0 = Ok [[5; 1]; [4; 1; 1]; [3; 2; 1]] /\
  pieri_set 2 [1; 1] 1 3 0 = Ok [[4]; [3; 1]] /\ pieri_arrow 1 0 [1; 1] [4] /\
  ~ pieri_arrow 1 0 [1; 1] [3].
Proof.
  assert (HK : kstrict_in 1 (3 + 0 - 1) (3 + 1) [1; 1]).
  { split; [apply in_boxb_ok; reflexivity|]. intros [|[|[|j]]]; unfold part; simpl; lia. }
  split; [|split; [vm_compute; reflexivity|split; [vm_compute; reflexivity|split]]].
  - split; [apply in_boxb_ok; reflexivity|]. intros [|[|[|[|j]]]]; unfold part; simpl; lia.
  - destruct (C24_pieri_set 2 [1; 1] 1 3 0) as (L & E & HL); auto; try lia.
    vm_compute in E. injection E as <-. apply HL. left. reflexivity.
  - intros HA. destruct (C24_pieri_set 1 [1; 1] 1 3 0) as (L & E & HL); auto; try lia.
    assert (HI : In [3] L).
    { apply HL. split; [|split; [reflexivity|exact HA]]. split; [apply in_boxb_ok; reflexivity|].
      intros [|[|j]]; unfold part; simpl; lia. }
    vm_compute in E. injection E as <-. destruct HI as [HI|HI]; [discriminate HI|exact HI].
Qed.
