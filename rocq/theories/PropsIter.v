(** C87, C88: stepping through partitions, and skew heights. *)

From Coq Require Import ZArith List Lia.
From Verif Require Import Py ModelPart ModelQcalc Spec SpecIter IterFacts.
Import ListNotations.
Open Scope Z_scope.

(** ** C87 *)
Theorem C87_part_itr : forall n, steps_down (row_list n) part_itr.
Proof. exact c87_part_itr. Qed.
Print Assumptions C87_part_itr.

Theorem C87_itr_kstrict : forall k n a, 0 <= k -> row_list n a /\ kstrict k a ->
  let D := fun l => row_list n l /\ kstrict k l in
  (least D a /\ itr_kstrict a k = Ok []) \/ (exists b, previous D a b /\ itr_kstrict a k = Ok b).
Proof. exact c87_itr_kstrict. Qed.
Print Assumptions C87_itr_kstrict.

Theorem C87_part_itr_between : forall n tau lam, row_list n tau -> row_list n lam -> (forall j, part tau j <= part lam j) ->
  steps_down (fun l => row_list n l /\ forall j, part tau j <= part l j <= part lam j) (fun a => part_itr_between a tau lam).
Proof. exact c87_between. Qed.
Print Assumptions C87_part_itr_between.

Theorem C87_part_gen : forall lam, lam <> [] -> row_list (length lam) lam ->
  exists ls, part_gen lam = Ok ls /\ strictly_increasing (rev ls) /\
    forall p, In p ls <-> is_partition p /\ (length p <= length lam)%nat /\ (p = lam \/ lex_lt p lam).
Proof. exact c87_part_gen. Qed.
Print Assumptions C87_part_gen.

Ltac rows := split; [reflexivity|]; split; intros j; do 4 (destruct j as [|j]; [unfold part; cbn; lia|]); unfold part; cbn; destruct j; cbn; lia.
Example C87_rows : row_list 3 [3; 1; 0] /\ row_list 3 [2; 0; 0] /\ kstrict 1 [3; 1; 0].
Proof.
  split; [rows|]. split; [rows|]. intros j. unfold part. do 4 (destruct j as [|j]; [cbn; lia|]). cbn. destruct j; cbn; lia.
Qed.
Example C87_steps :
  part_itr [3; 1; 0] = Ok (Some [3; 0; 0]) /\ part_itr [3; 0; 0] = Ok (Some [2; 2; 2]) /\ part_itr [0; 0; 0] = Ok None /\
  itr_kstrict [3; 0; 0] 1 = Ok [2; 1; 1] /\ itr_kstrict [0; 0; 0] 1 = Ok [] /\
  part_itr_between [3; 0; 0] [2; 0; 0] [3; 1; 0] = Ok (Some [2; 1; 0]).
Proof. vm_compute. repeat split. Qed.
(** not only the diagrams inside [3; 1] *)
Example C87_gen : part_gen [3; 1] = Ok [[3; 1]; [3]; [2; 2]; [2; 1]; [2]; [1; 1]; [1]; []].
Proof. vm_compute. reflexivity. Qed.

(** ** C88 *)
Theorem C88_height : forall lam mu, lam <> [] -> (length lam <= length mu)%nat ->
  (forall j, (j < length lam)%nat -> part lam j <= part mu j) ->
  skew_partition_height lam mu = Ok (rows_with_boxes lam mu (length mu)).
Proof. exact c88_height. Qed.
Print Assumptions C88_height.

Theorem C88_rejects : forall lam mu,
  ~ ((length lam <= length mu)%nat /\ forall j, (j < length lam)%nat -> part lam j <= part mu j) ->
  skew_partition_height lam mu = Err ValueError.
Proof. exact c88_rejects. Qed.
Print Assumptions C88_rejects.

Theorem C88_empty : forall mu, skew_partition_height [] mu = Ok (Z.of_nat (length mu)) /\
  (Forall (fun x => 0 < x) mu -> rows_with_boxes [] mu (length mu) = Z.of_nat (length mu)).
Proof. exact c88_empty. Qed.
Print Assumptions C88_empty.

(** rows without boxes are counted when the first list is empty *)
Theorem C88_zero_rows_refuted : exists mu, skew_partition_height [] mu <> Ok (rows_with_boxes [] mu (length mu)).
Proof. exists [2; 0]. discriminate. Qed.
Print Assumptions C88_zero_rows_refuted.

Example C88_case : skew_partition_height [2] [3; 1] = Ok 2 /\ skew_partition_height [3; 1] [3; 2; 1] = Ok 2 /\
  skew_partition_height [3; 1] [2; 2] = Err ValueError /\ skew_partition_height [1; 1] [2] = Err ValueError.
Proof. vm_compute. repeat split. Qed.
