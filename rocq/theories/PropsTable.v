(** C37 on isotropic Grassmannians: the tables exist, their entries are the
    products of the labels, and they are symmetric. *)

From Coq Require Import ZArith List QArith Qcanon.
From Verif Require Import Py ModelPart ModelQcalc ModelPoly ModelGr Spec SpecMisc ApiTable.
Import ListNotations.
Open Scope Z_scope.

Theorem C37_IG : forall m N g, IsotropicGrassmannian m N = Ok g ->
  exists L T T', schub_classes g = Ok L /\ MultTable g = Ok T /\ QMultTable g = Ok T' /\
    is_table (mult g) L T /\ is_table (qmult g) L T' /\ symmetric_table T /\ symmetric_table T'.
Proof. exact tables_IG. Qed.
Print Assumptions C37_IG.

Theorem C37_OG_odd : forall m N g, OrthogonalGrassmannian m N = Ok g -> Z.odd N = true -> 1 <= m <= N / 2 ->
  exists L T T', schub_classes g = Ok L /\ MultTable g = Ok T /\ QMultTable g = Ok T' /\
    is_table (mult g) L T /\ is_table (qmult g) L T' /\ symmetric_table T /\ symmetric_table T'.
Proof. exact tables_OG_odd. Qed.
Print Assumptions C37_OG_odd.

Theorem C37_OG_even : forall m N g,
  OrthogonalGrassmannian m N = Ok g -> Z.even N = true -> 4 <= N -> 1 <= m <= N / 2 ->
  exists L, schub_classes g = Ok L /\
    (exists T, MultTable g = Ok T /\ is_table (mult g) L T /\ symmetric_table T) /\
    (m <> N / 2 - 1 -> exists T, QMultTable g = Ok T /\ is_table (qmult g) L T /\ symmetric_table T).
Proof. exact tables_OG_even. Qed.
Print Assumptions C37_OG_even.

(** The entry S[2] * S[3] of the quantum table of IG(1,4). *)
Example C37_case_IG : exists g T r x, IsotropicGrassmannian 1 4 = Ok g /\ QMultTable g = Ok T /\ nth_error T 2 = Some r /\
  nth_error r 3 = Some x /\ x = [([vS [1]; VQ], 1%Qc)].
Proof. do 4 eexists. do 4 (split; [vm_compute; reflexivity|]). vm_compute; reflexivity. Qed.
