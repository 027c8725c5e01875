(** Conversion of Sage's Schur functions. *)

From Coq Require Import ZArith List Lia Bool String Ascii QArith Qcanon.
From Verif Require Import Py ModelPoly ModelStr ModelParse ModelDraw ModelSage ApiSage.
Import ListNotations.
Open Scope Z_scope.

(** C80: a Schur function s_lam of Sage becomes the class of the same partition. *)
Theorem C80_basis : forall lam, (forall x, In x lam -> 0 <= x) ->
  sage_schur_to_schur (mkSage true [(lam, 1%Qc)]) = Ok (val_of_schur (SP lam)).
Proof. exact (fun lam H => c80_basis lam 1%Qc H). Qed.
Print Assumptions C80_basis.

(** C80: elements of other rings are refused. *)
Theorem C80_other_rings : forall terms, sage_schur_to_schur (mkSage false terms) = Err ValueError.
Proof. exact c80_errors. Qed.
Print Assumptions C80_other_rings.

(** C80: what is not a single Schur function is not refused: the coefficient and
    the other terms are lost; only 0 raises. *)
Theorem C80_sums_refuted : exists e e', e <> e' /\ sage_parent_is_S e = true /\ sage_parent_is_S e' = true /\
  NoDup (map fst (sage_terms e)) /\ NoDup (map fst (sage_terms e')) /\
  sage_schur_to_schur e = Ok (PList [PInt 2; PInt 1]) /\ sage_schur_to_schur e' = Ok (PList [PInt 2; PInt 1]) /\
  sage_schur_to_schur (mkSage true []) = Err IndexError.
Proof. exact c80_sums. Qed.
Print Assumptions C80_sums_refuted.

Example C80_case : str_of_list_sp [12; 3; 1] = "[12, 3, 1]"%string /\
  sage_schur_to_schur (mkSage true [([12; 3; 1], 1%Qc)]) = Ok (PList [PInt 12; PInt 3; PInt 1]) /\
  sage_schur_to_schur (mkSage true [([], 1%Qc)]) = Ok (PList []).
Proof. repeat split; vm_compute; reflexivity. Qed.
