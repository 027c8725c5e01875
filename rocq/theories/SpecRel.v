(** The quadratic relations between the special classes of isotropic
    Grassmannians. *)

From Coq Require Import ZArith List QArith Qcanon.
From Verif Require Import Py ModelPoly Spec SpecDet.
Import ListNotations.
Open Scope Z_scope.

(** w_0 s_r s_r + w_1 s_{r+1} s_{r-1} + w_2 s_{r+2} s_{r-2} + ..., where s_1, ...,
    s_c are the special classes, s_0 = 1 and s_i = 0 otherwise *)
Definition quadratic (c r : Z) (w : nat -> Qc) : poly :=
  psumf (fun i => pscale (w i) (pmul (hclass c (r + Z.of_nat i)) (hclass c (r - Z.of_nat i))))
        (seq 0 (S (Z.to_nat (c - r)))).
(** 1, -2, 2, -2, ... *)
Definition weight_IG (i : nat) : Qc := if (i =? 0)%nat then 1%Qc else (sign i * (1 + 1))%Qc.
(** the same, but 1 and -1 from the place r - k on *)
Definition weight_OG (k r : Z) (i : nat) : Qc :=
  if (i =? 0)%nat || (r - k <=? Z.of_nat i) then sign i else (sign i * (1 + 1))%Qc.
(** the class of a row of [y] boxes *)
Definition row (y : Z) : list Z := if y =? 0 then [] else [y].
