(** The polynomials of the classes with two rows in the special classes of
    isotropic Grassmannians. *)

From Coq Require Import ZArith List QArith Qcanon.
From Verif Require Import Py ModelPoly Spec SpecDet SpecRel.
Import ListNotations.
Open Scope Z_scope.

(** w_0 s_a s_b + w_1 s_{a+1} s_{b-1} + ... + w_b s_{a+b}, where s_1, ..., s_c are the
    special classes, s_0 = 1 and s_i = 0 for i > c *)
Definition two_row (c a b : Z) (w : nat -> Qc) : poly :=
  psumf (fun i => pscale (w i) (pmul (hclass c (a + Z.of_nat i)) (hclass c (b - Z.of_nat i))))
        (seq 0 (S (Z.to_nat b))).
(** 1, -2, 2, -2, ... if a + b > 2k + 1, and 1, -1, 0, 0, ... otherwise *)
Definition weight_two (k a b : Z) (i : nat) : Qc :=
  if 2 * k + 1 <? a + b then weight_IG i else match i with O => 1%Qc | S O => (-(1))%Qc | _ => 0%Qc end.
(** the same after replacing s_i by 2 s_i for i > k, and the class by its multiple
    by 2 for each row longer than k *)
Definition twice (k x : Z) : Qc := if k <? x then (1 + 1)%Qc else 1%Qc.
Definition weight_two_OG (k a b : Z) (i : nat) : Qc :=
  (weight_two k a b i * (twice k (a + Z.of_nat i) * twice k (b - Z.of_nat i)) / (twice k a * twice k b))%Qc.
