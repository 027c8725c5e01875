(** The polynomials of the classes with two rows of OG(m,N) with N even. *)

From Coq Require Import ZArith List QArith Qcanon.
From Verif Require Import Py ModelPoly Spec SpecDet SpecRel SpecTwo.
Import ListNotations.
Open Scope Z_scope.

(** w_0 h_a h_b + w_1 h_{a+1} h_{b-1} + ... + w_b h_{a+b} h_0 *)
Definition products (h : Z -> poly) (a b : Z) (w : nat -> Qc) : poly :=
  psumf (fun i => pscale (w i) (pmul (h (a + Z.of_nat i)) (h (b - Z.of_nat i)))) (seq 0 (S (Z.to_nat b))).

(** a shape as a class: a trailing 0 marks the second type *)
Definition mark (second : bool) (l : list Z) : list Z := if second then l ++ [0] else l.
(** the special classes; in degree k > 0, where there are two, their sum ... *)
Definition both_class (c k i : Z) : poly :=
  if (0 <? k) && (i =? k) then padd (pS [k]) (pS [k; 0]) else hclass c i.
(** ... or the one of the given type *)
Definition one_class (c k : Z) (second : bool) (i : Z) : poly :=
  if (0 <? k) && (i =? k) then pS (mark second [k]) else hclass c i.

(** 1, -1, 0, 0, ... *)
Definition weight_short (i : nat) : Qc := match i with O => 1%Qc | S O => (-(1))%Qc | _ => 0%Qc end.
(** neither row has length k: 1, -2, 2, -2, ... if a + b > 2k and 1, -1, 0, ...
    otherwise, after replacing s_i by 2 s_i for i > k, and the class by its multiple by
    2 for each row longer than k *)
Definition weight_two_D (k a b : Z) (i : nat) : Qc :=
  ((if (2 * k <? a + b)%Z then weight_IG i else weight_short i) *
   (twice k (a + Z.of_nat i) * twice k (b - Z.of_nat i)) / (twice k a * twice k b))%Qc.
(** one row has length k: 1, -1, 1, -1, ... if a > k, and 1, -1, 0, ... if b < k *)
Definition weight_one_k (k a b : Z) (i : nat) : Qc := if 2 * k <? a + b then sign i else weight_short i.
(** both rows have length k: 1, 0, -1, 1, -1, ... *)
Definition weight_two_k (i : nat) : Qc := match i with O => 1%Qc | S O => 0%Qc | _ => sign (S i) end.

(** the polynomial of the class with the rows a and b *)
Definition two_row_D (c k : Z) (second : bool) (a b : Z) : poly :=
  if a =? k then
    if b =? k then products (one_class c k second) a b weight_two_k
    else products (one_class c k second) a b (weight_one_k k a b)
  else if b =? k then products (one_class c k second) a b (weight_one_k k a b)
  else products (both_class c k) a b (weight_two_D k a b).
