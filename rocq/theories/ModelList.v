(** Calls with list arguments that ModelGr.v does not cover. *)

From Coq Require Import ZArith List Lia Bool QArith Qcanon.
From Verif Require Import Py ModelPart ModelQcalc ModelPoly ModelGr.
Import ListNotations.
Open Scope Z_scope.

(** lc.py:11-14, 32: [LinearCombination(list)]; a list that is not a valid
    partition falls through to the ValueError of line 32. *)
Definition lc_of_list (l : list Z) : res poly :=
  if is_valid_part l then symbol (SP l) else Err ValueError.

(** abstract_grassmannian.py:106-108 [pieri] with a list *)
Definition pieri_list (g : gr) (i : Z) (l : list Z) : res poly := pieri_fun g i l.
(** abstract_grassmannian.py:136-140 [qpieri] with a list *)
Definition qpieri_list (g : gr) (i : Z) (l : list Z) : res poly :=
  x <- lc_of_list l ;; qpieri g i x.
(** abstract_grassmannian.py:126-134 and 158-180: [mult], [toS], [qmult], [qtoS],
    [giambelli], [qgiambelli] with lists *)
Definition mult_list (g : gr) (a b : list Z) : res poly :=
  x <- lc_of_list a ;; y <- lc_of_list b ;; mult g x y.
(** abstract_grassmannian.py:160-174 [qmult] with lists *)
Definition qmult_list (g : gr) (a b : list Z) : res poly :=
  x <- lc_of_list a ;; y <- lc_of_list b ;; qmult g x y.
(** abstract_grassmannian.py:131-133 [toS] with a list *)
Definition toS_list (g : gr) (a : list Z) : res poly := x <- lc_of_list a ;; toS g x.
(** abstract_grassmannian.py:177-180 [qtoS] with a list *)
Definition qtoS_list (g : gr) (a : list Z) : res poly := x <- lc_of_list a ;; qtoS g x.
(** abstract_grassmannian.py:94-99 [miami_swap] with a list *)
Definition miami_swap_list (g : gr) (a : list Z) : res poly := x <- lc_of_list a ;; miami_swap g x.
