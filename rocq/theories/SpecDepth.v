(** How deep [giambelli] and [qgiambelli] nest. *)

From Coq Require Import ZArith List Bool QArith Qcanon.
From Verif Require Import Py ModelPart ModelQcalc ModelPoly ModelStr ModelGr Spec SpecPieri.
Import ListNotations.
Open Scope Z_scope.

(** [giambelli] with no more than [depth] calls of [giambelli_rec_inner] open at
    the same time: one more call is a RecursionError. *)
Definition giambelli_limited (depth : nat) (g : gr) (lc : poly) : res poly :=
  apply_lc (on_part (giambelli_rec_inner depth (pieri_fun g) (g_k g))) lc.
(** the same for [qgiambelli] *)
Definition qgiambelli_limited (depth : nat) (g : gr) (lc : poly) : res poly :=
  apply_lc (on_part (giambelli_rec_inner depth (qpieri_fun g) (g_k g))) lc.

(** number of boxes below the first row *)
Definition boxes_below_first_row (lam : list Z) : Z := size lam - part lam 0.

(** An operation [op] with the limit and the operation [full] without it agree on
    S[lam], and return, as soon as the limit reaches the number of boxes of lam
    below its first row plus two. *)
Definition shallow (limited : nat -> poly -> res poly) (full : poly -> res poly) (lam : list Z) : Prop :=
  forall depth, boxes_below_first_row lam + 2 <= Z.of_nat depth ->
    exists E, limited depth (pS lam) = Ok E /\ full (pS lam) = Ok E.
