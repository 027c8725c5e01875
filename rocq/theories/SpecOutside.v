(** Vocabulary: symbols that are not classes of the space. *)

From Coq Require Import ZArith List QArith Qcanon.
From Verif Require Import Py ModelPoly ModelStr ModelGr Spec.
Import ListNotations.
Open Scope Z_scope.

(** the expression [p] contains the symbol [s] *)
Definition contains (p : poly) (s : schur) : Prop := exists m, coef p m <> 0%Qc /\ In (VS s) m.
(** the symbol [s] is not the symbol of a list in [V] *)
Definition not_in (V : list Z -> Prop) (s : schur) : Prop := forall l, s = SP l -> ~ V l.
(** the call raises an exception (or does not end) *)
Definition raises {A} (r : res A) : Prop := exists e, r = Err e.

(** Every operation that has to expand an expression with a symbol outside [V] in
    special classes raises, whatever the other factor is. *)
Definition refuses (V : list Z -> Prop) (g : gr) : Prop := forall a s, not_in V s -> contains a s ->
  raises (giambelli g a) /\ raises (toS g a) /\ raises (qgiambelli g a) /\ raises (qtoS g a) /\
  forall b, raises (mult g a b) /\ raises (qmult g a b).
(** The same for the recursion of giambelli and qgiambelli of every depth: there is
    no recursion limit with which it ends. *)
Definition endless (V : list Z -> Prop) (g : gr) : Prop := forall depth a s, not_in V s -> contains a s ->
  raises (apply_lc (on_part (giambelli_rec_inner depth (pieri_fun g) (g_k g))) a) /\
  raises (apply_lc (on_part (giambelli_rec_inner depth (qpieri_fun g) (g_k g))) a).
