(** Vocabulary: stepping through the partitions in a given number of rows. *)

From Coq Require Import ZArith List.
From Verif Require Import Py Spec.
Import ListNotations.
Open Scope Z_scope.

(** a partition with at most [n] rows, written as [n] numbers *)
Definition row_list (n : nat) (l : list Z) : Prop :=
  length l = n /\ (forall j, 0 <= part l j) /\ (forall j, part l (S j) <= part l j).

(** [b] is the largest list of [D] below [a]; [a] is the least list of [D] *)
Definition previous (D : list Z -> Prop) (a b : list Z) : Prop :=
  D b /\ lex_lt b a /\ forall c, D c -> lex_lt c a -> c = b \/ lex_lt c b.
Definition least (D : list Z -> Prop) (a : list Z) : Prop := forall c, D c -> c = a \/ lex_lt a c.

(** [next] steps down in [D], and ends with None *)
Definition steps_down (D : list Z -> Prop) (next : list Z -> res (option (list Z))) : Prop :=
  forall a, D a -> (least D a /\ next a = Ok None) \/ (exists b, previous D a b /\ next a = Ok (Some b)).

(** the number of rows i < n in which [mu] has more boxes than [lam] *)
Fixpoint rows_with_boxes (lam mu : list Z) (n : nat) : Z :=
  match n with
  | O => 0
  | S n => rows_with_boxes lam mu n + (if part lam n <? part mu n then 1 else 0)
  end.
