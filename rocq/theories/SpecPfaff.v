(** Expanding a class of a maximal isotropic Grassmannian along its rows: the
    vocabulary of C102. *)

From Coq Require Import ZArith List QArith Qcanon.
From Verif Require Import Py ModelPoly ModelGr Spec.
Import ListNotations.
Open Scope Z_scope.

(** All ways to take one row out of a list: the sign, which alternates and starts
    with +, the row, and the other rows. *)
Fixpoint take_row (l : list Z) : list (Qc * Z * list Z) :=
  match l with
  | [] => []
  | b :: t => (1%Qc, b, t) :: map (fun r => ((- fst (fst r))%Qc, snd (fst r), b :: snd r)) (take_row t)
  end.
(** [r] is the alternating sum, over the rows [b] of [l], of the products of the class
    [first b] with the class of the other rows of [l]. *)
Definition expands (prod : poly -> poly -> res poly) (first : Z -> list Z) (l : list Z) (r : poly) : Prop :=
  exists rs, Forall2 (fun t s => prod (pS (first (snd (fst t)))) (pS (snd t)) = Ok s) (take_row l) rs /\
    peq r (fold_right (fun ts acc => padd (pscale (fst (fst (fst ts))) (snd ts)) acc) pzero (combine (take_row l) rs)).
(** The three expansions: of a class with an odd number of rows into classes of one row,
    and of a class [a :: l] along its first row, which pairs [a] with the other rows. With
    [l] of odd length the latter is the expansion of a Pfaffian; with [l] of even length
    one more product appears, where [a] stands alone. *)
Definition row_expansions (V : list Z -> Prop) (prod : poly -> poly -> res poly) : Prop :=
  (forall l, V l -> Nat.odd (length l) = true -> expands prod (fun b => [b]) l (pS l)) /\
  (forall a l, V (a :: l) -> Nat.odd (length l) = true -> expands prod (fun b => [a; b]) l (pS (a :: l))) /\
  (forall a l, V (a :: l) -> Nat.even (length l) = true ->
     exists s, prod (pS [a]) (pS l) = Ok s /\ expands prod (fun b => [a; b]) l (psub (pS (a :: l)) s)).

(** The Pfaffian of the classes of two rows: the matrix with the entries S[l_i,l_j] above the
    diagonal, for an odd number of rows bordered by the classes S[l_i] of one row, expanded
    along its first row. A polynomial in these classes. *)
Fixpoint pfaffian_rec (rows : nat) (l : list Z) : poly :=
  match rows, l with
  | S n, a :: t =>
      padd (fold_right (fun q acc => padd (pscale (fst (fst q)) (pmul (pS [a; snd (fst q)]) (pfaffian_rec n (snd q)))) acc) pzero (take_row t))
           (if Nat.even (length t) then pmul (pS [a]) (pfaffian_rec n t) else pzero)
  | _, _ => pone
  end.
Definition pfaffian (l : list Z) : poly := pfaffian_rec (length l) l.
(** its value in the ring is the class *)
Definition pfaffian_formula (V : list Z -> Prop) (prod : poly -> poly -> res poly) : Prop :=
  forall l, V l -> exists r, prod (pfaffian l) (pS []) = Ok r /\ peq r (pS l).
