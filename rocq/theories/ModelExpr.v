(** Model of unexpanded sympy expressions and of the methods of
    [LinearCombination] that walk over them (schubertpy/lc.py).

    A sympy expression is a tree of [Add], [Mul] and [Pow] nodes over numbers
    and symbols.  Exponents are nonnegative integers (other powers do not occur
    in polynomial expressions and are not modelled); the order and grouping of
    arguments, which sympy chooses, is arbitrary here. *)

From Coq Require Import ZArith List Lia Bool QArith Qcanon.
From Verif Require Import Py ModelPart ModelQcalc ModelPoly.
Import ListNotations.
Open Scope Z_scope.

(** the sympy expression in [LinearCombination.expr], lc.py:11-32 *)
Inductive tree : Type :=
| TNum (c : Qc)
| TSym (v : var)
| TAdd (args : list tree)
| TMul (args : list tree)
| TPow (base : tree) (e : nat).

(** [sp.Add] of expanded arguments, lc.py:133-134 *)
Definition psum (l : list poly) : poly := fold_right padd pzero l.
(** [sp.Mul] of expanded arguments, lc.py:133-134 *)
Definition pprod (l : list poly) : poly := fold_right pmul pone l.
(** [sp.Pow] of an expanded base, lc.py:133-134 *)
Fixpoint ppow (p : poly) (e : nat) : poly :=
  match e with O => pone | S e' => pmul p (ppow p e') end.

(** The polynomial a tree expands to ([sp.expand]). *)
(** [sp.expand], lc.py:134, 169 *)
Fixpoint expand (e : tree) : poly :=
  match e with
  | TNum c => pconst c
  | TSym v => pvar v
  | TAdd l => psum (map expand l)
  | TMul l => pprod (map expand l)
  | TPow b n => ppow (expand b) n
  end.

(** lc.py:123-156 [LinearCombination.apply] and 158-185 [apply2]: the recursion
    over the tree.  Line 133-134 rebuilds the node from the results and expands
    it; the exponent of a power is a number and stays (line 151). *)
Fixpoint tree_apply (f : schur -> res poly) (e : tree) : res poly :=
  match e with
  | TNum c => Ok (pconst c)
  | TSym v => image f v
  | TAdd l => xs <- mapM (tree_apply f) l ;; Ok (psum xs)
  | TMul l => xs <- mapM (tree_apply f) l ;; Ok (pprod xs)
  | TPow b n => x <- tree_apply f b ;; Ok (ppow x n)
  end.

(** schur.py:175-176 [isSchur] *)
Definition isSchur (e : tree) : bool := match e with TSym (VS _) => true | _ => false end.
(** [isinstance(arg, sp.Number)], lc.py:208, 219, 222 *)
Definition isNumber (e : tree) : bool := match e with TNum _ => true | _ => false end.

(** lc.py:200-232 [is_valid].  Line 222 tests the arguments that are not
    numbers.  Line 226: a power is accepted only with exponent 1. *)
Fixpoint is_valid (e : tree) : bool :=
  match e with
  | TNum _ => true
  | TSym _ => true
  | TAdd l => forallb is_valid l
  | TMul l =>
      (Nat.eqb (length (filter isNumber l)) 1) && (Nat.eqb (length l) 2)
        && forallb (fun x => isNumber x || is_valid x) l
  | TPow b n => Nat.eqb n 1 && is_valid b
  end.

(** schur.py:82-83 and lc.py:187-198 [has_part_zero_padding].  For a pair of
    lists line 28 of partition.py compares a list with 0, which is False. *)
Definition schur_zero_padded (s : schur) : bool :=
  match s with
  | SP l => negb (zlist_eqb (part_clip l) l)
  | SPair _ _ => false
  end.
(** lc.py:187-198 [has_part_zero_padding] *)
Fixpoint has_part_zero_padding (e : tree) : bool :=
  match e with
  | TNum _ => false
  | TSym (VS s) => schur_zero_padded s
  | TSym _ => false
  | TAdd l => existsb has_part_zero_padding l
  | TMul l => existsb has_part_zero_padding l
  | TPow b _ => has_part_zero_padding b
  end.

(** [str(term).__contains__('q')] (lc.py:290): names of classes contain no 'q' *)
Fixpoint mentions_q (e : tree) : bool :=
  match e with
  | TNum _ => false
  | TSym (VS _) => false
  | TSym _ => true
  | TAdd l => existsb mentions_q l
  | TMul l => existsb mentions_q l
  | TPow b _ => mentions_q b
  end.

(** Python's [int()] of a sympy number truncates towards 0. *)
(** [int(expr)], lc.py:278 *)
Definition int_of_num (c : Qc) : Z := Z.quot (Qnum (this c)) (Zpos (Qden (this c))).

(** lc.py:250-284: the first three cases of [_schur_expansion], which produce a
    pair of a coefficient and a partition.  The coefficient is an int (lines
    278, 280) or a LinearCombination (line 246); both are trees here. *)
Definition expand_term (e : tree) : option (res (tree * schur)) :=
  match e with
  | TNum c => Some (Ok (TNum (Q2Qc (inject_Z (int_of_num c))), SP []))
  | TSym (VS s) => Some (Ok (TNum 1%Qc, s))
  | TMul l =>
      Some (match filter isSchur l with
            | _ :: _ :: _ => Err ValueError
            | [TSym (VS s)] => Ok (TMul (filter (fun x => negb (isSchur x)) l), s)
            | _ => Err ValueError
            end)
  | _ => None
  end.
(** lc.py:286-295.  Line 286 looks at the whole expression [self.expr], not at
    the term, so a term of another kind inside a sum (a power, or q alone)
    starts the same sum again and the recursion never ends.  Line 293 sorts by
    partition; comparing the lists of integers of [SP] (pairs of lists are
    compared by their lists and do not occur together with partitions). *)
Definition schur_key (s : schur) : list Z := match s with SP l => l | SPair t b => t ++ b end.
(** what lc.py:250-295 returns: one pair or a list of pairs *)
Inductive expansion : Type :=
| One (x : tree * schur)
| Many (l : list (tree * schur)).
(** lc.py:250-295 [_schur_expansion], called by [schur_expansion] (line 314) *)
Definition schur_expansion (e : tree) (include_q : bool) : res expansion :=
  match expand_term e with
  | Some r => x <- r ;; Ok (One x)
  | None =>
      match e with
      | TAdd l =>
          xs <- mapM (fun t => match expand_term t with Some r => r | None => Err RecursionError end)
                     (filter (fun t => include_q || negb (mentions_q t)) l) ;;
          Ok (Many (isort (fun a b => zl_cmp (schur_key (snd a)) (schur_key (snd b))) xs))
      | _ => Err ValueError
      end
  end.
