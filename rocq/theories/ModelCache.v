(** Model of the memoising decorators: schubertpy/utils/hash.py:3-17
    [hashable_lru_cache] and 19-41 [hashable_lru_cache_method].

    A Python function that may call the decorated functions is a [comp]: it
    returns, raises, or calls a decorated function and goes on with the value it
    gets back (no function of the package catches exceptions).  [functools.
    lru_cache] keeps a dictionary from arguments to results; exceptions are not
    stored. *)

From Coq Require Import ZArith List Lia Bool QArith Qcanon.
From Verif Require Import Py ModelPart ModelQcalc ModelPoly ModelGr.
Import ListNotations.
Open Scope Z_scope.

(** the text of a function decorated with utils/hash.py:3-41 *)
Inductive comp (A V : Type) : Type :=
| Ret (v : V)
| Raise (e : exn)
| Call (a : A) (next : V -> comp A V).
Arguments Ret {A V} v.
Arguments Raise {A V} e.
Arguments Call {A V} a next.

Section Cache.
Variables (A V : Type).
(** the text of the decorated functions *)
Variable body : A -> comp A V.
(** hash.py:11 and 31-32: list arguments become tuples *)
Variable conv : A -> A.
(** equality of dictionary keys *)
Variable eqb : A -> A -> bool.
(** whether a key can be hashed, hash.py:14, 38: the dictionary refuses lists *)
Variable hashb : A -> bool.
(** what the cache throws away after a call (nothing when maxsize=None) *)
Variable evict : list (A * V) -> list (A * V).

(** *** without the decorator *)
(** the calls inside a function as they would run without utils/hash.py:3-41 *)
Fixpoint eval_plain (call : A -> res V) (c : comp A V) : res V :=
  match c with
  | Ret v => Ok v
  | Raise e => Err e
  | Call a next => x <- call a ;; eval_plain call (next x)
  end.
(** the Python stack allows [fuel] nested calls *)
(** the decorated function as it would run without utils/hash.py:3-41 *)
Fixpoint run_plain (fuel : nat) (a : A) : res V :=
  match fuel with
  | O => Err RecursionError
  | S f => eval_plain (run_plain f) (body a)
  end.

(** *** with the decorator *)
(** the dictionary of [lru_cache], hash.py:6, 22 *)
Definition cache := list (A * V).
(** the dictionary lookup of hash.py:14, 38 *)
Fixpoint lookup (a : A) (c : cache) : option V :=
  match c with
  | [] => None
  | (b, v) :: t => if eqb a b then Some v else lookup a t
  end.
(** the calls inside a function decorated with hash.py:3-41 *)
Fixpoint eval_cached (call : A -> cache -> res V * cache) (c : comp A V) (st : cache) : res V * cache :=
  match c with
  | Ret v => (Ok v, st)
  | Raise e => (Err e, st)
  | Call a next =>
      let '(r, st') := call a st in
      match r with
      | Ok x => eval_cached call (next x) st'
      | Err e => (Err e, st')
      end
  end.
(** hash.py:9-14 and 25-38 [wrapper] *)
Fixpoint run_cached (fuel : nat) (a : A) (st : cache) : res V * cache :=
  match fuel with
  | O => (Err RecursionError, st)
  | S f =>
      let key := conv a in
      if hashb key then
        match lookup key st with
        | Some v => (Ok v, evict st)
        | None =>
            let '(r, st') := eval_cached (run_cached f) (body key) st in
            match r with
            | Ok v => (Ok v, evict ((key, v) :: st'))
            | Err e => (Err e, st')
            end
        end
      else (Err TypeError, st)
  end.

(** a history of calls *)
(** calls one after the other through hash.py:9-14, 25-38 *)
Fixpoint history (fuel : nat) (calls : list A) (st : cache) : list (res V) :=
  match calls with
  | [] => []
  | a :: t => let '(r, st') := run_cached fuel a st in r :: history fuel t st'
  end.
End Cache.

(** *** giambelli_rec_inner as a decorated function: abstract_grassmannian.py:
    226-262.  Its arguments are the object and the function [pieri] (compared by
    identity, a number here), the list or tuple [lam] and [k]. *)
Inductive pyseq : Type := SList (l : list Z) | STuple (l : list Z).
(** [list(lam)] (line 229) *)
(** abstract_grassmannian.py:229 *)
Definition as_list (s : pyseq) : list Z := match s with SList l => l | STuple l => l end.
(** the arguments of abstract_grassmannian.py:227 *)
Definition gargs : Type := (Z * pyseq * Z)%type.
(** hash.py:31-32 on these arguments *)
Definition gconv (a : gargs) : gargs := let '(o, s, k) := a in (o, STuple (as_list s), k).
(** equality of the keys of hash.py:38; a list is not equal to a tuple *)
Definition seq_eqb (a b : pyseq) : bool :=
  match a, b with
  | STuple l, STuple l' => zlist_eqb l l'
  | SList l, SList l' => zlist_eqb l l'
  | _, _ => false
  end.
(** a tuple of numbers can be hashed, a list cannot (hash.py:10, 32) *)
Definition seq_hash (s : pyseq) : bool := match s with STuple _ => true | SList _ => false end.
(** whether the key of hash.py:38 can be hashed *)
Definition gargs_hash (a : gargs) : bool := let '(_, s, _) := a in seq_hash s.
(** equality of the keys of hash.py:38 *)
Definition gargs_eqb (a b : gargs) : bool :=
  let '(o, s, k) := a in let '(o', s', k') := b in (o =? o') && seq_eqb s s' && (k =? k').

(** lc.py:123-156 with a decorated function in place of [func] *)
Definition lift {A} (x : res poly) (next : poly -> comp A poly) : comp A poly :=
  match x with Ok v => next v | Err e => Raise e end.
(** lc.py:128-136 for a product *)
Fixpoint mapply_c {A} (f : list Z -> A) (m : mono) (next : poly -> comp A poly) : comp A poly :=
  match m with
  | [] => next pone
  | v :: t =>
      let rest := fun x => mapply_c f t (fun y => next (pmul x y)) in
      match v with
      | VS (SP l) => Call (f l) rest
      | VS (SPair _ _) => Raise TypeError
      | _ => rest (pvar v)
      end
  end.
(** lc.py:128-136 for a sum *)
Fixpoint tapply_c {A} (f : list Z -> A) (p : poly) (next : poly -> comp A poly) : comp A poly :=
  match p with
  | [] => next pzero
  | (m, c) :: t =>
      mapply_c f m (fun x => tapply_c f t (fun y => next (padd (pscale c x) y)))
  end.
(** abstract_grassmannian.py:226-262 [giambelli_rec_inner], [giambelli_rec] *)
Definition giam_body (pi : Z -> Z -> list Z -> res poly) (a : gargs) : comp gargs poly :=
  let '(o, s, k) := a in
  match as_list s with
  | [] => Ret pone
  | p0 :: t0 =>
      let lam := p0 :: t0 in
      let lz := last lam 1 =? 0 in
      let p := if (p0 =? k) && lz then - k else p0 in
      match (if (lz : bool) then
               x1 <- py_get lam 1 ;;
               Ok (if x1 <? k then sl lam 1 (-1) else sl_from lam 1)
             else Ok (sl_from lam 1)) with
      | Err e => Raise e
      | Ok lam0 =>
          lift (pi o p lam0) (fun y =>
          lift (symbol (SP lam)) (fun s =>
          Call (o, SList lam0, k) (fun a =>
          tapply_c (fun l => (o, SList l, k)) (pnorm (psub y s)) (fun b =>
          lift (symbol (SP (num2spec p))) (fun sp =>
          Ret (psub (pmul sp a) b))))))
      end
  end.

(** *** The decorated Pieri functions (grassmannian.py:135-137 [pieriA_inner],
    isotropic_grassmannian.py:146-148 [pieriC_inner], orthogonal_grassmannian.py:
    212-214 [pieriB_inner], 247-250 [pieriD_inner], 302-306 [qpieriD_inner]):
    their arguments are the object, [p], [lam], [k] and [n], and they begin with
    [lam = list(lam)].  They are functions of these arguments that call no
    function with the same cache. *)
Definition pargs : Type := (Z * Z * pyseq * Z * Z)%type.
(** hash.py:31-32 on these arguments *)
Definition pconv (a : pargs) : pargs := let '(o, p, s, k, n) := a in (o, p, STuple (as_list s), k, n).
(** equality of the keys of hash.py:38 *)
Definition pargs_eqb (a b : pargs) : bool :=
  let '(o, p, s, k, n) := a in let '(o', p', s', k', n') := b in
  (o =? o') && (p =? p') && seq_eqb s s' && (k =? k') && (n =? n').
(** whether the key of hash.py:38 can be hashed *)
Definition pargs_hash (a : pargs) : bool := let '(_, _, s, _, _) := a in seq_hash s.
(** a decorated function that calls no other: grassmannian.py:135-146 etc. *)
Definition flat_body (f : pargs -> res poly) (a : pargs) : comp pargs poly :=
  match f a with Ok v => Ret v | Err e => Raise e end.
(** a Pieri function called with these arguments on the object number [o] *)
(** grassmannian.py:136-146, isotropic_grassmannian.py:147-153,
    orthogonal_grassmannian.py:213-221, 248-263, 303-366 *)
Definition call_inner (inner : Z -> Z -> list Z -> Z -> Z -> res poly) (a : pargs) : res poly :=
  let '(o, p, s, k, n) := a in inner o p (as_list s) k n.
