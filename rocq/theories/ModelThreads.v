(** Threads that call the memoised functions at the same time
    (schubertpy/utils/hash.py:6, 22; testcases/brute_force/
    test_zclass_csv_threaded.py:143-150 uses the package in this way).

    The threads share the dictionary of [functools.lru_cache].  Looking up a key
    and storing a result are atomic (they run under the interpreter's lock); the
    decorated function itself runs outside of it, so another thread may run
    between any two of these steps, and several threads may compute the value of
    the same key.  A thread also stops between its calls. *)

From Coq Require Import ZArith List Bool.
From Verif Require Import Py ModelPart ModelQcalc ModelPoly ModelGr ModelCache.
Import ListNotations.
Open Scope Z_scope.

Section Threads.
Variables (A V : Type).
Variable body : A -> comp A V.
Variable conv : A -> A.
Variable eqb : A -> A -> bool.
Variable hashb : A -> bool.
(** the number of nested calls that the stack of a thread allows *)
Variable limit : nat.

(** what a thread is doing: a call it was asked to make, the rest of the text of
    the function that is running, and the calls of decorated functions that have
    not returned (the key, and what is done with the value) *)
(** a thread inside utils/hash.py:9-14 or 25-38 *)
Record running : Type := mkRun {
  r_call : A;
  r_comp : comp A V;
  r_stack : list (A * (V -> comp A V)) }.
(** the calls still to be made, the current one, and the results so far *)
(** a thread that uses utils/hash.py:3-41 *)
Record thread : Type := mkThread {
  t_todo : list A;
  t_cur : option running;
  t_done : list (A * res V) }.

(** hash.py:8-15 and 24-39, one step of a thread.  The cache may lose entries
    when it is used (eviction, or [cache_clear] in another thread): [keeps c c']
    says that [c'] has no entry that [c] has not. *)
Definition keeps (c c' : cache A V) : Prop := incl c' c.
(** one step of utils/hash.py:9-14 or 25-38 *)
Inductive tstep : thread -> cache A V -> thread -> cache A V -> Prop :=
| Start a todo don c :
    tstep (mkThread (a :: todo) None don) c
          (mkThread todo (Some (mkRun a (Call a (fun v => Ret v)) [])) don) c
| Hit todo don a0 a next fr v c c' :
    hashb (conv a) = true -> lookup A V eqb (conv a) c = Some v -> keeps c c' ->
    tstep (mkThread todo (Some (mkRun a0 (Call a next) fr)) don) c
          (mkThread todo (Some (mkRun a0 (next v) fr)) don) c'
| Miss todo don a0 a next fr c :
    hashb (conv a) = true -> lookup A V eqb (conv a) c = None -> (List.length fr < limit)%nat ->
    tstep (mkThread todo (Some (mkRun a0 (Call a next) fr)) don) c
          (mkThread todo (Some (mkRun a0 (body (conv a)) ((conv a, next) :: fr))) don) c
| TooDeep todo don a0 a next fr c :
    hashb (conv a) = true -> lookup A V eqb (conv a) c = None -> (limit <= List.length fr)%nat ->
    tstep (mkThread todo (Some (mkRun a0 (Call a next) fr)) don) c
          (mkThread todo None (don ++ [(a0, Err RecursionError)])) c
| Unhashable todo don a0 a next fr c :
    hashb (conv a) = false ->
    tstep (mkThread todo (Some (mkRun a0 (Call a next) fr)) don) c
          (mkThread todo None (don ++ [(a0, Err TypeError)])) c
| Return todo don a0 v key next fr c c' :
    keeps ((key, v) :: c) c' ->
    tstep (mkThread todo (Some (mkRun a0 (Ret v) ((key, next) :: fr))) don) c
          (mkThread todo (Some (mkRun a0 (next v) fr)) don) c'
| Failed todo don a0 e fr c :
    tstep (mkThread todo (Some (mkRun a0 (Raise e) fr)) don) c
          (mkThread todo None (don ++ [(a0, Err e)])) c
| Finished todo don a0 v c :
    tstep (mkThread todo (Some (mkRun a0 (Ret v) [])) don) c
          (mkThread todo None (don ++ [(a0, Ok v)])) c.

(** an execution: the schedule is the list of the numbers of the threads in the
    order in which they take a step *)
(** interleaved steps of threads, utils/hash.py:3-41 *)
Inductive execution : list thread -> cache A V -> list nat -> list thread -> cache A V -> Prop :=
| ExNil ts c : execution ts c [] ts c
| ExStep ts c sched ts' c' i t t' c'' :
    execution ts c sched ts' c' ->
    nth_error ts' i = Some t -> tstep t c' t' c'' ->
    execution ts c (sched ++ [i]) (upd ts' i t') c''.

(** threads that have not begun *)
(** the threads at the start, as in
    testcases/brute_force/test_zclass_csv_threaded.py:143-150 *)
Definition fresh (calls : list (list A)) : list thread := map (fun l => mkThread l None []) calls.
(** a thread all of whose calls have returned or raised (test_zclass_csv_threaded.py:143-150) *)
Definition finished (t : thread) : Prop := t_todo t = [] /\ t_cur t = None.
End Threads.

(** *** giambelli_rec_inner together with the decorated Pieri function it calls
    (abstract_grassmannian.py:226-262; [pieri] is the lambda of line 121, which
    calls the Pieri function with [_k] and [_n]).  The two functions have a
    dictionary each; a key [inl] is one of the first, [inr] of the second. *)
Definition bargs : Type := (gargs + pargs)%type.
(** hash.py:31-32 *)
Definition bconv (a : bargs) : bargs :=
  match a with inl x => inl (gconv x) | inr x => inr (pconv x) end.
(** equality of the keys of hash.py:38 *)
Definition bargs_eqb (a b : bargs) : bool :=
  match a, b with
  | inl x, inl y => gargs_eqb x y
  | inr x, inr y => pargs_eqb x y
  | _, _ => false
  end.
(** whether a key of hash.py:38 can be hashed *)
Definition bargs_hash (a : bargs) : bool :=
  match a with inl x => gargs_hash x | inr x => pargs_hash x end.
(** [n] is the attribute [_n] of the object [o] *)
(** abstract_grassmannian.py:226-262 together with the function called on line 248 *)
Definition both_body (inner : Z -> Z -> list Z -> Z -> Z -> res poly) (n : Z -> Z) (a : bargs) : comp bargs poly :=
  match a with
  | inr x => match call_inner inner x with Ok v => Ret v | Err e => Raise e end
  | inl (o, s, k) =>
      match as_list s with
      | [] => Ret pone
      | p0 :: t0 =>
          let lam := p0 :: t0 in
          let lz := last lam 1 =? 0 in
          let p := if (p0 =? k) && lz then - k else p0 in
          match (if (lz : bool) then
                   x1 <- py_get lam 1 ;;
                   Ok (if x1 <? k then sl lam 1 (-1) else sl_from lam 1)
                 else Ok (sl_from lam 1)) with
          | Err e => Raise e
          | Ok lam0 =>
              Call (inr (o, p, SList lam0, k, n o)) (fun y =>
              lift (symbol (SP lam)) (fun s =>
              Call (inl (o, SList lam0, k)) (fun a =>
              tapply_c (fun l => inl (o, SList l, k)) (pnorm (psub y s)) (fun b =>
              lift (symbol (SP (num2spec p))) (fun sp =>
              Ret (psub (pmul sp a) b))))))
          end
      end
  end.
