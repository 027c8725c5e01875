(** Python primitives used by the model of schubertpy.

    Python integers are [Z]; Python lists of integers are [list Z]; a Python
    exception is a value of the result type [res].  Nothing in this file models
    a particular function of /repo; it gives the meaning of the Python
    constructs that the functions of /repo are written with. *)

From Coq Require Import ZArith List Lia Bool.
Import ListNotations.
Open Scope Z_scope.

(** The exceptions the modelled code can raise.  [OutOfFuel] is not a Python
    exception: it is the model's own marker for a loop that was cut off, and
    every theorem that claims a result shows that it does not occur. *)
(** exceptions raised e.g. in grassmannian.py:33-35, lc.py:32, partition.py:38 *)
Inductive exn : Type :=
| IndexError | ValueError | TypeError | ParseError | RecursionError | OutOfFuel
| NameError | PlainException.

(** a call returns or raises; nothing in schubertpy/*.py catches exceptions of
    the modelled functions *)
Inductive res (A : Type) : Type :=
| Ok (a : A)
| Err (e : exn).
Arguments Ok {A} a.
Arguments Err {A} e.

(** sequencing of statements, as everywhere in schubertpy/*.py *)
Definition bind {A B} (x : res A) (f : A -> res B) : res B :=
  match x with Ok a => f a | Err e => Err e end.

Notation "x <- e ;; f" := (bind e (fun x => f))
  (at level 61, e at next level, right associativity).
Notation "' p <- e ;; f" := (bind e (fun p => f))
  (at level 61, p pattern, e at next level, right associativity).

(** no exception (used in statements about schubertpy/*.py) *)
Definition is_ok {A} (x : res A) : Prop := exists a, x = Ok a.

(** [len(l)] *)
(** e.g. partition.py:107, qcalc.py:125-129 *)
Definition zlen {A} (l : list A) : Z := Z.of_nat (length l).

(** The position a Python index [i] denotes in a list of length [len]:
    negative indices count from the end, anything else out of range is an
    IndexError. *)
(** index of e.g. qcalc.py:334-338 *)
Definition py_idx (len i : Z) : option nat :=
  let j := if i <? 0 then i + len else i in
  if (0 <=? j) && (j <? len) then Some (Z.to_nat j) else None.

(** [l[i]] *)
(** e.g. qcalc.py:334-338, grassmannian.py:152 *)
Definition py_get {A} (l : list A) (i : Z) : res A :=
  match py_idx (zlen l) i with
  | Some j => match nth_error l j with Some a => Ok a | None => Err IndexError end
  | None => Err IndexError
  end.

(** the list behind an assignment such as qcalc.py:336 *)
Fixpoint upd {A} (l : list A) (j : nat) (v : A) : list A :=
  match l, j with
  | [], _ => []
  | _ :: t, O => v :: t
  | x :: t, S j' => x :: upd t j' v
  end.

(** [l[i] = v]; the new contents of the list are returned *)
(** e.g. qcalc.py:336, partition.py:111 *)
Definition py_set {A} (l : list A) (i : Z) (v : A) : res (list A) :=
  match py_idx (zlen l) i with
  | Some j => Ok (upd l j v)
  | None => Err IndexError
  end.

(** Slice bounds are clamped, negative ones count from the end. *)
(** bounds of slices, e.g. kstrict.py:44 *)
Definition sl_bound (len i : Z) : nat :=
  Z.to_nat (Z.min len (Z.max 0 (if i <? 0 then i + len else i))).

(** [l[:j]] *)
(** e.g. kstrict.py:44, grassmannian.py:140 *)
Definition sl_to {A} (l : list A) (j : Z) : list A := firstn (sl_bound (zlen l) j) l.
(** [l[i:]] *)
(** e.g. abstract_grassmannian.py:242 *)
Definition sl_from {A} (l : list A) (i : Z) : list A := skipn (sl_bound (zlen l) i) l.
(** [l[i:j]] *)
(** e.g. abstract_grassmannian.py:244 *)
Definition sl {A} (l : list A) (i j : Z) : list A :=
  skipn (sl_bound (zlen l) i) (sl_to l j).

(** [range(a, b)] *)
(** e.g. kstrict.py:28, orthogonal_grassmannian.py:280 *)
Definition zrange (a b : Z) : list Z :=
  map (fun i => a + Z.of_nat i) (seq 0 (Z.to_nat (b - a))).

(** [[v] * c] *)
(** e.g. utils/mix.py:7 *)
Definition repz {A} (v : A) (c : Z) : list A := repeat v (Z.to_nat c).

(** [sum(l)] *)
(** e.g. qcalc.py:495-500 *)
Definition zsum (l : list Z) : Z := fold_right Z.add 0 l.

(** [v in l] *)
(** e.g. orthogonal_grassmannian.py:200 *)
Definition zmem (v : Z) (l : list Z) : bool := existsb (Z.eqb v) l.

(** [l == l'] for lists of integers *)
(** e.g. partition.py:143, schur.py:83 *)
Fixpoint zlist_eqb (a b : list Z) : bool :=
  match a, b with
  | [], [] => true
  | x :: a', y :: b' => (x =? y) && zlist_eqb a' b'
  | _, _ => false
  end.

(** [[f(x) for x in l]] where [f] may raise *)
Section MapM.
Context {A B : Type} (f : A -> res B).
(** a list comprehension whose body may raise, e.g. qcalc.py:159 *)
Fixpoint mapM (l : list A) : res (list B) :=
  match l with
  | [] => Ok []
  | x :: t => y <- f x ;; ys <- mapM t ;; Ok (y :: ys)
  end.
End MapM.

(** [for x in l: s = body(s, x)] *)
(** e.g. qcalc.py:334-338 *)
Fixpoint foldM {S A} (body : S -> A -> res S) (l : list A) (s : S) : res S :=
  match l with
  | [] => Ok s
  | x :: t => s' <- body s x ;; foldM body t s'
  end.

(** One step of a [while] loop: continue with a new state or leave the loop. *)
(** the loops of partition.py:102-151, kstrict.py:64-72, grassmannian.py:143-145 *)
Inductive step (S R : Type) : Type :=
| Next (s : S)
| Done (r : R).
Arguments Next {S R} s.
Arguments Done {S R} r.

(** A [while] loop that is cut off after [fuel] iterations. *)
(** the loops of partition.py:102-151, kstrict.py:64-72 *)
Fixpoint loop {S R} (fuel : nat) (body : S -> res (step S R)) (s : S) : res R :=
  match fuel with
  | O => Err OutOfFuel
  | Datatypes.S f =>
      x <- body s ;;
      match x with
      | Next s' => loop f body s'
      | Done r => Ok r
      end
  end.

(** A [while] loop that is cut off after [2^d] iterations.  It leaves as soon as
    the body says [Done], so the bound costs nothing when it is not reached. *)
(** the loops of grassmannian.py:143-145, kstrict.py:64-72 *)
Fixpoint bloop {S R} (d : nat) (body : S -> res (step S R)) (s : S) : res (step S R) :=
  match d with
  | O => body s
  | Datatypes.S d' =>
      x <- bloop d' body s ;;
      match x with
      | Done r => Ok (Done r)
      | Next s' => bloop d' body s'
      end
  end.

(** [bloop] with its cut-off as an error, for grassmannian.py:143-145,
    kstrict.py:64-72, qcalc.py:88-91 *)
Definition loop2 {S R} (d : nat) (body : S -> res (step S R)) (s : S) : res R :=
  x <- bloop d body s ;;
  match x with
  | Done r => Ok r
  | Next _ => Err OutOfFuel
  end.

(** Comparison of lists, as Python compares lists: lexicographic, a proper
    prefix is smaller. *)
(** used by [sorted] in grassmannian.py:71, schur.py:171 *)
Fixpoint lcmp {A} (c : A -> A -> comparison) (a b : list A) : comparison :=
  match a, b with
  | [], [] => Eq
  | [], _ :: _ => Lt
  | _ :: _, [] => Gt
  | x :: a', y :: b' =>
      match c x y with
      | Eq => lcmp c a' b'
      | r => r
      end
  end.

(** [lcmp] on lists of integers, schur.py:38, qcalc.py:418-419 *)
Definition zl_cmp : list Z -> list Z -> comparison := lcmp Z.compare.

(** Stable insertion sort with respect to a comparison, ascending.  Python's
    [sorted] returns the same list (stable sort is unique). *)
(** one insertion of [isort], for schur.py:171 *)
Fixpoint ins {A} (c : A -> A -> comparison) (x : A) (l : list A) : list A :=
  match l with
  | [] => [x]
  | y :: t => match c x y with Gt => y :: ins c x t | _ => x :: y :: t end
  end.
(** [sorted]: schur.py:171, qcalc.py:418-419, lc.py:293 *)
Definition isort {A} (c : A -> A -> comparison) (l : list A) : list A :=
  fold_right (ins c) [] l.

(** Remove repetitions, keeping first occurrences; [set] up to order. *)
(** [set(schur_list)], schur.py:171 *)
Fixpoint dedup (l : list (list Z)) (seen : list (list Z)) : list (list Z) :=
  match l with
  | [] => []
  | x :: t => if existsb (zlist_eqb x) seen then dedup t seen else x :: dedup t (x :: seen)
  end.

(** ** CPython sets of nonnegative integers

    [_toSchurFromIntnMu] (orthogonal_grassmannian.py:298-300) turns a set into a
    list, so the result depends on CPython's set layout (Objects/setobject.c):
    open addressing, the hash of a small nonnegative integer is the integer,
    LINEAR_PROBES = 9, perturbation shift 5, growth to 4*used when
    5*fill >= 3*mask. *)
Definition tbl := list (option Z).

(** CPython's set lookup, for orthogonal_grassmannian.py:298-300 *)
Definition slot_free_or (key : Z) (o : option Z) : bool :=
  match o with None => true | Some k => k =? key end.

(** first entry among [i, i+1, ..., i+cnt] that is empty or holds [key] *)
(** CPython's set lookup, for orthogonal_grassmannian.py:298-300 *)
Fixpoint probe_linear (t : tbl) (key : Z) (i : Z) (cnt : nat) : option Z :=
  match nth_error t (Z.to_nat i) with
  | Some o => if slot_free_or key o then Some i
              else match cnt with O => None | S c => probe_linear t key (i + 1) c end
  | None => None
  end.

(** CPython's set lookup, for orthogonal_grassmannian.py:298-300 *)
Fixpoint probe (fuel : nat) (t : tbl) (mask key i perturb : Z) : option Z :=
  match fuel with
  | O => None
  | S f =>
      let cnt := if i + 9 <=? mask then 9%nat else O in
      match probe_linear t key i cnt with
      | Some j => Some j
      | None =>
          let perturb' := Z.shiftr perturb 5 in
          probe f t mask key (Z.land (i * 5 + 1 + perturb') mask) perturb'
      end
  end.

(** storing a key in a set table, for orthogonal_grassmannian.py:298-300 *)
Definition tbl_put (t : tbl) (key : Z) : tbl :=
  let mask := zlen t - 1 in
  match probe (length t + 100) t mask key (Z.land key mask) key with
  | Some j => upd t (Z.to_nat j) (Some key)
  | None => t
  end.

(** iteration over a set, for orthogonal_grassmannian.py:298-300 *)
Definition tbl_list (t : tbl) : list Z :=
  flat_map (fun o => match o with Some k => [k] | None => [] end) t.

(** resizing of a set table, for orthogonal_grassmannian.py:298-300 *)
Fixpoint grow_size (fuel : nat) (newsize minused : Z) : Z :=
  match fuel with
  | O => newsize
  | S f => if newsize <=? minused then grow_size f (2 * newsize) minused else newsize
  end.

(** [set.add(key)] *)
(** for orthogonal_grassmannian.py:298-300 *)
Definition set_add (t : tbl) (key : Z) : tbl :=
  if existsb (Z.eqb key) (tbl_list t) then t
  else
    let t' := tbl_put t key in
    let fill := zlen (tbl_list t') in
    let mask := zlen t' - 1 in
    if fill * 5 <? mask * 3 then t'
    else
      let minused := if 50000 <? fill then fill * 2 else fill * 4 in
      fold_left tbl_put (tbl_list t') (repz None (grow_size (Z.to_nat (Z.log2 minused + 1)) 8 minused)).

(** the empty set table, for orthogonal_grassmannian.py:298-300 *)
Definition set_empty : tbl := repz None 8.
(** [set(l)] and iteration over it *)
(** orthogonal_grassmannian.py:299, 331 *)
Definition set_of (l : list Z) : tbl := fold_left set_add l set_empty.
(** [list(s - set(mu))]: setobject.c's set_difference copies the left operand and
    discards from it when it is more than four times larger than the right one,
    and otherwise builds a new table element by element.  The size of a set is the
    number of its elements. *)
(** orthogonal_grassmannian.py:299 *)
Definition set_minus_list (s : tbl) (mu : list Z) : list Z :=
  let keep := filter (fun x => negb (zmem x mu)) (tbl_list s) in
  if zlen (nodup Z.eq_dec mu) <? zlen (tbl_list s) / 4 then keep
  else tbl_list (set_of keep).
