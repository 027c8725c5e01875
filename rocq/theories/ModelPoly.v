(** Model of the sympy expressions the package computes with
    (schubertpy/schur.py, schubertpy/lc.py).

    A sympy expression occurring in the package is a polynomial with rational
    coefficients in the symbols S[...], q, q1, q2.  The model identifies an
    expression with the polynomial it expands to, so [sp.expand], [str] followed
    by [sp.parse_expr], and the wrapping in [LinearCombination] (lc.py:11-32) are
    the identity.  (Symbol names are modelled in ModelStr.v, unexpanded trees in
    ModelExpr.v.)  Expressions that are not polynomials are not modelled. *)

From Coq Require Import ZArith List Lia Bool QArith Qcanon.
From Verif Require Import Py ModelPart ModelQcalc.
Import ListNotations.
Open Scope Z_scope.

(** The attribute [p] of a [Schur] object: a list of integers, or the pair of
    lists made by [part2pair_inner].  schur.py:12-21 allows any nesting; the
    package only creates these two shapes. *)
Inductive schur : Type :=
| SP (l : list Z)
| SPair (t b : list Z).

(** the symbols of the package: schur.py:76-77, and q, q1, q2
    (abstract_grassmannian.py:195, orthogonal_grassmannian.py:308) *)
Inductive var : Type :=
| VS (s : schur)
| VQ | VQ1 | VQ2.

(** an order on symbols used only for the canonical form of the model; stands
    for sympy's own order (e.g. in lc.py:134) *)
Definition vkey (v : var) : list Z :=
  match v with
  | VS (SP l) => 0 :: l
  | VS (SPair t b) => 1 :: zlen t :: t ++ b
  | VQ => [2]
  | VQ1 => [3]
  | VQ2 => [4]
  end.
(** comparison by [vkey]; no counterpart in the code besides sympy's order
    (lc.py:134) *)
Definition vcmp (a b : var) : comparison := zl_cmp (vkey a) (vkey b).

(** A monomial is a multiset of variables, kept as a sorted list. *)
(** a product of symbols, one term of the expressions of lc.py:123-156 *)
Definition mono := list var.
(** canonical form of a product (sympy's [Mul], lc.py:133) *)
Definition msort : mono -> mono := isort vcmp.
(** order on canonical products (sympy's own, lc.py:134) *)
Definition mcmp : mono -> mono -> comparison := lcmp vcmp.

(** A polynomial is a list of terms; [coef] is its meaning. *)
(** an expanded expression, lc.py:134 *)
Definition poly := list (mono * Qc).

(** equality of products (sympy's, lc.py:134) *)
Definition mono_eqb (a b : mono) : bool :=
  match mcmp (msort a) (msort b) with Eq => true | _ => false end.

(** the coefficient of a product in an expanded expression (lc.py:134) *)
Fixpoint coef (p : poly) (m : mono) : Qc :=
  match p with
  | [] => 0%Qc
  | (m', c) :: t => if mono_eqb m' m then (c + coef t m)%Qc else coef t m
  end.

(** Two expressions are equal when all coefficients agree. *)
(** equality of expanded expressions (sympy's [==], lc.py:134) *)
Definition peq (p r : poly) : Prop := forall m, coef p m = coef r m.

(** The canonical form: sorted, one term per monomial, no zero coefficients
    (this is what [sp.expand] produces up to the order of terms). *)
(** terms with coefficient 0 vanish in [sp.expand] (lc.py:134) *)
Definition qc_is0 (c : Qc) : bool := if Qc_eq_dec c 0%Qc then true else false.

(** collecting equal terms in [sp.expand] (lc.py:134) *)
Fixpoint pins (m : mono) (c : Qc) (p : poly) : poly :=
  match p with
  | [] => if qc_is0 c then [] else [(m, c)]
  | (m', c') :: t =>
      match mcmp m m' with
      | Eq => if qc_is0 (c + c')%Qc then t else (m, (c + c')%Qc) :: t
      | Lt => if qc_is0 c then p else (m, c) :: p
      | Gt => (m', c') :: pins m c t
      end
  end.
(** [sp.expand], lc.py:134 *)
Definition pnorm (p : poly) : poly :=
  fold_right (fun mc acc => pins (msort (fst mc)) (snd mc) acc) [] p.

(** Arithmetic of expressions ([LinearCombination.__add__] etc., lc.py:40-86,
    and sympy's own operators). *)
Definition padd (p r : poly) : poly := pnorm (p ++ r).
(** multiplication with a number, lc.py:49-54 *)
Definition pscale (c : Qc) (p : poly) : poly := map (fun mc => (fst mc, (c * snd mc)%Qc)) p.
(** lc.py:69-77 *)
Definition psub (p r : poly) : poly := padd p (pscale (- (1))%Qc r).
(** multiplication with one term, lc.py:49-54 *)
Definition tmul (m : mono) (c : Qc) (p : poly) : poly :=
  map (fun mc => (m ++ fst mc, (c * snd mc)%Qc)) p.
(** lc.py:49-58 *)
Definition pmul (p r : poly) : poly := pnorm (flat_map (fun mc => tmul (fst mc) (snd mc) r) p).

(** a number as an expression, lc.py:26-28 *)
Definition pconst (c : Qc) : poly := [([], c)].
(** a symbol as an expression, lc.py:23-25 *)
Definition pvar (v : var) : poly := [([v], 1%Qc)].
(** the number 0 (e.g. isotropic_grassmannian.py:150) *)
Definition pzero : poly := [].
(** [LinearCombination(1)], abstract_grassmannian.py:235 *)
Definition pone : poly := pconst 1%Qc.

(** schur.py:76-77 [Schur.symbol].  The encoded name of a list with a negative
    entry contains '-', which [sp.parse_expr] does not read as one symbol (the
    digits after it run into the letter that follows, a syntax error). *)
Definition schur_nonneg (s : schur) : bool :=
  match s with
  | SP l => forallb (fun x => 0 <=? x) l
  | SPair t b => forallb (fun x => 0 <=? x) t && forallb (fun x => 0 <=? x) b
  end.
(** schur.py:76-77 [Schur.symbol] *)
Definition symbol (s : schur) : res poly :=
  if schur_nonneg s then Ok (pvar (VS s)) else Err ParseError.

(** lc.py:123-156 [LinearCombination.apply] (and apply2, 158-185, which differs
    only in how it converts the result of [func]): replace every Schur symbol by
    the value of [func], leave other symbols and numbers alone, expand. *)
Definition image (f : schur -> res poly) (v : var) : res poly :=
  match v with
  | VS s => f s
  | _ => Ok (pvar v)
  end.
(** lc.py:128-136 for a product *)
Fixpoint mapply (f : schur -> res poly) (m : mono) : res poly :=
  match m with
  | [] => Ok pone
  | v :: t => x <- image f v ;; y <- mapply f t ;; Ok (pmul x y)
  end.
(** lc.py:128-136 for a sum of products with numbers *)
Fixpoint tapply (f : schur -> res poly) (p : poly) : res poly :=
  match p with
  | [] => Ok pzero
  | (m, c) :: t => x <- mapply f m ;; y <- tapply f t ;; Ok (padd (pscale c x) y)
  end.
(** qcalc.py:601-603 [apply_lc] *)
Definition apply_lc (f : schur -> res poly) (p : poly) : res poly := tapply f (pnorm p).

(** Functions written for lists of integers, given a Schur symbol whose [p] is a
    pair of lists: comparisons and arithmetic between a list and an integer
    raise TypeError. *)
(** lc.py:140: [func] is called with [s.p] *)
Definition on_part (f : list Z -> res poly) (s : schur) : res poly :=
  match s with SP l => f l | SPair _ _ => Err TypeError end.
