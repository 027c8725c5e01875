(** Model of the arithmetic operators of [Schur] and [LinearCombination]
    objects mixed with numbers and sympy expressions (schubertpy/schur.py:45-74,
    schubertpy/lc.py:40-86), and of the comparison of [Schur] objects
    (schubertpy/schur.py:29-42).

    Operands are unexpanded expressions ([tree], ModelExpr.v).  Python's float
    operands are not modelled. *)

From Coq Require Import ZArith List Lia Bool QArith Qcanon String.
From Verif Require Import Py ModelPoly ModelStr ModelExpr ModelParse.
Import ListNotations.
Open Scope Z_scope.

(** An operand: a [LinearCombination] with attribute [expr], a [Schur] object, or
    a number or sympy expression. *)
(** the operands distinguished in lc.py:41-43 and schur.py:46-50 *)
Inductive operand : Type :=
| OLc (e : tree)
| OSchur (s : schur)
| OExpr (e : tree).

(** The result of a special method: [NotImpl] is Python's [NotImplemented], after
    which the interpreter tries the reflected method of the right operand. *)
(** Python's protocol for binary operators, used by lc.py:40-86 and schur.py:45-74 *)
Inductive attempt : Type :=
| NotImpl
| Answer (r : res operand).

(** schur.py:76-77 [Schur.symbol] as a tree *)
Definition sym (s : schur) : res tree :=
  if schur_nonneg s then Ok (TSym (VS s)) else Err ParseError.

(** sympy's [a + b], [a - b], [a * b] and [a ** b] on expressions.  sympy may
    simplify the node it builds; the value of the expression stays the same.  A
    power is modelled when the exponent is the number n >= 0; sympy builds a
    non-polynomial expression otherwise, which the model reports as [Err]
    [OutOfFuel] ("not modelled"; no theorem speaks about that case). *)
(** [+] in lc.py:42, 44 and schur.py:47, 49, 51 *)
Definition t_add (a b : tree) : tree := TAdd [a; b].
(** [-] in lc.py:73, 75, 82, 84 *)
Definition t_sub (a b : tree) : tree := TAdd [a; TMul [TNum (- (1))%Qc; b]].
(** [*] in lc.py:52, 54 and schur.py:58, 60, 62 *)
Definition t_mul (a b : tree) : tree := TMul [a; b].
(** [**] in lc.py:63, 65 and schur.py:67-74 *)
Definition t_pow (a b : tree) : res tree :=
  match b with
  | TNum c =>
      if (Zpos (Qden (this c)) =? 1) && (0 <=? Qnum (this c))
      then Ok (TPow a (Z.to_nat (Qnum (this c)))) else Err OutOfFuel
  | _ => Err OutOfFuel
  end.

(** a result wrapped in [LinearCombination], e.g. lc.py:42 *)
Definition lc (e : tree) : res operand := Ok (OLc e).
(** a bare sympy expression as the result, e.g. schur.py:47 *)
Definition ex (e : tree) : res operand := Ok (OExpr e).

Section Ops.
(** Python's [bool(e)] of a sympy expression, which the methods of [Schur] use
    (schur.py:50, 61, 72); sympy answers False for the number 0 only, but whether
    an expression of value 0 has been simplified to this number is up to sympy. *)
Context (truthy : tree -> bool).

(** lc.py:40-47 [LinearCombination.__add__], [__radd__] *)
Definition lc_add (self : tree) (other : operand) : attempt :=
  match other with
  | OLc e => Answer (lc (t_add self e))
  | OExpr e => Answer (lc (t_add self e))
  | OSchur _ => Answer (Err ValueError)
  end.
(** lc.py:49-58 [__mul__], [__rmul__] *)
Definition lc_mul (self : tree) (other : operand) : attempt :=
  match other with
  | OLc e => Answer (lc (t_mul self e))
  | OExpr e => Answer (lc (t_mul self e))
  | OSchur _ => Answer (Err TypeError)
  end.
(** lc.py:61-66 [__pow__] *)
Definition lc_pow (self : tree) (other : operand) : attempt :=
  match other with
  | OLc e => Answer (x <- t_pow self e ;; lc x)
  | OExpr e => Answer (x <- t_pow self e ;; lc x)
  | OSchur _ => Answer (Err ValueError)
  end.
(** lc.py:69-77 [__sub__]: line 73 returns the bare expression *)
Definition lc_sub (self : tree) (other : operand) : attempt :=
  match other with
  | OExpr e => Answer (ex (t_sub self e))
  | OLc e => Answer (lc (t_sub self e))
  | OSchur _ => Answer (Err TypeError)
  end.
(** lc.py:79-86 [__rsub__] *)
Definition lc_rsub (self : tree) (other : operand) : attempt :=
  match other with
  | OExpr e => Answer (ex (t_sub e self))
  | OLc e => Answer (lc (t_sub e self))
  | OSchur _ => Answer (Err TypeError)
  end.

(** schur.py:45-54 [Schur.__add__], [__radd__]; the operands of a symmetric
    operator keep the order of the code (own symbol first) *)
Definition schur_add (self : schur) (other : operand) : attempt :=
  match other with
  | OSchur s => Answer (a <- sym self ;; b <- sym s ;; ex (t_add a b))
  | OExpr e => Answer (a <- sym self ;; ex (t_add a e))
  | OLc e => Answer (if truthy e then a <- sym self ;; ex (t_add a e) else Err ValueError)
  end.
(** schur.py:56-65 [Schur.__mul__], [__rmul__] *)
Definition schur_mul (self : schur) (other : operand) : attempt :=
  match other with
  | OSchur s => Answer (a <- sym self ;; b <- sym s ;; ex (t_mul a b))
  | OExpr e => Answer (a <- sym self ;; ex (t_mul a e))
  | OLc e => Answer (if truthy e then a <- sym self ;; ex (t_mul a e) else Err ValueError)
  end.
(** schur.py:67-74 [Schur.__pow__] *)
Definition schur_pow (self : schur) (other : operand) : attempt :=
  match other with
  | OSchur s => Answer (a <- sym self ;; b <- sym s ;; x <- t_pow a b ;; ex x)
  | OExpr e => Answer (a <- sym self ;; x <- t_pow a e ;; ex x)
  | OLc e => Answer (if truthy e then a <- sym self ;; x <- t_pow a e ;; ex x else Err ValueError)
  end.

(** the operators defined in lc.py:40-86 and schur.py:45-74 *)
Inductive op : Type := Plus | Minus | Times | Power.

(** Which method Python calls first: that of the left operand.  [Schur] has no
    [__sub__]; numbers and sympy expressions answer [NotImplemented] to operands
    that are neither. *)
(** method lookup for the methods of lc.py:40-77 and schur.py:45-74 *)
Definition left_method (o : op) (a b : operand) : attempt :=
  match a with
  | OLc e =>
      match o with Plus => lc_add e b | Minus => lc_sub e b | Times => lc_mul e b | Power => lc_pow e b end
  | OSchur s =>
      match o with Plus => schur_add s b | Minus => NotImpl | Times => schur_mul s b | Power => schur_pow s b end
  | OExpr e =>
      match b with
      | OExpr e' =>
          match o with
          | Plus => Answer (ex (t_add e e'))
          | Minus => Answer (ex (t_sub e e'))
          | Times => Answer (ex (t_mul e e'))
          | Power => Answer (x <- t_pow e e' ;; ex x)
          end
      | _ => NotImpl
      end
  end.
(** The reflected method of the right operand, tried after [NotImplemented].
    Neither class defines [__rpow__], and [Schur] has no [__rsub__]. *)
(** method lookup for lc.py:47, 58, 79 and schur.py:54, 65 *)
Definition right_method (o : op) (a b : operand) : attempt :=
  match b with
  | OLc e =>
      match o with Plus => lc_add e a | Minus => lc_rsub e a | Times => lc_mul e a | Power => NotImpl end
  | OSchur s =>
      match o with Plus => schur_add s a | Times => schur_mul s a | Minus | Power => NotImpl end
  | OExpr _ => NotImpl
  end.
(** The expression [a o b] *)
(** Python's evaluation of [a o b] with the methods of lc.py:40-86 and schur.py:45-74 *)
Definition binary (o : op) (a b : operand) : res operand :=
  match left_method o a b with
  | Answer r => r
  | NotImpl => match right_method o a b with Answer r => r | NotImpl => Err TypeError end
  end.
End Ops.

(** ** Comparison of [Schur] objects

    Python's [==] on integers and (nested) lists *)
(** the comparison of schur.py:32 *)
Fixpoint py_eq (a b : pyval) {struct a} : bool :=
  match a, b with
  | PInt x, PInt y => x =? y
  | PList l, PList l' =>
      (fix go (l l' : list pyval) {struct l} : bool :=
         match l, l' with
         | [], [] => true
         | x :: t, y :: t' => py_eq x y && go t t'
         | _, _ => false
         end) l l'
  | _, _ => false
  end.
(** Python's [<]: the first entries that are not equal decide, then the lengths;
    an integer and a list cannot be compared. *)
(** the comparison of schur.py:38 *)
Fixpoint py_lt (a b : pyval) {struct a} : res bool :=
  match a, b with
  | PInt x, PInt y => Ok (x <? y)
  | PList l, PList l' =>
      (fix go (l l' : list pyval) {struct l} : res bool :=
         match l, l' with
         | [], [] => Ok false
         | [], _ :: _ => Ok true
         | _ :: _, [] => Ok false
         | x :: t, y :: t' => if py_eq x y then go t t' else py_lt x y
         end) l l'
  | _, _ => Err TypeError
  end.
(** Python's [str] of a value, with the spaces *)
(** [str(self.p)], schur.py:42 *)
Fixpoint str_of_val_sp (v : pyval) : string :=
  match v with
  | PInt z => str_of_Z z
  | PList l => ("[" ++ join ", " (map str_of_val_sp l) ++ "]")%string
  end.
(** schur.py:29-33 [__eq__], 35-39 [__lt__], 41-42 [__hash__] (Python's hash of a
    string is a parameter: it differs between runs) on two Schur objects *)
Definition schur_eq (a b : pyval) : bool := py_eq a b.
(** schur.py:35-39 [__lt__] *)
Definition schur_lt (a b : pyval) : res bool := py_lt a b.
(** schur.py:41-42 [__hash__] *)
Definition schur_hash (hash : string -> Z) (a : pyval) : Z := hash (str_of_val_sp a).
