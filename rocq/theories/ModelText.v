(** Model of texts: printing a [LinearCombination] and reading one from a string
    (schubertpy/lc.py:18-22, 34-38; schubertpy/schur.py:179-181), the text of a
    Grassmannian ([__str__]), and the methods of [LinearCombination] that describe
    the form of an expression (lc.py:89-120). *)

From Coq Require Import ZArith List Lia Bool QArith Qcanon String Ascii.
From Verif Require Import Py ModelPart ModelQcalc ModelPoly ModelStr ModelExpr ModelGr.
Import ListNotations.
Open Scope Z_scope.

(** Python's [s.replace('**', '^')]: occurrences are replaced from left to right
    and do not overlap *)
(** lc.py:35 *)
Fixpoint replace_stars (s : string) : string :=
  match s with
  | String c t =>
      match t with
      | String c' t' =>
          if Ascii.eqb c "*"%char && Ascii.eqb c' "*"%char then String "^"%char (replace_stars t')
          else String c (replace_stars t)
      | EmptyString => String c EmptyString
      end
  | EmptyString => EmptyString
  end.
(** [s.replace('^', '**')] *)
(** lc.py:19 *)
Fixpoint replace_caret (s : string) : string :=
  match s with
  | EmptyString => EmptyString
  | String c t =>
      if Ascii.eqb c "^"%char then String "*"%char (String "*"%char (replace_caret t))
      else String c (replace_caret t)
  end.

(** lc.py:34-38 [__str__], [__repr__]; [txt] is sympy's [str] of the expression *)
Definition lc_str (txt : string) : string := replace_stars (decode txt).
(** lc.py:18-21: the text that the constructor hands to sympy's parser *)
Definition lc_read (s : string) : string := encode (replace_caret s).

(** lc.py:89-99 [__len__] *)
Definition lc_len (e : tree) : Z :=
  match e with
  | TAdd l => zlen l
  | TMul l => zlen l
  | TPow _ _ => 1
  | _ => 1
  end.
(** lc.py:101-109 [is_operator] *)
Definition is_operator (e : tree) (op : string) : res bool :=
  if String.eqb op "+" then Ok (match e with TAdd _ => true | _ => false end)
  else if String.eqb op "*" then Ok (match e with TMul _ => true | _ => false end)
  else if String.eqb op "^" then Ok (match e with TPow _ _ => true | _ => false end)
  else Err ValueError.

(** lc.py:112-120 [list_schur_oprands]: nested lists of classes and None; the
    arguments of a power are the base and the exponent, a number *)
Inductive nested : Type :=
| NNone
| NSchur (s : schur)
| NList (l : list nested).
(** lc.py:112-120 [list_schur_oprands] *)
Fixpoint list_schur_oprands (e : tree) : nested :=
  match e with
  | TAdd l => NList (map list_schur_oprands l)
  | TMul l => NList (map list_schur_oprands l)
  | TPow b _ => NList [list_schur_oprands b; NNone]
  | TSym (VS s) => NSchur s
  | TSym _ => NNone
  | TNum _ => NNone
  end.

(** grassmannian.py:46-52, isotropic_grassmannian.py:46-52,
    orthogonal_grassmannian.py:55-67 [__str__] *)
Definition gr_str (g : gr) : string :=
  let k := g_k g in
  let n := g_n g in
  let line t name a b :=
    ("Type " ++ t ++ " ;  (k,n) = (" ++ str_of_Z k ++ "," ++ str_of_Z n ++ ") ;  " ++ name ++ "("
      ++ str_of_Z a ++ "," ++ str_of_Z b ++ ") ;  deg(q) = " ++ str_of_Z (degree_q g))%string in
  match g_type g with
  | TA => line "A" "Gr" (n - k) n
  | TC => line "C" "IG" (n - k) (2 * n)
  | TB => line "B" "OG" (n - k) (2 * n + 1)
  | TD => line "D" "OG" (n + 1 - k) (2 * n + 2)
  end%string.
