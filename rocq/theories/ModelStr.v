(** Names of symbols: schur.py:23-24 [Schur.__str__], schur.py:76-77
    [Schur.symbol], utils/const.py:1-8. *)

From Coq Require Import ZArith List Lia Bool String Ascii DecimalString.
From Verif Require Import Py ModelPoly.
Import ListNotations.
Open Scope Z_scope.

(** Python's [str] of an integer *)
(** used by the f-string of schur.py:24 *)
Definition str_of_Z (z : Z) : string := NilZero.string_of_int (Z.to_int z).

(** the separators in the text of a list, schur.py:24 *)
Fixpoint join (sep : string) (l : list string) : string :=
  match l with
  | [] => EmptyString
  | [x] => x
  | x :: t => (x ++ sep ++ join sep t)%string
  end.

(** Python's [str] of a list of integers with the spaces removed
    (schur.py:24: [f"S{self.p}".replace(' ', '')]) *)
Definition str_of_list (l : list Z) : string :=
  ("[" ++ join "," (map str_of_Z l) ++ "]")%string.

(** schur.py:23-24 [Schur.__str__] *)
Definition str_of_schur (s : schur) : string :=
  match s with
  | SP l => ("S" ++ str_of_list l)%string
  | SPair t b => ("S[" ++ str_of_list t ++ "," ++ str_of_list b ++ "]")%string
  end.

(** utils/const.py:1-2: [ftable], [btable] *)
Definition ftr (c : ascii) : ascii :=
  if Ascii.eqb c "["%char then "f"%char
  else if Ascii.eqb c ","%char then "j"%char
  else if Ascii.eqb c "]"%char then "g"%char
  else c.
(** utils/const.py:2 [btable] *)
Definition btr (c : ascii) : ascii :=
  if Ascii.eqb c "f"%char then "["%char
  else if Ascii.eqb c "j"%char then ","%char
  else if Ascii.eqb c "g"%char then "]"%char
  else c.
(** [str.translate], utils/const.py:5, 8 *)
Fixpoint smap (f : ascii -> ascii) (s : string) : string :=
  match s with
  | EmptyString => EmptyString
  | String c t => String (f c) (smap f t)
  end.
(** utils/const.py:4-8 [encode], [decode] *)
Definition encode (s : string) : string := smap ftr s.
(** utils/const.py:7-8 [decode] *)
Definition decode (s : string) : string := smap btr s.

(** The name of the sympy symbol of a variable. *)
(** schur.py:76-77; [str(x)] in abstract_grassmannian.py:197 *)
Definition symbol_name (v : var) : string :=
  match v with
  | VS s => encode (str_of_schur s)
  | VQ => "q"
  | VQ1 => "q1"
  | VQ2 => "q2"
  end.
