(** Reading a class from its symbol: schur.py:175-190, schur.py:12-24.

    The attribute [p] of a Schur object is a list whose entries are integers or
    lists again ([pyval]). *)

From Coq Require Import ZArith List Lia Bool String Ascii DecimalString.
From Verif Require Import Py ModelPoly ModelStr.
Import ListNotations.
Open Scope Z_scope.

(** the values of the attribute [p], schur.py:12-21, 188 *)
Inductive pyval : Type :=
| PInt (z : Z)
| PList (l : list pyval).

(** Python's [str] of such a value with the spaces removed (schur.py:24) *)
Fixpoint str_of_val (v : pyval) : string :=
  match v with
  | PInt z => str_of_Z z
  | PList l => ("[" ++ join "," (map str_of_val l) ++ "]")%string
  end.
(** schur.py:23-24 [Schur.__str__], schur.py:76-77 [Schur.symbol]: the name of
    the symbol of a Schur object with attribute [v] *)
Definition schur_str (v : pyval) : string := ("S" ++ str_of_val v)%string.
(** schur.py:76-77 [Schur.symbol]: the encoded name *)
Definition symbol_str (v : pyval) : string := encode (schur_str v).

(** The two shapes of ModelPoly.v as values. *)
(** the values of [p] made in qcalc.py:146 and everywhere else in the package *)
Definition val_of_schur (s : schur) : pyval :=
  match s with
  | SP l => PList (map PInt l)
  | SPair t b => PList [PList (map PInt t); PList (map PInt b)]
  end.

(** *** [ast.literal_eval] on list displays of decimal literals without spaces
    and signs; other Python literals are not modelled (they are a ParseError
    here). *)
(** part of [ast.literal_eval], schur.py:187 *)
Definition is_digit (c : ascii) : bool :=
  let n := nat_of_ascii c in (Nat.leb 48 n && Nat.leb n 57)%bool.
(** part of [ast.literal_eval], schur.py:187 *)
Fixpoint take_digits (s : string) : string * string :=
  match s with
  | String c t => if is_digit c then let '(a, b) := take_digits t in (String c a, b) else (EmptyString, s)
  | EmptyString => (EmptyString, EmptyString)
  end.
(** a decimal literal may not begin with 0 unless its value is 0 *)
(** part of [ast.literal_eval], schur.py:187 *)
Definition int_literal (s : string) : option Z :=
  match NilEmpty.uint_of_string s with
  | Some d =>
      let z := Z.of_uint d in
      if (z =? 0) || String.eqb (str_of_Z z) s then
        match s with EmptyString => None | _ => Some z end
      else None
  | None => None
  end.

(** part of [ast.literal_eval], schur.py:187 *)
Fixpoint parse_val (fuel : nat) (s : string) : option (pyval * string) :=
  match fuel with
  | O => None
  | S f =>
      match s with
      | String "["%char (String "]"%char r) => Some (PList [], r)
      | String "["%char t =>
          match parse_items f t with Some (l, r) => Some (PList l, r) | None => None end
      | _ =>
          let '(d, r) := take_digits s in
          match int_literal d with Some z => Some (PInt z, r) | None => None end
      end
  end
(** the items of a list up to and including the closing bracket; a comma before
    it is allowed *)
(** part of [ast.literal_eval], schur.py:187 *)
with parse_items (fuel : nat) (s : string) : option (list pyval * string) :=
  match fuel with
  | O => None
  | S f =>
      match parse_val f s with
      | None => None
      | Some (v, String "]"%char r) => Some ([v], r)
      | Some (v, String ","%char (String "]"%char r)) => Some ([v], r)
      | Some (v, String ","%char r) =>
          match parse_items f r with Some (l, r') => Some (v :: l, r') | None => None end
      | Some _ => None
      end
  end.
(** the depth of the recursion is at most twice the length of the text *)
(** [ast.literal_eval], schur.py:187 *)
Definition literal_eval (s : string) : option pyval :=
  match parse_val (2 * String.length s + 2) s with
  | Some (v, EmptyString) => Some v
  | _ => None
  end.

(** [.replace('S', '')] *)
(** schur.py:186 *)
Fixpoint drop_S (s : string) : string :=
  match s with
  | EmptyString => EmptyString
  | String c t => if Ascii.eqb c "S"%char then drop_S t else String c (drop_S t)
  end.
(** schur.py:183-190 [toSchur]; a value that is not a list is rejected on line
    190 *)
Definition toSchur (s : string) : res pyval :=
  match literal_eval (drop_S (decode s)) with
  | None => Err ParseError
  | Some (PList l) => Ok (PList l)
  | Some (PInt _) => Err ValueError
  end.
