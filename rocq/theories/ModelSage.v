(** Model of schubertsage/conversion.py.

    Sage itself is not modelled: an element of a ring of symmetric functions is the
    dictionary [monomial_coefficients()] of its terms, in the order in which Sage
    keeps them, with the name of its parent ring.  [schur_to_sage_schur] (lines
    26-27) hands the bound method [schur.partition] to Sage and is not exported by
    the package; it is not modelled. *)

From Coq Require Import ZArith List Bool String Ascii QArith Qcanon.
From Verif Require Import Py ModelPoly ModelStr ModelParse ModelDraw.
Import ListNotations.
Open Scope Z_scope.

(** the argument of schubertsage/conversion.py:16-24 *)
Record sage_element : Type := mkSage { sage_parent_is_S : bool; sage_terms : list (list Z * Qc) }.

(** Python ignores blanks after a comma; [str] of a Sage partition has them.  Blanks
    at other places are not modelled. *)
(** [ast.literal_eval] in schur.py:187 on a text with blanks *)
Fixpoint drop_blanks (s : string) : string :=
  match s with
  | String ","%char (String " "%char t) => String ","%char (drop_blanks t)
  | String c t => String c (drop_blanks t)
  | EmptyString => EmptyString
  end.
(** schur.py:12-21: [Schur(p)] for an object that is neither a list, a tuple nor a
    Schur: its text is read *)
Definition Schur_of_text (s : string) : res pyval := toSchur (drop_blanks s).
(** conversion.py:16-24 [sage_schur_to_schur]; what it prints is left out *)
Definition sage_schur_to_schur (e : sage_element) : res pyval :=
  if negb (sage_parent_is_S e) then Err ValueError
  else match sage_terms e with
       | [] => Err IndexError
       | (l, _) :: _ => Schur_of_text (str_of_list_sp l)
       end.
