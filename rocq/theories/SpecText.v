(** Specification of the properties about texts and the form of expressions. *)

From Coq Require Import ZArith List QArith Qcanon String Ascii.
From Verif Require Import Py ModelPoly ModelExpr ModelText Spec SpecMisc.
Import ListNotations.

(** What sympy prints for an expression in classes and q: it contains neither
    brackets nor commas nor the character ^ (powers are written with two stars). *)
Definition sympy_text (s : string) : Prop := alls (fun c => ~ In c ["["; ","; "]"; "^"]%char) s.

(** the class is an entry of the nested lists *)
Inductive listed (s : schur) : nested -> Prop :=
| li_here : listed s (NSchur s)
| li_in x l : In x l -> listed s x -> listed s (NList l).
