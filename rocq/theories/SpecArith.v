(** Notions for the property statements on operators and drawings. *)

From Coq Require Import ZArith List Bool QArith Qcanon String Ascii DecimalString.
From Verif Require Import Py ModelPoly ModelStr ModelExpr ModelParse ModelArith Spec SpecMisc.
Import ListNotations.
Open Scope Z_scope.

(** ** Operators *)

(** the polynomial an operand stands for *)
Definition meaning (a : operand) : poly :=
  match a with
  | OLc e => expand e
  | OExpr e => expand e
  | OSchur s => pvar (VS s)
  end.
Definition is_lc (a : operand) : Prop := exists e, a = OLc e.
Definition is_class (a : operand) : Prop := exists s, a = OSchur s.
Definition is_expr (a : operand) : Prop := exists e, a = OExpr e.
(** the object is a class without negative entries, or no class *)
Definition proper (a : operand) : Prop := forall s, a = OSchur s -> schur_nonneg s = true.
(** a number, or a linear combination that is this number *)
Definition number (n : nat) : tree := TNum (Q2Qc (inject_Z (Z.of_nat n))).
Definition is_number (n : nat) (a : operand) : Prop := a = OExpr (number n) \/ a = OLc (number n).

(** ** Drawings *)

(** the diagram of [lam] has a box in row [y] and column [x] (from 0) *)
Definition has_box (lam : list Z) (y x : Z) : Prop :=
  0 <= y < zlen lam /\ 0 <= x < part lam (Z.to_nat y).
(** the TikZ command that draws a node x * 5 mm to the right and y * 5 mm down *)
Definition tikz_node (x y : Z) : string :=
  ("\node at (" ++ str_of_Z (5 * x) ++ "mm, " ++ str_of_Z (- (5 * y)) ++ "mm) {};")%string.
(** lines of a text *)
Definition one_line (s : string) : Prop := alls (fun c => nat_of_ascii c <> 10%nat) s.
Definition lines_of (s : string) (L : list string) : Prop :=
  Forall one_line L /\ s = join (String (ascii_of_nat 10) "") L.
(** the text is a TikZ picture of the boxes of the diagram of [p]: one node for
    each box, at its place, and no other nodes *)
Definition draws (s : string) (p : list Z) : Prop :=
  exists L, lines_of s L /\
    (forall x y, In (tikz_node x y) L <-> has_box p y x) /\
    (forall x y, has_box p y x -> count_occ string_dec L (tikz_node x y) = 1%nat) /\
    (forall l, In l L -> prefix "\node at " l = true -> exists x y, l = tikz_node x y).
(** the numbers that occur in a text, in order *)
Definition numeral (c : ascii) : bool := is_digit c || Ascii.eqb c "-"%char.
Fixpoint words (s : string) : list string :=
  match s with
  | EmptyString => [EmptyString]
  | String c t =>
      if numeral c then match words t with w :: l => String c w :: l | [] => [String c EmptyString] end
      else EmptyString :: words t
  end.
Definition numbers (s : string) : list Z :=
  flat_map (fun w => match NilZero.int_of_string w with Some d => [Z.of_int d] | None => [] end) (words s).
(** [s] is the decimal notation of tenths / 10 *)
Definition decimal (s : string) (tenths : Z) : Prop :=
  exists a d, 0 <= d < 10 /\ s = (str_of_Z a ++ "." ++ str_of_Z d)%string /\ tenths = 10 * a + d.
(** the text of the label S_(...) names the partition [p] *)
Definition names (t : string) (p : list Z) : Prop :=
  exists u, t = ("$S_{" ++ u ++ "}$")%string /\ numbers u = p.
(** the lines of the picture have one label, [tenths] / 10 mm to the right of the
    origin, that names [p] *)
Definition label_at (L : list string) (p : list Z) (tenths : Z) : Prop :=
  exists x t, filter (prefix "\node[") L = [("\node[draw=none, anchor=south] at (" ++ x ++ "mm, 5mm) {" ++ t ++ "};")%string] /\
    decimal x tenths /\ names t p.
