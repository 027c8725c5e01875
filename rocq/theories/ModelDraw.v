(** Model of the drawings of a partition: schubertpy/schur.py:85-148 and [yd]
    (schubertpy/utils/mix.py:10-13).  What is printed is a list of lines; a
    matplotlib figure is the list of its rectangles with the limits of its
    axes. *)

From Coq Require Import ZArith List Lia Bool String Ascii.
From Verif Require Import Py ModelPoly ModelStr ModelMisc.
Import ListNotations.
Open Scope Z_scope.

(** schur.py:85-88 [Schur.print_partition] *)
Definition print_partition (p : list Z) : list string := map (srep "[ ]") p.

(** Python's [str] of a list, with the spaces *)
(** [str(partition)], utils/mix.py:11 *)
Definition str_of_list_sp (l : list Z) : string :=
  ("[" ++ join ", " (map str_of_Z l) ++ "]")%string.
(** utils/mix.py:10-13 [yd] *)
Definition yd (p : list Z) : list string :=
  ("Young diagram for partition: " ++ str_of_list_sp p)%string :: map (srep "[]") p.

(** Python's [str] of a tuple of integers *)
(** schur.py:111, 136 *)
Definition str_of_tuple (l : list Z) : string :=
  match l with
  | [x] => ("(" ++ str_of_Z x ++ ",)")%string
  | _ => ("(" ++ join ", " (map str_of_Z l) ++ ")")%string
  end.
(** Python's [str] of the float [k * 2.5] (below 10^16, where floats of this
    form are exact and printed without an exponent) *)
(** schur.py:111 *)
Definition str_half (k : Z) : string :=
  (str_of_Z (k * 5 / 2) ++ (if Z.even k then ".0" else ".5"))%string.

(** schur.py:117: the line of one box *)
Definition node (x y : Z) : string :=
  ("\node at (" ++ str_of_Z (x * 5) ++ "mm, " ++ str_of_Z (- y * 5) ++ "mm) {};")%string.
(** schur.py:113-119: the two loops, starting at row [y] *)
Fixpoint tikz_rows (y : Z) (p : list Z) : list string :=
  match p with
  | [] => []
  | r :: t => map (fun x => node x y) (zrange 0 r) ++ tikz_rows (y + 1) t
  end.
(** schur.py:98-123 [_generate_tikzpicture], the lines before they are joined *)
Definition tikz_lines (p : list Z) (standalone : bool) : list string :=
  (if standalone
    then ["\documentclass{standalone}"%string; "\usepackage{tikz}"%string; "\begin{document}"%string] else [])
   ++ ["\begin{tikzpicture}"%string;
       "\usetikzlibrary{shapes.geometric}"%string;
       "\tikzstyle{every node}=[draw, minimum size=5mm, inner sep=0pt]"%string;
       ("\node[draw=none, anchor=south] at (" ++ str_half (zlen p) ++ "mm, 5mm) {$S_{" ++ str_of_tuple p ++ "}$};")%string]
   ++ tikz_rows 0 p
   ++ ["\end{tikzpicture}"%string]
   ++ (if standalone then ["\end{document}"%string] else []).
(** schur.py:123 *)
Definition newline : string := String (Ascii.ascii_of_nat 10) EmptyString.
(** schur.py:90-96 [latex], [latex_standalone] *)
Definition latex (p : list Z) : string := join newline (tikz_lines p false).
(** schur.py:94-96 [latex_standalone] *)
Definition latex_standalone (p : list Z) : string := join newline (tikz_lines p true).

(** schur.py:125-148 [plot_partition]: rectangles of width and height 1 given by
    their lower left corners (lines 139-142), and the limits of the axes (145,
    146); the text of the label and its position (136, 137), in halves of the unit.
    The size of the figure is not modelled. *)
Fixpoint patches_from (y : Z) (p : list Z) : list (Z * Z) :=
  match p with
  | [] => []
  | r :: t => map (fun x => (x, - y)) (zrange 0 r) ++ patches_from (y + 1) t
  end.
(** what schur.py:133-148 puts into the figure *)
Record figure : Type := mkFig { fig_patches : list (Z * Z); fig_xlim : Z * Z; fig_ylim : Z * Z; fig_label : string; fig_label_at2 : Z * Z }.
(** schur.py:125-148 [plot_partition] *)
Definition plot_partition (p : list Z) : res figure :=
  mx <- (match p with [] => Ok 0 | _ => py_max p end) ;;
  Ok (mkFig (patches_from 0 p) (-1, mx + 1) (- zlen p - 1, 1) ("$S_{" ++ str_of_tuple p ++ "}$") (mx, 2)).
