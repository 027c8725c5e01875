(** More notions for property statements: expression trees, tableaux, rim
    hooks.  Like Spec.v, this refers to the model only for the representation of
    data. *)

From Coq Require Import ZArith List Permutation QArith Qcanon String Ascii.
From Verif Require Import Py ModelPoly ModelExpr ModelParse Spec.
Import ListNotations.
Open Scope Z_scope.

(** ** Linear combinations as trees *)

(** [t] is a class, or a product of one class and factors that are not classes
    (numbers, powers of q, ...) *)
Inductive class_term : tree -> list Z -> Prop :=
| ct_class lam : class_term (TSym (vS lam)) lam
| ct_product a lam b :
    (forall x s, In x (a ++ b) -> x <> TSym (VS s)) ->
    class_term (TMul (a ++ TSym (vS lam) :: b)) lam.

(** the variable occurs in the tree *)
Inductive occurs (v : var) : tree -> Prop :=
| oc_sym : occurs v (TSym v)
| oc_add x l : In x l -> occurs v x -> occurs v (TAdd l)
| oc_mul x l : In x l -> occurs v x -> occurs v (TMul l)
| oc_pow b n : occurs v b -> occurs v (TPow b n).

(** neither q nor q1 nor q2 occurs *)
Definition q_free (t : tree) : Prop := ~ occurs VQ t /\ ~ occurs VQ1 t /\ ~ occurs VQ2 t.

(** the pair (coefficient, partition) [x] describes the term [t] *)
Definition reports (t : tree) (x : tree * schur) : Prop :=
  exists lam, class_term t lam /\ snd x = SP lam /\ (forall s, fst x <> TSym (VS s)) /\
    peq (expand t) (pmul (expand (fst x)) (pS lam)).
(** the product of coefficient and class *)
Definition value (x : tree * schur) : poly := pmul (expand (fst x)) (pvar (VS (snd x))).

(** lists in non-decreasing lexicographic order *)
Definition weakly_increasing (l : list (list Z)) : Prop :=
  forall i j, (i < j < List.length l)%nat -> nth i l [] = nth j l [] \/ lex_lt (nth i l []) (nth j l []).

(** ** Values and their texts *)

(** every integer in the (nested) list is nonnegative *)
Fixpoint val_nonneg (v : pyval) : bool :=
  match v with
  | PInt z => 0 <=? z
  | PList l => forallb val_nonneg l
  end.

(** every character of the text *)
Inductive alls (P : ascii -> Prop) : string -> Prop :=
| alls_nil : alls P ""
| alls_cons c s : P c -> alls P s -> alls P (String c s).
(** a letter or a digit *)
Definition ident_char (c : ascii) : Prop :=
  (let n := nat_of_ascii c in 48 <= n <= 57 \/ 97 <= n <= 122 \/ 65 <= n <= 90)%nat.

(** the characters of a list of numbers *)
Definition list_char (c : ascii) : Prop :=
  (let n := nat_of_ascii c in (Nat.leb 48 n && Nat.leb n 57)%bool = true) \/
  c = "["%char \/ c = "]"%char \/ c = ","%char.
(** the brackets of a text *)
Fixpoint brackets (s : string) : string :=
  match s with
  | EmptyString => EmptyString
  | String c t => if (Ascii.eqb c "[" || Ascii.eqb c "]")%bool then String c (brackets t) else brackets t
  end.

(** ** Points and tables *)

(** [p] is the only class of largest degree among the classes [V] *)
Definition is_point (V : list Z -> Prop) (p : list Z) : Prop :=
  V p /\ forall l, V l -> size l <= size p /\ (size l = size p -> l = p).

(** [T] is the square table of the products of the labels [L] *)
Definition is_table (prod : poly -> poly -> res poly) (L : list (list Z)) (T : list (list poly)) : Prop :=
  List.length T = List.length L /\
  forall i a row, nth_error L i = Some a -> nth_error T i = Some row ->
    List.length row = List.length L /\
    forall j b x, nth_error L j = Some b -> nth_error row j = Some x -> prod (pS a) (pS b) = Ok x.
(** entries (i,j) and (j,i) are equal *)
Definition symmetric_table (T : list (list poly)) : Prop :=
  forall i j r r' x y, nth_error T i = Some r -> nth_error r j = Some x ->
    nth_error T j = Some r' -> nth_error r' i = Some y -> peq x y.

(** ** Rim hooks *)

(** [mu] is obtained from [lam] by removing a rim hook whose boxes lie in rows
    [a], ..., [b] (counted from 0): in row [b] at least one box is removed, in
    the rows above it all boxes from the column where the next row ends, so
    that consecutive rows of the hook share exactly one column. *)
Definition rim_hook (a b : nat) (lam mu : list Z) : Prop :=
  is_partition lam /\ is_partition mu /\ (a <= b)%nat /\
  (forall j, (j < a)%nat -> part mu j = part lam j) /\
  (forall j, (a <= j < b)%nat -> part mu j = part lam (S j) - 1) /\
  part mu b < part lam b /\
  (forall j, (b < j)%nat -> part mu j = part lam j).

(** [mu] is obtained from [lam] by removing a rim hook of [r] boxes starting in
    the first row *)
Definition top_hook (r : Z) (lam mu : list Z) : Prop :=
  size lam = size mu + r /\ exists b, rim_hook 0 b lam mu.

(** [c] such hooks one after the other, none of the partitions in between
    satisfying [stop] *)
Inductive top_hooks (stop : list Z -> Prop) (r : Z) : Z -> list Z -> list Z -> Prop :=
| th_one lam mu : top_hook r lam mu -> top_hooks stop r 1 lam mu
| th_more c lam nu mu : top_hooks stop r c lam nu -> ~ stop nu -> top_hook r nu mu ->
    top_hooks stop r (c + 1) lam mu.

(** the number of rows in which [mu] is shorter than [lam] *)
Definition rows_changed (lam mu : list Z) (h : Z) : Prop :=
  exists L, NoDup L /\ (forall j, In j L <-> part mu j < part lam j) /\ h = Z.of_nat (List.length L).

(** [mu] arises from [lam] by adding at most one box to each row *)
Definition adds_vertical_strip (lam mu : list Z) : Prop :=
  forall j, part lam j <= part mu j <= part lam j + 1.
(** the first row of [lam] has length [k], and [mu] arises from [lam] by removing
    this row and at most one box from each of the other rows *)
Definition bertram_columns (k : Z) (lam mu : list Z) : Prop :=
  part lam 0 = k /\ forall j, part lam (S j) - 1 <= part mu j <= part lam (S j).

(** the reduction of a partition with at most [m] rows to the m x k rectangle:
    rim hooks of m + k boxes that start in the first row are removed until the
    partition fits, each hook with b + 1 rows contributing one power of q and the
    sign (-1)^(m - (b + 1)) *)
Inductive rim_reduces (m k : Z) : list Z -> nat -> list Z -> Z -> Prop :=
| rr_done lam : in_box m k lam -> rim_reduces m k lam 0 lam 1
| rr_hook lam mu nu b d s : ~ in_box m k lam -> rim_hook 0 b lam mu -> size lam = size mu + (m + k) ->
    rim_reduces m k mu d nu s -> rim_reduces m k lam (S d) nu ((-1) ^ (m - (Z.of_nat b + 1)) * s).

(** the sum of s * c(ka) over the pairs (ka, s) of a list *)
Definition signed_sum (c : list Z -> Qc) (L : list (list Z * Z)) : Qc :=
  fold_right (fun x t => (Q2Qc (inject_Z (snd x)) * c (fst x) + t)%Qc) 0%Qc L.

(** ** Tableaux *)

(** the entry in row [i] and column [c] of a filling, given by its rows *)
Definition entry (T : list (list Z)) (i c : nat) : Z := nth c (nth i T []) 0.
(** semistandard Young tableaux of shape [lam] with entries 1, ..., [n]: rows
    weakly increasing, columns strictly increasing *)
Definition ssyt (n : Z) (lam : list Z) (T : list (list Z)) : Prop :=
  List.length T = List.length lam /\
  (forall i, (i < List.length T)%nat -> Z.of_nat (List.length (nth i T [])) = part lam i) /\
  (forall i c, (c < List.length (nth i T []))%nat -> 1 <= entry T i c <= n) /\
  (forall i c, (S c < List.length (nth i T []))%nat -> entry T i c <= entry T i (S c)) /\
  (forall i c, (c < List.length (nth (S i) T []))%nat -> entry T i c < entry T (S i) c).
(** how often 1, ..., [n] occur: the exponents of x_1, ..., x_n *)
Definition content (n : Z) (T : list (list Z)) : list Z :=
  map (fun v => Z.of_nat (count_occ Z.eq_dec (List.concat T) v)) (zrange 1 (n + 1)).

(** what remains of a filling without its first [c] columns *)
Definition columns_from (c : nat) (T : list (list Z)) : list (list Z) := map (skipn c) T.
(** Littlewood-Richardson tableaux for the coefficient of [nu] in the product of
    [lam] and [mu]: semistandard tableaux of shape [lam] such that adding to [mu]
    the content of the columns from any column on gives a partition, and [nu] if
    all columns are taken *)
Definition lr_tableau (m : Z) (lam mu nu : list Z) (T : list (list Z)) : Prop :=
  ssyt m lam T /\
  (forall c r, part mu (S r) + part (content m (columns_from c T)) (S r) <=
               part mu r + part (content m (columns_from c T)) r) /\
  (forall r, part nu r = part mu r + part (content m T) r).

(** ** Pictures *)

Definition char_at (s : string) (j : nat) : option ascii := String.get j s.
(** the line [s] shows [boxes] boxes "[]" and is filled up with blanks to
    [width] boxes *)
Definition shows (s : string) (boxes width : Z) : Prop :=
  Z.of_nat (String.length s) = 2 * width /\
  forall j, 0 <= j < width ->
    char_at s (Z.to_nat (2 * j)) = Some (if j <? boxes then "["%char else " "%char) /\
    char_at s (Z.to_nat (2 * j + 1)) = Some (if j <? boxes then "]"%char else " "%char).
(** [s] consists of [w] blanks *)
Definition blank (s : string) (w : nat) : Prop :=
  String.length s = w /\ forall j, (j < w)%nat -> char_at s j = Some " "%char.

(** ** CSV files *)

(** [r] is one of the normalised rows of a file: a row with at least three
    columns, not all of them empty, whose third column is normalised *)
Definition csv_row (norm : string -> res string) (file : list (list string)) (r : string * string * string) : Prop :=
  exists c1 c2 c3 rest x,
    In (c1 :: c2 :: c3 :: rest) file /\ (exists c, In c (c1 :: c2 :: c3 :: rest) /\ c <> EmptyString) /\
    norm c3 = Ok x /\ r = (c1, c2, x).

(** the text before a partition in the picture of a linear combination *)
Definition label (first : bool) (coeff : string) (not_one : bool) : string :=
  ((if first then "" else " + ") ++ (if not_one then coeff ++ "*" else ""))%string.
(** [s] is line [i] of the picture of a linear combination, given by its terms
    (text of the coefficient, whether it differs from 1, partition): the labels
    stand in line 0, next to each other the partitions are drawn *)
Inductive picture_line (i : nat) : bool -> list (string * bool * list Z) -> string -> Prop :=
| pl_nil first : picture_line i first [] ""
| pl_cons first coeff not_one p ts c s rest :
    (i = 0%nat -> c = label first coeff not_one) ->
    (i <> 0%nat -> blank c (String.length (label first coeff not_one))) ->
    shows s (part p i) (part p 0) ->
    picture_line i false ts rest ->
    picture_line i first ((coeff, not_one, p) :: ts) (c ++ (s ++ rest)).
