(** Pictures of partitions (utils/mix.py:15-40, lc.py:316-365), comparison of
    CSV files (csv_bijection.py), Schur polynomials (utils/mix.py:42-129) and
    Schur.to_polinomial_str (schur.py:156-168). *)

From Coq Require Import ZArith List Lia Bool String Ascii.
From Verif Require Import Py ModelPart.
Import ListNotations.
Open Scope Z_scope.

(** ** Pictures *)

(** Python's [s * n] *)
(** [s * n], utils/mix.py:20 *)
Fixpoint srep_nat (s : string) (n : nat) : string :=
  match n with O => EmptyString | S n' => (s ++ srep_nat s n')%string end.
(** [s * n], utils/mix.py:20 (empty when n < 0) *)
Definition srep (s : string) (n : Z) : string := srep_nat s (Z.to_nat n).
(** [len(s)], utils/mix.py:23, 35 *)
Definition slen (s : string) : Z := Z.of_nat (String.length s).

(** Python's [max(l)]; ValueError on an empty list *)
(** utils/mix.py:19, lc.py:343, schur.py:127 *)
Definition py_max (l : list Z) : res Z :=
  match l with [] => Err ValueError | x :: t => Ok (fold_left Z.max t x) end.

(** utils/mix.py:15-20 *)
Definition partition_to_ascii (p : list Z) : list string :=
  let max_row := match p with [] => 0 | x :: t => fold_left Z.max t x end in
  map (fun row => (srep "[]" row ++ srep "  " (max_row - row))%string) p.

(** utils/mix.py:22-31 *)
Definition embed_str (s : string) (height : Z) : list string :=
  map (fun i => if i =? 0 then s else srep " " (slen s)) (zrange 0 height).

(** utils/mix.py:33-40 *)
Definition embed_partition (p : list Z) (width height : Z) : res (list string) :=
  let res0 := partition_to_ascii p in
  first <- py_get res0 0 ;;
  let res1 :=
    if slen first <? width * 2
    then map (fun row => (row ++ srep "  " (width - slen row / 2))%string) res0
    else res0 in
  Ok (if zlen res1 <? height then res1 ++ repz (srep "  " width) (height - zlen res1) else res1).

(** lc.py:316-365 [draw_ascii_partition], from the expansion on: terms are
    (text of the coefficient, whether it differs from 1, partition).  The
    result is the list of printed lines. *)
Definition coeff_text (first : bool) (coeff : string) (not_one : bool) : string :=
  let c := if not_one then (coeff ++ "*")%string else EmptyString in
  if first then c else (" + " ++ c)%string.
(** lc.py:341-352, the loop over the terms *)
Fixpoint draw_blocks (first : bool) (max_height : Z) (l : list (string * bool * list Z))
  : res (list (list string)) :=
  match l with
  | [] => Ok []
  | (coeff, not_one, part) :: t =>
      w <- py_max part ;;
      part_ascii <- embed_partition part w max_height ;;
      let coeff_block := embed_str (coeff_text first coeff not_one) max_height in
      block <- mapM (fun i => a <- py_get coeff_block i ;; b <- py_get part_ascii i ;; Ok (a ++ b)%string)
                    (zrange 0 max_height) ;;
      rest <- draw_blocks false max_height t ;;
      Ok (block :: rest)
  end.
(** lc.py:360, joining the pieces of a line *)
Fixpoint sconcat (l : list string) : string :=
  match l with [] => EmptyString | s :: t => (s ++ sconcat t)%string end.
(** lc.py:316-365 [draw_ascii_partition] *)
Definition draw_ascii_partition (l : list (string * bool * list Z)) : res (list string) :=
  let max_height := fold_left (fun h x => Z.max h (zlen (snd x))) l 0 in
  blocks <- draw_blocks true max_height l ;;
  mapM (fun i => parts <- mapM (fun b => py_get b i) blocks ;; Ok (sconcat parts)) (zrange 0 max_height).

(** ** CSV files *)

(** csv_bijection.py:5-19 [_read_csv_transformed] after the csv reader; [norm]
    stands for lines 13-16 (encode, parse_expr, expand, simplify, str, decode).
    The set is kept as a list without repetitions. *)
Definition row3 : Type := (string * string * string)%type.
(** equality of the tuples of csv_bijection.py:17 *)
Definition row3_eqb (a b : row3) : bool :=
  let '(a1, a2, a3) := a in let '(b1, b2, b3) := b in
  (String.eqb a1 b1 && String.eqb a2 b2 && String.eqb a3 b3)%bool.
(** membership in the set of csv_bijection.py:18, 26 *)
Definition row3_mem (a : row3) (l : list row3) : bool := existsb (row3_eqb a) l.
(** [any(row)], csv_bijection.py:10 *)
Definition truthy (s : string) : bool := negb (String.eqb s EmptyString).
(** csv_bijection.py:5-19 [_read_csv_transformed] *)
Fixpoint read_csv_transformed (norm : string -> res string) (rows : list (list string)) (acc : list row3)
  : res (list row3) :=
  match rows with
  | [] => Ok acc
  | row :: t =>
      if negb (existsb truthy row) then read_csv_transformed norm t acc
      else match row with
           | c1 :: c2 :: c3 :: _ =>
               x <- norm c3 ;;
               let r := (c1, c2, x) in
               read_csv_transformed norm t (if row3_mem r acc then acc else acc ++ [r])
           | _ => read_csv_transformed norm t acc
           end
  end.
(** csv_bijection.py:21-29 *)
Definition check_bijection_with_permutation (norm : string -> res string) (file1 file2 : list (list string))
  : res bool :=
  set1 <- read_csv_transformed norm file1 [] ;;
  set2 <- read_csv_transformed norm file2 [] ;;
  let inter := filter (fun x => row3_mem x set2) set1 in
  Ok ((zlen set1 =? zlen set2) && (zlen inter =? zlen set1))%bool.

(** ** Schur polynomials *)

(** A polynomial with nonnegative integer coefficients in x_1, ..., x_n (a
    sympy [Poly] over ZZ): the list of the exponent vectors of its monomials,
    with multiplicity.  Only sums and products with single variables occur. *)
(** the [Poly] objects of utils/mix.py:101-102 *)
Definition xpoly := list (list Z).
(** utils/mix.py:105 *)
Definition xone (n : Z) : xpoly := [repz 0 n].
(** utils/mix.py:107 *)
Definition xzero : xpoly := [].
(** the exponent of x_m (counted from 1) grows by e *)
(** utils/mix.py:109, 121, 123 *)
Definition bump (m e : Z) (v : list Z) : list Z := upd v (Z.to_nat (m - 1)) (nth (Z.to_nat (m - 1)) v 0 + e).
(** multiplication with [x[m-1]], utils/mix.py:121, 123 *)
Definition xmul (m : Z) (p : xpoly) : xpoly := map (bump m 1) p.

(** utils/mix.py:60-65 [__drop_trailing_zeros__] pops in place; the result is
    the new content of the list: [part_clip]. *)
(** utils/mix.py:67-74 [__make_partition__] *)
Definition make_partition (l : list Z) : res (list Z) :=
  let mu := part_clip l in
  if is_non_increasing (mu ++ [0]) then Ok mu else Err ValueError.

(** utils/mix.py:42-48 [__N__] (numpy's fixed-width overflow is not modelled) *)
Fixpoint zprod (l : list Z) : Z := match l with [] => 1 | x :: t => x * zprod t end.
(** utils/mix.py:42-48 [__N__] *)
Fixpoint mixed_N (kappa mu : list Z) : Z :=
  match kappa, mu with
  | _ :: kappa', m :: mu' => m * zprod (map (fun x => x + 1) kappa') + mixed_N kappa' mu'
  | _, _ => 0
  end.

(** The table [S]: entries that are not None, by row and column. *)
(** utils/mix.py:128 *)
Definition memo := list ((Z * Z) * xpoly).
(** utils/mix.py:111 *)
Definition memo_get (S : memo) (r c : Z) : option xpoly :=
  match find (fun e => (fst (fst e) =? r) && (snd (fst e) =? c))%bool S with Some e => Some (snd e) | None => None end.

Section Sch.
Variables (n : Z) (kappa : list Z).
(** the number of rows of the table, utils/mix.py:128 *)
Definition rowsN : Z := mixed_N kappa kappa.
Section Rec.
(** [sch] with the table it is given; it returns its result and what it left in
    the table *)
Variable rec : memo -> Z -> Z -> list Z -> res (xpoly * memo).

(** utils/mix.py:116-124: the loop over the rows.  Every call gets a copy of the
    table, so the table returned by the call is dropped. *)
Fixpoint sch_rows (fuel : nat) (S : memo) (m i : Z) (nu : list Z) (s : xpoly) : res xpoly :=
  match fuel with
  | O => Err OutOfFuel
  | Datatypes.S f =>
      if zlen nu <? i then Ok s
      else
        a <- py_get nu (i - 1) ;;
        if 0 <? a then
          corner <- (if zlen nu =? i then Ok true else b <- py_get nu i ;; Ok (b <? a)) ;;
          s' <- (if (corner : bool) then
                   nu' <- py_set nu (i - 1) (a - 1) ;;
                   '(r, _) <- (if 1 <? a then rec S m i nu' else rec S (m - 1) 1 nu') ;;
                   Ok (s ++ xmul m r)
                 else Ok s) ;;
          sch_rows f S m (i + 1) nu s'
        else Ok s
  end.
End Rec.

(** utils/mix.py:103-127 [sch].  The indices of line 111 must lie in the table
    (a negative row index, which would wrap around, is an error here). *)
Fixpoint sch (fuel : nat) (S : memo) (m k : Z) (nu : list Z) : res (xpoly * memo) :=
  match fuel with
  | O => Err OutOfFuel
  | Datatypes.S f =>
      let len := zlen nu in
      if len =? 0 then Ok (xone n, S)
      else
        h <- py_get nu 0 ;;
        if (h =? 0) || (m =? 0) then Ok (xone n, S)
        else
          too_long <- (if m <? len then b <- py_get nu m ;; Ok (0 <? b) else Ok false) ;;
          if (too_long : bool) then Ok (xzero, S)
          else if m =? 1 then Ok (map (bump 1 h) (xone n), S)
          else
            let N := mixed_N kappa nu in
            if (N <? 1) || (rowsN <? N) || (m <? 1) || (n <? m) then Err IndexError
            else
              match memo_get S (N - 1) (m - 1) with
              | Some s => Ok (s, S)
              | None =>
                  '(s0, _) <- sch f S (m - 1) 1 nu ;;
                  s <- sch_rows (sch f) (Z.to_nat len + 1) S m k nu s0 ;;
                  Ok (s, if k =? 1 then ((N - 1, m - 1), s) :: S else S)
              end
  end.
End Sch.

(** utils/mix.py:76-129 [SchurPol]: the list passed as argument after the call,
    and the result.  A call of depth d decreases m or the number of boxes d
    times, so n + |kappa| + 1 is enough fuel (proved). *)
Definition SchurPol (n : Z) (kappa : list Z) : list Z * res xpoly :=
  if n <? 1 then (kappa, Err ValueError)
  else
    (part_clip kappa,
     k <- make_partition kappa ;;
     '(s, _) <- sch n k (Z.to_nat (n + zsum k) + 1) [] n 1 k ;;
     Ok s).

(** schur.py:156-168 [Schur.to_polinomial_str]: the object (its list) after the
    call and the polynomial whose text is returned. *)
Definition to_polinomial_str (p : list Z) (n : Z) : list Z * res xpoly := SchurPol n p.
