(** Model of the partition, index and Pieri-set functions of
    schubertpy/qcalc.py (lines 57-584) and of [padding_right]
    (schubertpy/utils/mix.py:6-7). *)

From Coq Require Import ZArith List Lia Bool.
From Verif Require Import Py ModelPart.
Import ListNotations.
Open Scope Z_scope.

(** utils/mix.py:6-7 [padding_right] *)
Definition padding_right (lam : list Z) (value count : Z) : list Z := lam ++ repz value count.

(** ** Partitions *)

(** qcalc.py:57-74 [part_conj].  [m] is the first part; the loop of lines 70-73
    emits the length and strips the first column [m] times. *)
Fixpoint conj_loop (m : nat) (lam : list Z) : list Z :=
  match m with
  | O => []
  | S m' => zlen lam :: conj_loop m' (part_clip (map (fun x => x - 1) lam))
  end.
(** qcalc.py:57-74 [part_conj] *)
Definition part_conj (l : list Z) : list Z :=
  let l := part_clip l in
  match l with
  | [] => []
  | x :: _ => if existsb (fun y => y <? 0) l then [] else conj_loop (Z.to_nat x) l
  end.

(** qcalc.py:125-129 [part_len] *)
Definition part_len (l : list Z) : Z := zlen (part_clip l).

(** qcalc.py:99-112 [part_itr] *)
Definition part_itr (mu : list Z) : res (option (list Z)) :=
  match mu with
  | [] => Ok None
  | _ =>
      match part_clip mu with
      | [] => Ok None
      | _ =>
          let last_idx := part_len mu - 1 in
          x <- py_get mu last_idx ;;
          let a := x - 1 in
          Ok (Some (sl_to mu last_idx ++ repz a (zlen mu - last_idx)))
      end
  end.

(** qcalc.py:77-96 [part_gen].  Lines 88-91 run while [mu] is a list, lines
    93-94 are reached only for [len(mu) = 0], which line 80 excludes (part_itr
    preserves the length); they are kept here for fidelity.  State: ([mu],
    [ret] in reverse). *)
Definition part_gen_body (st : option (list Z) * list (list Z))
  : res (step (option (list Z) * list (list Z)) (list (list Z))) :=
  let '(mu, ret) := st in
  match mu with
  | None => Ok (Done (rev ret))
  | Some [] => Ok (Done (rev ([] :: ret)))
  | Some mu => mu' <- part_itr mu ;; Ok (Next (mu', part_clip mu :: ret))
  end.
(** The cut-off depth: at most [2^(rows*cols+rows+1)] partitions (proved
    sufficient for lists of nonnegative entries). *)
(** number of iterations of qcalc.py:88-91 *)
Definition gen_depth (l : list Z) : nat :=
  Z.to_nat (zlen l * fold_right Z.max 0 l + zlen l + 1).
(** qcalc.py:77-96 [part_gen] *)
Definition part_gen (lam : list Z) : res (list (list Z)) :=
  match lam with
  | [] => Ok []
  | _ => loop2 (gen_depth lam) part_gen_body (Some lam, [])
  end.

(** qcalc.py:116-122 [part_itr_between]; lines 117-119 search backwards for the
    last index where [mu] exceeds [tau].  [i = length mu - 1 - fuel consumed]. *)
Fixpoint between_idx (fuel : nat) (mu tau : list Z) (i : Z) : res (option Z) :=
  match fuel with
  | O => Ok None
  | S f =>
      if i <? 0 then Ok None
      else
        a <- py_get mu i ;;
        b <- py_get tau i ;;
        if a =? b then between_idx f mu tau (i - 1) else Ok (Some i)
  end.
(** qcalc.py:116-122 [part_itr_between] *)
Definition part_itr_between (mu tau lam : list Z) : res (option (list Z)) :=
  oi <- between_idx (S (length mu)) mu tau (zlen mu - 1) ;;
  match oi with
  | None => Ok None
  | Some i =>
      x <- py_get mu i ;;
      t <- mapM (fun j => y <- py_get lam j ;; Ok (Z.min (x - 1) y)) (zrange i (zlen mu)) ;;
      Ok (Some (sl_to mu i ++ t))
  end.

(** ** Pair and index conversions.  The Python functions return a [Schur]
    wrapping the list(s) given here. *)

(** qcalc.py:136-146 [part2pair_inner] *)
Definition part2pair_inner (lam : list Z) (k : Z) : list Z * list Z :=
  let top := part_conj (map (fun x => Z.min x k) lam) in
  let bot := part_clip (map (fun x => Z.max (x - k) 0) lam) in
  let top := top ++ repz 0 (k - zlen top) in
  let bot := match lam with
             | [] => bot
             | _ => if last lam 1 =? 0 then bot ++ [0] else bot
             end in
  (top, bot).

(** qcalc.py:149-165 [pair2part_inner]; [lam[i]] on line 159 raises IndexError
    if the second list is longer than the conjugate of the first. *)
Definition pair2part_inner (p1 p2 : list Z) : res (list Z) :=
  match p1 with
  | [] => Ok p2
  | _ =>
      let lam := part_conj p1 in
      let np2 := zlen p2 in
      a <- mapM (fun i => x <- py_get lam i ;; y <- py_get p2 i ;; Ok (x + y)) (zrange 0 np2) ;;
      let a := a ++ sl_from lam np2 in
      Ok (match p2 with
          | [] => a
          | _ => if last p2 1 =? 0 then a ++ [0] else a
          end)
  end.

(** qcalc.py:168-178 [type_swap_inner] *)
Definition type_swap_inner (lam : list Z) (k : Z) : list Z :=
  match lam with
  | [] => []
  | _ =>
      if negb (zmem k lam) then
        if last lam 1 =? 0 then sl_to lam (-1) else lam
      else if last lam 1 =? 0 then sl_to lam (-1)
      else lam ++ [0]
  end.

(** qcalc.py:181-184 [part2indexA_inner] *)
Definition part2indexA_inner (lam : list Z) (k n : Z) : res (list Z) :=
  let la := lam ++ repz 0 (n - k) in
  mapM (fun j => x <- py_get la j ;; Ok (k + j - x + 1)) (zrange 0 (n - k)).

(** qcalc.py:187-192 [_count_inner] *)
Definition count_inner (la : list Z) (k j delta : Z) : res Z :=
  foldM (fun count i =>
           x <- py_get la i ;;
           y <- py_get la j ;;
           Ok (if x + y <=? 2 * k + delta + j - i then count + 1 else count))
        (zrange 0 j) 0.

(** qcalc.py:195-205 [part2indexB_inner] *)
Definition part2indexB_inner (lam : list Z) (k n : Z) : res (list Z) :=
  let la := lam ++ repz 0 (n - k) in
  mapM (fun j =>
          x <- py_get la j ;;
          if k <? x then Ok (n + k + 1 - x)
          else count <- count_inner la k j 0 ;; Ok (n + k + 2 - x + count))
       (zrange 0 (n - k)).

(** qcalc.py:208-214 [part2indexC_inner] *)
Definition part2indexC_inner (lam : list Z) (k n : Z) : res (list Z) :=
  let la := lam ++ repz 0 (n - k) in
  mapM (fun j =>
          count <- count_inner la k j 0 ;;
          x <- py_get la j ;;
          Ok (n + k + 1 - x + count))
       (zrange 0 (n - k)).

(** qcalc.py:217-234 [part2indexD_inner].  Line 228's [la[j-1]] is evaluated
    only for [j <> 0]. *)
Definition part2indexD_inner (lam : list Z) (k n : Z) : res (list Z) :=
  let la := lam ++ repz 0 (n + 1 - k) in
  let nt := match lam with [] => n + 1 | _ => if last lam 1 =? 0 then n + 2 else n + 1 end in
  mapM (fun j =>
          count <- count_inner la k j (-1) ;;
          x <- py_get la j ;;
          let value := n + k - x + count in
          if k <? x then Ok (value + 1)
          else
            c <- (if x =? k then
                    if j =? 0 then Ok true
                    else y <- py_get la (j - 1) ;; Ok (k <? y)
                  else Ok false) ;;
            if (c : bool) && ((nt + j) mod 2 =? 1) then Ok (value + 1) else Ok (value + 2))
       (zrange 0 (n + 1 - k)).

(** qcalc.py:237-241 [index2partA_inner] *)
Definition index2partA_inner (idx : list Z) (k n : Z) : res (list Z) :=
  la <- mapM (fun j => x <- py_get idx j ;; Ok (k + j + 1 - x)) (zrange 0 (n - k)) ;;
  Ok (part_clip la).

(** the pair-counting loop of qcalc.py:248-250, 263-265, 277-279 *)
Definition count_idx (idx : list Z) (bound j : Z) : res Z :=
  foldM (fun count i =>
           x <- py_get idx i ;;
           y <- py_get idx j ;;
           Ok (if bound <? x + y then count + 1 else count))
        (zrange 0 j) 0.

(** qcalc.py:244-252 [index2partC_inner] *)
Definition index2partC_inner (idx : list Z) (k n : Z) : res (list Z) :=
  la <- mapM (fun j =>
                count <- count_idx idx (2 * n + 1) j ;;
                x <- py_get idx j ;;
                Ok (n + k + 1 - x + count)) (zrange 0 (n - k)) ;;
  Ok (part_clip la).

(** qcalc.py:255-267 [index2partB_inner] *)
Definition index2partB_inner (idx : list Z) (k n : Z) : res (list Z) :=
  la <- mapM (fun j =>
                x <- py_get idx j ;;
                if x <=? n then Ok (n + k + 1 - x)
                else count <- count_idx idx (2 * n + 2) j ;;
                     Ok (n + k + 2 - x + count)) (zrange 0 (n - k)) ;;
  Ok (part_clip la).

(** qcalc.py:270-290 [index2partD_inner].  Line 287-288 only use the number of
    elements of range(1,n+2) missing from [idx]. *)
Definition index2partD_inner (idx : list Z) (k n : Z) : res (list Z) :=
  la <- mapM (fun j =>
                x <- py_get idx j ;;
                if x <=? n + 1 then Ok (n + k + 1 - x)
                else count <- count_idx idx (2 * n + 3) j ;;
                     Ok (n + k + 2 - x + count)) (zrange 0 (n + 1 - k)) ;;
  let la := part_clip la in
  if negb (zmem k la) then Ok la
  else
    let missing := filter (fun x => negb (zmem x idx)) (zrange 1 (n + 2)) in
    if (zlen missing) mod 2 =? 1 then Ok (la ++ [0]) else Ok la.

(** The types of Grassmannian, i.e. the strings "A", "B", "C", "D". *)
(** grassmannian.py:39, isotropic_grassmannian.py:39,
    orthogonal_grassmannian.py:42, 48 *)
Inductive gtype : Type := TA | TB | TC | TD.
(** the test [tp == "D"], qcalc.py:293-307 *)
Definition is_D (t : gtype) : bool := match t with TD => true | _ => false end.

(** qcalc.py:293-307 [dualize_index_inner].  [N/2] is float division in Python;
    [(N/2) % 2 == 1] holds iff N is even and N/2 odd, and line 305 turns the
    floats written on lines 301/304 back into integers.  Floats are exact below
    2^53; larger values are not modelled. *)
Definition dualize_index_inner (idx : list Z) (N : Z) (tp : gtype) : list Z :=
  let r := map (fun x => N + 1 - x) (rev idx) in
  if is_D tp && (N mod 4 =? 2) then
    map (fun x => if x =? N / 2 then N / 2 + 1
                  else if x =? N / 2 + 1 then N / 2 else x) r
  else r.

(** ** Pieri rule internals *)

(** qcalc.py:334-338, the loop of [_pieri_fillA]; state ([res], [pp]), index
    [rr]. *)
Definition fillA_step (inner outer : list Z) (st : list Z * Z) (rr : Z) : res (list Z * Z) :=
  let '(r, pp) := st in
  o <- py_get outer rr ;;
  i <- py_get inner rr ;;
  prev <- py_get r (rr - 1) ;;
  let x := Z.min (Z.min o (i + pp)) prev in
  r' <- py_set r rr x ;;
  Ok (r', pp - x + i).

(** qcalc.py:314-343 [_pieri_fillA] *)
Definition pieri_fillA (lam inner outer : list Z) (row_index p : Z) : res (option (list Z)) :=
  match lam with
  | [] => Ok (Some lam)
  | _ =>
      '(r, pp, rr) <-
        (if row_index =? 0 then
           o <- py_get outer 0 ;;
           i <- py_get inner 0 ;;
           let x := Z.min o (i + p) in
           r <- py_set lam 0 x ;;
           Ok (r, p - x + i, 1)
         else Ok (lam, p, row_index)) ;;
      '(r, pp) <- foldM (fillA_step inner outer) (zrange rr (zlen lam)) (r, pp) ;;
      if 0 <? pp then Ok None else Ok (Some (sl_to r (zlen lam)))
  end.

(** qcalc.py:346-359 [_pieri_itrA]; the loop over [r] counts down. *)
Fixpoint itrA_loop (lam inner outer : list Z) (rs : list Z) (p : Z) : res (option (list Z)) :=
  match rs with
  | [] => Ok None
  | r :: rs' =>
      a <- py_get lam r ;;
      b <- py_get inner r ;;
      if b <? a then
        lam1 <- py_set lam r (a - 1) ;;
        o <- pieri_fillA lam1 inner outer (r + 1) (p + 1) ;;
        match o with
        | Some l => Ok (Some l)
        | None => itrA_loop lam inner outer rs' (p + a - b)
        end
      else itrA_loop lam inner outer rs' p
  end.
(** qcalc.py:346-359 [_pieri_itrA] *)
Definition pieri_itrA (lam inner outer : list Z) : res (option (list Z)) :=
  match lam with
  | [] => Ok None
  | _ =>
      a <- py_get lam (-1) ;;
      b <- py_get inner (-1) ;;
      itrA_loop lam inner outer (rev (zrange 0 (zlen lam - 1))) (a - b)
  end.

(** qcalc.py:362-387 [calc_comps].  Lines 369-371 set [comps[j] = 1]; the
    [while] of line 376 is [shift_b]; lines 385-386 set [comps[j] = -1].
    [comps[j]] follows Python: an out-of-range index raises, a negative one
    wraps around. *)
Definition set_range (v : Z) (comps : list Z) (js : list Z) : res (list Z) :=
  foldM (fun c j => py_set c j v) js comps.

(** qcalc.py:376-377 and the equal loops 443-444, 481-482 of [pieri_set] (there
    with bound [b+1 <= lbot], i.e. [b+1 < lbot+1]): advance [b] while
    [b+1 < lim] and [bot[b]+(b+1)-1 > thr]. *)
Fixpoint shift_b (fuel : nat) (bot : list Z) (lim thr : Z) (b : Z) : res Z :=
  match fuel with
  | O => Err OutOfFuel
  | S f =>
      if b + 1 <? lim then
        x <- py_get bot b ;;
        if thr <? x + (b + 1) - 1 then shift_b f bot lim thr (b + 1) else Ok b
      else Ok b
  end.

(** qcalc.py:362-387 [calc_comps] *)
Definition calc_comps (top1 bot1 top2 bot2 : list Z) (lb2 k d : Z) : res (list Z) :=
  b0 <- py_get bot2 0 ;;
  comps <- foldM (fun c i =>
                    x <- py_get bot1 i ;;
                    y <- py_get bot2 i ;;
                    set_range 1 c (zrange x y))
                 (zrange 0 lb2) (repz 0 b0) ;;
  '(comps, _) <-
    foldM (fun st i =>
             let '(c, b) := st in
             t2 <- py_get top2 i ;;
             t1 <- py_get top1 i ;;
             if t2 <=? t1 then
               b <- shift_b (S (length bot2)) bot1 lb2 (t1 + k - (i + 1) - d) b ;;
               let minj := t2 + k - (i + 1) - (b + 1) + 2 - d in
               let maxj := Z.min (t1 + k - (i + 1) - (b + 1) + 2 - d) b0 in
               c' <- set_range (-1) c (zrange (minj - 1) (maxj - 1 + 1)) ;;
               Ok (c', b)
             else Ok (c, b))
          (zrange 0 k) (comps, 0) ;;
  Ok comps.

(** qcalc.py:389-397 [count_ones] *)
Definition count_ones (comps : list Z) (skipfirst : bool) (bot2_length : Z) : res Z :=
  '(r, _) <-
    foldM (fun st j =>
             let '(r, incomp) := st in
             c <- py_get comps j ;;
             Ok (if (c =? 1) && negb incomp then r + 1 else r, c =? 1))
          (zrange 0 bot2_length) (0, skipfirst) ;;
  Ok r.

(** qcalc.py:399-415 [count_comps] *)
Definition count_comps (lam1 lam2 : list Z) (skipfirst : bool) (k d : Z) : res Z :=
  let top1 := part_conj (map (fun x => Z.min x k) lam1) in
  let top1 := top1 ++ repz 0 (k - zlen top1) in
  let bot1 := part_clip (map (fun x => Z.max 0 (x - k)) lam1) ++ [0] in
  let top2 := part_conj (map (fun x => Z.min x k) lam2) in
  let top2 := top2 ++ repz 0 (k - zlen top2) in
  let bot2 := part_clip (map (fun x => Z.max 0 (x - k)) lam2) in
  let lb2 := zlen bot2 in
  if lb2 =? 0 then Ok 0
  else
    comps <- calc_comps top1 bot1 top2 bot2 lb2 k d ;;
    b0 <- py_get bot2 0 ;;
    count_ones comps skipfirst b0.

(** qcalc.py:536-540, the loop of [_pieri_fill]; [rr] is 1-based there. *)
Definition fill_step (inner outer : list Z) (st : list Z * Z) (rr : Z) : res (list Z * Z) :=
  let '(r, pp) := st in
  o <- py_get outer (rr - 1) ;;
  i <- py_get inner (rr - 1) ;;
  prev <- py_get r (rr - 2) ;;
  let x := Z.min (Z.min o (i + pp)) (prev - 1) in
  r' <- py_set r (rr - 1) x ;;
  Ok (r', pp - x + i).

(** qcalc.py:522-545 [_pieri_fill] *)
Definition pieri_fill (lam inner outer : list Z) (r p : Z) : res (option (list Z)) :=
  match lam with
  | [] => Ok (Some lam)
  | _ =>
      '(l, pp, rr) <-
        (if r =? 1 then
           o <- py_get outer 0 ;;
           i <- py_get inner 0 ;;
           let x := Z.min o (i + p) in
           l <- py_set lam 0 x ;;
           Ok (l, p - x + i, 2)
         else Ok (lam, p, r)) ;;
      '(l, pp) <- foldM (fill_step inner outer) (zrange rr (zlen lam + 1)) (l, pp) ;;
      if 0 <? pp then Ok None else Ok (Some l)
  end.

(** qcalc.py:548-563 [_pieri_itr]; [r] is 1-based and counts down. *)
Fixpoint itr_loop (lam inner outer : list Z) (rs : list Z) (p : Z) : res (option (list Z)) :=
  match rs with
  | [] => Ok None
  | r :: rs' =>
      a <- py_get lam (r - 1) ;;
      b <- py_get inner (r - 1) ;;
      if b <? a then
        lam1 <- py_set lam (r - 1) (a - 1) ;;
        o <- pieri_fill lam1 inner outer (r + 1) (p + 1) ;;
        match o with
        | Some l => Ok (Some l)
        | None => itr_loop lam inner outer rs' (p + a - b)
        end
      else itr_loop lam inner outer rs' p
  end.
(** qcalc.py:548-563 [_pieri_itr] *)
Definition pieri_itr (lam inner outer : list Z) : res (option (list Z)) :=
  match lam with
  | [] => Ok None
  | _ =>
      a <- py_get lam (-1) ;;
      b <- py_get inner (-1) ;;
      itr_loop lam inner outer (rev (zrange 1 (zlen lam))) (a - b)
  end.

(** qcalc.py:441-448, the loop that raises the lower bounds [inner]; state
    ([inner], [b]). *)
Definition ps_inner_step (top bot : list Z) (lbot k d : Z) (st : list Z * Z) (i : Z)
  : res (list Z * Z) :=
  let '(inner, b) := st in
  ti <- py_get top i ;;
  b <- shift_b (S (length bot)) bot (lbot + 1) (ti + k - (i + 1) - d) b ;;
  ini <- py_get inner i ;;
  if ti + k - (i + 1) + 2 - (b + 1) - d <=? 0 then
    inner' <- py_set inner i (Z.max ti ini) ;; Ok (inner', b)
  else
    bb <- py_get bot b ;;
    inner' <- py_set inner i (Z.max (bb + (b + 1) - 1 + (i + 1) - k + d) ini) ;;
    Ok (inner', b).

(** qcalc.py:490-492, the loop that lowers the upper bounds [outbot] *)
Fixpoint ps_outbot (fuel : nat) (bot : list Z) (thr thr1 : Z) (b1 : Z) (outbot : list Z)
  : res (list Z) :=
  match fuel with
  | O => Err OutOfFuel
  | S f =>
      if b1 + 1 <? zlen outbot then
        x <- py_get bot b1 ;;
        if x + (b1 + 1) - 1 <=? thr then
          y <- py_get outbot (b1 + 1) ;;
          outbot' <- py_set outbot (b1 + 1) (Z.min y (thr1 - (b1 + 1))) ;;
          ps_outbot f bot thr thr1 (b1 + 1) outbot'
        else Ok outbot
      else Ok outbot
  end.

(** qcalc.py:480-492, the loop over [i] that finds the bounds of the bottom
    partition for a given new top partition [top1]; [None] is [inbot = False]
    followed by [break]. *)
Fixpoint ps_bounds (is_ : list Z) (top top1 bot : list Z) (lbot k d : Z)
  (b : Z) (inbot outbot : list Z) : res (option (list Z * list Z)) :=
  match is_ with
  | [] => Ok (Some (inbot, outbot))
  | i :: rest =>
      ti <- py_get top i ;;
      b <- shift_b (S (length bot)) bot (lbot + 1) (ti + k - (i + 1) - d) b ;;
      t1i <- py_get top1 i ;;
      if (t1i <? ti) && (zlen inbot <? b + 1) then Ok None
      else
        inbot' <- (if t1i <? ti then
                     x <- py_get inbot b ;;
                     py_set inbot b (Z.max x (ti + k - (i + 1) - (b + 1) + 2 - d))
                   else Ok inbot) ;;
        outbot' <- ps_outbot (S (length outbot)) bot (ti + k - (i + 1) - d)
                     (t1i + k - (i + 1) - d) b outbot ;;
        ps_bounds rest top top1 bot lbot k d b inbot' outbot'
  end.

(** qcalc.py:507-514, the loop over bottom partitions; [acc] collects the tuples
    added to the set [res]. *)
Definition ps_bot_body (k : Z) (top1c inbot outbot : list Z)
  (st : option (list Z) * list (list Z))
  : res (step (option (list Z) * list (list Z)) (list (list Z))) :=
  let '(o, acc) := st in
  match o with
  | None => Ok (Done acc)
  | Some bot1 =>
      v <- (if k =? 0 then Ok (part_clip bot1)
            else
              let j := Z.min (zlen top1c) (zlen bot1) in
              s <- mapM (fun i => x <- py_get top1c i ;; y <- py_get bot1 i ;; Ok (x + y))
                        (zrange 0 j) ;;
              Ok (s ++ sl_from top1c j)) ;;
      o' <- pieri_itr bot1 inbot outbot ;;
      Ok (Next (o', v :: acc))
  end.

(** qcalc.py:455-514, one iteration of the outer loop over top partitions;
    the [continue]s of lines 460, 495, 499, 502 all go on with the next
    [top_1]. *)
Definition ps_body (depth : nat) (p : Z) (top bot inner outer : list Z) (lbot rows cols k d : Z)
  (st : option (list Z) * list (list Z))
  : res (step (option (list Z) * list (list Z)) (list (list Z))) :=
  let '(o, acc) := st in
  match o with
  | None => Ok (Done acc)
  | Some top1 =>
      nxt <- part_itr_between top1 inner outer ;;
      let p1 := p + zsum top - zsum top1 in
      if p1 <? 0 then Ok (Next (nxt, acc))
      else
        top1k <- (if k =? 0 then Ok rows else py_get top1 (k - 1)) ;;
        let inbot := sl_to bot lbot ++ (if lbot <? top1k then [0] else []) in
        outbot <- (if lbot =? 0 then Ok (if 0 <? top1k then [cols - k] else [])
                   else
                     dl <- (if lbot <? top1k then x <- py_get bot (lbot - 1) ;; Ok [x] else Ok []) ;;
                     Ok ([cols - k] ++ sl_to bot (lbot - 1) ++ dl)) ;;
        bounds <- ps_bounds (zrange 0 k) top top1 bot lbot k d 0 inbot outbot ;;
        match bounds with
        | None => Ok (Next (nxt, acc))
        | Some (inbot, outbot) =>
            let j := zsum bot in
            if zsum outbot - j <? p1 then Ok (Next (nxt, acc))
            else
              let p1 := p1 - zsum inbot + j in
              if p1 <? 0 then Ok (Next (nxt, acc))
              else
                bot1 <- pieri_fill inbot inbot outbot 1 p1 ;;
                acc' <- loop2 depth (ps_bot_body k (part_conj top1) inbot outbot) (bot1, acc) ;;
                Ok (Next (nxt, acc'))
        end
  end.

(** qcalc.py:418-419 [sort_part]: lexicographic, descending *)
Definition sort_part (l : list (list Z)) : list (list Z) := rev (isort zl_cmp l).

(** qcalc.py:421-519 [pieri_set].  The two enumerations are cut off at
    [2^depth] with [depth] larger than the logarithm of the number of
    candidates (proved for valid arguments). *)
Definition ps_depth (rows cols k : Z) : nat := Z.to_nat (rows * cols + rows * k + rows + cols + k + 2).

(** qcalc.py:421-519 [pieri_set] *)
Definition pieri_set (p : Z) (lam : list Z) (k n d : Z) : res (list (list Z)) :=
  let rows := n + d - k in
  let cols := n + k in
  let top := part_conj (map (fun x => Z.min x k) lam) in
  let top := top ++ repz 0 (k - zlen top) in
  topk <- (if k =? 0 then Ok cols else py_get top (k - 1)) ;;
  let bot := part_clip (map (fun x => Z.max 0 (x - k)) lam) ++ [0] in
  let lbot := zlen bot - 1 in
  outer <- mapM (fun j => x <- py_get top j ;; Ok (Z.min rows (x + 1))) (zrange 0 k) ;;
  inner <- (if k =? 0 then Ok []
            else
              l <- mapM (fun j => x <- py_get top (j + 1) ;; Ok (Z.max lbot x))
                        (zrange 0 (zlen top - 1)) ;;
              Ok (l ++ [lbot])) ;;
  '(inner, _) <- foldM (ps_inner_step top bot lbot k d) (zrange 0 k) (inner, 0) ;;
  let depth := ps_depth rows cols k in
  acc <- loop2 depth (ps_body depth p top bot inner outer lbot rows cols k d) (Some outer, []) ;;
  Ok (sort_part (dedup acc [])).

(** qcalc.py:566-569 [_part_star]; [None] is the integer 0 *)
Definition part_star (lam : list Z) (cols : Z) : option (list Z) :=
  match lam with
  | [] => None
  | x :: t => if negb (x =? cols) then None else Some t
  end.

(** qcalc.py:571-584 [_part_tilde]; [None] is the integer 0.  Line 575 raises
    IndexError for the empty list with rows = 0. *)
Definition part_tilde (lam : list Z) (rows cols : Z) : res (option (list Z)) :=
  let too_wide := match lam with [] => false | x :: _ => cols <? x end in
  if negb (part_len lam =? rows) || too_wide then Ok None
  else
    x <- py_get lam 0 ;;
    let r := rows + x - cols in
    if r <=? 0 then Ok None
    else
      c <- (if (r <? rows) && (r <? zlen lam) then y <- py_get lam r ;; Ok (1 <? y)
            else Ok false) ;;
      if (c : bool) then Ok None
      else
        let rs := sl lam 1 r in
        Ok (Some (match lam with
                  | [] => rs
                  | _ => if last lam 1 =? 0 then rs ++ [0] else rs
                  end)).
