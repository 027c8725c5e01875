(** Model of schubertpy/partition.py and schubertpy/utils/kstrict.py. *)

From Coq Require Import ZArith List Lia Bool.
From Verif Require Import Py.
Import ListNotations.
Open Scope Z_scope.

(** ** partition.py *)

(** partition.py:3-10 [part_clip].  The backwards scan over indices is written
    as recursion over the list: an element is kept if it is nonzero or something
    after it is kept. *)
Fixpoint part_clip (l : list Z) : list Z :=
  match l with
  | [] => []
  | x :: t => match part_clip t with
              | [] => if x =? 0 then [] else [x]
              | t' => x :: t'
              end
  end.

(** partition.py:13-20 [_is_non_increasing]: compares neighbours, left to right. *)
Fixpoint is_non_increasing (l : list Z) : bool :=
  match l with
  | x :: ((y :: _) as t) => if x <? y then false else is_non_increasing t
  | _ => true
  end.

(** partition.py:23-32 [is_valid_part].  The isinstance checks of lines 24-27
    always succeed here, because the model's lists hold integers only. *)
Definition is_valid_part (l : list Z) : bool :=
  if negb (forallb (fun x => 0 <=? x) l) then false
  else if negb (is_non_increasing l) then false
  else true.

(** partition.py:36-39 [Partition.__init__] *)
Definition mk_partition (l : list Z) : res (list Z) :=
  if negb (is_valid_part l) then Err ValueError else Ok l.

(** partition.py:55-56 [Partition._max_rim_size] *)
Definition max_rim_size (l : list Z) : Z := zsum l + zlen l - 1.

(** partition.py:58-71 [Partition.is_in_range] *)
Definition is_in_range (l : list Z) (nrow ncol : Z) : res bool :=
  if (nrow <? 0) || (ncol <? 0) then Err ValueError
  else match l with
       | [] => Ok true
       | x :: _ => if nrow <? zlen l then Ok false
                   else if ncol <? x then Ok false
                   else Ok true
       end.

(** partition.py:158-204 [skew_partition_height].  The containment loop
    (lines 190-194) and the counting loop (199-203) walk both lists in step. *)
Fixpoint skew_contained (lam mu : list Z) : res unit :=
  match lam, mu with
  | [], _ => Ok tt
  | _ :: _, [] => Err ValueError
  | a :: lam', b :: mu' => if b <? a then Err ValueError else skew_contained lam' mu'
  end.
(** partition.py:199-203 *)
Fixpoint skew_count (lam mu : list Z) : Z :=
  match mu with
  | [] => 0
  | b :: mu' =>
      let a := match lam with [] => 0 | a :: _ => a end in
      (if a <? b then 1 else 0) + skew_count (tl lam) mu'
  end.
(** partition.py:158-204 [skew_partition_height] *)
Definition skew_partition_height (lam mu : list Z) : res Z :=
  match lam with
  | [] => Ok (zlen mu)
  | _ => _ <- skew_contained lam mu ;; Ok (skew_count lam mu)
  end.

(** partition.py:107-127, the inner [for] of [remove_rim_hooks]: state
    ([_partition], [_rim_size]), index [i].  The result is [Some p] when a hook
    was removed (flag set), [None] when the loop ended without removing one. *)
Fixpoint rim_for (idx : list Z) (p : list Z) (rim : Z) : res (option (list Z)) :=
  match idx with
  | [] => Ok None
  | i :: rest =>
      pi <- py_get p i ;;
      pi1 <- py_get p (i + 1) ;;
      let delta := pi - pi1 in
      if rim <=? delta then
        p' <- py_set p i (pi - rim) ;; Ok (Some p')
      else
        let delta := if 0 <? pi1 then delta + 1 else delta in
        let rim' := rim - delta in
        p' <- py_set p i (pi - delta) ;;
        if rim' <=? 0 then
          a <- py_get p' i ;;
          b <- py_get p' (i + 1) ;;
          if a <? b then Ok None else Ok (Some p')
        else rim_for rest p' rim'
  end.

(** The value returned by [remove_rim_hooks]: a Partition or the integer 0
    (line 151) with two integers. *)
(** partition.py:73, 91-96, 134-151 *)
Definition rim_result : Type := (option (list Z) * Z * Z)%type.

(** partition.py:102-151, one iteration of the [while True] loop; state is
    ([current_partition], [total_rim_hooks_removed]). *)
Definition rim_body (orig : list Z) (rim_size nrow ncol : Z) (st : list Z * Z)
  : res (step (list Z * Z) rim_result) :=
  let '(cur, total) := st in
  let p := cur ++ [0] in
  r <- rim_for (zrange 0 (zlen p - 1)) p rim_size ;;
  match r with
  | None => Ok (Done (None, 0, 0))
  | Some p' =>
      let total' := total + 1 in
      if negb (is_non_increasing p') then
        h <- skew_partition_height [] orig ;; Ok (Done (Some [], total', h))
      else
        let p' := part_clip p' in
        np <- mk_partition p' ;;
        inr <- is_in_range np nrow ncol ;;
        if (inr : bool) then
          h <- skew_partition_height np orig ;; Ok (Done (Some np, total', h))
        else if zlist_eqb np cur then
          h <- skew_partition_height [] orig ;; Ok (Done (Some [], total', h))
        else Ok (Next (np, total'))
  end.

(** partition.py:73-151 [Partition.remove_rim_hooks].  Each iteration removes
    boxes, so [zsum l + 1] iterations are enough (proved). *)
Definition remove_rim_hooks (l : list Z) (rim_size nrow ncol : Z) : res rim_result :=
  match l with
  | [] => Ok (Some [], 0, 0)
  | _ =>
      if rim_size <=? 0 then p <- mk_partition l ;; Ok (Some p, 0, 0)
      else if max_rim_size l <? rim_size then Ok (Some [], 0, 0)
      else loop (Z.to_nat (zsum l) + 1) (rim_body l rim_size nrow ncol) (l, 0)
  end.

(** ** utils/kstrict.py *)

(** kstrict.py:4-28 [_first_kstrict] *)
Definition first_kstrict (k rows cols : Z) : list Z :=
  map (fun i => Z.max k (cols - i)) (zrange 0 rows).

(** kstrict.py:31-48 [_itr_kstrict].  The empty list is returned both for the
    zero partition and for rows = 0 (line 37); the caller stops on it.  Line 41
    indexes [lambda_[i-1]], which exists because [i = len(clip) >= 1]. *)
Definition itr_kstrict (l : list Z) (k : Z) : res (list Z) :=
  let n := zlen l in
  let cl := part_clip l in
  match cl with
  | [] => Ok []
  | _ =>
      let i := zlen cl in
      x <- py_get l (i - 1) ;;
      let li := x - 1 in
      if li <=? k then Ok (sl_to l (i - 1) ++ repz li (n - i + 1))
      else if k <? li + i - n then
        Ok (sl_to l (i - 1) ++ map (fun j => li - j) (zrange 0 (n - i + 1)))
      else
        Ok (sl_to l (i - 1) ++ map (fun j => li - j) (zrange 0 (li - k + 1))
              ++ repz k (n - i - li + k))
  end.

(** kstrict.py:52-74 [all_kstrict].  State of the [while True] loop: ([lam],
    [res] in reverse).  [seen] always holds the tuples of [res], so membership
    in [seen] is membership in [res].  At most [2^(rows*cols + rows + 1)]
    iterations (proved sufficient for 0 <= k, 0 <= cols). *)
Definition all_kstrict_body (k : Z) (st : list Z * list (list Z))
  : res (step (list Z * list (list Z)) (list (list Z))) :=
  let '(lam, acc) := st in
  let clipped := part_clip lam in
  let acc' := if existsb (zlist_eqb clipped) acc then acc else clipped :: acc in
  lam' <- itr_kstrict lam k ;;
  match lam' with
  | [] => Ok (Done (rev acc'))
  | _ => Ok (Next (lam', acc'))
  end.

(** kstrict.py:52-74 [all_kstrict] *)
Definition all_kstrict (k rows cols : Z) : res (list (list Z)) :=
  loop2 (Z.to_nat (rows * cols + rows + 1)) (all_kstrict_body k) (first_kstrict k rows cols, []).
