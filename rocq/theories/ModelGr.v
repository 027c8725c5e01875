(** Model of the Grassmannian classes: schubertpy/abstract_grassmannian.py,
    grassmannian.py, isotropic_grassmannian.py, orthogonal_grassmannian.py.

    An object is the triple ([_type], [_k], [_n]); its [_pieri] and [_qpieri]
    attributes are determined by [_type].  The [lru_cache] decorators are left
    out here; ModelCache.v shows that they do not change results. *)

From Coq Require Import ZArith List Lia Bool QArith Qcanon String.
From Verif Require Import Py ModelPart ModelQcalc ModelPoly ModelStr.
Import ListNotations.
Open Scope Z_scope.

(** The attributes [_type], [_k], [_n] of an object: grassmannian.py:36-43,
    isotropic_grassmannian.py:36-43, orthogonal_grassmannian.py:41-52 *)
Record gr : Type := mkGr { g_type : gtype; g_k : Z; g_n : Z }.

(** ** Constructors *)

(** grassmannian.py:31-43 *)
Definition Grassmannian (m n : Z) : res gr :=
  if (m <? 0) || (n <? 0) then Err ValueError
  else if n <? m then Err ValueError
  else Ok (mkGr TA (n - m) n).

(** isotropic_grassmannian.py:29-43 *)
Definition IsotropicGrassmannian (m n : Z) : res gr :=
  if (m <? 0) || (n <? 0) then Err ValueError
  else if n mod 2 =? 1 then Err ValueError
  else if n / 2 <? m then Err ValueError
  else Ok (mkGr TC (n / 2 - m) (n / 2)).

(** orthogonal_grassmannian.py:35-52 *)
Definition OrthogonalGrassmannian (m n : Z) : res gr :=
  if (m <? 0) || (n <? 0) then Err ValueError
  else if n mod 2 =? 1 then Ok (mkGr TB ((n - 1) / 2 - m) ((n - 1) / 2))
  else Ok (mkGr TD (n / 2 - m) (n / 2 - 1)).

(** grassmannian.py:62-63, isotropic_grassmannian.py:63-64,
    orthogonal_grassmannian.py:84-85 *)
Definition degree_q (g : gr) : Z :=
  match g_type g with
  | TA => g_n g
  | TC => g_n g + 1 + g_k g
  | TB | TD => if g_k g =? 0 then 2 * g_n g else g_n g + g_k g
  end.

(** get_type_data: grassmannian.py:54-60, isotropic_grassmannian.py:54-60,
    orthogonal_grassmannian.py:69-82.  The strings "A".."D" are the [gtype], the
    string "Gr"/"IG"/"OG" is determined by it. *)
Definition get_type_data (g : gr) : gtype * Z * Z * Z * Z * Z :=
  let k := g_k g in
  let n := g_n g in
  match g_type g with
  | TA => (TA, k, n, n - k, n, degree_q g)
  | TC => (TC, k, n, n - k, 2 * n, degree_q g)
  | TB => (TB, k, n, n - k, 2 * n + 1, degree_q g)
  | TD => (TD, k, n, n + 1 - k, 2 * n + 2, degree_q g)
  end.

(** abstract_grassmannian.py:102-103 [clone] *)
Definition clone (g : gr) : res gr :=
  let m := g_n g - g_k g in
  match g_type g with
  | TA => Grassmannian m (g_n g)
  | TC => IsotropicGrassmannian m (g_n g)
  | TB | TD => OrthogonalGrassmannian m (g_n g)
  end.

(** ** Classes *)

(** schur.py:170-171 [unique_schur_list]: sorted list of a set; Schur objects
    compare by their lists. *)
Definition unique_list (l : list (list Z)) : list (list Z) := isort zl_cmp (dedup l []).

(** grassmannian.py:65-74, isotropic_grassmannian.py:67-74,
    orthogonal_grassmannian.py:87-106 *)
Definition schub_classes (g : gr) : res (list (list Z)) :=
  let k := g_k g in
  let n := g_n g in
  match g_type g with
  | TA => ps <- part_gen (repz k (n - k)) ;; Ok (unique_list (isort zl_cmp ps))
  | TC | TB => ps <- all_kstrict k (n - k) (n + k) ;; Ok (unique_list ps)
  | TD =>
      ps <- all_kstrict k (n + 1 - k) (n + k) ;;
      Ok (unique_list (flat_map (fun mu => if zmem k mu then [mu; mu ++ [0]] else [mu]) ps))
  end.

(** grassmannian.py:76-85, isotropic_grassmannian.py:77-87,
    orthogonal_grassmannian.py:108-122 *)
Definition generators (g : gr) : list (list Z) :=
  let k := g_k g in
  let n := g_n g in
  let row := fun i => [i] in
  match g_type g with
  | TA => if k =? n then [] else map row (zrange 1 (k + 1))
  | TC | TB =>
      if k =? n then []
      else map row (zrange 1 (k + 1)) ++ map row (zrange (k + 1) (n + k + 1))
  | TD =>
      map row (zrange 1 (k + 1)) ++ (if 0 <? k then [[k; 0]] else [])
        ++ map row (zrange (k + 1) (n + k + 1))
  end.

(** grassmannian.py:87-93, isotropic_grassmannian.py:90-98,
    orthogonal_grassmannian.py:124-136.  In type A with k = 0 the code returns
    the raw empty list instead of the class S[]; both are [[]] here. *)
Definition point_class (g : gr) : list Z :=
  let k := g_k g in
  let n := g_n g in
  match g_type g with
  | TA => if 0 <? k then repz k (n - k) else []
  | TC | TB => map (fun i => n + k - i) (zrange 0 (n - k - 1 + 1))
  | TD =>
      let delta := if 0 <? k then 0 else 1 in
      map (fun i => n + k - i) (zrange 0 (n - k - delta + 1))
  end.

(** ** Conversions (polynomial arguments) *)

(** lc.py:141-143: a [Schur] object returned to [apply] is replaced by its symbol *)
Definition ret_schur (s : schur) : res poly := symbol s.

(** grassmannian.py:102-111, isotropic_grassmannian.py:115-124,
    orthogonal_grassmannian.py:155-174, for non-list arguments *)
Definition part2index (g : gr) (lc : poly) : res poly :=
  let k := g_k g in
  let n := g_n g in
  let f := match g_type g with
           | TA => part2indexA_inner | TB => part2indexB_inner
           | TC => part2indexC_inner | TD => part2indexD_inner end in
  apply_lc (on_part (fun lam => a <- f lam k n ;; ret_schur (SP a))) lc.

(** [index2part]: grassmannian.py:108-111, isotropic_grassmannian.py:121-124,
    orthogonal_grassmannian.py:165-174, for non-list arguments *)
Definition index2part (g : gr) (lc : poly) : res poly :=
  let k := g_k g in
  let n := g_n g in
  let f := match g_type g with
           | TA => index2partA_inner | TB => index2partB_inner
           | TC => index2partC_inner | TD => index2partD_inner end in
  apply_lc (on_part (fun idx => a <- f idx k n ;; ret_schur (SP a))) lc.

(** grassmannian.py:113-119, isotropic_grassmannian.py:126-132,
    orthogonal_grassmannian.py:176-185 *)
Definition ambient_N (g : gr) : Z :=
  match g_type g with
  | TA => g_n g
  | TC => 2 * g_n g
  | TB => 2 * g_n g + 1
  | TD => 2 * g_n g + 2
  end.
(** [dualize]: grassmannian.py:113-119, isotropic_grassmannian.py:126-132,
    orthogonal_grassmannian.py:176-185 *)
Definition dualize (g : gr) (lc : poly) : res poly :=
  index <- part2index g lc ;;
  x <- apply_lc (on_part (fun idx =>
         ret_schur (SP (dualize_index_inner idx (ambient_N g) (g_type g))))) index ;;
  index2part g x.

(** isotropic_grassmannian.py:101-112, orthogonal_grassmannian.py:138-153 for
    non-list arguments; grassmannian.py:95-100 raises Exception. *)
Definition part2pair (g : gr) (lc : poly) : res poly :=
  match g_type g with
  | TA => Err ValueError
  | _ => apply_lc (on_part (fun lam =>
           let '(t, b) := part2pair_inner lam (g_k g) in ret_schur (SPair t b))) lc
  end.
(** line 150 of qcalc.py unpacks its argument into exactly two values, and line
    152 takes [len] of the first *)
Definition pair2part (g : gr) (lc : poly) : res poly :=
  match g_type g with
  | TA => Err ValueError
  | _ => apply_lc (fun s => match s with
           | SPair t b => a <- pair2part_inner t b ;; ret_schur (SP a)
           | SP [_; _] => Err TypeError
           | SP _ => Err ValueError
           end) lc
  end.

(** grassmannian.py:121-124, isotropic_grassmannian.py:134-137,
    orthogonal_grassmannian.py:187-194 for non-list arguments *)
Definition type_swap (g : gr) (lc : poly) : res poly :=
  match g_type g with
  | TD => apply_lc (on_part (fun lam => ret_schur (SP (type_swap_inner lam (g_k g))))) lc
  | _ => Ok lc
  end.

(** abstract_grassmannian.py:75-91 [static_miami_swap_inner] *)
Definition miami_swap_inner (lam : list Z) (k : Z) : list Z :=
  if negb (zmem k lam) then lam
  else
    let count := zlen (filter (fun x => k <? x) lam) in
    if count mod 2 =? 0 then lam
    else if last lam 1 =? 0 then sl_to lam (-1)
    else lam ++ [0].
(** abstract_grassmannian.py:94-99 *)
Definition miami_swap (g : gr) (lc : poly) : res poly :=
  match g_type g with
  | TD => apply_lc (on_part (fun lam => ret_schur (SP (miami_swap_inner lam (g_k g))))) lc
  | _ => Ok lc
  end.

(** orthogonal_grassmannian.py:196-205 [schub_type] for list arguments *)
Definition schub_type (g : gr) (lam : list Z) : res Z :=
  match g_type g with
  | TD => if negb (zmem (g_k g) lam) then Ok 0
          else if 0 <? last lam 1 then Ok 1 else Ok 2
  | _ => Err ValueError
  end.

(** ** Calls with a list argument *)

(** The module-level [_type] of qcalc.py (line 650) is None and never assigned,
    so qcalc.part2index (680-694) ends in fail_no_type (646-647). *)
Definition qcalc_part2index : res poly := Err ValueError.

(** part2index(list): grassmannian.py:103-104, isotropic_grassmannian.py:116-117,
    orthogonal_grassmannian.py:156-157 call the module-level function. *)
Definition part2index_list (g : gr) (l : list Z) : res poly :=
  s <- symbol (SP l) ;; qcalc_part2index.
(** index2part(list): grassmannian.py:109-110 and the same in the other files *)
Definition index2part_list (g : gr) (l : list Z) : res poly :=
  s <- symbol (SP l) ;; index2part g s.
(** part2pair(list): isotropic_grassmannian.py:102-103 passes the list on;
    orthogonal_grassmannian.py:139-141 passes a sympy Symbol, over which line
    137 of qcalc.py cannot iterate. *)
Definition part2pair_list (g : gr) (l : list Z) : res schur :=
  match g_type g with
  | TA => Err ValueError
  | TC => let '(t, b) := part2pair_inner l (g_k g) in Ok (SPair t b)
  | TB | TD => s <- symbol (SP l) ;; Err TypeError
  end.
(** pair2part([top, bot]): isotropic_grassmannian.py:109-110,
    orthogonal_grassmannian.py:148-150 (a Symbol cannot be unpacked) *)
Definition pair2part_list (g : gr) (t b : list Z) : res schur :=
  match g_type g with
  | TA => Err ValueError
  | TC => a <- pair2part_inner t b ;; Ok (SP a)
  | TB | TD => s <- symbol (SPair t b) ;; Err TypeError
  end.
(** type_swap(list, k): grassmannian.py:122-123, isotropic_grassmannian.py:135-136,
    orthogonal_grassmannian.py:188-189 call [self.type_swap] without its second
    argument. *)
Definition type_swap_list (g : gr) (l : list Z) : res poly :=
  s <- symbol (SP l) ;; Err TypeError.

(** ** Pieri rules *)

(** Result of [_part_star]/[_part_tilde]: the integer 0 or a Schur object *)
(** qcalc.py:566-584, what [_part_star] and [_part_tilde] return, as a polynomial *)
Definition opt_schur (o : option (list Z)) : res poly :=
  match o with None => Ok pzero | Some l => symbol (SP l) end.

(** grassmannian.py:143-145, the loop of [pieriA_inner]; state ([mu], [res]) *)
Definition pieriA_body (inner outer : list Z) (st : option (list Z) * poly)
  : res (step (option (list Z) * poly) poly) :=
  let '(o, acc) := st in
  match o with
  | None => Ok (Done acc)
  | Some mu =>
      s <- symbol (SP (part_clip mu)) ;;
      let acc' := padd s acc in
      o' <- pieri_itrA mu inner outer ;;
      Ok (Next (o', acc'))
  end.
(** grassmannian.py:134-146 [pieriA_inner]; [inner[:-1]] of the empty list is
    empty.  At most [2^depth] shapes (proved). *)
Definition pieriA_inner (i : Z) (lam : list Z) (k n : Z) : res poly :=
  let inner := padding_right lam 0 (n - k - zlen lam) in
  let outer := k :: sl_to inner (-1) in
  mu <- pieri_fillA inner inner outer 0 i ;;
  loop2 (Z.to_nat ((n - k) * k + 1)) (pieriA_body inner outer) (mu, pzero).

(** grassmannian.py:149-166 [qpieriA_inner] *)
Definition qpieriA_inner (i : Z) (lam : list Z) (k n : Z) : res poly :=
  r <- pieriA_inner i lam k n ;;
  c <- (if zlen lam =? n - k then x <- py_get lam (n - k - 1) ;; Ok (0 <? x) else Ok false) ;;
  if (c : bool) then
    if k =? 1 then Ok [([VQ; VS (SP [])], 1%Qc)]
    else
      let lab := map (fun x => x - 1) (filter (fun x => 1 <? x) lam) in
      y <- pieriA_inner (i - 1) lab (k - 1) n ;;
      z <- apply_lc (on_part (fun x => opt_schur (part_star x (k - 1)))) y ;;
      Ok (padd r (pmul (pvar VQ) z))
  else Ok r.

(** [2**e] with an integer exponent (a float in Python when e < 0) *)
(** the powers of 2 in isotropic_grassmannian.py:152, 159 and
    orthogonal_grassmannian.py:220, 275 *)
Definition pow2 (e : Z) : Qc :=
  if 0 <=? e then Q2Qc (inject_Z (2 ^ e)) else Q2Qc (Qinv (inject_Z (2 ^ (- e)))).

(** one summand of the sums in isotropic_grassmannian.py:152 and
    orthogonal_grassmannian.py:220 *)
Definition add_term (c : Qc) (l : list Z) (acc : poly) : res poly :=
  s <- symbol (SP l) ;; Ok (padd acc (pscale c s)).

(** isotropic_grassmannian.py:146-153 [pieriC_inner] *)
Definition pieriC_inner (i : Z) (lam : list Z) (k n : Z) : res poly :=
  ps <- pieri_set i lam k n 0 ;;
  foldM (fun acc x => cc <- count_comps lam x true k 0 ;; add_term (pow2 cc) x acc) ps pzero.

(** isotropic_grassmannian.py:156-160 [qpieriC_inner] *)
Definition qpieriC_inner (i : Z) (lam : list Z) (k n : Z) : res poly :=
  a <- pieriC_inner i lam k n ;;
  b <- pieriC_inner i lam k (n + 1) ;;
  z <- apply_lc (on_part (fun x => opt_schur (part_star x (n + k + 1)))) b ;;
  Ok (padd a (pmul (pscale (pow2 (-1)) (pvar VQ)) z)).

(** orthogonal_grassmannian.py:212-221 [pieriB_inner] *)
Definition pieriB_inner (p : Z) (lam : list Z) (k n : Z) : res poly :=
  let b := if p <=? k then 0 else 1 in
  ps <- pieri_set p lam k n 0 ;;
  foldM (fun acc x => cc <- count_comps lam x false k 0 ;; add_term (pow2 (cc - b)) x acc) ps pzero.

(** [apply_lc] of [_part_star]: orthogonal_grassmannian.py:230, 238, 317-318,
    353, 362 *)
Definition star_lc (cols : Z) (x : poly) : res poly :=
  apply_lc (on_part (fun l => opt_schur (part_star l cols))) x.
(** [apply_lc] of [_part_tilde]: orthogonal_grassmannian.py:234, 358-359 *)
Definition tilde_lc (rows cols : Z) (x : poly) : res poly :=
  apply_lc (on_part (fun l => o <- part_tilde l rows cols ;; opt_schur o)) x.

(** [q**2]: orthogonal_grassmannian.py:238, 362 *)
Definition q2 : poly := [([VQ; VQ], 1%Qc)].
(** [q1*q2]: orthogonal_grassmannian.py:353 *)
Definition q1q2 : poly := [([VQ1; VQ2], 1%Qc)].

(** [len(lam) > 0 and lam[0] == v] *)
(** orthogonal_grassmannian.py:229, 235, 316, 351, 360 *)
Definition head_is (lam : list Z) (v : Z) : bool :=
  match lam with [] => false | x :: _ => x =? v end.

(** orthogonal_grassmannian.py:223-241 [qpieriB_inner] *)
Definition qpieriB_inner (p : Z) (lam : list Z) (k n : Z) : res poly :=
  r <- pieriB_inner p lam k n ;;
  if k =? 0 then
    if head_is lam (n + k) then
      y <- pieriB_inner p (sl_from lam 1) k n ;;
      z <- star_lc (n + k) y ;;
      Ok (padd r (pmul (pvar VQ) z))
    else Ok r
  else
    c <- (if zlen lam =? n - k then x <- py_get lam (n - k - 1) ;; Ok (0 <? x) else Ok false) ;;
    r <- (if (c : bool) then
            y <- pieriB_inner p lam k (n + 1) ;;
            z <- tilde_lc (n - k + 1) (n + k) y ;;
            Ok (padd r (pmul (pvar VQ) z))
          else Ok r) ;;
    if head_is lam (n + k) then
      y <- pieriB_inner p (sl_from lam 1) k n ;;
      z <- star_lc (n + k) y ;;
      Ok (padd r (pmul q2 z))
    else Ok r.

(** orthogonal_grassmannian.py:279-284, the tie-breaking loop of [_dcoef]; the
    index [i] counts down; state ([h], [pmu]). *)
Definition dcoef_h (k : Z) (lam mu : list Z) (h0 : Z) : res Z :=
  '(h, _) <-
    foldM (fun st i =>
             let '(h, pmu) := st in
             lami <- (if i <? zlen lam then py_get lam i else Ok 0) ;;
             mui <- py_get mu i ;;
             Ok (if lami <? Z.min mui k then h - (Z.min mui k - Z.max pmu lami) else h, mui))
          (rev (zrange 0 (zlen mu))) (h0, 0) ;;
  Ok h.

(** orthogonal_grassmannian.py:265-295 [_dcoef] *)
Definition dcoef (p : Z) (lam mu : list Z) (tlam k n : Z) : res poly :=
  c <- count_comps lam mu false k 1 ;;
  let cc := c - (if Z.abs p <? k then 0 else 1) in
  if 0 <=? cc then
    e <- (if negb (zmem k mu) || (tlam =? 1) then symbol (SP mu)
          else if tlam =? 2 then symbol (SP (mu ++ [0]))
          else a <- symbol (SP mu) ;; b <- symbol (SP (mu ++ [0])) ;; Ok (padd a b)) ;;
    Ok (pscale (pow2 cc) e)
  else
    h <- dcoef_h k lam mu (k + tlam + (if p <? 0 then 1 else 0)) ;;
    let h := h mod 2 in
    if (tlam =? 0) && zmem k mu then
      if h =? 0 then symbol (SP mu) else symbol (SP (mu ++ [0]))
    else if h =? 0 then Ok pzero
    else symbol (SP (if (tlam =? 2) && zmem k mu then mu ++ [0] else mu)).

(** orthogonal_grassmannian.py:247-263 [pieriD_inner] *)
Definition pieriD_inner (p : Z) (lam : list Z) (k n : Z) : res poly :=
  let tlam := if negb (zmem k lam) then 0 else if last lam 1 =? 0 then 2 else 1 in
  ps <- pieri_set (Z.abs p) lam k n 1 ;;
  foldM (fun acc mu => x <- dcoef p lam mu tlam k n ;; Ok (padd acc x)) ps pzero.

(** orthogonal_grassmannian.py:298-300 [_toSchurFromIntnMu] *)
Definition toSchurFromIntnMu (n : Z) (mu : list Z) : res poly :=
  symbol (SP (rev (set_minus_list (set_of (zrange 1 (n + 1))) mu))).

(** orthogonal_grassmannian.py:302-366 [qpieriD_inner]; [self] enters through
    [dualize] (line 347) and [type_swap] (line 358). *)
Definition qpieriD_inner (g : gr) (p : Z) (lam : list Z) (k n : Z) : res poly :=
  r <- pieriD_inner p lam k n ;;
  if k =? 0 then
    if head_is lam (n + k) then
      y <- pieriD_inner p (sl_from lam 1) k n ;;
      z <- star_lc (n + k) y ;;
      Ok (padd r (pmul (pvar VQ) z))
    else Ok r
  else if k =? 1 then
    c <- (if n <=? zlen lam then x <- py_get lam (n - 1) ;; Ok (0 <? x) else Ok false) ;;
    r <- (if (c : bool) then
            let lb := part_clip (map (fun x => Z.max (x - 1) 0) lam) in
            cprd <- symbol (SP lb) ;;
            cprd <- (if 1 <? Z.abs p then pieriD_inner (Z.abs p - 1) lb 0 n else Ok cprd) ;;
            cprd <- apply_lc (on_part (toSchurFromIntnMu n)) cprd ;;
            lastx <- py_get lam (-1) ;;
            res1 <- (if (0 <? lastx) && (0 <? p) then
                       z <- apply_lc (on_part (fun mu =>
                              symbol (SP (map (fun x => x + 1) mu ++ repz 1 (n - zlen mu))))) cprd ;;
                       Ok (pmul (pvar VQ1) z)
                     else Ok pzero) ;;
            res1 <- (if ((lastx =? 0) || negb (zmem k lam)) && ((p =? -1) || (1 <? p)) then
                       z <- apply_lc (on_part (fun mu =>
                              symbol (SP (map (fun x => x + 1) mu ++ repz 1 (n - zlen mu) ++ [0])))) cprd ;;
                       Ok (padd res1 (pmul (pvar VQ2) z))
                     else Ok res1) ;;
            z <- dualize g res1 ;;
            Ok (padd r z)
          else Ok r) ;;
    if head_is lam (n + k) then
      y <- pieriD_inner p (sl_from lam 1) k n ;;
      z <- star_lc (n + k) y ;;
      Ok (padd r (pmul q1q2 z))
    else Ok r
  else
    c <- (if n + 1 - k <=? zlen lam then x <- py_get lam (n + 1 - k - 1) ;; Ok (0 <? x)
          else Ok false) ;;
    r <- (if (c : bool) then
            y <- pieriD_inner p lam k (n + 1) ;;
            z <- tilde_lc (n - k + 2) (n + k) y ;;
            z <- type_swap g z ;;
            Ok (padd r (pmul (pvar VQ) z))
          else Ok r) ;;
    if head_is lam (n + k) then
      y <- pieriD_inner p (sl_from lam 1) k n ;;
      z <- star_lc (n + k) y ;;
      Ok (padd r (pmul q2 z))
    else Ok r.

(** The attributes [_pieri] and [_qpieri], applied to [_k] and [_n]. *)
(** [_pieri]: grassmannian.py:42, isotropic_grassmannian.py:42,
    orthogonal_grassmannian.py:45, 51, called as in abstract_grassmannian.py:110 *)
Definition pieri_fun (g : gr) (i : Z) (lam : list Z) : res poly :=
  match g_type g with
  | TA => pieriA_inner i lam (g_k g) (g_n g)
  | TB => pieriB_inner i lam (g_k g) (g_n g)
  | TC => pieriC_inner i lam (g_k g) (g_n g)
  | TD => pieriD_inner i lam (g_k g) (g_n g)
  end.
(** [_qpieri]: grassmannian.py:43, isotropic_grassmannian.py:43,
    orthogonal_grassmannian.py:46, 52, called as in abstract_grassmannian.py:141 *)
Definition qpieri_fun (g : gr) (i : Z) (lam : list Z) : res poly :=
  match g_type g with
  | TA => qpieriA_inner i lam (g_k g) (g_n g)
  | TB => qpieriB_inner i lam (g_k g) (g_n g)
  | TC => qpieriC_inner i lam (g_k g) (g_n g)
  | TD => qpieriD_inner g i lam (g_k g) (g_n g)
  end.

(** abstract_grassmannian.py:106-110 [pieri], 136-141 [qpieri].  (qpieri treats
    a single class separately; [apply] on it gives the same polynomial.) *)
Definition pieri (g : gr) (i : Z) (lc : poly) : res poly :=
  apply_lc (on_part (pieri_fun g i)) lc.
(** abstract_grassmannian.py:136-141 [qpieri] *)
Definition qpieri (g : gr) (i : Z) (lc : poly) : res poly :=
  apply_lc (on_part (qpieri_fun g i)) lc.

(** ** Giambelli and products *)

(** abstract_grassmannian.py:182-189 [spec2num]; a symbol other than a Schur
    symbol makes ast.literal_eval raise ValueError (schur.py:187). *)
Definition spec2num (t : gtype) (v : var) : res Z :=
  match v with
  | VS (SP []) => Err IndexError
  | VS (SP [a]) => Ok a
  | VS (SP (a :: b :: _)) => if negb (is_D t) || negb (b =? 0) then Err ValueError else Ok (- a)
  | VS (SPair _ _) => Err ValueError
  | _ => Err ValueError
  end.

(** abstract_grassmannian.py:264-265 [num2spec] *)
Definition num2spec (p : Z) : list Z := if 0 <? p then [p] else [- p; 0].

(** free_symbols - {q}, sorted by name, first one (abstract_grassmannian.py:
    195-203) *)
Definition is_q (v : var) : bool := match v with VQ => true | _ => false end.
(** equality of symbols, used in abstract_grassmannian.py:196, 207 *)
Definition var_eqb (a b : var) : bool := match vcmp a b with Eq => true | _ => false end.
(** abstract_grassmannian.py:197, the order by names *)
Definition name_min (a b : var) : var :=
  match String.compare (symbol_name b) (symbol_name a) with Lt => b | _ => a end.
(** abstract_grassmannian.py:195-196 *)
Definition free_vars (p : poly) : list var :=
  filter (fun v => negb (is_q v)) (flat_map fst (pnorm p)).
(** abstract_grassmannian.py:197-203 *)
Definition first_var (p : poly) : option var :=
  match free_vars p with
  | [] => None
  | v :: t => Some (fold_left name_min t v)
  end.

(** whether a term contains the symbol, abstract_grassmannian.py:207-208 *)
Definition has_var (v : var) (m : mono) : bool := existsb (var_eqb v) m.
(** a term divided by the symbol, abstract_grassmannian.py:208 *)
Fixpoint remove_var (v : var) (m : mono) : mono :=
  match m with
  | [] => []
  | w :: t => if var_eqb v w then t else w :: remove_var v t
  end.
(** [expc.subs(v, 0)] (line 207) *)
(** abstract_grassmannian.py:207 *)
Definition subs0 (v : var) (p : poly) : poly :=
  filter (fun mc => negb (has_var v (fst mc))) (pnorm p).
(** [expand((expc - expc0) / v)] (line 208) *)
(** abstract_grassmannian.py:208 *)
Definition div_var (v : var) (p : poly) : poly :=
  map (fun mc => (remove_var v (fst mc), snd mc))
      (filter (fun mc => has_var v (fst mc)) (pnorm p)).

(** abstract_grassmannian.py:191-224 [act_lc] *)
Fixpoint act_lc (fuel : nat) (t : gtype) (pi : Z -> list Z -> res poly) (expc lc : poly)
  : res poly :=
  match fuel with
  | O => Err RecursionError
  | S f =>
      match first_var expc with
      | None => Ok (pmul expc lc)
      | Some v =>
          i <- spec2num t v ;;
          lc_p1 <- act_lc f t pi (div_var v expc) lc ;;
          lc_p2 <- act_lc f t pi (subs0 v expc) lc ;;
          res1 <- apply_lc (on_part (pi i)) lc_p1 ;;
          Ok (padd res1 lc_p2)
      end
  end.
(** Every call removes at least one occurrence of a variable (proved enough). *)
(** depth of the recursion of abstract_grassmannian.py:215-216 *)
Definition act_fuel (p : poly) : nat := S (List.length (flat_map fst (pnorm p))).
(** abstract_grassmannian.py:191-224 called by [act] (116) and [qact] (150) *)
Definition act_with (t : gtype) (pi : Z -> list Z -> res poly) (expc lc : poly) : res poly :=
  act_lc (act_fuel expc) t pi expc lc.

(** abstract_grassmannian.py:226-262 [giambelli_rec_inner] and [giambelli_rec].
    Line 238 and 243: [lam[-1] == 0]; line 243's [lam[1]] raises IndexError for a
    one-element list [[0]]. *)
Fixpoint giambelli_rec_inner (fuel : nat) (pi : Z -> list Z -> res poly) (k : Z) (lam : list Z)
  : res poly :=
  match fuel with
  | O => Err RecursionError
  | S f =>
      match lam with
      | [] => Ok pone
      | p0 :: _ =>
          let lz := last lam 1 =? 0 in
          let p := if (p0 =? k) && lz then - k else p0 in
          lam0 <- (if (lz : bool) then
                     x1 <- py_get lam 1 ;;
                     Ok (if x1 <? k then sl lam 1 (-1) else sl_from lam 1)
                   else Ok (sl_from lam 1)) ;;
          y <- pi p lam0 ;;
          s <- symbol (SP lam) ;;
          let stuff := psub y s in
          a <- giambelli_rec_inner f pi k lam0 ;;
          b <- apply_lc (on_part (giambelli_rec_inner f pi k)) stuff ;;
          sp <- symbol (SP (num2spec p)) ;;
          Ok (psub (pmul sp a) b)
      end
  end.

(** A bound for the recursion depth on classes of the Grassmannian: each call
    lowers the size or raises the first part (proved enough for valid classes;
    otherwise the Python recursion does not end). *)
(** depth of the recursion of abstract_grassmannian.py:251-252 *)
Definition giam_fuel (g : gr) : nat :=
  Z.to_nat (((g_n g + 2) * (g_n g + g_k g + 1) + 2) * (g_n g + g_k g + 3)).

(** abstract_grassmannian.py:113-134, 144-180 *)
Definition act (g : gr) (e lc : poly) : res poly := act_with (g_type g) (pieri_fun g) e lc.
(** abstract_grassmannian.py:144-150 [qact] *)
Definition qact (g : gr) (e lc : poly) : res poly := act_with (g_type g) (qpieri_fun g) e lc.

(** abstract_grassmannian.py:119-122 [giambelli] *)
Definition giambelli (g : gr) (lc : poly) : res poly :=
  apply_lc (on_part (giambelli_rec_inner (giam_fuel g) (pieri_fun g) (g_k g))) lc.
(** abstract_grassmannian.py:153-157 [qgiambelli] *)
Definition qgiambelli (g : gr) (lc : poly) : res poly :=
  apply_lc (on_part (giambelli_rec_inner (giam_fuel g) (qpieri_fun g) (g_k g))) lc.

(** abstract_grassmannian.py:125-128 [mult] *)
Definition mult (g : gr) (a b : poly) : res poly := x <- giambelli g a ;; act g x b.
(** abstract_grassmannian.py:160-174 [qmult] *)
Definition qmult (g : gr) (a b : poly) : res poly := x <- qgiambelli g a ;; qact g x b.

(** abstract_grassmannian.py:131-133 [toS] *)
Definition toS (g : gr) (a : poly) : res poly :=
  x <- giambelli g a ;; act g x (pvar (VS (SP []))).
(** abstract_grassmannian.py:177-180 [qtoS] *)
Definition qtoS (g : gr) (a : poly) : res poly :=
  x <- qgiambelli g a ;; qact g x (pvar (VS (SP []))).

(** ** Rim hook product *)

(** grassmannian.py:193-218 [__rm_rim_hook].  [sign] is exact here; Python
    computes it as a float when the exponent is negative. *)
Definition sign_of (e : Z) : Qc := if Z.even e then 1%Qc else (- (1))%Qc.
(** grassmannian.py:193-218 [__rm_rim_hook] *)
Definition rm_rim_hook (g : gr) (arr : list Z) : res poly :=
  let m := g_n g - g_k g in
  p <- mk_partition arr ;;
  inr <- is_in_range p m (g_k g) ;;
  if (inr : bool) then symbol (SP p)
  else
    '(x, q_num, height) <- remove_rim_hooks p (g_n g) m (g_k g) ;;
    let sgn := sign_of (height - m) in
    if 0 <? q_num then
      match x with
      | None => Err TypeError
      | Some l => s <- symbol (SP l) ;;
                  Ok (pscale sgn (pmul s [(repz VQ q_num, 1%Qc)]))
      end
    else
      match x with
      | None | Some [] => Ok pzero
      | Some l => s <- symbol (SP l) ;; Ok (pscale sgn s)
      end.

(** grassmannian.py:168-223 [qmult_rh]: the product in Gr(m, 2n-1) followed by
    the removal of rim hooks.  Lines 176-183 clone the object and overwrite
    [_n] and [_k]. *)
Definition qmult_rh (g : gr) (a b : poly) : res poly :=
  let n := g_n g in
  let kp := n - g_k g in
  _ <- clone g ;;
  r <- mult (mkGr TA (2 * n - 1 - kp) (2 * n - 1)) a b ;;
  apply_lc (on_part (rm_rim_hook g)) r.

(** ** Multiplication tables: mult_table.py:11-42, 70-87; the list of rows is what
    to_matrix (mult_table.py:59-61) returns *)
Definition mult_table_with (prod : poly -> poly -> res poly) (g : gr) : res (list (list poly)) :=
  labels <- schub_classes g ;;
  mapM (fun a => mapM (fun b => prod (pvar (VS (SP a))) (pvar (VS (SP b)))) labels) labels.
(** mult_table.py:70-75 [MultTable] *)
Definition MultTable (g : gr) := mult_table_with (mult g) g.
(** mult_table.py:80-85 [QMultTable] *)
Definition QMultTable (g : gr) := mult_table_with (qmult g) g.
