(** Properties C28, C30, C31, C38, C40, C42: rim hooks, Schur polynomials, CSV files,
    pictures.  The vocabulary is that of Spec.v and SpecMisc.v. *)

From Coq Require Import ZArith List Lia Bool QArith Qcanon Permutation String Ascii.
From Verif Require Import Py ModelPart ModelQcalc ModelPoly ModelGr ModelMisc Spec SpecMisc Check
  RimFacts ApiMisc.
Import ListNotations.
Open Scope Z_scope.

(** C28: removal of rim hooks of [r] boxes until the partition fits into the
    grid.  The function returns for every partition, hook size and grid; if it
    reports [c > 0] hooks, the result fits into the grid, was obtained by
    removing [c] rim hooks from the first row, and the reported height is the
    number of rows that became shorter; it reports [c > 0] whenever such a
    removal exists, and returns 0 or the empty partition otherwise.  (The
    argument is a value here: C28 on the argument object is covered by the model
    returning no changed argument.) *)
Theorem C28_remove_rim_hooks : forall l r nrow ncol,
  is_partition l -> 0 < r -> 0 <= nrow -> 0 <= ncol ->
  exists x c h, remove_rim_hooks l r nrow ncol = Ok (x, c, h) /\ 0 <= c /\
    (0 < c -> exists mu, x = Some mu /\ in_box nrow ncol mu /\
       top_hooks (in_box nrow ncol) r c l mu /\ size mu = size l - c * r /\ rows_changed l mu h) /\
    ((exists c' mu, top_hooks (in_box nrow ncol) r c' l mu /\ in_box nrow ncol mu) -> 0 < c) /\
    (c = 0 -> x = None \/ x = Some []).
Proof. exact c28_main. Qed.
Print Assumptions C28_remove_rim_hooks.
Example C28_case : is_partition [7; 5; 2] /\ remove_rim_hooks [7; 5; 2] 6 3 3 = Ok (Some [1; 1], 2, 3).
Proof. split; [apply (in_boxb_ok 3 7); reflexivity|vm_compute; reflexivity]. Qed.

(** C30: SchurPol(n, kappa), for a partition with any number of final zeros, is
    the sum of the monomials x^content(T) over the semistandard tableaux T of
    this shape (the model keeps a polynomial as the multiset of its monomials). *)
Theorem C30_SchurPol : forall n lam c, 1 <= n -> is_partition lam -> 0 <= c ->
  exists p Ts, snd (SchurPol n (lam ++ repz 0 c)) = Ok p /\
    NoDup Ts /\ (forall T, In T Ts <-> ssyt n lam T) /\ Permutation p (map (content n) Ts).
Proof. exact c30_value. Qed.
Print Assumptions C30_SchurPol.
Theorem C30_rejects : forall n kappa,
  n < 1 \/ ~ (forall i j, (i <= j)%nat -> 0 <= part kappa j <= part kappa i) ->
  snd (SchurPol n kappa) = Err ValueError.
Proof. exact c30_rejects. Qed.
Print Assumptions C30_rejects.
Example C30_case : exists p, is_partition [2; 1] /\ snd (SchurPol 3 [2; 1; 0]) = Ok p /\ List.length p = 8%nat /\
  count_occ (list_eq_dec Z.eq_dec) p [1; 1; 1] = 2%nat.
Proof.
  eexists. split; [apply (in_boxb_ok 2 2); reflexivity|]. split; [vm_compute; reflexivity|]. split; reflexivity.
Qed.

(** C31: what Schur.to_polinomial_str does to the object: it drops the final
    zeros.  So an object without final zeros is unchanged, *)
Theorem C31_effect : forall n lam c, 1 <= n -> is_partition lam -> 0 <= c ->
  fst (to_polinomial_str (lam ++ repz 0 c) n) = lam.
Proof. exact c31_effect. Qed.
Print Assumptions C31_effect.
(** but the second of two type D classes becomes the first one. *)
Theorem C31_refuted : exists m N l, class_OG m N l /\ 1 <= N /\ fst (to_polinomial_str l N) <> l /\
  class_OG m N (fst (to_polinomial_str l N)).
Proof. exact c31_refuted. Qed.
Print Assumptions C31_refuted.

(** C38: check_bijection_with_permutation; [norm] is the normalisation of the
    third column (sympy's parser and simplifier), an arbitrary function. *)
Theorem C38_bijection : forall norm f1 f2 b, check_bijection_with_permutation norm f1 f2 = Ok b ->
  (b = true <-> forall r, csv_row norm f1 r <-> csv_row norm f2 r).
Proof. exact c38_main. Qed.
Print Assumptions C38_bijection.
Theorem C38_total : forall norm f1 f2,
  (forall c1 c2 c3 rest, In (c1 :: c2 :: c3 :: rest) (f1 ++ f2) -> exists x, norm c3 = Ok x) ->
  exists b, check_bijection_with_permutation norm f1 f2 = Ok b.
Proof. exact c38_total. Qed.
Print Assumptions C38_total.
Example C38_case :
  let f1 := [["a"; "b"; "x"]; ["c"; "d"; "y"]; [""; ""; ""]]%string in
  let f2 := [["c"; "d"; "y"]; ["a"; "b"; "x"]; ["a"; "b"; "x"; "more"]; ["short"]]%string in
  check_bijection_with_permutation (fun s => Ok s) f1 f2 = Ok true /\
  check_bijection_with_permutation (fun s => Ok s) f1 [["a"; "b"; "x"]]%string = Ok false.
Proof. split; reflexivity. Qed.

(** C40: pictures.  [maxl] is the largest part. *)
Theorem C40_partition_to_ascii : forall p, (forall a, In a p -> 0 <= a) ->
  exists w, (forall a, In a p -> a <= w) /\ (p <> [] -> In w p) /\
    List.length (partition_to_ascii p) = List.length p /\
    forall i, (i < List.length p)%nat -> shows (nth i (partition_to_ascii p) EmptyString) (part p i) w.
Proof. exact c40_to_ascii. Qed.
Print Assumptions C40_partition_to_ascii.
Theorem C40_embed_partition : forall p w h, p <> [] -> (forall a, In a p -> 0 <= a <= w) ->
  exists lines, embed_partition p w h = Ok lines /\ Z.of_nat (List.length lines) = Z.max (Z.of_nat (List.length p)) h /\
    forall i, (i < List.length lines)%nat -> shows (nth i lines EmptyString) (part p i) w.
Proof. exact c40_embed. Qed.
Print Assumptions C40_embed_partition.
Theorem C40_draw_ascii_partition : forall l, l <> [] -> (forall t, In t l -> is_partition (snd t) /\ snd t <> []) ->
  exists lines, draw_ascii_partition l = Ok lines /\
    (forall t, In t l -> Z.of_nat (List.length (snd t)) <= Z.of_nat (List.length lines)) /\
    (exists t, In t l /\ Z.of_nat (List.length lines) = Z.of_nat (List.length (snd t))) /\
    (forall i s, nth_error lines i = Some s -> picture_line i true l s) /\
    (forall s t, In s lines -> In t lines -> String.length s = String.length t).
Proof. exact c40_draw. Qed.
Print Assumptions C40_draw_ascii_partition.
(** If the requested width is too small the lines need not be equally wide; the
    empty partition, so the class S[], cannot be drawn. *)
Theorem C40_narrow_refuted : exists p w h lines s t, is_partition p /\ p <> [] /\ 0 <= w /\ 0 <= h /\
  embed_partition p w h = Ok lines /\ In s lines /\ In t lines /\ String.length s <> String.length t.
Proof. exact c40_narrow. Qed.
Print Assumptions C40_narrow_refuted.
Theorem C40_empty_refuted : (forall w h, embed_partition [] w h = Err IndexError) /\
  forall l, (exists c b, In (c, b, []) l) -> exists e, draw_ascii_partition l = Err e.
Proof. exact c40_empty_class. Qed.
Print Assumptions C40_empty_refuted.
Example C40_case : draw_ascii_partition [("2", true, [2; 1]); ("1", false, [3])]%string =
  Ok ["2*[][] + [][][]"; "  []           "]%string.
Proof. reflexivity. Qed.

(** C42: qpieri raises on a class of OG(8,18). *)
Theorem C42_refuted : exists m N g i l e, OrthogonalGrassmannian m N = Ok g /\ 1 <= m /\ 2 * m < N /\
  class_OG m N l /\ 1 <= i <= N / 2 - m /\ qpieri g i (pS l) = Err e.
Proof. exact c42_refuted. Qed.
Print Assumptions C42_refuted.
