(** Properties C14, C18 and C19: conjugation, pairs of partitions and type
    swaps.  The vocabulary is that of Spec.v. *)

From Coq Require Import ZArith List Lia Bool Permutation QArith Qcanon.
From Verif Require Import Py ModelPart ModelQcalc ModelPoly ModelStr ModelGr Spec Check
  ConjFacts ApiPair.
Import ListNotations.
Open Scope Z_scope.

(** C14: part_conj is conjugation, an involution, and preserves the size;
    trailing zeros do not matter. *)
Theorem C14_part_conj : forall lam, is_partition lam -> is_conjugate lam (part_conj lam).
Proof. exact part_conj_conjugate. Qed.
Print Assumptions C14_part_conj.

Theorem C14_involution : forall lam, is_partition lam -> part_conj (part_conj lam) = lam.
Proof. exact part_conj_involutive. Qed.
Print Assumptions C14_involution.

Theorem C14_size : forall lam, is_partition lam -> size (part_conj lam) = size lam.
Proof. exact part_conj_size. Qed.
Print Assumptions C14_size.

Theorem C14_trailing_zeros : forall lam c, part_conj (lam ++ repz 0 c) = part_conj lam.
Proof. exact part_conj_zeros. Qed.
Print Assumptions C14_trailing_zeros.

Example C14_case : is_partition [4; 2; 1] /\ part_conj [4; 2; 1] = [3; 2; 1; 1] /\
  part_conj [4; 2; 1; 0; 0] = [3; 2; 1; 1].
Proof. split; [exact (proj1 (in_boxb_ok 3 4 [4; 2; 1] eq_refl))|]. split; reflexivity. Qed.

(** C18: the pair of a class, and the two conversions are inverse bijections,
    extended to all expressions in classes. *)
Theorem C18_pair_IG : forall m N g lam,
  IsotropicGrassmannian m N = Ok g -> class_IG m N lam ->
  exists t b x, part2pair g (pS lam) = Ok x /\ peq x (pvar (VS (SPair t b))) /\ pair_of (N / 2 - m) lam t b.
Proof. exact c18_class_IG. Qed.
Print Assumptions C18_pair_IG.

Theorem C18_pair_OG : forall m N g lam,
  OrthogonalGrassmannian m N = Ok g -> m <= N / 2 -> 1 <= N ->
  is_partition lam -> class_OG m N lam ->
  exists t b x, part2pair g (pS lam) = Ok x /\ peq x (pvar (VS (SPair t b))) /\ pair_of (N / 2 - m) lam t b.
Proof. exact c18_class_OG. Qed.
Print Assumptions C18_pair_OG.

Theorem C18_pair_OG_marked : forall m N g mu,
  OrthogonalGrassmannian m N = Ok g -> m <= N / 2 -> 1 <= N ->
  is_partition mu -> class_OG m N (mu ++ [0]) ->
  exists t b x, part2pair g (pS (mu ++ [0])) = Ok x /\ peq x (pvar (VS (SPair t (b ++ [0])))) /\
    pair_of (N / 2 - m) mu t b.
Proof. exact c18_class_OG2. Qed.
Print Assumptions C18_pair_OG_marked.

Theorem C18_inverse_IG : forall m N g,
  IsotropicGrassmannian m N = Ok g ->
  mutually_inverse (on_list (class_IG m N)) (kpair (N / 2 - m) m (N - m)) (part2pair g) (pair2part g).
Proof. exact c18_IG. Qed.
Print Assumptions C18_inverse_IG.

Theorem C18_inverse_OG_odd : forall m N g,
  OrthogonalGrassmannian m N = Ok g -> m <= N / 2 -> Z.even N = false ->
  mutually_inverse (on_list (class_OG m N)) (kpair (N / 2 - m) m (N - 1 - m)) (part2pair g) (pair2part g).
Proof. exact c18_OG_odd. Qed.
Print Assumptions C18_inverse_OG_odd.

Theorem C18_inverse_OG_even : forall m N g,
  OrthogonalGrassmannian m N = Ok g -> m <= N / 2 -> 1 <= N -> Z.even N = true ->
  mutually_inverse (on_list (class_OG m N)) (typed_pair (N / 2 - m) m (N - 1 - m)) (part2pair g) (pair2part g).
Proof. exact c18_OG_even. Qed.
Print Assumptions C18_inverse_OG_even.

Example C18_case :
  part2pair (mkGr TC 2 5) (pS [6; 3; 2]) = Ok (pvar (VS (SPair [3; 3] [4; 1]))) /\
  pair2part (mkGr TC 2 5) (pvar (VS (SPair [3; 3] [4; 1]))) = Ok (pS [6; 3; 2]) /\
  part2pair (mkGr TD 2 4) (pS [6; 3; 2; 0]) = Ok (pvar (VS (SPair [3; 3] [4; 1; 0]))) /\
  pair2part (mkGr TD 2 4) (pvar (VS (SPair [3; 3] [4; 1; 0]))) = Ok (pS [6; 3; 2; 0]).
Proof. repeat split; vm_compute; reflexivity. Qed.

(** C19: outside type D the swaps do nothing; in type D they are involutions,
    type_swap exchanges the two types of every class with a part equal to
    k = N/2 - m, and miami_swap does so exactly when the number of parts greater
    than k is odd. *)
Theorem C19_other_types : forall g p, g_type g <> TD -> type_swap g p = Ok p /\ miami_swap g p = Ok p.
Proof. exact c19_other_types. Qed.
Print Assumptions C19_other_types.

Theorem C19_type_swap : forall m N g,
  OrthogonalGrassmannian m N = Ok g -> m <= N / 2 -> Z.even N = true ->
  (forall p, expr_in (on_list (class_OG m N)) p ->
    exists x y, type_swap g p = Ok x /\ expr_in (on_list (class_OG m N)) x /\ type_swap g x = Ok y /\ peq y p) /\
  (forall lam, class_OG m N lam ->
    exists mu r, type_swap g (pS lam) = Ok r /\ peq r (pS mu) /\ class_OG m N mu /\
      (In (N / 2 - m) lam -> other_type lam mu) /\ (~ In (N / 2 - m) lam -> mu = lam)).
Proof. exact c19_swap. Qed.
Print Assumptions C19_type_swap.

Theorem C19_miami_swap : forall m N g,
  OrthogonalGrassmannian m N = Ok g -> m <= N / 2 -> Z.even N = true ->
  (forall p, expr_in (on_list (class_OG m N)) p ->
    exists x y, miami_swap g p = Ok x /\ expr_in (on_list (class_OG m N)) x /\ miami_swap g x = Ok y /\ peq y p) /\
  (forall lam, class_OG m N lam ->
    exists mu r, miami_swap g (pS lam) = Ok r /\ peq r (pS mu) /\ class_OG m N mu /\
      (In (N / 2 - m) lam -> Z.odd (count_ge lam (N / 2 - m + 1)) = true -> other_type lam mu) /\
      (~ In (N / 2 - m) lam \/ Z.odd (count_ge lam (N / 2 - m + 1)) = false -> mu = lam)).
Proof. exact c19_miami. Qed.
Print Assumptions C19_miami_swap.

(** schub_type tells the types apart: 0 for the classes that occur once, 1 and 2
    for the others; it is defined in type D only. *)
Theorem C19_schub_type : forall m N g,
  OrthogonalGrassmannian m N = Ok g -> m <= N / 2 -> Z.even N = true ->
  forall lam, class_OG m N lam ->
    (~ In (N / 2 - m) lam -> schub_type g lam = Ok 0) /\
    (In (N / 2 - m) lam -> is_partition lam -> schub_type g lam = Ok 1) /\
    (forall mu, lam = mu ++ [0] -> schub_type g lam = Ok 2).
Proof. exact c19_type. Qed.
Print Assumptions C19_schub_type.
Theorem C19_schub_type_other : forall g lam, g_type g <> TD -> schub_type g lam = Err ValueError.
Proof. exact c19_type_other. Qed.
Print Assumptions C19_schub_type_other.

Example C19_case :
  type_swap (mkGr TD 2 4) (pS [6; 3; 2]) = Ok (pS [6; 3; 2; 0]) /\
  miami_swap (mkGr TD 2 4) (pS [6; 3; 2]) = Ok (pS [6; 3; 2]) /\
  miami_swap (mkGr TD 2 4) (pS [6; 2; 0]) = Ok (pS [6; 2]) /\
  map (schub_type (mkGr TD 2 4)) [[6; 3]; [6; 2]; [6; 2; 0]] = [Ok 0; Ok 1; Ok 2].
Proof. repeat split; vm_compute; reflexivity. Qed.
