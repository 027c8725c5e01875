(** The mathematical notions the property statements are about.  Nothing here
    refers to the functions of the model, except for the representation of
    polynomials ([poly], [coef]) and of classes ([VS (SP l)]). *)

From Coq Require Import ZArith List Permutation QArith Qcanon.
From Verif Require Import Py ModelPoly.
Import ListNotations.
Open Scope Z_scope.

(** ** Partitions *)

(** The [j]-th part (from 0) of a list; parts beyond the end are 0. *)
Definition part (l : list Z) (j : nat) : Z := nth j l 0.
Definition size (l : list Z) : Z := fold_right Z.add 0 l.

(** A partition: a weakly decreasing list of positive integers. *)
Definition is_partition (l : list Z) : Prop :=
  (forall j, (j < length l)%nat -> 0 < part l j) /\
  (forall j, part l (S j) <= part l j).

(** The partition fits into [m] rows and [k] columns. *)
Definition in_box (m k : Z) (l : list Z) : Prop :=
  is_partition l /\ Z.of_nat (length l) <= m /\ part l 0 <= k.

(** [mu] is obtained from [lam] by adding a horizontal strip. *)
Definition adds_horizontal_strip (lam mu : list Z) : Prop :=
  forall j, part mu (S j) <= part lam j <= part mu j.

(** The shapes of the [q]-terms in Bertram's quantum Pieri rule for Gr(m,n):
    lam_1 - 1 >= mu_1 >= lam_2 - 1 >= ... >= lam_m - 1 >= mu_m >= 0. *)
Definition bertram (m : Z) (lam mu : list Z) : Prop :=
  (forall j, (Z.of_nat j < m) -> part mu j <= part lam j - 1) /\
  (forall j, (Z.of_nat j + 1 < m) -> part lam (S j) - 1 <= part mu j).

(** ** Polynomials *)

(** the symbol of a class, the class as an expression *)
Definition vS (l : list Z) : var := VS (SP l).
Definition pS (l : list Z) : poly := pvar (vS l).

(** [q^d * S_mu] as a monomial *)
Definition qS (d : nat) (mu : list Z) : mono := vS mu :: repeat VQ d.

(** [p] is the sum of the distinct terms [q^d S_mu] with [R d mu]. *)
Definition is_sum_of (p : poly) (R : nat -> list Z -> Prop) : Prop :=
  (forall d mu, R d mu -> coef p (qS d mu) = 1%Qc) /\
  (forall m, coef p m <> 0%Qc -> exists d mu, R d mu /\ Permutation m (qS d mu)).

(** [p] is a linear combination of classes in [V] with coefficients that are
    polynomials in [q] *)
Definition lin_comb (V : list Z -> Prop) (p : poly) : Prop :=
  forall m, coef p m <> 0%Qc -> exists d mu, V mu /\ Permutation m (qS d mu).
(** ... with rational coefficients *)
Definition lin_comb0 (V : list Z -> Prop) (p : poly) : Prop :=
  forall m, coef p m <> 0%Qc -> exists mu, V mu /\ m = [vS mu].
(** [p] is a polynomial in classes of [V] and in [q] *)
Definition poly_in (V : list Z -> Prop) (p : poly) : Prop :=
  forall m, coef p m <> 0%Qc -> Forall (fun v => v = VQ \/ exists mu, V mu /\ v = vS mu) m.

(** every term [q^d S_mu] of [p] has degree [deg] when [q] has degree [dq] *)
Definition homogeneous (dq deg : Z) (p : poly) : Prop :=
  forall m, coef p m <> 0%Qc -> exists d mu, Permutation m (qS d mu) /\ size mu + Z.of_nat d * dq = deg.

Definition is_integer (c : Qc) : Prop := exists z : Z, c = Q2Qc (inject_Z z).
Definition integral (p : poly) : Prop := forall m, is_integer (coef p m).

(** the part of an expression without [q] *)
Definition same_q_free_part (p r : poly) : Prop :=
  forall m, ~ In VQ m -> coef p m = coef r m.

(** [mu] is the complement of [lam] in the [m] x [k] rectangle (rotated) *)
Definition complementary (m k : Z) (lam mu : list Z) : Prop :=
  forall j, Z.of_nat j < m -> part lam j + part mu (Z.to_nat (m - 1 - Z.of_nat j)) = k.

(** [p] is a polynomial expression in q, q1, q2 and classes satisfying [V] *)
Definition expr_in (V : schur -> Prop) (p : poly) : Prop :=
  forall m, coef p m <> 0%Qc -> Forall (fun v => match v with VS s => V s | _ => True end) m.
Definition on_list (V : list Z -> Prop) (s : schur) : Prop :=
  match s with SP l => V l | SPair _ _ => False end.

(** ** Index sets *)

(** [idx] lists an [m]-element subset of 1..[n] in increasing order *)
Definition index_set (m n : Z) (idx : list Z) : Prop :=
  Z.of_nat (length idx) = m /\
  (forall i, (i < length idx)%nat -> 1 <= part idx i <= n) /\
  (forall i j, (i < j < length idx)%nat -> part idx i < part idx j).

(** ** k-strict partitions *)

(** no part greater than [k] is repeated *)
Definition kstrict (k : Z) (l : list Z) : Prop :=
  forall j, k < part l j -> part l (S j) < part l j.
(** at most [rows] parts, each at most [cols] *)
Definition kstrict_in (k rows cols : Z) (l : list Z) : Prop :=
  in_box rows cols l /\ kstrict k l.
(** the classes of type D: a partition with a part equal to [k > 0] occurs in
    two types, the second one is marked by a final zero *)
Definition typed_in (k rows cols : Z) (l : list Z) : Prop :=
  kstrict_in k rows cols l \/
  exists mu, l = mu ++ [0] /\ 0 < k /\ In k mu /\ kstrict_in k rows cols mu.

(** ** Lists of classes *)

(** the order Python uses to compare lists: a proper prefix is smaller *)
Definition lex_lt (a b : list Z) : Prop :=
  exists pre, (exists y t, a = pre /\ b = pre ++ y :: t) \/
              (exists x y t u, a = pre ++ x :: t /\ b = pre ++ y :: u /\ x < y).
Definition strictly_increasing (l : list (list Z)) : Prop :=
  forall i j, (i < j < length l)%nat -> lex_lt (nth i l []) (nth j l []).

(** binomial coefficients *)
Fixpoint binom (n m : nat) : Z :=
  match m, n with
  | O, _ => 1
  | S _, O => 0
  | S m', S n' => binom n' m' + binom n' m
  end.

(** ** The classes of each Grassmannian *)

(** IG(m,N), N even: (N/2-m)-strict partitions *)
Definition class_IG (m N : Z) (l : list Z) : Prop := kstrict_in (N / 2 - m) m (N - m) l.
(** OG(m,N) *)
Definition class_OG (m N : Z) (l : list Z) : Prop :=
  if Z.even N then typed_in (N / 2 - m) m (N - 1 - m) l
  else kstrict_in (N / 2 - m) m (N - 1 - m) l.

(** ** Conversions between classes *)

(** [f] and [g] are defined on expressions over [V] and over [W] and undo each other *)
Definition mutually_inverse (V W : schur -> Prop) (f g : poly -> res poly) : Prop :=
  (forall p, expr_in V p ->
     exists x y, f p = Ok x /\ expr_in W x /\ g x = Ok y /\ peq y p) /\
  (forall p, expr_in W p ->
     exists x y, g p = Ok x /\ expr_in V x /\ f x = Ok y /\ peq y p).

(** ** Conjugation *)

(** the number of parts of [l] that are at least [v] *)
Definition count_ge (l : list Z) (v : Z) : Z :=
  Z.of_nat (length (filter (fun x => v <=? x) l)).
(** [mu] is the conjugate (transposed) partition of [lam] *)
Definition is_conjugate (lam mu : list Z) : Prop :=
  is_partition mu /\ forall j, part mu j = count_ge lam (Z.of_nat j + 1).

(** ** Pairs *)

(** [(t, b)] describes the diagram of [lam]: [t] lists the heights of the first
    [k] columns, [b] the lengths of the rows beyond column [k] *)
Definition pair_of (k : Z) (lam t b : list Z) : Prop :=
  Z.of_nat (length t) = k /\
  (forall j, Z.of_nat j < k -> part t j = count_ge lam (Z.of_nat j + 1)) /\
  is_partition b /\ (forall j, part b j = Z.max 0 (part lam j - k)).
(** the pairs describing k-strict partitions in a rectangle: [t] has [k] weakly
    decreasing entries, [b] is a strict partition with no more rows than the
    last column of [t] *)
Definition pair_in (k rows cols : Z) (t b : list Z) : Prop :=
  Z.of_nat (length t) = k /\
  (forall j, Z.of_nat j < k -> 0 <= part t j <= rows) /\
  (forall j, Z.of_nat (S j) < k -> part t (S j) <= part t j) /\
  is_partition b /\ kstrict 0 b /\ part b 0 <= cols - k /\
  Z.of_nat (length b) <= (if k =? 0 then rows else part t (Z.to_nat (k - 1))).
Definition kpair (k rows cols : Z) (s : schur) : Prop :=
  match s with SPair t b => pair_in k rows cols t b | SP _ => False end.
(** in type D: a final zero marks the second type, which exists if there is a
    row of length exactly [k > 0] *)
Definition typed_pair (k rows cols : Z) (s : schur) : Prop :=
  kpair k rows cols s \/
  exists t b, s = SPair t (b ++ [0]) /\ pair_in k rows cols t b /\ 0 < k /\
              Z.of_nat (length b) < part t (Z.to_nat (k - 1)).

(** the same partition in the other type: exactly one of the two carries the
    final zero *)
Definition other_type (lam mu : list Z) : Prop :=
  (is_partition lam /\ mu = lam ++ [0]) \/ (is_partition mu /\ lam = mu ++ [0]).

(** ** Isotropic index sets *)

(** [idx] describes a coordinate subspace of dimension [m] of an [N]-dimensional
    space that is isotropic: it never contains both [x] and [N+1-x] *)
Definition isotropic_set (m N : Z) (idx : list Z) : Prop :=
  index_set m N idx /\
  forall i j, (i < length idx)%nat -> (j < length idx)%nat -> part idx i + part idx j <> N + 1.
(** for OG(m,2m) only one of the two families of maximal isotropic subspaces is
    used: an even number of entries is greater than [m] *)
Definition isotropic_set_OG (m N : Z) (idx : list Z) : Prop :=
  isotropic_set m N idx /\ (2 * m = N -> Z.even (count_ge idx (m + 1)) = true).

(** the Schubert condition with jumps [idx] has partition [lam] (Buch, Kresch,
    Tamvakis): row [j] is determined by the entry [idx_j] and the number of
    earlier entries whose sum with it exceeds [N + 1] *)
Definition crossings (N : Z) (idx : list Z) (j : nat) : Z :=
  Z.of_nat (length (filter (fun i => N + 1 <? part idx i + part idx j) (seq 0 j))).
Definition jumps_IG (m N : Z) (lam idx : list Z) : Prop :=
  forall j, Z.of_nat j < m -> part lam j = N - m + 1 - part idx j + crossings N idx j.
Definition jumps_OG (m N : Z) (lam idx : list Z) : Prop :=
  forall j, Z.of_nat j < m ->
    part lam j = N - m - part idx j + crossings N idx j + (if (N + 1) / 2 <? part idx j then 1 else 0).

(** dimensions of IG(m,N) and OG(m,N) *)
Definition dim_IG (m N : Z) : Z := m * (N - m) - m * (m - 1) / 2.
Definition dim_OG (m N : Z) : Z := m * (N - m) - m * (m + 1) / 2.
