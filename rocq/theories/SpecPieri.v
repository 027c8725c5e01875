(** Specification of the Pieri rule for isotropic Grassmannians, in terms of
    boxes of diagrams.  (Buch, Kresch, Tamvakis: Quantum Pieri rules for
    isotropic Grassmannians.)  Boxes are pairs (row, column), both counted from
    1; the bottom box of an empty column is the box of that column in row 0. *)

From Coq Require Import ZArith List Lia Bool Permutation QArith Qcanon.
From Verif Require Import Py ModelPoly Spec.
Import ListNotations.
Open Scope Z_scope.

Definition box := (Z * Z)%type.
Definition in_diagram (mu : list Z) (x : box) : Prop :=
  1 <= fst x /\ 1 <= snd x <= part mu (Z.to_nat (fst x - 1)).
(** a box of [mu] that is not a box of [lam] *)
Definition added (lam mu : list Z) (x : box) : Prop := in_diagram mu x /\ ~ in_diagram lam x.

(** the height of column [c] is [count_ge mu c] *)
Definition bottom_box (mu : list Z) (c : Z) : box := (count_ge mu c, c).

(** k-related boxes: |c-k-1| + r = |c'-k-1| + r' in types B and C ([d = 0]),
    |c-k-1/2| + r = |c'-k-1/2| + r' in type D ([d = 1]) *)
Definition related (k d : Z) (x y : box) : Prop :=
  Z.abs (2 * (snd x - k - 1) + d) + 2 * fst x = Z.abs (2 * (snd y - k - 1) + d) + 2 * fst y.

(** [nu] is obtained by removing a vertical strip from the first [k] columns *)
Definition removes_vertical_strip (k : Z) (lam nu : list Z) : Prop :=
  forall j, part lam j - 1 <= part nu j <= part lam j /\ (part nu j < part lam j -> part lam j <= k).

(** (1): the bottom box of an unchanged column is related to at most one added box *)
Definition rule_same (k d : Z) (lam mu : list Z) : Prop :=
  forall c, 1 <= c <= k -> count_ge mu c = count_ge lam c ->
  forall x y, added lam mu x -> added lam mu y ->
    related k d (bottom_box mu c) x -> related k d (bottom_box mu c) y -> x = y.
(** (2): if a column loses boxes, then the removed boxes and the new bottom box
    are each related to exactly one added box, all these in the same row *)
Definition rule_less (k d : Z) (lam mu : list Z) : Prop :=
  forall c, 1 <= c -> count_ge mu c < count_ge lam c ->
  exists row, forall r, count_ge mu c <= r <= count_ge lam c ->
    exists x, fst x = row /\ added lam mu x /\ related k d (r, c) x /\
      forall y, added lam mu y -> related k d (r, c) y -> y = x.

(** lam -> mu *)
Definition pieri_arrow (k d : Z) (lam mu : list Z) : Prop :=
  (exists nu, is_partition nu /\ removes_vertical_strip k lam nu /\ adds_horizontal_strip nu mu) /\
  rule_same k d lam mu /\ rule_less k d lam mu.

(** ** Multiplicities *)

(** the boxes mentioned in (1) and (2) *)
Definition mentioned (k d : Z) (lam mu : list Z) (x : box) : Prop :=
  exists c r, 1 <= c <= k /\ count_ge mu c <= r <= count_ge lam c /\ related k d (r, c) x.
(** the added boxes to the right of column [k] that are not mentioned there *)
Definition free_box (k d : Z) (lam mu : list Z) (x : box) : Prop :=
  added lam mu x /\ k < snd x /\ ~ mentioned k d lam mu x.

(** two boxes share at least a vertex *)
Definition touching (x y : box) : Prop := Z.abs (fst x - fst y) <= 1 /\ Z.abs (snd x - snd y) <= 1.
(** [x] and [y] lie in the same connected component of the set [A] *)
Inductive connected (A : box -> Prop) : box -> box -> Prop :=
| con_refl x : A x -> connected A x x
| con_step x y z : connected A x y -> A z -> touching y z -> connected A x z.

(** [A] has exactly [N] connected components all of whose boxes satisfy [P]:
    there is a list of [N] boxes, one from each of these components *)
Definition component_count (A P : box -> Prop) (N : Z) : Prop :=
  let good x := A x /\ forall y, connected A x y -> P y in
  exists reps, Z.of_nat (length reps) = N /\ NoDup reps /\
    (forall x, In x reps -> good x) /\
    (forall x y, In x reps -> In y reps -> connected A x y -> x = y) /\
    (forall x, good x -> exists y, In y reps /\ connected A y x).

(** ** Coefficients *)

Definition two_to (e : Z) : Qc := Q2Qc (inject_Z (2 ^ e)).

(** the shapes occurring in the product of the special class of degree [p] and
    the class of [lam] for IG(n-k,2n) and OG(n-k,2n+1) *)
Definition pieri_term (k n p : Z) (lam mu : list Z) : Prop :=
  kstrict_in k (n - k) (n + k) mu /\ size mu = size lam + p /\ pieri_arrow k 0 lam mu.

(** IG(n-k,2n): the coefficient is 2^(N-s) ([s = 0] except in the q-terms), where
    N counts the components of the free boxes that do not meet column k+1 *)
Definition coef_IG (k n p s : Z) (lam mu : list Z) (c : Qc) : Prop :=
  (pieri_term k n p lam mu /\
   exists N, component_count (free_box k 0 lam mu) (fun x => snd x <> k + 1) N /\
     s <= N /\ c = two_to (N - s)) \/
  (~ pieri_term k n p lam mu /\ c = 0%Qc).
(** OG(n-k,2n+1): the coefficient is 2^N for p <= k and 2^(N-1) for p > k, where
    N counts all components of the free boxes *)
Definition coef_OG (k n p : Z) (lam mu : list Z) (c : Qc) : Prop :=
  (pieri_term k n p lam mu /\
   exists N, component_count (free_box k 0 lam mu) (fun _ => True) N /\
     let s := if p <=? k then 0 else 1 in s <= N /\ c = two_to (N - s)) \/
  (~ pieri_term k n p lam mu /\ c = 0%Qc).

(** The quantum products.  [c d mu] stands for the coefficient of q^d S_mu. *)

(** IG(n-k,2n): the q-terms come from the shapes for n+1 with a first row of
    length n+k+1; that row is removed *)
Definition quantum_IG (k n p : Z) (lam : list Z) (c : nat -> list Z -> Qc) : Prop :=
  (forall mu, coef_IG k n p 0 lam mu (c 0%nat mu)) /\
  (forall mu, coef_IG k (n + 1) p 1 lam (n + k + 1 :: mu) (c 1%nat mu)) /\
  (forall d mu, (2 <= d)%nat -> c d mu = 0%Qc).

(** OG(n-k,2n+1), k > 0.  The terms with q exist if [lam] has n-k rows; they come
    from the shapes for n+1 with n+1-k rows of the form (l+2k, mu, 1, ..., 1) with
    l the number of rows of mu.  The terms with q^2 exist if the first row of
    [lam] has length n+k; this row is removed before the product is taken and
    again afterwards. *)
Definition with_row_and_ones (c rows : Z) (mu : list Z) : list Z :=
  (c + Z.of_nat (length mu) :: mu) ++ repeat 1 (Z.to_nat rows - 1 - length mu).
Definition quantum_OG (k n p : Z) (lam : list Z) (c : nat -> list Z -> Qc) : Prop :=
  (forall mu, coef_OG k n p lam mu (c 0%nat mu)) /\
  (forall mu, if (Z.of_nat (length lam) =? n - k) && (Z.of_nat (length mu) <=? n - k)
              then coef_OG k (n + 1) p lam (with_row_and_ones (2 * k) (n + 1 - k) mu) (c 1%nat mu) else c 1%nat mu = 0%Qc) /\
  (forall mu, if part lam 0 =? n + k then coef_OG k n p (tl lam) (n + k :: mu) (c 2%nat mu) else c 2%nat mu = 0%Qc) /\
  (forall d mu, (3 <= d)%nat -> c d mu = 0%Qc).
(** OG(n,2n+1) *)
Definition quantum_OGmax (n p : Z) (lam : list Z) (c : nat -> list Z -> Qc) : Prop :=
  (forall mu, coef_OG 0 n p lam mu (c 0%nat mu)) /\
  (forall mu, if part lam 0 =? n then coef_OG 0 n p (tl lam) (n :: mu) (c 1%nat mu) else c 1%nat mu = 0%Qc) /\
  (forall d mu, (2 <= d)%nat -> c d mu = 0%Qc).

(** ** OG(n+1-k,2n+2) *)

(** the shape of a class (without the mark of the second type), and its type *)
Definition shape (l : list Z) : list Z := filter (fun x => 0 <? x) l.
Definition type_of (k : Z) (l : list Z) : Z :=
  if existsb (Z.eqb k) l then (if last l 1 =? 0 then 2 else 1) else 0.

(** the classes occurring in the product of a special class of degree |p| and
    the class [lam]: types 1 and 2 do not meet *)
Definition pieri_term_D (k n p : Z) (lam mu : list Z) : Prop :=
  typed_in k (n + 1 - k) (n + k) mu /\ size mu = size lam + Z.abs p /\
  pieri_arrow k 1 (shape lam) (shape mu) /\ type_of k lam + type_of k mu <> 3.

(** the number of columns among the first [k] that gain no box *)
Definition not_gaining (k : Z) (lam mu : list Z) : Z :=
  Z.of_nat (length (filter (fun c => count_ge mu c <=? count_ge lam c) (map Z.of_nat (seq 1 (Z.to_nat k))))).

(** the coefficient, in terms of the number [N] of components; a negative [p]
    stands for the special class of degree [k] of the second type *)
Definition mult_D (k p : Z) (lam mu : list Z) (N : Z) : Qc :=
  if Z.abs p <? k then two_to N
  else if 0 <? N then two_to (N - 1)
  else if Z.odd (not_gaining k (shape lam) (shape mu) + Z.max (type_of k lam) (type_of k mu) +
                 (if p <? 0 then 1 else 0))
       then 1%Qc else 0%Qc.
Definition coef_D (k n p : Z) (lam mu : list Z) (c : Qc) : Prop :=
  (pieri_term_D k n p lam mu /\
   exists N, component_count (free_box k 1 (shape lam) (shape mu)) (fun _ => True) N /\
     (k < Z.abs p -> 1 <= N) /\ c = mult_D k p lam mu N) \/
  (~ pieri_term_D k n p lam mu /\ c = 0%Qc).

(** the same shape in the other type *)
Definition swap_type (k : Z) (l : list Z) : list Z :=
  if existsb (Z.eqb k) l then (if last l 1 =? 0 then removelast l else l ++ [0]) else l.
(** [with_row_and_ones] for classes: the type is kept *)
Definition with_row_and_ones_D (c rows : Z) (mu : list Z) : list Z :=
  if last mu 1 =? 0 then with_row_and_ones c rows (removelast mu) ++ [0] else with_row_and_ones c rows mu.

(** OG(n+1-k,2n+2), k > 1; in the terms with q the type is exchanged *)
Definition quantum_D (k n p : Z) (lam : list Z) (c : nat -> list Z -> Qc) : Prop :=
  (forall mu, coef_D k n p lam mu (c 0%nat mu)) /\
  (forall mu, typed_in k (n + 1 - k) (n + k) mu ->
     if Z.of_nat (length (shape lam)) =? n + 1 - k
     then coef_D k (n + 1) p lam (with_row_and_ones_D (2 * k - 1) (n + 2 - k) (swap_type k mu)) (c 1%nat mu)
     else c 1%nat mu = 0%Qc) /\
  (forall mu, if part lam 0 =? n + k then coef_D k n p (tl lam) (n + k :: mu) (c 2%nat mu) else c 2%nat mu = 0%Qc) /\
  (forall d mu, c d mu <> 0%Qc -> (d <= 2)%nat /\ typed_in k (n + 1 - k) (n + k) mu).
(** OG(n+1,2n+2) *)
Definition quantum_Dmax (n p : Z) (lam : list Z) (c : nat -> list Z -> Qc) : Prop :=
  (forall mu, coef_D 0 n p lam mu (c 0%nat mu)) /\
  (forall mu, if part lam 0 =? n then coef_D 0 n p (tl lam) (n :: mu) (c 1%nat mu) else c 1%nat mu = 0%Qc) /\
  (forall d mu, (2 <= d)%nat -> c d mu = 0%Qc).

(** ** OG(n,2n+2): k = 1, with two quantum parameters *)

(** S_kappa with powers of q1 and q2 *)
Definition q12S (d1 d2 : nat) (mu : list Z) : mono := vS mu :: repeat VQ1 d1 ++ repeat VQ2 d2.
(** remove the first column *)
Definition less_column (l : list Z) : list Z := shape (map (fun x => x - 1) l).
(** the first column becomes the first row *)
Definition column_to_row (l : list Z) : list Z :=
  match shape l with [] => [] | s => Z.of_nat (length s) :: less_column s end.
(** the terms with q1 come from products on OG(n+1,2n+2) with the first column of
    [lam] removed; the special class has degree one less *)
Definition coef_D1 (n p : Z) (lam mu : list Z) (c : Qc) : Prop :=
  if Z.abs p =? 1 then (mu = less_column (shape lam) /\ c = 1%Qc) \/ (mu <> less_column (shape lam) /\ c = 0%Qc)
  else coef_D 0 n (Z.abs p - 1) (less_column (shape lam)) mu c.
(** the terms with q1 require that neither [lam] nor the special class is of type
    2, and have no class of type 1; for q2 exchange the types *)
Definition quantum_D1 (n p : Z) (lam : list Z) (c : nat -> nat -> list Z -> Qc) : Prop :=
  let full := Z.of_nat (length (shape lam)) =? n in
  (forall mu, coef_D 1 n p lam mu (c 0%nat 0%nat mu)) /\
  (forall mu, typed_in 1 n (n + 1) mu ->
     if full && negb (type_of 1 lam =? 2) && (0 <? p) && negb (type_of 1 mu =? 1)
     then coef_D1 n p lam (column_to_row mu) (c 1%nat 0%nat mu) else c 1%nat 0%nat mu = 0%Qc) /\
  (forall mu, typed_in 1 n (n + 1) mu ->
     if full && negb (type_of 1 lam =? 1) && ((p =? -1) || (1 <? p)) && negb (type_of 1 mu =? 2)
     then coef_D1 n p lam (column_to_row mu) (c 0%nat 1%nat mu) else c 0%nat 1%nat mu = 0%Qc) /\
  (forall mu, if part lam 0 =? n + 1 then coef_D 1 n p (tl lam) (n + 1 :: mu) (c 1%nat 1%nat mu) else c 1%nat 1%nat mu = 0%Qc) /\
  (forall d1 d2 mu, c d1 d2 mu <> 0%Qc -> (d1 <= 1)%nat /\ (d2 <= 1)%nat /\ typed_in 1 n (n + 1) mu).

(** ** Expansions *)

(** [p] is the sum of all [c d mu] q^d S_mu *)
Definition expands (p : poly) (c : nat -> list Z -> Qc) : Prop :=
  (forall d mu, coef p (qS d mu) = c d mu) /\
  (forall m, coef p m <> 0%Qc -> exists d mu, Permutation m (qS d mu)).
(** ... of all [c mu] S_mu, without q *)
Definition expands0 (p : poly) (c : list Z -> Qc) : Prop :=
  (forall mu, coef p [vS mu] = c mu) /\ (forall m, coef p m <> 0%Qc -> exists mu, m = [vS mu]).
(** ... of all [c d1 d2 mu] q1^d1 q2^d2 S_mu *)
Definition expands12 (p : poly) (c : nat -> nat -> list Z -> Qc) : Prop :=
  (forall d1 d2 mu, coef p (q12S d1 d2 mu) = c d1 d2 mu) /\
  (forall m, coef p m <> 0%Qc -> exists d1 d2 mu, Permutation m (q12S d1 d2 mu)).

Definition positive_integer (c : Qc) : Prop := exists z : Z, 0 < z /\ c = Q2Qc (inject_Z z).
Definition positive_coefs (p : poly) : Prop := forall m, coef p m <> 0%Qc -> positive_integer (coef p m).
Definition homogeneous12 (dq deg : Z) (p : poly) : Prop :=
  forall m, coef p m <> 0%Qc ->
  exists d1 d2 mu, Permutation m (q12S d1 d2 mu) /\ size mu + Z.of_nat (d1 + d2) * dq = deg.

(** [op] is defined on all classes, and its values contain nothing but classes *)
Definition returns_classes (V : list Z -> Prop) (op : Z -> poly -> res poly) : Prop :=
  forall p lam, V lam -> exists r, op p (pS lam) = Ok r /\
    forall m mu, coef r m <> 0%Qc -> In (vS mu) m -> V mu.
