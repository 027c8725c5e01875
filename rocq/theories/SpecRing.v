(** The laws of a commutative ring, for the products of the library: [mul a b]
    stands for a call of mult or qmult on two linear combinations of classes. *)

From Coq Require Import ZArith List Lia Bool Permutation QArith Qcanon.
From Verif Require Import Py ModelQcalc ModelPoly ModelStr ModelGr Spec.
Import ListNotations.
Open Scope Z_scope.

(** no call fails, and the products of linear combinations of classes of [V]
    over Q[q] are commutative, associative, unital and bilinear over Q[q] *)
Record product_laws (V : list Z -> Prop) (mul : poly -> poly -> res poly) : Prop := {
  pl_closed : forall a b, lin_comb V a -> lin_comb V b -> exists r, mul a b = Ok r /\ lin_comb V r;
  pl_commutative : forall a b, lin_comb V a -> lin_comb V b ->
    exists r r', mul a b = Ok r /\ mul b a = Ok r' /\ peq r r';
  pl_associative : forall a b c, lin_comb V a -> lin_comb V b -> lin_comb V c ->
    exists ab bc r r', mul a b = Ok ab /\ mul ab c = Ok r /\ mul b c = Ok bc /\ mul a bc = Ok r' /\ peq r r';
  pl_unit : forall a, lin_comb V a ->
    exists r r', mul (pS []) a = Ok r /\ mul a (pS []) = Ok r' /\ peq r a /\ peq r' a;
  pl_additive : forall a b c, lin_comb V a -> lin_comb V b -> lin_comb V c ->
    exists r x y, mul (padd a b) c = Ok r /\ mul a c = Ok x /\ mul b c = Ok y /\ peq r (padd x y);
  pl_scalar : forall a b s, lin_comb V a -> lin_comb V b ->
    exists r x, mul a b = Ok r /\ mul (pscale s a) b = Ok x /\ peq x (pscale s r);
  pl_q : forall a b, lin_comb V a -> lin_comb V b ->
    exists r x, mul a b = Ok r /\ mul (pmul (pvar VQ) a) b = Ok x /\ peq x (pmul (pvar VQ) r)
}.

(** [to] (toS or qtoS) is the identity on linear combinations of classes and
    turns sums and products of polynomials in the classes into sums and [mul] *)
Record conversion_laws (V : list Z -> Prop) (mul : poly -> poly -> res poly) (to : poly -> res poly) : Prop := {
  cl_identity : forall a, lin_comb V a -> exists r, to a = Ok r /\ peq r a;
  cl_sum : forall a b, poly_in V a -> poly_in V b ->
    exists x y r, to a = Ok x /\ to b = Ok y /\ to (padd a b) = Ok r /\ peq r (padd x y);
  cl_product : forall a b, poly_in V a -> poly_in V b ->
    exists x y r s, to a = Ok x /\ to b = Ok y /\ to (pmul a b) = Ok r /\ mul x y = Ok s /\ peq r s /\ lin_comb V r
}.

(** [giam] (giambelli or qgiambelli) returns a polynomial in the special classes
    [X] for every class, and acting with it on the unit gives the class back *)
Definition giambelli_laws (V X : list Z -> Prop) (giam : poly -> res poly) (act : poly -> poly -> res poly) : Prop :=
  forall lam, V lam -> exists e r, giam (pS lam) = Ok e /\ poly_in X e /\ act e (pS []) = Ok r /\ peq r (pS lam).

(** the operators [pi i], for the degrees [i] of special classes, commute *)
Definition operators_commute (V : list Z -> Prop) (I : Z -> Prop) (pi : Z -> poly -> res poly) : Prop :=
  forall i j c, I i -> I j -> lin_comb V c ->
    exists x y x' y', pi i c = Ok x /\ pi j x = Ok y /\ pi j c = Ok x' /\ pi i x' = Ok y' /\ peq y y'.

(** the special classes of IG(m,N) and of OG(m,N), N odd *)
Definition special_upto (M : Z) (l : list Z) : Prop := exists i, 1 <= i <= M /\ l = [i].
(** the special classes of OG(m,N), N even: S[i], and for m < N/2 a second class of
    degree N/2 - m; in the Pieri operators -(N/2 - m) stands for it *)
Definition special_even (m N : Z) (l : list Z) : Prop :=
  (exists i, 1 <= i <= N - 1 - m /\ l = [i]) \/ (m < N / 2 /\ l = [N / 2 - m; 0]).
Definition index_even (m N i : Z) : Prop := 1 <= i <= N - 1 - m \/ (m < N / 2 /\ i = - (N / 2 - m)).
(** the class with a given index *)
Definition special_class (i : Z) : list Z := if 0 <? i then [i] else [- i; 0].

(** Poincare duality: in the product of two classes, the class [pt] of a point has
    coefficient 1 if [dual] (dualize) maps the first class to the second, and 0 if
    it does not; and it never comes with a power of q *)
Definition duality_law (V : list Z -> Prop) (mul : poly -> poly -> res poly) (dual : poly -> res poly) (pt : list Z) : Prop :=
  forall lam mu, V lam -> V mu ->
    exists d r, dual (pS lam) = Ok d /\ mul (pS lam) (pS mu) = Ok r /\
      (peq d (pS mu) -> coef r (qS 0 pt) = 1%Qc) /\ (~ peq d (pS mu) -> coef r (qS 0 pt) = 0%Qc) /\
      (forall e, (1 <= e)%nat -> coef r (qS e pt) = 0%Qc).
(** the coefficient of q^e S[nu] in S[lam] * S[mu] is that of q^e S[mu]* in
    S[lam] * S[nu]*, where the star stands for the dual class *)
Definition symmetric_constants (V : list Z -> Prop) (mul : poly -> poly -> res poly) (dual : poly -> res poly) : Prop :=
  forall lam mu nu, V lam -> V mu -> V nu ->
    exists mu' nu' dm dn r s, V mu' /\ V nu' /\
      dual (pS mu) = Ok dm /\ peq dm (pS mu') /\ dual (pS nu) = Ok dn /\ peq dn (pS nu') /\
      mul (pS lam) (pS mu) = Ok r /\ mul (pS lam) (pS nu') = Ok s /\
      forall e, coef r (qS e nu) = coef s (qS e mu').
(** [h] (type_swap) turns products into products: h(a * b) = h(a) * h(b) *)
Definition respects_product (V : list Z -> Prop) (mul : poly -> poly -> res poly) (h : poly -> res poly) : Prop :=
  forall a b, lin_comb V a -> lin_comb V b ->
    exists r x a' b' y, mul a b = Ok r /\ h r = Ok x /\ h a = Ok a' /\ h b = Ok b' /\ mul a' b' = Ok y /\ peq x y.
