(** Acting with polynomials in special classes on linear combinations of classes,
    and products on the spaces with two quantum parameters. *)

From Coq Require Import ZArith List Lia Bool Permutation QArith Qcanon.
From Verif Require Import Py ModelQcalc ModelPoly ModelStr ModelGr Spec SpecRing.
Import ListNotations.
Open Scope Z_scope.

(** [p] is a linear combination of classes of [V] over Q[q,q1,q2] *)
Definition lin_comb_qs (V : list Z -> Prop) (p : poly) : Prop :=
  forall m, coef p m <> 0%Qc ->
  exists mu qs, V mu /\ Permutation m (vS mu :: qs) /\ forall v, In v qs -> v = VQ \/ v = VQ1 \/ v = VQ2.
(** [p] is a polynomial in classes of [V] and in q, q1, q2 *)
Definition poly_in_qs (V : list Z -> Prop) (p : poly) : Prop :=
  forall m, coef p m <> 0%Qc ->
  forall v, In v m -> v = VQ \/ v = VQ1 \/ v = VQ2 \/ exists mu, V mu /\ v = vS mu.
(** neither q1 nor q2 occurs in [p] *)
Definition no_q1_q2 (p : poly) : Prop := forall m, coef p m <> 0%Qc -> ~ In VQ1 m /\ ~ In VQ2 m.

(** [act] makes the linear combinations [L] a module over the polynomials [E] *)
Record action_laws (E L : poly -> Prop) (act : poly -> poly -> res poly) : Prop := {
  al_closed : forall e c, E e -> L c -> exists r, act e c = Ok r /\ L r;
  al_one : forall c, L c -> exists r, act pone c = Ok r /\ peq r c;
  al_sum : forall e f c, E e -> E f -> L c ->
    exists r x y, act (padd e f) c = Ok r /\ act e c = Ok x /\ act f c = Ok y /\ peq r (padd x y);
  al_product : forall e f c, E e -> E f -> L c ->
    exists r x y, act (pmul e f) c = Ok r /\ act f c = Ok x /\ act e x = Ok y /\ peq r y;
  al_scalar : forall s e c, E e -> L c ->
    exists r x, act (pscale s e) c = Ok r /\ act e c = Ok x /\ peq r (pscale s x);
  al_q : forall c, L c -> exists r, act (pvar VQ) c = Ok r /\ peq r (pmul (pvar VQ) c);
  al_additive : forall e c d, E e -> L c -> L d ->
    exists r x y, act e (padd c d) = Ok r /\ act e c = Ok x /\ act e d = Ok y /\ peq r (padd x y);
  al_multiple : forall s e c, E e -> L c ->
    exists r x, act e (pscale s c) = Ok r /\ act e c = Ok x /\ peq r (pscale s x);
  al_equal : forall e e' c c', E e -> L c -> peq e e' -> peq c c' ->
    exists r r', act e c = Ok r /\ act e' c' = Ok r' /\ peq r r'
}.
(** a special class acts by its Pieri operator *)
Definition special_acts (I : Z -> Prop) (L : poly -> Prop) (act : poly -> poly -> res poly) (pi : Z -> poly -> res poly) : Prop :=
  forall i c, I i -> L c ->
    exists r r', act (pS (special_class i)) c = Ok r /\ pi i c = Ok r' /\ peq r r'.

(** A product [mul] with the Giambelli formula [giam], over Q[q,q1,q2].  The
    product a * b is defined exactly when [a] contains neither q1 nor q2, and
    otherwise the call raises ValueError; where it is defined, it has the laws of
    a commutative ring. *)
Record partial_product_laws (V X : list Z -> Prop) (giam : poly -> res poly) (mul : poly -> poly -> res poly) : Prop := {
  pp_giambelli : forall a, lin_comb_qs V a -> exists e, giam a = Ok e /\ poly_in_qs X e;
  pp_defined : forall a b, lin_comb_qs V a -> lin_comb_qs V b ->
    (no_q1_q2 a -> exists r, mul a b = Ok r /\ lin_comb_qs V r) /\
    (~ no_q1_q2 a -> mul a b = Err ValueError);
  pp_commutative : forall a b r r', lin_comb_qs V a -> lin_comb_qs V b ->
    mul a b = Ok r -> mul b a = Ok r' -> peq r r';
  pp_associative : forall a b c ab bc r r', lin_comb_qs V a -> lin_comb_qs V b -> lin_comb_qs V c ->
    mul a b = Ok ab -> mul ab c = Ok r -> mul b c = Ok bc -> mul a bc = Ok r' -> peq r r';
  pp_permute : forall a b c bc ac r r', lin_comb_qs V a -> lin_comb_qs V b -> lin_comb_qs V c ->
    mul b c = Ok bc -> mul a bc = Ok r -> mul a c = Ok ac -> mul b ac = Ok r' -> peq r r';
  pp_unit_left : forall a, lin_comb_qs V a -> exists r, mul (pS []) a = Ok r /\ peq r a;
  pp_unit_right : forall a r, lin_comb_qs V a -> mul a (pS []) = Ok r -> peq r a;
  pp_additive_left : forall a b c x y, lin_comb_qs V a -> lin_comb_qs V b -> lin_comb_qs V c ->
    mul a c = Ok x -> mul b c = Ok y -> exists r, mul (padd a b) c = Ok r /\ peq r (padd x y);
  pp_additive_right : forall a b c x, lin_comb_qs V a -> lin_comb_qs V b -> lin_comb_qs V c ->
    mul a b = Ok x -> exists r y, mul a c = Ok y /\ mul a (padd b c) = Ok r /\ peq r (padd x y);
  pp_parameters : forall v a b r, v = VQ \/ v = VQ1 \/ v = VQ2 -> lin_comb_qs V a -> lin_comb_qs V b ->
    mul a b = Ok r -> exists x, mul a (pmul (pvar v) b) = Ok x /\ peq x (pmul (pvar v) r)
}.
