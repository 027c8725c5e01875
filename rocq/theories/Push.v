(** Products with the classes pushed forward from a smaller space. *)

From Coq Require Import ZArith List Lia Bool QArith Qcanon Setoid.
From Verif Require Import Py ModelPart ModelQcalc ModelPoly ModelStr ModelGr Spec SpecRing SpecPush PolyFacts SuppFacts OpTheory Sys Sys2 SysApi ApiA ApiRing ApiRingD ApiDual ApiGr StabC StabD.
From Verif Require StabA ApiConvA.
Import ListNotations.
Open Scope Z_scope.

Definition comm_law (V : list Z -> Prop) (g : gr) : Prop :=
  forall a b, V a -> V b -> exists r r', mult g (pS a) (pS b) = Ok r /\ mult g (pS b) (pS a) = Ok r' /\ peq r r'.
Lemma dual_fun g x y z : dual_to g x y -> dual_to g x z -> y = z.
Proof. intros (d & E1 & P1) (d' & E2 & P2). assert (d' = d) by congruence. subst d'. apply pS_inj. rewrite <- P1, <- P2. reflexivity. Qed.
Section One.
Variables (V : list Z -> Prop) (g : gr) (pt : list Z).
Hypothesis DL : duality_law V (mult g) (dualize g) pt.
Hypothesis SC : symmetric_constants V (mult g) (dualize g).
Hypothesis CO : comm_law V g.
Lemma has_dual x : V x -> exists y, V y /\ dual_to g x y.
Proof. intros Hx. destruct (SC x x x Hx Hx Hx) as (mu & _ & dm & _ & _ & _ & Hmu & _ & E & P & _). exists mu. split; auto. exists dm. auto. Qed.
Lemma dual_sym x y : V x -> V y -> dual_to g x y -> dual_to g y x.
Proof.
  intros Hx Hy (d & E & P). destruct (DL x y Hx Hy) as (d1 & r & E1 & R1 & A1 & _). assert (d1 = d) by congruence. subst d1. specialize (A1 P).
  destruct (CO x y Hx Hy) as (r0 & r' & R0 & R' & PR). assert (r0 = r) by congruence. subst r0.
  destruct (DL y x Hy Hx) as (d2 & r2 & E2 & R2 & _ & A2 & _). assert (r2 = r') by congruence. subst r2.
  destruct (has_dual y Hy) as (z & Hz & (d3 & E3 & P3)). assert (d3 = d2) by congruence. subst d3.
  destruct (list_eq_dec Z.eq_dec z x) as [->|N]; [exists d2; auto|]. exfalso. assert (Q : ~ peq d2 (pS x)) by (intros Q; apply N, pS_inj; rewrite <- P3; exact Q).
  specialize (A2 Q). rewrite <- (PR (qS 0 pt)), A1 in A2. discriminate.
Qed.
(** the coefficients, moved to the duals *)
Lemma shift a l nu x y r s : V a -> V l -> V nu -> dual_to g l x -> dual_to g nu y -> mult g (pS a) (pS l) = Ok r -> mult g (pS a) (pS y) = Ok s ->
  coef r (qS 0 nu) = coef s (qS 0 x).
Proof.
  intros Ha Hl Hnu Hx Hy Er Es. destruct (SC a l nu Ha Hl Hnu) as (l1 & nu1 & dm & dn & r1 & s1 & _ & _ & E1 & P1 & E2 & P2 & R1 & S1 & H).
  assert (l1 = x) by (apply (dual_fun g l); [exists dm; auto|exact Hx]). assert (nu1 = y) by (apply (dual_fun g nu); [exists dn; auto|exact Hy]). subst l1 nu1.
  assert (r1 = r) by congruence. assert (s1 = s) by congruence. subst r1 s1. apply H.
Qed.
End One.
Section Two.
Variables (V V' : list Z -> Prop) (g g' : gr) (pt pt' : list Z).
Hypothesis DL : duality_law V (mult g) (dualize g) pt.
Hypothesis SC : symmetric_constants V (mult g) (dualize g).
Hypothesis CO : comm_law V g.
Hypothesis DL' : duality_law V' (mult g') (dualize g') pt'.
Hypothesis SC' : symmetric_constants V' (mult g') (dualize g').
Hypothesis CO' : comm_law V' g'.
Hypothesis ST : (forall a, V a -> V' a) /\
  (forall a b, V a -> V b -> exists s r, mult g (pS a) (pS b) = Ok s /\ mult g' (pS a) (pS b) = Ok r /\ forall nu, V nu -> coef r (qS 0 nu) = coef s (qS 0 nu)) /\
  (forall a b, V' a -> ~ V a -> V' b -> exists r, mult g' (pS a) (pS b) = Ok r /\ forall nu, V nu -> coef r (qS 0 nu) = 0%Qc).
Lemma push_ok : push_law V V' g g'.
Proof.
  destruct ST as (S1 & S2 & S3).
  assert (DV : forall l x, V l -> dual_to g l x -> V x) by (intros l x Hl Hx; destruct (has_dual V g SC l Hl) as (y & Hy & Dy); rewrite (dual_fun g l x y Hx Dy); auto).
  assert (DV' : forall l x, V' l -> dual_to g' l x -> V' x) by (intros l x Hl Hx; destruct (has_dual V' g' SC' l Hl) as (y & Hy & Dy); rewrite (dual_fun g' l x y Hx Dy); auto).
  split; [|split].
  - intros l Hl. destruct (has_dual V g SC l Hl) as (x & Hx & Dx). destruct (has_dual V' g' SC' x (S1 x Hx)) as (l' & Hl' & Dl').
    exists l'. split; auto. split; [exists x; split; auto; apply (dual_sym V' g' pt' DL' SC' CO'); auto|]. intros z Hz (x2 & D1 & D2). assert (x2 = x) by (apply (dual_fun g l); auto). subst x2.
    apply (dual_fun g' x); auto. apply (dual_sym V' g' pt' DL' SC' CO'); auto.
  - intros a l l' Ha Hl Hl' (x & D1 & D2). pose proof (DV l x Hl D1) as Hx. destruct (CO a l Ha Hl) as (s & _ & Es & _). destruct (CO' a l' (S1 a Ha) Hl') as (r & _ & Er & _).
    exists s, r. split; auto. split; auto. split.
    + intros nu nu' Hnu Hnu' (y & D3 & D4). pose proof (DV nu y Hnu D3) as Hy. destruct (S2 a y Ha Hy) as (s1 & r1 & Es1 & Er1 & H).
      rewrite (shift V' g' SC' a l' nu' x y r r1) by auto. rewrite (shift V g SC a l nu x y s s1) by auto. apply H; auto.
    + intros nu' Hnu' Hno. destruct (has_dual V' g' SC' nu' Hnu') as (y & Hy & D4). destruct (CO' a y (S1 a Ha) Hy) as (r1 & r2 & Er1 & Er2 & PR).
      rewrite (shift V' g' SC' a l' nu' x y r r1) by auto. rewrite (PR (qS 0 x)). destruct (Qc_eq_dec (coef r2 (qS 0 x)) 0%Qc) as [Z|Z]; auto. exfalso.
      assert (NV : ~ V y) by (intros Vy; destruct (has_dual V g SC y Vy) as (nu & Vnu & Dnu); apply (Hno nu Vnu); exists y; split; auto; apply (dual_sym V g pt DL SC CO); auto).
      destruct (S3 y a Hy NV (S1 a Ha)) as (r3 & Er3 & H). assert (r3 = r2) by congruence. subst r3. apply Z, H, Hx.
  - intros a l l' Ha Hna Hl Hl' (x & D1 & D2). pose proof (DV l x Hl D1) as Hx. destruct (CO' a l' Ha Hl') as (r & _ & Er & _). exists r. split; auto. intros nu' Hnu'.
    destruct (has_dual V' g' SC' nu' Hnu') as (y & Hy & D4). destruct (S3 a y Ha Hna Hy) as (r1 & Er1 & H). rewrite (shift V' g' SC' a l' nu' x y r r1) by auto. apply H, Hx.
Qed.
End Two.
Lemma comm_of V g : (forall a b, lin_comb V a -> lin_comb V b -> exists r r', mult g a b = Ok r /\ mult g b a = Ok r' /\ peq r r') -> comm_law V g.
Proof. intros H a b Ha Hb. apply H; apply lin_comb_iff, sys_lq_pS; auto. Qed.

Lemma c111_A m n i j g g' : 1 <= m -> 0 <= i -> 0 <= j -> Grassmannian m n = Ok g -> Grassmannian (m + i) (n + i + j) = Ok g' ->
  push_law (in_box m (n - m)) (in_box (m + i) (n - m + j)) g g'.
Proof.
  intros Hm Hi Hj Hg Hg'. pose proof (StabA.c108_Gr m n i j g g' Hm Hi Hj Hg Hg') as ST. replace (n - m + j) with (n + i + j - (m + i)) in * by lia.
  apply (push_ok _ _ g g' (point_class g) (point_class g')); try apply (c48_A m n g Hg Hm); try (apply (c48_A _ _ g' Hg'); lia); [| |exact ST]; apply comm_of; intros a b Ha Hb; [apply (c05 m n g a b Hg Ha Hb)|apply (c05 _ _ g' a b Hg' Ha Hb)].
Qed.
Lemma c111_IG m N j g g' : 1 <= m -> 0 <= j -> IsotropicGrassmannian m N = Ok g -> IsotropicGrassmannian (m + j) (N + 2 * j) = Ok g' ->
  push_law (class_IG m N) (class_IG (m + j) (N + 2 * j)) g g'.
Proof.
  intros Hm Hj Hg Hg'. pose proof (c108_IG m N j g g' Hj Hg Hg') as ST.
  apply (push_ok _ _ g g' (point_class g) (point_class g')); try apply (c48_IG m N g Hg Hm); try (apply (c48_IG _ _ g' Hg'); lia); [| |exact ST]; apply comm_of; [apply (c27_IG m N g Hg)|apply (c27_IG _ _ g' Hg')].
Qed.
Lemma c111_odd m n j h h' : 1 <= m <= n -> 0 <= j -> OrthogonalGrassmannian m (2 * n + 1) = Ok h -> OrthogonalGrassmannian (m + j) (2 * n + 1 + 2 * j) = Ok h' ->
  push_law (class_OG m (2 * n + 1)) (class_OG (m + j) (2 * n + 1 + 2 * j)) h h'.
Proof.
  intros Hm Hj Hh Hh'. pose proof (c108_OG m n j h h' Hm Hj Hh Hh') as ST. replace (2 * n + 1 + 2 * j) with (2 * (n + j) + 1) in * by lia.
  assert (HO : forall x, Z.odd (2 * x + 1) = true) by (intros x; rewrite Z.odd_add, Z.odd_mul; reflexivity). assert (HH : forall x, (2 * x + 1) / 2 = x) by (intros x; symmetry; apply (Z.div_unique _ 2 x 1); lia).
  assert (B : 1 <= m <= (2 * n + 1) / 2) by (rewrite HH; lia). assert (B' : 1 <= m + j <= (2 * (n + j) + 1) / 2) by (rewrite HH; lia).
  apply (push_ok _ _ h h' (point_class h) (point_class h')); try apply (c48_OGodd _ _ h Hh (HO n) B); try apply (c48_OGodd _ _ h' Hh' (HO _) B'); [| |exact ST]; apply comm_of; [apply (c27_OGodd _ _ h Hh (HO n) B)|apply (c27_OGodd _ _ h' Hh' (HO _) B')].
Qed.
Lemma c111_even m n j h h' : 1 <= m <= n + 1 -> 1 <= n -> 0 <= j -> OrthogonalGrassmannian m (2 * n + 2) = Ok h -> OrthogonalGrassmannian (m + j) (2 * n + 2 + 2 * j) = Ok h' ->
  push_law (class_OG m (2 * n + 2)) (class_OG (m + j) (2 * n + 2 + 2 * j)) h h'.
Proof.
  intros Hm Hn Hj Hh Hh'. pose proof (c108_OGeven m n j h h' Hm Hn Hj Hh Hh') as ST. replace (2 * n + 2 + 2 * j) with (2 * (n + j) + 2) in * by lia.
  assert (HO : forall x, Z.even (2 * x + 2) = true) by (intros x; rewrite Z.even_add, Z.even_mul; reflexivity). assert (HH : forall x, (2 * x + 2) / 2 = x + 1) by (intros x; symmetry; apply (Z.div_unique _ 2 (x + 1) 0); lia).
  assert (B : 1 <= m <= (2 * n + 2) / 2) by (rewrite HH; lia). assert (B' : 1 <= m + j <= (2 * (n + j) + 2) / 2) by (rewrite HH; lia).
  apply (push_ok _ _ h h' (point_class h) (point_class h')); try apply (c48_OGeven _ _ h Hh (HO n) ltac:(lia) B); try apply (c48_OGeven _ _ h' Hh' (HO _) ltac:(lia) B'); [| |exact ST]; apply comm_of; [apply (c27_OGeven _ _ h Hh (HO n) ltac:(lia) B)|apply (c27_OGeven _ _ h' Hh' (HO _) ltac:(lia) B')].
Qed.
(** on Gr(m,n) the partner has full rows on top and is wider by [j] below *)
Lemma c111_shape m n i j g g' l l' : 1 <= m -> 0 <= i -> 0 <= j -> Grassmannian m n = Ok g -> Grassmannian (m + i) (n + i + j) = Ok g' ->
  in_box m (n - m) l -> in_box (m + i) (n - m + j) l' -> pushed g g' l l' ->
  (forall r, 0 <= r < i -> part l' (Z.to_nat r) = n - m + j) /\ (forall r, 0 <= r < m -> part l' (Z.to_nat (i + r)) = part l (Z.to_nat r) + j).
Proof.
  intros Hm Hi Hj Hg Hg' Hl Hl' (x & D1 & D2). assert (Hl2 : in_box (m + i) (n + i + j - (m + i)) l') by (replace (n + i + j - (m + i)) with (n - m + j) by lia; exact Hl').
  destruct (ApiConvA.c17_class m n g l Hg Hl) as (x1 & d1 & E1 & P1 & B1 & C1 & _). destruct (ApiConvA.c17_class _ _ g' l' Hg' Hl2) as (x2 & d2 & E2 & P2 & _ & C2 & _).
  assert (x1 = x) by (apply (dual_fun g l); [exists d1; auto|auto]). assert (x2 = x) by (apply (dual_fun g' l'); [exists d2; auto|auto]). subst x1 x2. unfold complementary in C1, C2.
  assert (Z0 : forall r, (Z.to_nat m <= r)%nat -> part x r = 0) by (intros r Hr; unfold part; apply nth_overflow; destruct B1 as (_ & B1 & _); lia).
  split; intros r Hr.
  - specialize (C2 (Z.to_nat r) ltac:(lia)). rewrite (Z0 (Z.to_nat (m + i - 1 - Z.of_nat (Z.to_nat r)))) in C2 by lia. lia.
  - specialize (C1 (Z.to_nat r) ltac:(lia)). specialize (C2 (Z.to_nat (i + r)) ltac:(lia)). replace (Z.to_nat (m + i - 1 - Z.of_nat (Z.to_nat (i + r)))) with (Z.to_nat (m - 1 - Z.of_nat (Z.to_nat r))) in C2 by lia. lia.
Qed.
