(** OG(m,2n): rotation by n, at the level of qmult and part2index. *)

From Coq Require Import ZArith List Lia Bool QArith Qcanon Setoid Morphisms.
From Verif Require Import Py OrderFacts PyFacts ModelPart ModelQcalc ModelPoly ModelStr ModelGr Spec SpecPieri SpecSeidel
  PolyFacts ConjFacts PairFacts OpTheory Sys Sys2 SysMap RingC CommB RingB RingD GrInv DualFacts IndexC IndexD Seidel SeidelSys SeidelB SeidelC SeidelD SysApi ApiA ApiRingD ApiIndex SeidelApi.
Import ListNotations.
Open Scope Z_scope.

Section Even.
Variables (m n : Z) (g : gr).
Hypothesis Hg : OrthogonalGrassmannian m (2 * n) = Ok g.
Hypothesis Hm : 1 <= m < n - 1.
Notation k := (n - m).
Notation V := (class_OG m (2 * n)).
Notation L := (spin_class m n).
Notation MQ := (M TD (piD k (n - 1) true) k (giam_fuel (gD k (n - 1)))).
Notation ix := (idxD (n - 1) k m).
Let Hok : okD true k (n - 1) := okE m n Hm.

Lemma L_spin : L = spin k (n - 1).
Proof. unfold spin_class, spin, stairs. replace (n - 1 + 1 - k) with m by lia. reflexivity. Qed.
Lemma rot_VE l : V l -> V (rotl k (n - 1) l).
Proof. destruct (even_facts m n g Hg Hm) as (_ & EV). rewrite !EV. apply rotl_V, Hok. Qed.
Lemma spin_V : V L.
Proof. rewrite L_spin, <- (rotl_nil k (n - 1) Hok). apply rot_VE. apply (V_nilD m n g Hg Hm). Qed.
Lemma rotE l : V l -> peq (MQ (pS L) (pS l)) (pmono (qS (aR k (n - 1) l) (rotl k (n - 1) l))).
Proof. destruct (even_facts m n g Hg Hm) as (_ & EV). rewrite EV, L_spin. apply rotDs, Hok. Qed.
Lemma middle_mid a : mid (n - 1) a = middle n a.
Proof. unfold mid, middle, swf. replace (n - 1 + 1) with n by lia. replace (n - 1 + 2) with (n + 1) by lia. reflexivity. Qed.
Lemma idx_E lam : V lam -> exists x, part2index g (pS lam) = Ok x /\ peq x (pS (ix lam)).
Proof.
  destruct (even_facts m n g Hg Hm) as (Eg & EV). rewrite EV. replace (n - 1 + 1 - k) with m by lia. intros Hl.
  destruct (g_class (mkGr TD k (n - 1)) (typed_in k m (n - 1 + k)) (isotropic_set_OG m (2 * (n - 1) + 2)) ix) with (l := lam) as (r & E & Pr & HV); auto.
  - intros. apply OD1; auto; lia.
  - apply OD6.
  - exists r. rewrite Eg. auto.
Qed.
Lemma c99_rot lam : V lam ->
  exists r mu d x y idx idx',
    qmult g (pS L) (pS lam) = Ok r /\ V mu /\
    is_sum_of r (fun e nu => e = d /\ nu = mu) /\
    part2index g (pS lam) = Ok x /\ peq x (pS idx) /\ part2index g (pS mu) = Ok y /\ peq y (pS idx') /\
    (forall a, In a idx' <-> 1 <= a <= 2 * n /\ In (middle n (if a <=? n then a + n else a - n)) idx) /\
    Z.of_nat d = zlen (filter (fun a => middle n a <=? n) idx).
Proof.
  intros Hl. destruct (even_facts m n g Hg Hm) as (Eg & EV). pose proof Hl as Hl'. apply EV in Hl'.
  pose proof (rot_VE lam Hl) as Hmu.
  destruct (gen_rot g V MQ L (rotl k (n - 1)) (aR k (n - 1)) (qmult_D m n g Hg Hm) spin_V) with (lam := lam) as (r & Er & Sr); auto using rotE.
  destruct (idx_E lam Hl) as (x & Ex & Px). destruct (idx_E _ Hmu) as (y & Ey & Py).
  exists r, (rotl k (n - 1) lam), (aR k (n - 1) lam), x, y, (ix lam), (ix (rotl k (n - 1) lam)).
  do 7 (split; [assumption|]). split.
  - intros a. pose proof (idx_rotD k (n - 1) Hok lam a Hl') as H. rewrite middle_mid in H. replace (n - 1 + 1) with n in H by lia. replace (n - k) with m in H by lia. exact H.
  - pose proof (aR_count k (n - 1) Hok lam Hl') as H. replace (n - 1 + 1) with n in H by lia. replace (n - k) with m in H by lia. rewrite H. f_equal. apply filter_ext. intros a. rewrite middle_mid. reflexivity.
Qed.
Lemma c99_sym : top_sym (qmult g) V L.
Proof.
  unfold top_sym. destruct (even_facts m n g Hg Hm) as (Eg & EV).
  apply (gen_sym g V MQ L (rotl k (n - 1)) (aR k (n - 1)) (qmult_D m n g Hg Hm) spin_V rot_VE rotE).
  intros lam mu nu. rewrite !EV. intros. apply symDs; auto.
Qed.
End Even.
