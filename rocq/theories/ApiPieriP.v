(** C25 and C26 read off from the exact rules. *)

From Coq Require Import ZArith List Lia Bool QArith Qcanon.
From Verif Require Import Py ModelPart ModelQcalc ModelPoly ModelGr Spec SpecPieri ApiPieriQ QPieriD1.
Import ListNotations.
Open Scope Z_scope.

Lemma c25_IG m N g p lam : IsotropicGrassmannian m N = Ok g -> class_IG m N lam ->
  (exists r, pieri g p (pS lam) = Ok r /\ positive_coefs r) /\
  (p <= N - m -> exists r, qpieri g p (pS lam) = Ok r /\ positive_coefs r).
Proof.
  intros Hg HL. split.
  - destruct (c44_IG m N g p lam Hg HL) as (r & c & H1 & _ & _ & H2 & _). eauto.
  - intros Hp. destruct (c44_qIG m N g p lam Hg HL Hp) as (r & c & H1 & _ & _ & H2 & _). eauto.
Qed.
Lemma c25_OG m N g p lam : OrthogonalGrassmannian m N = Ok g -> m <= N / 2 -> 1 <= N -> class_OG m N lam ->
  exists r, pieri g p (pS lam) = Ok r /\ positive_coefs r.
Proof.
  intros Hg Hm HN HL. destruct (c44_OG m N g p lam Hg Hm HN HL) as (r & c & H1 & _ & _ & H2 & _). eauto.
Qed.
Lemma c25_qOG m N g p lam : OrthogonalGrassmannian m N = Ok g -> 1 <= m <= N / 2 -> 3 <= N -> class_OG m N lam ->
  2 * m <> N - 2 \/ N <= 16 -> exists r, qpieri g p (pS lam) = Ok r /\ positive_coefs r.
Proof.
  intros Hg Hm HN HL Hk. destruct (Z.even N) eqn:Ev.
  - apply Z.even_spec in Ev as Ev'. destruct Ev' as (h & ->). rewrite Z.mul_comm, Z.div_mul in * by lia.
    destruct (Z.eq_dec m (h - 1)) as [E|E].
    + destruct (c44_qOG_one m (h * 2) g p lam) as (r & c & H1 & _ & _ & H2 & _); eauto; try (rewrite Z.div_mul); lia.
    + destruct (c44_qOG_even m (h * 2) g p lam) as (r & c & H1 & _ & _ & H2 & _); eauto; try (rewrite Z.div_mul); lia.
  - destruct (c44_qOG_odd m N g p lam) as (r & c & H1 & _ & _ & H2 & _); eauto. rewrite <- Z.negb_even, Ev. reflexivity.
Qed.

Lemma c26_IG m N g p lam : IsotropicGrassmannian m N = Ok g -> class_IG m N lam ->
  (exists r, pieri g p (pS lam) = Ok r /\ homogeneous (degree_q g) (size lam + p) r) /\
  (p <= N - m -> exists r, qpieri g p (pS lam) = Ok r /\ homogeneous (degree_q g) (size lam + p) r).
Proof.
  intros Hg HL. split.
  - destruct (c44_IG m N g p lam Hg HL) as (r & c & H1 & _ & _ & _ & H2). eauto.
  - intros Hp. destruct (c44_qIG m N g p lam Hg HL Hp) as (r & c & H1 & _ & _ & _ & H2). eauto.
Qed.
Lemma c26_OG m N g p lam : OrthogonalGrassmannian m N = Ok g -> m <= N / 2 -> 1 <= N -> class_OG m N lam ->
  exists r, pieri g p (pS lam) = Ok r /\ homogeneous (degree_q g) (size lam + if Z.even N then Z.abs p else p) r.
Proof.
  intros Hg Hm HN HL. destruct (c44_OG m N g p lam Hg Hm HN HL) as (r & c & H1 & _ & _ & _ & H2). eauto.
Qed.
Lemma c26_qOG m N g p lam : OrthogonalGrassmannian m N = Ok g -> 1 <= m <= N / 2 -> 3 <= N -> class_OG m N lam ->
  2 * m <> N - 2 -> exists r, qpieri g p (pS lam) = Ok r /\ homogeneous (degree_q g) (size lam + if Z.even N then Z.abs p else p) r.
Proof.
  intros Hg Hm HN HL Hk. destruct (Z.even N) eqn:Ev.
  - apply Z.even_spec in Ev as Ev'. destruct Ev' as (h & ->). rewrite Z.mul_comm, Z.div_mul in * by lia.
    destruct (c44_qOG_even m (h * 2) g p lam) as (r & c & H1 & _ & _ & _ & H2); eauto; try (rewrite Z.div_mul); lia.
  - destruct (c44_qOG_odd m N g p lam) as (r & c & H1 & _ & _ & _ & H2); eauto. rewrite <- Z.negb_even, Ev. reflexivity.
Qed.
Lemma c26_qOG_one m N g p lam : OrthogonalGrassmannian m N = Ok g -> N = 2 * m + 2 -> 1 <= m -> N <= 16 -> class_OG m N lam ->
  exists r, qpieri g p (pS lam) = Ok r /\ homogeneous12 (degree_q g) (size lam + Z.abs p) r.
Proof.
  intros Hg -> Hm HN HL. replace (2 * m + 2) with (2 * (m + 1)) in * by lia.
  destruct (c44_qOG_one m (2 * (m + 1)) g p lam) as (r & c & H1 & _ & _ & _ & H2); eauto.
  - rewrite Z.even_mul. reflexivity.
  - rewrite Z.mul_comm, Z.div_mul by lia. lia.
Qed.

Lemma c44_IG' m N g p lam : IsotropicGrassmannian m N = Ok g -> class_IG m N lam ->
  exists r c, pieri g p (pS lam) = Ok r /\ expands0 r c /\ forall mu, coef_IG (N / 2 - m) (N / 2) p 0 lam mu (c mu).
Proof. intros Hg HL. destruct (c44_IG m N g p lam Hg HL) as (r & c & H1 & H2 & H3 & _). eauto. Qed.
Lemma c44_qIG' m N g p lam : IsotropicGrassmannian m N = Ok g -> class_IG m N lam -> p <= N - m ->
  exists r c, qpieri g p (pS lam) = Ok r /\ expands r c /\ quantum_IG (N / 2 - m) (N / 2) p lam c.
Proof. intros Hg HL Hp. destruct (c44_qIG m N g p lam Hg HL Hp) as (r & c & H1 & H2 & H3 & _). eauto. Qed.
Lemma c44_OG' m N g p lam : OrthogonalGrassmannian m N = Ok g -> m <= N / 2 -> 1 <= N -> class_OG m N lam ->
  exists r c, pieri g p (pS lam) = Ok r /\ expands0 r c /\
    forall mu, if Z.even N then coef_D (N / 2 - m) (N / 2 - 1) p lam mu (c mu) else coef_OG (N / 2 - m) (N / 2) p lam mu (c mu).
Proof. intros Hg Hm HN HL. destruct (c44_OG m N g p lam Hg Hm HN HL) as (r & c & H1 & H2 & H3 & _). eauto. Qed.
Lemma c44_qOG_odd' m N g p lam : OrthogonalGrassmannian m N = Ok g -> Z.odd N = true -> 1 <= m <= N / 2 -> class_OG m N lam ->
  exists r c, qpieri g p (pS lam) = Ok r /\ expands r c /\
    if m =? N / 2 then quantum_OGmax (N / 2) p lam c else quantum_OG (N / 2 - m) (N / 2) p lam c.
Proof. intros Hg Hm HN HL. destruct (c44_qOG_odd m N g p lam Hg Hm HN HL) as (r & c & H1 & H2 & H3 & _). eauto. Qed.
Lemma c44_qOG_even' m N g p lam : OrthogonalGrassmannian m N = Ok g -> Z.even N = true -> 4 <= N -> 1 <= m <= N / 2 -> m <> N / 2 - 1 ->
  class_OG m N lam ->
  exists r c, qpieri g p (pS lam) = Ok r /\ expands r c /\
    if m =? N / 2 then quantum_Dmax (N / 2 - 1) p lam c else quantum_D (N / 2 - m) (N / 2 - 1) p lam c.
Proof. intros Hg H1 H2 H3 H4 H5. destruct (c44_qOG_even m N g p lam Hg H1 H2 H3 H4 H5) as (r & c & A & B & C & _). eauto. Qed.
Lemma c44_qOG_one' m N g p lam : OrthogonalGrassmannian m N = Ok g -> Z.even N = true -> N <= 16 -> 1 <= m -> m = N / 2 - 1 ->
  class_OG m N lam ->
  exists r c, qpieri g p (pS lam) = Ok r /\ expands12 r c /\ quantum_D1 m p lam c.
Proof. intros Hg H1 H2 H3 H4 H5. destruct (c44_qOG_one m N g p lam Hg H1 H2 H3 H4 H5) as (r & c & A & B & C & _). eauto. Qed.

Lemma c42_returns m N g p lam : OrthogonalGrassmannian m N = Ok g -> Z.even N = true -> 4 <= N -> 1 <= m <= N / 2 ->
  m <> N / 2 - 1 \/ N <= 16 -> class_OG m N lam -> exists r, qpieri g p (pS lam) = Ok r.
Proof.
  intros Hg He HN Hm HH Hl. destruct (Z.eq_dec m (N / 2 - 1)) as [E|E].
  - destruct (c44_qOG_one' m N g p lam Hg He) as (r & c & Hr & _); auto; try lia. eauto.
  - destruct (c44_qOG_even' m N g p lam Hg He) as (r & c & Hr & _); auto. eauto.
Qed.
