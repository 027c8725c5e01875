(** Duality and symmetric structure constants: the lemmas behind PropsDual.v. *)

From Coq Require Import ZArith List Lia Bool Permutation QArith Qcanon Setoid Morphisms.
From Verif Require Import Py OrderFacts PyFacts ModelPart ModelQcalc ModelPoly ModelStr ModelGr Spec SpecRing IndexC IndexB IndexD DualFacts
  PolyFacts SuppFacts OpTheory PartFacts WSum Sys Sys2 SysApi RingA FactsA ApiA ApiConvA GrInv ApiIndex CommC CommB RingC RingB RingData ApiRing RingD RingD0 ApiRingD
  DualSys DualWord DualWordD DualA.
Import ListNotations.
Open Scope Z_scope.

Lemma pS_peq_inj a b : peq (pS a) (pS b) -> a = b.
Proof.
  intros E. destruct (list_eq_dec Z.eq_dec a b) as [|Hne]; auto. exfalso. specialize (E [vS b]).
  rewrite coef_pS_same, coef_pS_diff in E by auto. discriminate.
Qed.

Section Gen.
Context {t : gtype} {pi : Z -> list Z -> res poly} {V : list Z -> Prop} {I : Z -> Prop} {k : Z} {mu : list Z -> nat} {fuel : nat}.
Hypothesis H : pieri_sys t pi V I k mu fuel.
Variables (g : gr) (dl : list Z -> list Z).
Hypothesis HV : forall l, V l -> V (dl l).
Hypothesis HD : forall l, V l -> dl (dl l) = l.
Hypothesis adj : forall i d x y, I i -> V x -> V y -> coef (P pi i x) (qS d (dl y)) = coef (P pi i y) (qS d (dl x)).
Hypothesis Hdz : forall l, V l -> exists r, dualize g (pS l) = Ok r /\ peq r (pS (dl l)).

Lemma sym_laws : duality_law V (prod t pi k fuel) (dualize g) (dl []) /\ symmetric_constants V (prod t pi k fuel) (dualize g).
Proof.
  split.
  - intros l x Hl Hx. destruct (Hdz l Hl) as (d & Ed & Pd).
    destruct (api_prod H (pS l) (pS x)) as (r & Er & Pr & _); auto using lin_comb_poly_in, lin_comb_pS.
    exists d, r. split; [exact Ed|]. split; [exact Er|].
    assert (G := fun e => sym_point H dl HD adj l x e Hl Hx). split; [|split].
    + intros E. rewrite (Pr _), G. cbn [Nat.eqb]. rewrite Pd in E. apply pS_peq_inj in E. destruct (WSum.l_dec l (dl x)) as [|Hne]; auto.
      exfalso. apply Hne. rewrite <- E, HD; auto.
    + intros E. rewrite (Pr _), G. cbn [Nat.eqb]. destruct (WSum.l_dec l (dl x)) as [->|]; auto.
      exfalso. apply E. rewrite Pd, HD by auto. reflexivity.
    + intros [|e] He; [lia|]. rewrite (Pr _), G. reflexivity.
  - intros l x y Hl Hx Hy. destruct (Hdz x Hx) as (dm & Ed & Pd). destruct (Hdz y Hy) as (dn & En & Pn).
    destruct (api_prod H (pS l) (pS x)) as (r & Er & Pr & _); auto using lin_comb_poly_in, lin_comb_pS.
    destruct (api_prod H (pS l) (pS (dl y))) as (s & Es & Ps & _); auto using lin_comb_poly_in, lin_comb_pS.
    exists (dl x), (dl y), dm, dn, r, s. repeat (split; [solve [auto]|]). intros e. rewrite (Pr _), (Ps _).
    rewrite <- (HD y Hy) at 1. apply (sym_constants H dl HD adj); auto.
Qed.
End Gen.

(** what is known about the dual classes, for the classical ([qq = false]) or the
    quantum Pieri operators *)
Definition piq (g : gr) (qq : bool) : Z -> list Z -> res poly := if qq then qpieri_fun g else pieri_fun g.
Definition dual_data (g : gr) (qq : bool) (V : list Z -> Prop) (I : Z -> Prop) : Prop := exists dl,
  (forall l, V l -> V (dl l)) /\ (forall l, V l -> dl (dl l) = l) /\
  (forall i d x y, I i -> V x -> V y -> coef (P (piq g qq) i x) (qS d (dl y)) = coef (P (piq g qq) i y) (qS d (dl x))) /\
  (forall l, V l -> exists r, dualize g (pS l) = Ok r /\ peq r (pS (dl l))) /\ dl [] = point_class g.
Lemma dual_laws g qq V I mu : pieri_sys (g_type g) (piq g qq) V I (g_k g) mu (giam_fuel g) -> dual_data g qq V I ->
  duality_law V (if qq then qmult g else mult g) (dualize g) (point_class g) /\ symmetric_constants V (if qq then qmult g else mult g) (dualize g).
Proof.
  intros H (dl & H1 & H2 & H3 & H4 & <-). destruct qq; exact (sym_laws H g dl H1 H2 H3 H4).
Qed.

(** *** Gr *)
Lemma dual_A m n g qq : Grassmannian m n = Ok g -> 1 <= m -> dual_data g qq (in_box m (n - m)) (fun i => 1 <= i <= n - m).
Proof.
  intros Hg Hm. pose proof Hg as Hg'. apply gr_inv in Hg'. destruct Hg' as (_ & Hk & ->).
  exists (dualA m (n - m)). split; [|split; [|split; [|split]]].
  - intros. apply dualA_box; auto.
  - intros. apply dualA_dualA; auto.
  - intros. change (piq (gA m (n - m)) qq) with (piA m (n - m) qq). apply adjAq; auto.
  - intros l Hl. destruct (c17_class m n _ l Hg Hl) as (nu & r & E & Pr & Hnu & C & _). exists r. split; auto.
    rewrite Pr. apply (dualA_compl m (n - m)) in C; auto. rewrite C. reflexivity.
  - rewrite point_dual by auto. reflexivity.
Qed.
Lemma c48_A m n g : Grassmannian m n = Ok g -> 1 <= m ->
  (duality_law (in_box m (n - m)) (mult g) (dualize g) (point_class g) /\ symmetric_constants (in_box m (n - m)) (mult g) (dualize g)) /\
  (duality_law (in_box m (n - m)) (qmult g) (dualize g) (point_class g) /\ symmetric_constants (in_box m (n - m)) (qmult g) (dualize g)).
Proof.
  intros Hg Hm. pose proof (fun qq => dual_A m n g qq Hg Hm) as D. apply gr_inv in Hg. destruct Hg as (_ & Hk & ->).
  split; [exact (dual_laws (gA m (n - m)) false _ _ _ (sysA m (n - m) Hm Hk false) (D false))|exact (dual_laws (gA m (n - m)) true _ _ _ (sysA m (n - m) Hm Hk true) (D true))].
Qed.

(** *** IG *)
Lemma dual_IG m N g qq : IsotropicGrassmannian m N = Ok g -> 1 <= m -> dual_data g qq (class_IG m N) (fun i => 1 <= i <= N - m).
Proof.
  intros Hg Hm. apply ig_inv in Hg. destruct Hg as (n & EN & En & Hmn & ->). set (k := n - m) in *.
  assert (Ek : m = n - k) by (unfold k; lia).
  assert (EV : class_IG m N = kstrict_in k (n - k) (n + k)) by (change (class_IG m N) with (kstrict_in (N / 2 - m) m (N - m)); unfold k; rewrite En; f_equal; lia).
  rewrite EV. exists (dualC k n). split; [|split; [|split; [|split]]].
  - intros. apply dualC_V; auto; lia.
  - intros. apply dualC_dualC; auto; lia.
  - intros. change (piq (mkGr TC k n) qq) with (piC k n qq). apply adjC; auto; unfold IC in *; lia.
  - intros l Hl. destruct (g_dual_class (mkGr TC k n) (kstrict_in k (n - k) (n + k)) (isotropic_set (n - k) (2 * n))
      (idxC n k (n - k)) (prtC n k (n - k)) (rd (2 * n))) with (l := l) as (r & E & Pr & _); auto.
    + intros. apply IG1; auto; lia.
    + intros. apply IG2; auto; lia.
    + apply IG5.
    + apply IG6.
    + intros. apply IG7; auto; lia.
    + exists r. auto.
  - symmetry. unfold dualC. rewrite (IG_point n k (n - k)) by lia. reflexivity.
Qed.
Lemma c48_IG m N g : IsotropicGrassmannian m N = Ok g -> 1 <= m ->
  (duality_law (class_IG m N) (mult g) (dualize g) (point_class g) /\ symmetric_constants (class_IG m N) (mult g) (dualize g)) /\
  (duality_law (class_IG m N) (qmult g) (dualize g) (point_class g) /\ symmetric_constants (class_IG m N) (qmult g) (dualize g)).
Proof.
  intros Hg Hm. pose proof (fun qq => dual_IG m N g qq Hg Hm) as D. destruct (rd_IG m N g Hg Hm) as (mu & R).
  split; [exact (dual_laws _ false _ _ _ (rd_cl _ _ _ _ R) (D false))|exact (dual_laws _ true _ _ _ (rd_qu _ _ _ _ R) (D true))].
Qed.

(** *** OG(m,N), N odd *)
Lemma dual_OGodd m N g qq : OrthogonalGrassmannian m N = Ok g -> Z.odd N = true -> 1 <= m <= N / 2 -> dual_data g qq (class_OG m N) (fun i => 1 <= i <= N - 1 - m).
Proof.
  intros Hg HN Hm. rewrite <- Z.negb_even in HN. apply negb_true_iff in HN.
  destruct (og_inv m N g Hg ltac:(lia)) as [(n & EN & En & Ev & Hmn & ->)|(n & _ & _ & Ev & _)]; [|congruence]. set (k := n - m) in *.
  assert (EV : class_OG m N = kstrict_in k (n - k) (n + k)).
  { unfold class_OG. rewrite Ev, En. change (kstrict_in (n - m) m (N - 1 - m) = kstrict_in k (n - k) (n + k)). unfold k. f_equal; lia. }
  rewrite EV. exists (dualC k n). split; [|split; [|split; [|split]]].
  - intros. apply dualC_V; auto; lia.
  - intros. apply dualC_dualC; auto; lia.
  - intros. change (piq (mkGr TB k n) qq) with (piB k n qq). apply adjB; auto; unfold IC, okB in *; lia.
  - intros l Hl. destruct (g_dual_class (mkGr TB k n) (kstrict_in k (n - k) (n + k)) (isotropic_set (n - k) (2 * n + 1))
      (idxB n k (n - k)) (prtB n k (n - k)) (rd (2 * n + 1))) with (l := l) as (r & E & Pr & _); auto.
    + intros. apply OB1; auto; lia.
    + intros. apply OB2; auto; lia.
    + apply IG5.
    + intros. eapply OB6; eauto.
    + intros. apply OB7; auto; lia.
    + exists r. rewrite OB_dz in Pr. auto.
  - symmetry. unfold dualC. rewrite (IG_point n k (n - k)) by lia. reflexivity.
Qed.
Lemma c48_OGodd m N g : OrthogonalGrassmannian m N = Ok g -> Z.odd N = true -> 1 <= m <= N / 2 ->
  (duality_law (class_OG m N) (mult g) (dualize g) (point_class g) /\ symmetric_constants (class_OG m N) (mult g) (dualize g)) /\
  (duality_law (class_OG m N) (qmult g) (dualize g) (point_class g) /\ symmetric_constants (class_OG m N) (qmult g) (dualize g)).
Proof.
  intros Hg HN Hm. pose proof (fun qq => dual_OGodd m N g qq Hg HN Hm) as D. destruct (rd_OGodd m N g Hg HN Hm) as (mu & R).
  split; [exact (dual_laws _ false _ _ _ (rd_cl _ _ _ _ R) (D false))|exact (dual_laws _ true _ _ _ (rd_qu _ _ _ _ R) (D true))].
Qed.

(** *** OG(m,N), N even *)
Lemma dual_OGeven m N g qq : OrthogonalGrassmannian m N = Ok g -> Z.even N = true -> 4 <= N -> 1 <= m <= N / 2 ->
  (qq = true -> m <> N / 2 - 1) -> dual_data g qq (class_OG m N) (index_even m N).
Proof.
  intros Hg HN H4 Hm Hq.
  destruct (og_inv m N g Hg ltac:(lia)) as [(n & _ & _ & Ev' & _)|(n & EN & En & Ev & Hmn & Eg)]; [congruence|].
  unfold index_even. rewrite (class_even m N n Ev En EN) in *. set (k := n + 1 - m) in *.
  replace (N / 2 - m) with k in * by (unfold k; lia). replace (N - 1 - m) with (n + k) in * by (unfold k; lia). subst g.
  assert (Hdz : forall l, typed_in k (n + 1 - k) (n + k) l -> exists r, dualize (mkGr TD k n) (pS l) = Ok r /\ peq r (pS (dualD k n l)) /\ typed_in k (n + 1 - k) (n + k) (dualD k n l)).
  { intros l Hl. apply (g_dual_class (mkGr TD k n) (typed_in k (n + 1 - k) (n + k)) (isotropic_set_OG (n + 1 - k) (2 * n + 2))
      (idxD n k (n + 1 - k)) (prtD n k (n + 1 - k)) (rdD n)); auto.
    - intros. apply OD1; auto; unfold k; lia.
    - intros. apply OD2; auto; unfold k; lia.
    - intros. eapply OD5; eauto.
    - intros. eapply OD6; eauto.
    - intros. apply (OD7 n k (n + 1 - k)); auto; unfold k; lia. }
  exists (dualD k n). split; [|split; [|split; [|split]]].
  - intros l Hl. destruct (Hdz l Hl) as (_ & _ & _ & G). exact G.
  - intros l Hl. apply (dz_dz (mkGr TD k n) (typed_in k (n + 1 - k) (n + k)) (isotropic_set_OG (n + 1 - k) (2 * n + 2))
      (idxD n k (n + 1 - k)) (prtD n k (n + 1 - k)) (rdD n)); auto.
    + intros. apply OD1; auto; unfold k; lia.
    + intros. apply OD3; auto; unfold k; lia.
    + intros. apply OD4; auto; unfold k; lia.
    + intros. apply (OD7 n k (n + 1 - k)); auto; unfold k; lia.
    + intros. apply rdD_rdD.
  - intros i d x y Hi Hx Hy. change (piq (mkGr TD k n) qq) with (piD k n qq).
    destruct (Z.eq_dec k 0) as [Ek|Ek].
    + assert (Hi1 : 1 <= i) by (unfold k in *; lia). rewrite Ek in *. replace (n + 1 - 0) with (n + 1) in Hx, Hy by lia. rewrite Z.add_0_r in Hx, Hy.
      rewrite !dualD0 by (auto; lia). rewrite <- (proj2 (piD0_agree n qq i x ltac:(lia) Hi1 Hx) _), <- (proj2 (piD0_agree n qq i y ltac:(lia) Hi1 Hy) _).
      apply adjB; try lia; try (apply typed0; auto; lia). unfold okB. lia.
    + apply adjD; auto; [unfold k in *; lia|]. split; [unfold k in *; lia|]. intros Eq. specialize (Hq Eq). unfold k in *; lia.
  - intros l Hl. destruct (Hdz l Hl) as (r & E & Pr & _). eauto.
  - symmetry. unfold dualD. rewrite (OD_point n k (n + 1 - k)) by (unfold k; lia). reflexivity.
Qed.
Lemma c48_OGeven m N g : OrthogonalGrassmannian m N = Ok g -> Z.even N = true -> 4 <= N -> 1 <= m <= N / 2 ->
  (duality_law (class_OG m N) (mult g) (dualize g) (point_class g) /\ symmetric_constants (class_OG m N) (mult g) (dualize g)) /\
  (m <> N / 2 - 1 ->
   duality_law (class_OG m N) (qmult g) (dualize g) (point_class g) /\ symmetric_constants (class_OG m N) (qmult g) (dualize g)).
Proof.
  intros Hg HN H4 Hm. pose proof (fun qq => dual_OGeven m N g qq Hg HN H4 Hm) as D. destruct (half_even m N g Hg HN H4 Hm) as (mu & R).
  split.
  - assert (F : false = true -> m <> N / 2 - 1) by discriminate. exact (dual_laws _ false _ _ _ (hf_sys _ _ _ _ _ (R false F)) (D false F)).
  - intros Hm1. exact (dual_laws _ true _ _ _ (hf_sys _ _ _ _ _ (R true (fun _ => Hm1))) (D true (fun _ => Hm1))).
Qed.
