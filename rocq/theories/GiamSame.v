(** giambelli and qgiambelli give the same polynomial on Gr(m,n) and OG(m,N): the
    Pieri products that the recursion forms have no quantum terms. *)

From Coq Require Import ZArith List Lia Bool Permutation QArith Qcanon Setoid Morphisms.
From Verif Require Import Py OrderFacts PyFacts ModelPart ModelQcalc ModelPoly ModelStr ModelGr Spec SpecPieri SpecRing SpecAct
  PolyFacts SuppFacts OpTheory GrInv Sys Sys2 SysRing FillFacts PartFacts ConjFacts PairFacts CompsFacts PieriD QPieriD PieriA RingA FactsA ApiA RecBCD RingC RingB RingData ApiRing RingD RingD0 ApiRingD Check.
Import ListNotations.
Open Scope Z_scope.

Lemma apply_lc_eq f g p : (forall m c v, In (m, c) (pnorm p) -> In v m -> image f v = image g v) -> apply_lc f p = apply_lc g p.
Proof.
  intros H. unfold apply_lc. revert H. generalize (pnorm p). induction p0 as [|[m c] q IH]; intros H; [reflexivity|].
  assert (Hm : mapply f m = mapply g m).
  { assert (Hv : forall v, In v m -> image f v = image g v) by (intros v; apply (H m c v); left; auto). clear -Hv.
    induction m as [|v m IH]; [reflexivity|]. cbn [mapply]. rewrite IH by (intros; apply Hv; right; auto). rewrite Hv by (left; auto). reflexivity. }
  cbn [tapply]. rewrite Hm, IH; [reflexivity|]. intros m' c' v Hin. apply (H m' c'). right. auto.
Qed.

Section G.
Context {t : gtype} {pi : Z -> list Z -> res poly} {V : list Z -> Prop} {I : Z -> Prop}
  {k : Z} {mu : list Z -> nat} {fuel : nat}.
Hypothesis H : pieri_sys t pi V I k mu fuel.
Variable pi' : Z -> list Z -> res poly.
Hypothesis H_same : forall l p l0, V l -> l <> [] -> gsel k l = Ok (p, l0) -> pi' p l0 = pi p l0.

Lemma giam_same_class f : forall l, V l -> (mu l < f)%nat -> giambelli_rec_inner f pi' k l = giambelli_rec_inner f pi k l.
Proof.
  induction f as [|f IH]; intros l Hl Hf; [lia|]. destruct (list_eq_dec Z.eq_dec l []) as [->|Hne]; [reflexivity|].
  rewrite !gri_unfold by auto. destruct (ps_rec _ _ _ _ _ _ _ H l Hl Hne) as (p & l0 & E & Hp & (Hl0 & Hm0) & Hs).
  pose proof (H_same l p l0 Hl Hne E) as Es. rewrite E. cbn [bind]. rewrite Es, (ps_ok _ _ _ _ _ _ _ H p l0 Hp Hl0). cbn [bind].
  rewrite IH by (auto; lia). unfold symbol at 1 3. rewrite (ps_nonneg _ _ _ _ _ _ _ H l Hl). cbn [bind].
  destruct (giambelli_rec_inner f pi k l0); [|reflexivity]. cbn [bind].
  change (pvar (VS (SP l))) with (pS l).
  assert (Ea : apply_lc (on_part (giambelli_rec_inner f pi' k)) (psub (P pi p l0) (pS l)) = apply_lc (on_part (giambelli_rec_inner f pi k)) (psub (P pi p l0) (pS l))).
  { apply apply_lc_eq. intros m c v Hin Hv. apply supp_rawnorm in Hs. destruct (Hs m c Hin) as (x & qm & (Hx & Hmx) & HP & HQ).
    apply (Permutation_in _ HP) in Hv. destruct Hv as [<-|Hv]; [apply IH; auto; lia|]. rewrite Forall_forall in HQ. rewrite <- (HQ v Hv). reflexivity. }
  rewrite Ea. reflexivity.
Qed.
Lemma giam_same a : supp (polymQ V isqv) a ->
  apply_lc (on_part (giambelli_rec_inner fuel pi' k)) a = apply_lc (on_part (giambelli_rec_inner fuel pi k)) a.
Proof.
  intros Ha. apply apply_lc_eq. intros m c v Hin Hv. apply supp_rawnorm in Ha. specialize (Ha m c Hin). unfold polymQ in Ha. rewrite Forall_forall in Ha.
  destruct (Ha v Hv) as [Hq|(l & Hl & ->)]; [destruct v; simpl in Hq; try contradiction; reflexivity|].
  cbn [image on_part vS]. apply giam_same_class; auto. apply (ps_fuel _ _ _ _ _ _ _ H l Hl).
Qed.
End G.

(** the recursion of each type *)
Lemma step_A m k l p l0 : 1 <= m -> in_box m k l -> l <> [] -> gsel k l = Ok (p, l0) -> qpieri_fun (mkGr TA k (m + k)) p l0 = pieri_fun (mkGr TA k (m + k)) p l0.
Proof.
  intros Hm (H1 & H2 & H3) Hne E. destruct l as [|x t]; [congruence|]. rewrite gsel_part in E by auto. injection E as <- <-.
  cbn [qpieri_fun pieri_fun g_type g_k g_n]. unfold qpieriA_inner. destruct (pieriA_inner x t k (m + k)) as [r|]; [|reflexivity]. cbn [bind].
  cbn [length] in H2. replace (zlen t =? m + k - k) with false by (unfold zlen; lia). reflexivity.
Qed.
Lemma head_small k c x t : 0 <= k < c -> kstrict_in k (Z.of_nat (S (length t))) c (x :: t) -> head_is t c = false.
Proof.
  intros Hk ((H1 & _ & H3) & H4). destruct t as [|y u]; [reflexivity|]. cbn [head_is]. specialize (H4 0%nat). pose proof (proj2 H1 0%nat) as H5. unfold part in H3, H4, H5. cbn [nth] in H3, H4, H5. apply Z.eqb_neq. intros ->. lia.
Qed.
Lemma step_B k n l p l0 : 0 <= k -> 1 <= n - k -> kstrict_in k (n - k) (n + k) l -> l <> [] -> gsel k l = Ok (p, l0) -> qpieri_fun (mkGr TB k n) p l0 = pieri_fun (mkGr TB k n) p l0.
Proof.
  intros Hk Hn Hl Hne E. destruct l as [|x t]; [congruence|]. rewrite gsel_part in E by apply Hl. injection E as <- <-.
  cbn [qpieri_fun pieri_fun g_type g_k g_n]. unfold qpieriB_inner. destruct (pieriB_inner x t k n) as [r|]; [|reflexivity]. cbn [bind].
  assert (Hh : head_is t (n + k) = false).
  { apply (head_small k (n + k) x t); [lia|]. destruct Hl as ((H1 & H2 & H3) & H4). split; [split; auto; split; [cbn [length]; lia|auto]|auto]. }
  assert (Hz : zlen t =? n - k = false) by (destruct Hl as ((_ & H2 & _) & _); cbn [length] in H2; unfold zlen; lia).
  rewrite Hh, Hz. destruct (k =? 0); reflexivity.
Qed.
Lemma step_D k n l p l0 : 1 <= k <= n -> typed_in k (n + 1 - k) (n + k) l -> l <> [] -> gsel k l = Ok (p, l0) -> qpieri_fun (mkGr TD k n) p l0 = pieri_fun (mkGr TD k n) p l0.
Proof.
  intros Hk Hl Hne E. assert (Hok : okD false k n) by (split; [auto|discriminate]).
  destruct (gselD k n false Hok l Hl Hne) as (p' & l0' & E' & Hp & Hl0 & Hs & _). rewrite E in E'. injection E' as <- <-.
  destruct (typed_shape _ _ _ _ Hl) as (Hks & _). rewrite Hs in Hks.
  cbn [qpieri_fun pieri_fun g_type g_k g_n]. unfold qpieriD_inner. destruct (pieriD_inner p l0 k n) as [r|]; [|reflexivity]. cbn [bind].
  assert (Hlen : Z.of_nat (length (shape l0)) =? n + 1 - k = false) by (destruct Hks as ((_ & H2 & _) & _); cbn [length] in H2; lia).
  assert (Hh : head_is l0 (n + k) = false).
  { assert (Hh : head_is (shape l0) (n + k) = false).
    { apply (head_small k (n + k) (Z.abs p) (shape l0)); [lia|]. destruct Hks as ((H1 & H2 & H3) & H4). split; [split; auto; split; [cbn [length]; lia|auto]|auto]. }
    pose proof (typed_part _ _ _ l0 0 Hl0) as Hp0. destruct l0 as [|y u]; [reflexivity|]. cbn [head_is]. unfold part in Hp0. cbn [nth] in Hp0.
    destruct (shape (y :: u)) as [|z w]; cbn [nth head_is] in *; [|congruence]. subst y. lia. }
  pose proof (qcondD k n l0 ltac:(lia) ltac:(lia) Hl0) as Hq. rewrite Hlen in Hq.
  replace (k =? 0) with false by lia. rewrite Hh. destruct (Z.eqb_spec k 1) as [->|Hk1].
  - replace (n + 1 - 1) with n in Hq by lia. rewrite Hq. reflexivity.
  - rewrite Hq. reflexivity.
Qed.
Lemma step_D0 n l p l0 : 1 <= n -> kstrict_in 0 n n l -> l <> [] -> gsel 0 l = Ok (p, l0) -> qpieri_fun (mkGr TD 0 n) p l0 = pieri_fun (mkGr TD 0 n) p l0.
Proof.
  intros Hn Hl Hne E. destruct l as [|x t]; [congruence|]. rewrite gsel_part in E by apply Hl. injection E as <- <-.
  cbn [qpieri_fun pieri_fun g_type g_k g_n]. unfold qpieriD_inner. destruct (pieriD_inner x t 0 n) as [r|]; [|reflexivity]. cbn [bind].
  assert (Hh : head_is t (n + 0) = false).
  { rewrite Z.add_0_r. apply (head_small 0 n x t); [lia|]. destruct Hl as ((H1 & H2 & H3) & H4). split; [split; auto; split; [cbn [length]; lia|auto]|auto]. }
  rewrite Hh. reflexivity.
Qed.

Lemma poly_in_qs_iff V p : poly_in_qs V p <-> supp (polymQ V isqv) p.
Proof.
  unfold poly_in_qs, supp, polymQ. split; intros H m Hm; specialize (H m Hm).
  - apply Forall_forall. intros v Hv. destruct (H v Hv) as [->|[->|[->|(l & Hl & ->)]]]; [left; exact I..|right; exists l; auto].
  - rewrite Forall_forall in H. intros v Hv. destruct (H v Hv) as [Hq|(l & Hl & ->)]; [destruct v; simpl in Hq; auto; contradiction|]. right. right. right. exists l. auto.
Qed.
Lemma c78_Gr m n g a : Grassmannian m n = Ok g -> poly_in_qs (in_box m (n - m)) a -> qgiambelli g a = giambelli g a.
Proof.
  intros Hg Ha. apply poly_in_qs_iff in Ha. destruct (sysA_gr m n g Hg) as ((I1 & mu1 & S1) & _). apply gr_inv in Hg. destruct Hg as (Hm & Hk & ->).
  apply (giam_same S1); auto. cbn [g_k]. intros l p l0 Hl Hne E. destruct (Z.eq_dec m 0) as [->|Hm0].
  - destruct Hl as (_ & H2 & _). destruct l; [congruence|cbn [length] in H2; lia].
  - apply (step_A m (n - m) l p l0); auto. lia.
Qed.
Lemma c78_OG m N g a : OrthogonalGrassmannian m N = Ok g -> 3 <= N -> 1 <= m <= N / 2 ->
  poly_in_qs (class_OG m N) a -> qgiambelli g a = giambelli g a.
Proof.
  intros Hg HN Hm Ha. apply poly_in_qs_iff in Ha. destruct (Z.even N) eqn:Ev.
  - assert (H4 : 4 <= N) by (apply Z.even_spec in Ev; destruct Ev; lia). destruct (half_even m N g Hg Ev H4 Hm) as (mu & D).
    apply (giam_same (hf_sys _ _ _ _ _ (D false ltac:(discriminate)))); auto. clear D.
    destruct (og_inv _ _ _ Hg ltac:(lia)) as [(n & EN & En & Ev' & Hm' & ->)|(n & EN & En & _ & Hm' & ->)]; [congruence|].
    cbn [g_k]. intros l p l0 Hl Hne E. rewrite (class_even m N n Ev En EN) in Hl. destruct (Z.eq_dec (n + 1 - m) 0) as [Ek|Ek].
    + rewrite Ek in *. apply (step_D0 n l p l0); auto; [lia|]. replace (n + 1 - 0) with (n + 1) in Hl by lia. rewrite Z.add_0_r in Hl. apply (typed0 n ltac:(lia)) in Hl. replace n with (n - 0) at 1 by lia. replace n with (n + 0) at 2 by lia. exact Hl.
    + apply (step_D (n + 1 - m) n l p l0); auto. lia.
  - assert (Ho : Z.odd N = true) by (rewrite <- Z.negb_even, Ev; reflexivity). destruct (rd_OGodd m N g Hg Ho Hm) as (mu & D).
    apply (giam_same (rd_cl _ _ _ _ D)); auto. clear D.
    destruct (og_inv _ _ _ Hg ltac:(lia)) as [(n & EN & En & _ & Hm' & ->)|(n & EN & En & Ev' & Hm' & ->)]; [|congruence].
    cbn [g_k]. intros l p l0 Hl Hne E. unfold class_OG in Hl. rewrite Ev, En in Hl.
    apply (step_B (n - m) n l p l0); auto; [lia|lia|]. replace (n - (n - m)) with m by lia. replace (n + (n - m)) with (N - 1 - m) by lia. exact Hl.
Qed.
Lemma c78_IG : exists m N g lam,
  IsotropicGrassmannian m N = Ok g /\ class_IG m N lam /\ qgiambelli g (pS lam) <> giambelli g (pS lam).
Proof.
  exists 2, 4, (mkGr TC 0 2), [2; 1]. split; [reflexivity|]. split.
  - split; [apply in_boxb_ok; reflexivity|]. intros [|[|[|j]]]; unfold part; simpl; lia.
  - vm_compute. discriminate.
Qed.
