(** Positivity of products with special classes: the lemmas behind PropsPos.v. *)

From Coq Require Import ZArith List Lia Bool Permutation QArith Qcanon Setoid Morphisms.
From Verif Require Import Py OrderFacts ModelPart ModelQcalc ModelPoly ModelStr ModelGr Spec SpecRing SpecPieri SpecAct SpecPos
  PolyFacts SuppFacts OpTheory ApiA ApiRing ApiRingD ApiPieriQ ApiPieriP ApiAct PosFacts.
Import ListNotations.
Open Scope Z_scope.

Lemma sum_pos r R : is_sum_of r R -> positive_coefs r.
Proof. intros [H1 H2] m Hm. destruct (H2 m Hm) as (d & x & HR & HP). rewrite (coef_perm r _ _ HP), (H1 d x HR). apply pi_one. Qed.
Lemma lin_qs V c : lin_comb V c -> forall m, coef c m <> 0%Qc -> exists x qs, V x /\ Permutation m (vS x :: qs) /\ forall v, In v qs -> v = VQ \/ v = VQ1 \/ v = VQ2.
Proof.
  intros H m Hm. destruct (H m Hm) as (d & x & Hx & HP). exists x, (repeat VQ d). split; auto. split.
  - rewrite HP. unfold qS. try rewrite Permutation_app_comm; reflexivity.
  - intros v Hv. apply repeat_spec in Hv. auto.
Qed.
Lemma special_pos (V : list Z -> Prop) (I : Z -> Prop) (L : poly -> Prop) act mul f :
  (forall c, L c -> forall m, coef c m <> 0%Qc -> exists x qs, V x /\ Permutation m (vS x :: qs) /\ forall v, In v qs -> v = VQ \/ v = VQ1 \/ v = VQ2) ->
  (forall c r, L c -> peq c r -> L r) ->
  special_acts I L act (fun i p => apply_lc (on_part (f i)) p) ->
  (forall i l, I i -> V l -> exists r, apply_lc (on_part (f i)) (pS l) = Ok r /\ positive_coefs r) ->
  (forall i c, I i -> L c -> exists r, act (pS (special_class i)) c = Ok r /\ L r) ->
  (forall i c, I i -> L c -> exists r r', mul (pS (special_class i)) c = Ok r /\ apply_lc (on_part (f i)) c = Ok r' /\ peq r r') ->
  specials_positive I L mul.
Proof.
  intros HL HE HS HP HA HM i c Hi Hc Pc. destruct (HM i c Hi Hc) as (r & r' & Er & Er' & Pr). exists r. split; auto. split.
  - destruct (HS i c Hi Hc) as (x & x' & Ex & Ex' & Px). destruct (HA i c Hi Hc) as (y & Ey & Ly). rewrite Ex in Ey. inversion Ey; subst y.
    rewrite Er' in Ex'. inversion Ex'; subst x'. apply (HE x); auto. rewrite Px, Pr. reflexivity.
  - eapply pos_peq; [symmetry; exact Pr|]. eapply (pi_pos V I L f); eauto.
Qed.
Lemma lin_peq V c r : lin_comb V c -> peq c r -> lin_comb V r.
Proof. intros H E m. rewrite <- (E m). apply H. Qed.
Lemma linqs_peq V c r : lin_comb_qs V c -> peq c r -> lin_comb_qs V r.
Proof. intros H E m. rewrite <- (E m). apply H. Qed.
Lemma poly_in_special (X : list Z -> Prop) l : X l -> poly_in X (pS l).
Proof. intros H. apply (proj2 (poly_in_mono X [vS l])). constructor; [eauto|constructor]. Qed.

(** both kinds of statement at once *)
Lemma both (V X : list Z -> Prop) (I : Z -> Prop) (L : poly -> Prop) act mul f :
  (forall c, L c -> forall m, coef c m <> 0%Qc -> exists x qs, V x /\ Permutation m (vS x :: qs) /\ forall v, In v qs -> v = VQ \/ v = VQ1 \/ v = VQ2) ->
  (forall c r, L c -> peq c r -> L r) ->
  (forall x, X x -> exists i, I i /\ x = special_class i) -> (forall i, I i -> X (special_class i)) ->
  action_laws (poly_in X) L act -> special_acts I L act (fun i p => apply_lc (on_part (f i)) p) ->
  (forall i l, I i -> V l -> exists r, apply_lc (on_part (f i)) (pS l) = Ok r /\ positive_coefs r) ->
  (forall i c, I i -> L c -> exists r r', mul (pS (special_class i)) c = Ok r /\ apply_lc (on_part (f i)) c = Ok r' /\ peq r r') ->
  acts_positively (poly_in X) L act /\ specials_positive I L mul.
Proof.
  intros HL HE HX HX' HA HS HP HM. split.
  - intros e c He Hc Pe Pc. eapply (act_pos V X I L act f); eauto.
  - eapply (special_pos V I L act mul f); eauto. intros i c Hi Hc. destruct (al_closed _ _ _ HA (pS (special_class i)) c) as (r & Er & Lr); eauto using poly_in_special.
Qed.
Lemma upto_special M x : special_upto M x -> exists i, 1 <= i <= M /\ x = special_class i.
Proof. intros (i & Hi & ->). exists i. split; auto. unfold special_class. destruct (Z.ltb_spec 0 i); [reflexivity|lia]. Qed.
Lemma special_upto' M i : 1 <= i <= M -> special_class i = [i] /\ special_upto M (special_class i).
Proof. intros Hi. assert (E : special_class i = [i]) by (unfold special_class; destruct (Z.ltb_spec 0 i); [reflexivity|lia]). split; auto. exists i. auto. Qed.
Lemma even_special m N x : special_even m N x -> exists i, index_even m N i /\ x = special_class i.
Proof.
  intros [(i & Hi & ->)|(Hm & ->)].
  - exists i. split; [left; auto|]. symmetry; apply (special_upto' _ _ Hi).
  - exists (- (N / 2 - m)). split; [right; auto|]. unfold special_class. destruct (Z.ltb_spec 0 (- (N / 2 - m))); [lia|]. do 2 f_equal. lia.
Qed.
Lemma special_even' m N i : index_even m N i -> special_even m N (special_class i).
Proof.
  intros [Hi|[Hm ->]].
  - left. exists i. split; auto. apply (special_upto' _ _ Hi).
  - right. split; auto. unfold special_class. destruct (Z.ltb_spec 0 (- (N / 2 - m))); [lia|]. do 2 f_equal. lia.
Qed.

Lemma c82_A m n g : Grassmannian m n = Ok g -> 1 <= m ->
  let I := fun i => 1 <= i <= n - m in
  let E := poly_in (special_upto (n - m)) in
  let L := lin_comb (in_box m (n - m)) in
  (acts_positively E L (act g) /\ specials_positive I L (mult g)) /\
  (acts_positively E L (qact g) /\ specials_positive I L (qmult g)).
Proof.
  intros Hg Hm I E L. destruct (c76_Gr m n g Hg Hm) as [[A1 S1] [A2 S2]].
  split; [apply (both (in_box m (n - m)) (special_upto (n - m)) I L (act g) (mult g) (pieri_fun g) (lin_qs _) (lin_peq _) (upto_special _)); [intros i Hi; apply (special_upto' _ _ Hi)|exact A1|exact S1| |]
    |apply (both (in_box m (n - m)) (special_upto (n - m)) I L (qact g) (qmult g) (qpieri_fun g) (lin_qs _) (lin_peq _) (upto_special _)); [intros i Hi; apply (special_upto' _ _ Hi)|exact A2|exact S2| |]].
  - intros i l Hi Hl. destruct (c01 m n g i l Hg Hm Hl ltac:(unfold I in Hi; lia)) as (p & Ep & Sp). exists p. split; eauto using sum_pos.
  - intros i c Hi Hc. rewrite (proj1 (special_upto' _ _ Hi)). apply (c43_api m n g i c Hg Hm Hi Hc).
  - intros i l Hi Hl. destruct (c02 m n g i l Hg Hm Hl Hi) as (p & Ep & Sp). exists p. split; eauto using sum_pos.
  - intros i c Hi Hc. rewrite (proj1 (special_upto' _ _ Hi)). apply (c43_api m n g i c Hg Hm Hi Hc).
Qed.
Lemma c82_IG m N g : IsotropicGrassmannian m N = Ok g -> 1 <= m ->
  let I := fun i => 1 <= i <= N - m in
  let E := poly_in (special_upto (N - m)) in
  let L := lin_comb (class_IG m N) in
  (acts_positively E L (act g) /\ specials_positive I L (mult g)) /\
  (acts_positively E L (qact g) /\ specials_positive I L (qmult g)).
Proof.
  intros Hg Hm I E L. destruct (c76_IG m N g Hg) as [[A1 S1] [A2 S2]].
  split; [apply (both (class_IG m N) (special_upto (N - m)) I L (act g) (mult g) (pieri_fun g) (lin_qs _) (lin_peq _) (upto_special _)); [intros i Hi; apply (special_upto' _ _ Hi)|exact A1|exact S1| |]
    |apply (both (class_IG m N) (special_upto (N - m)) I L (qact g) (qmult g) (qpieri_fun g) (lin_qs _) (lin_peq _) (upto_special _)); [intros i Hi; apply (special_upto' _ _ Hi)|exact A2|exact S2| |]].
  - intros i l Hi Hl. apply (c25_IG m N g i l Hg Hl).
  - intros i c Hi Hc. rewrite (proj1 (special_upto' _ _ Hi)). apply (c45_IG m N g i c Hg Hm Hi Hc).
  - intros i l Hi Hl. apply (c25_IG m N g i l Hg Hl). unfold I in Hi. lia.
  - intros i c Hi Hc. rewrite (proj1 (special_upto' _ _ Hi)). apply (c45_IG m N g i c Hg Hm Hi Hc).
Qed.
Lemma c82_OG_odd m N g : OrthogonalGrassmannian m N = Ok g -> Z.odd N = true -> 1 <= m <= N / 2 ->
  let I := fun i => 1 <= i <= N - 1 - m in
  let E := poly_in (special_upto (N - 1 - m)) in
  let L := lin_comb (class_OG m N) in
  (acts_positively E L (act g) /\ specials_positive I L (mult g)) /\
  (acts_positively E L (qact g) /\ specials_positive I L (qmult g)).
Proof.
  intros Hg Ho Hm I E L. destruct (c76_OG_odd m N g Hg Ho Hm) as [[A1 S1] [A2 S2]].
  assert (H3 : 3 <= N). { destruct (Z.le_gt_cases 3 N); auto. assert (N = 2 \/ N < 2) as [->|H'] by lia; [discriminate|]. pose proof (Z.div_lt_upper_bound N 2 1 ltac:(lia) ltac:(lia)). lia. }
  assert (HN : 2 * m <> N - 2) by (intros HE; replace N with (2 * (m + 1)) in Ho by lia; rewrite Z.odd_mul in Ho; discriminate).
  split; [apply (both (class_OG m N) (special_upto (N - 1 - m)) I L (act g) (mult g) (pieri_fun g) (lin_qs _) (lin_peq _) (upto_special _)); [intros i Hi; apply (special_upto' _ _ Hi)|exact A1|exact S1| |]
    |apply (both (class_OG m N) (special_upto (N - 1 - m)) I L (qact g) (qmult g) (qpieri_fun g) (lin_qs _) (lin_peq _) (upto_special _)); [intros i Hi; apply (special_upto' _ _ Hi)|exact A2|exact S2| |]].
  - intros i l Hi Hl. apply (c25_OG m N g i l Hg ltac:(lia) ltac:(lia) Hl).
  - intros i c Hi Hc. rewrite (proj1 (special_upto' _ _ Hi)). apply (c45_OGodd m N g Hg Ho Hm i c Hi Hc).
  - intros i l Hi Hl. apply (c25_qOG m N g i l Hg Hm H3 Hl (or_introl HN)).
  - intros i c Hi Hc. rewrite (proj1 (special_upto' _ _ Hi)). apply (c45_OGodd m N g Hg Ho Hm i c Hi Hc).
Qed.
Lemma c82_OG_even m N g : OrthogonalGrassmannian m N = Ok g -> Z.even N = true -> 4 <= N -> 1 <= m <= N / 2 ->
  let I := index_even m N in
  let E := poly_in (special_even m N) in
  let L := lin_comb (class_OG m N) in
  (acts_positively E L (act g) /\ specials_positive I L (mult g)) /\
  (m <> N / 2 - 1 -> acts_positively E L (qact g) /\ specials_positive I L (qmult g)).
Proof.
  intros Hg He H4 Hm I E L. destruct (c76_OG_even m N g Hg He H4 Hm) as [[A1 S1] A2].
  assert (E2 : N = 2 * (N / 2)) by (apply Z.even_spec in He; destruct He as (h & ->); rewrite (Z.mul_comm 2 h), Z.div_mul by lia; lia).
  split.
  - apply (both (class_OG m N) (special_even m N) I L (act g) (mult g) (pieri_fun g) (lin_qs _) (lin_peq _) (even_special _ _) (special_even' _ _) A1 S1).
    + intros i l Hi Hl. apply (c25_OG m N g i l Hg ltac:(lia) ltac:(lia) Hl).
    + intros i c Hi Hc. apply (c45_OGeven m N g Hg He H4 Hm i c Hi Hc).
  - intros HM. destruct (A2 HM) as [A3 S3]. apply (both (class_OG m N) (special_even m N) I L (qact g) (qmult g) (qpieri_fun g) (lin_qs _) (lin_peq _) (even_special _ _) (special_even' _ _) A3 S3).
    + intros i l Hi Hl. apply (c25_qOG m N g i l Hg Hm ltac:(lia) Hl). left. lia.
    + intros i c Hi Hc. apply (proj2 (c45_OGeven m N g Hg He H4 Hm i c Hi Hc) HM).
Qed.
Lemma c82_OG_two m N g : OrthogonalGrassmannian m N = Ok g -> Z.even N = true -> N <= 16 -> 1 <= m -> m = N / 2 - 1 ->
  let I := index_even m N in
  let E := poly_in (special_even m N) in
  let L := lin_comb_qs (class_OG m N) in
  acts_positively E L (qact g) /\ specials_positive I L (qmult g).
Proof.
  intros Hg He H16 Hm EM I E L. destruct (c76_OG_two m N g Hg He H16 Hm EM) as [A3 S3].
  assert (E2 : N = 2 * (N / 2)) by (apply Z.even_spec in He; destruct He as (h & ->); rewrite (Z.mul_comm 2 h), Z.div_mul by lia; lia).
  apply (both (class_OG m N) (special_even m N) I L (qact g) (qmult g) (qpieri_fun g) (fun c H => H) (linqs_peq _) (even_special _ _) (special_even' _ _) A3 S3).
  - intros i l Hi Hl. apply (c25_qOG m N g i l Hg ltac:(lia) ltac:(lia) Hl). right. lia.
  - intros i c Hi Hc. apply (c77_special m N g i c Hg He H16 Hm EM Hi Hc).
Qed.
