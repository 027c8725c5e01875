(** Acting with polynomials in special classes: the lemmas behind PropsAct.v. *)

From Coq Require Import ZArith List Lia Bool Permutation QArith Qcanon Setoid Morphisms.
From Verif Require Import Py OrderFacts ModelPart ModelQcalc ModelPoly ModelStr ModelGr Spec SpecPieri SpecRing SpecAct
  PolyFacts SuppFacts OpTheory GrInv Sys Sys2 SysRing PieriA RingA FactsA ApiA RingC RingData ApiRing RingD ApiRingD TwoComm ActLaws TwoRing.
Import ListNotations.
Open Scope Z_scope.

Lemma poly_in_spoly (X : list Z -> Prop) (I : Z -> Prop) e :
  (forall l, X l <-> exists i, I i /\ l = num2spec i) -> poly_in X e <-> spoly I (eq VQ) e.
Proof.
  intros HX. unfold poly_in, spoly, supp. split; intros H m Hm; specialize (H m Hm).
  - apply Forall_forall. intros v Hv. rewrite Forall_forall in H. destruct (H v Hv) as [->|(l & Hl & ->)]; [left; auto|].
    right. apply HX in Hl. destruct Hl as (i & Hi & ->). exists i. auto.
  - apply Forall_forall. intros v Hv. rewrite Forall_forall in H. destruct (H v Hv) as [<-|(i & Hi & ->)]; [left; auto|].
    right. exists (num2spec i). split; auto. apply HX. eauto.
Qed.

Section S.
Context {t : gtype} {pi : Z -> list Z -> res poly} {V : list Z -> Prop} {I : Z -> Prop}
  {k : Z} {mu : list Z -> nat} {fuel : nat}.
Hypothesis H : pieri_sys t pi V I k mu fuel.
Lemma sys_act (X : list Z -> Prop) : (forall l, X l <-> exists i, I i /\ l = num2spec i) ->
  action_laws (poly_in X) (lin_comb V) (act_with t pi) /\
  special_acts I (lin_comb V) (act_with t pi) (fun i => apply_lc (on_part (pi i))).
Proof.
  intros HX. destruct H. split.
  - apply (action_laws_ext (spoly I (eq VQ)) _ (lin V (eq VQ))).
    + intros e. apply poly_in_spoly; auto.
    + intros c. apply lin_comb_iff.
    + apply act_laws; auto using eqVQ_isqv.
  - intros i c Hi Hc. apply lin_comb_iff in Hc. apply (act_sv t pi V I (eq VQ)); auto using eqVQ_isqv.
Qed.
End S.
Lemma upto_iff M l : special_upto M l <-> exists i, 1 <= i <= M /\ l = num2spec i.
Proof.
  unfold special_upto, num2spec. split; intros (i & Hi & ->); exists i; split; auto; replace (0 <? i) with true by lia; reflexivity.
Qed.
Lemma even_iff m N l : m <= N / 2 -> special_even m N l <-> exists i, index_even m N i /\ l = num2spec i.
Proof.
  intros Hm. unfold special_even, index_even, num2spec. split.
  - intros [(i & Hi & ->)|(Hk & ->)]; [exists i; replace (0 <? i) with true by lia; auto|].
    exists (- (N / 2 - m)). replace (0 <? - (N / 2 - m)) with false by lia. rewrite Z.opp_involutive. auto.
  - intros (i & [Hi|(Hk & ->)] & ->); [left; exists i; replace (0 <? i) with true by lia; auto|].
    right. replace (0 <? - (N / 2 - m)) with false by lia. rewrite Z.opp_involutive. auto.
Qed.

Lemma c76_Gr m n g : Grassmannian m n = Ok g -> 1 <= m ->
  let I := fun i => 1 <= i <= n - m in
  let E := poly_in (special_upto (n - m)) in
  let L := lin_comb (in_box m (n - m)) in
  (action_laws E L (act g) /\ special_acts I L (act g) (pieri g)) /\
  (action_laws E L (qact g) /\ special_acts I L (qact g) (qpieri g)).
Proof.
  intros Hg Hm. cbv zeta. apply gr_inv in Hg. destruct Hg as (_ & Hk & ->).
  split; [apply (sys_act (sysA m (n - m) Hm Hk false))|apply (sys_act (sysA m (n - m) Hm Hk true))]; apply upto_iff.
Qed.
Lemma c76_IG m N g : IsotropicGrassmannian m N = Ok g ->
  let I := fun i => 1 <= i <= N - m in
  let E := poly_in (special_upto (N - m)) in
  let L := lin_comb (class_IG m N) in
  (action_laws E L (act g) /\ special_acts I L (act g) (pieri g)) /\
  (action_laws E L (qact g) /\ special_acts I L (qact g) (qpieri g)).
Proof.
  intros Hg. cbv zeta. destruct (sys_IG m N g Hg) as (mu & H1 & H2).
  split; [apply (sys_act H1)|apply (sys_act H2)]; apply upto_iff.
Qed.
Lemma c76_OG_odd m N g : OrthogonalGrassmannian m N = Ok g -> Z.odd N = true -> 1 <= m <= N / 2 ->
  let I := fun i => 1 <= i <= N - 1 - m in
  let E := poly_in (special_upto (N - 1 - m)) in
  let L := lin_comb (class_OG m N) in
  (action_laws E L (act g) /\ special_acts I L (act g) (pieri g)) /\
  (action_laws E L (qact g) /\ special_acts I L (qact g) (qpieri g)).
Proof.
  intros Hg HN Hm. cbv zeta. destruct (rd_OGodd m N g Hg HN Hm) as (mu & D).
  split; [apply (sys_act (rd_cl _ _ _ _ D))|apply (sys_act (rd_qu _ _ _ _ D))]; apply upto_iff.
Qed.
Lemma c76_OG_even m N g : OrthogonalGrassmannian m N = Ok g -> Z.even N = true -> 4 <= N -> 1 <= m <= N / 2 ->
  let I := index_even m N in
  let E := poly_in (special_even m N) in
  let L := lin_comb (class_OG m N) in
  (action_laws E L (act g) /\ special_acts I L (act g) (pieri g)) /\
  (m <> N / 2 - 1 -> action_laws E L (qact g) /\ special_acts I L (qact g) (qpieri g)).
Proof.
  intros Hg HN H4 Hm. cbv zeta. destruct (half_even m N g Hg HN H4 Hm) as (mu & D).
  split; [apply (sys_act (hf_sys _ _ _ _ _ (D false ltac:(discriminate))))|intros Hne; apply (sys_act (hf_sys _ _ _ _ _ (D true (fun _ => Hne))))]; intros l; apply even_iff; lia.
Qed.

Lemma two_inv m N g : OrthogonalGrassmannian m N = Ok g -> Z.even N = true -> N <= 16 -> 1 <= m -> m = N / 2 - 1 ->
  g = gD 1 m /\ 1 <= m <= 7 /\ class_OG m N = typed_in 1 m (m + 1) /\ (forall i, index_even m N i <-> ID 1 m i).
Proof.
  intros Hg HN H16 Hm Hk. unfold class_OG.
  destruct (og_inv _ _ _ Hg ltac:(lia)) as [(n & EN & En & Ev & Hm' & ->)|(n & EN & En & Ev & Hm' & ->)]; rewrite Ev in HN; [discriminate|].
  rewrite Ev. unfold index_even, ID. rewrite En in *. assert (m = n) as -> by lia. replace (n + 1 - n) with 1 in * by lia. replace (N - 1 - n) with (n + 1) by lia.
  split; auto. split; [lia|]. split; auto. intros i. split; (intros [Hi|Hi]; [left|right]); lia.
Qed.
Lemma c76_OG_two m N g : OrthogonalGrassmannian m N = Ok g -> Z.even N = true -> N <= 16 -> 1 <= m -> m = N / 2 - 1 ->
  let I := index_even m N in
  let E := poly_in (special_even m N) in
  let L := lin_comb_qs (class_OG m N) in
  action_laws E L (qact g) /\ special_acts I L (qact g) (qpieri g).
Proof.
  intros Hg HN H16 Hm Hk. cbv zeta. destruct (two_inv m N g Hg HN H16 Hm Hk) as (-> & Hn & -> & HI).
  assert (Hc : forall i j l, ID 1 m i -> ID 1 m j -> typed_in 1 m (m + 1) l ->
    peq (ext (qpieri_fun (gD 1 m)) j (P (qpieri_fun (gD 1 m)) i l)) (ext (qpieri_fun (gD 1 m)) i (P (qpieri_fun (gD 1 m)) j l))) by (intros; apply comm_D1; auto).
  split.
  - apply (action_laws_ext (spoly (ID 1 m) (eq VQ)) _ (lin (typed_in 1 m (m + 1)) isqv)).
    + intros e. apply poly_in_spoly. intros l. rewrite even_iff by lia. split; intros (i & Hi & E); exists i; split; auto; apply HI; auto.
    + intros c. apply lin_comb_qs_iff.
    + apply (act_laws TD (qpieri_fun (gD 1 m)) (typed_in 1 m (m + 1)) (ID 1 m) isqv); first [exact Logic.I | apply isqv_id | apply (T_ok m Hn) | apply (T_lin m Hn) | apply (T_spec m Hn) | idtac]; auto.
  - intros i c Hi Hc'. apply lin_comb_qs_iff in Hc'. apply HI in Hi.
    apply (act_sv TD (qpieri_fun (gD 1 m)) (typed_in 1 m (m + 1)) (ID 1 m) isqv); first [exact Logic.I | apply isqv_id | apply (T_ok m Hn) | apply (T_lin m Hn) | apply (T_spec m Hn) | idtac]; auto.
Qed.

Lemma c77 m N g : OrthogonalGrassmannian m N = Ok g -> Z.even N = true -> N <= 16 -> 1 <= m -> m = N / 2 - 1 ->
  partial_product_laws (class_OG m N) (special_even m N) (qgiambelli g) (qmult g).
Proof.
  intros Hg HN H16 Hm Hk. destruct (two_inv m N g Hg HN H16 Hm Hk) as (-> & Hn & -> & HI).
  apply (two_laws m Hn). intros i Hi. apply even_iff; [lia|]. exists i. split; auto. apply HI; auto.
Qed.
Lemma c77_special m N g i c : OrthogonalGrassmannian m N = Ok g -> Z.even N = true -> N <= 16 -> 1 <= m -> m = N / 2 - 1 ->
  index_even m N i -> lin_comb_qs (class_OG m N) c ->
  exists r r', qmult g (pS (special_class i)) c = Ok r /\ qpieri g i c = Ok r' /\ peq r r'.
Proof.
  intros Hg HN H16 Hm Hk Hi Hc. destruct (two_inv m N g Hg HN H16 Hm Hk) as (-> & Hn & E & HI). rewrite E in Hc.
  apply (t_special m Hn i c); [apply HI; auto|apply lin_comb_qs_iff; auto].
Qed.
Lemma c77_commute m N g i j c : OrthogonalGrassmannian m N = Ok g -> Z.even N = true -> N <= 16 -> 1 <= m -> m = N / 2 - 1 ->
  index_even m N i -> index_even m N j -> lin_comb_qs (class_OG m N) c ->
  exists x y x' y', qpieri g i c = Ok x /\ qpieri g j x = Ok y /\ qpieri g j c = Ok x' /\ qpieri g i x' = Ok y' /\ peq y y'.
Proof.
  intros Hg HN H16 Hm Hk Hi Hj Hc. destruct (two_inv m N g Hg HN H16 Hm Hk) as (-> & Hn & E & HI). rewrite E in Hc.
  apply lin_comb_qs_iff in Hc. apply HI in Hi, Hj.
  assert (K : forall i p, ID 1 m i -> supp (linm (typed_in 1 m (m + 1)) isqv) p -> exists r, qpieri (gD 1 m) i p = Ok r /\ peq r (ext (qpieri_fun (gD 1 m)) i p) /\ supp (linm (typed_in 1 m (m + 1)) isqv) r).
  { intros a p Ha Hp. destruct (apply_pi (qpieri_fun (gD 1 m)) _ _ isqv isqv_id (T_ok m Hn) a p Ha Hp) as (r & Er & Pr). exists r. split; [exact Er|]. split; auto.
    eapply supp_peq; [symmetry; exact Pr|]. apply (ext_lin (qpieri_fun (gD 1 m)) _ (ID 1 m) isqv isqv_id (T_lin m Hn)); auto. }
  destruct (K i c Hi Hc) as (x & Ex & Px & Hx), (K j c Hj Hc) as (x' & Ex' & Px' & Hx').
  destruct (K j x Hj Hx) as (y & Ey & Py & _), (K i x' Hi Hx') as (y' & Ey' & Py' & _).
  exists x, y, x', y'. repeat (split; auto). rewrite Py, Py'.
  transitivity (ext (qpieri_fun (gD 1 m)) j (ext (qpieri_fun (gD 1 m)) i c)); [unfold ext at 1; rewrite Px; reflexivity|].
  transitivity (ext (qpieri_fun (gD 1 m)) i (ext (qpieri_fun (gD 1 m)) j c)); [|unfold ext at 3; rewrite Px'; reflexivity].
  symmetry. apply (ext_comm (qpieri_fun (gD 1 m)) (typed_in 1 m (m + 1)) (ID 1 m) isqv isqv_id); auto. intros; apply comm_D1; auto.
Qed.
