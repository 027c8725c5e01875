(** The type A conversions at the level of the public methods. *)

From Coq Require Import ZArith List Lia Bool Permutation QArith Qcanon Setoid Morphisms.
From Verif Require Import Py OrderFacts ModelPart ModelQcalc ModelPoly ModelStr ModelGr Spec
  PolyFacts SuppFacts PyFacts PartFacts Conv Schub RingA FactsA ConvA ApiA.
Import ListNotations.
Open Scope Z_scope.

(** ** C12 *)
Lemma c12 m n g : Grassmannian m n = Ok g -> 1 <= m ->
  exists L, schub_classes g = Ok L /\ strictly_increasing L /\
    (forall l, In l L <-> in_box m (n - m) l) /\
    Z.of_nat (length L) = binom (Z.to_nat n) (Z.to_nat m).
Proof.
  intros Hg Hm. apply gr_inv in Hg. destruct Hg as (_ & Hk & ->).
  destruct (schub_A m (n - m) Hm Hk) as (L & E & H1 & H2 & H3). exists L.
  split; [exact E|]. replace (m + (n - m)) with n in H3 by lia. auto.
Qed.

Lemma c12_m0 n g : Grassmannian 0 n = Ok g -> schub_classes g = Ok [] /\ in_box 0 (n - 0) [].
Proof.
  intros Hg. apply gr_inv in Hg. destruct Hg as (H0 & Hk & ->). split; [|apply in_box_nil; lia].
  unfold schub_classes, gA. cbn [g_type g_k g_n]. rewrite repz_nonpos by lia. reflexivity.
Qed.

(** ** C15 *)
Lemma pvar_pS_peq h l : peq (psubst (ren (hl h)) (pS l)) (pS (h l)).
Proof. unfold pS, vS. rewrite psubst_pvar. reflexivity. Qed.

Lemma c15_class m n g lam : Grassmannian m n = Ok g -> in_box m (n - m) lam ->
  exists idx x, part2index g (pS lam) = Ok x /\ peq x (pS idx) /\ index_set m n idx /\
    (forall j, Z.of_nat j < m -> part idx j = (n - m) + Z.of_nat j + 1 - part lam j).
Proof.
  intros Hg Hl. apply gr_inv in Hg. destruct Hg as (Hm & Hk & ->).
  destruct (conv_ok _ _ _ _ (pS lam) (p2iA m (n - m) Hm) (expr_in_pS (on_list (in_box m (n - m))) (SP lam) Hl))
    as (x & E & Px & _).
  exists (idxA m (n - m) lam), x. split; [exact E|]. split; [rewrite Px; apply pvar_pS_peq|]. split.
  - replace n with (m + (n - m)) at 1 by lia. apply idxA_set; auto.
  - intros j Hj. rewrite part_idxA by lia. lia.
Qed.

Lemma c15 m n g : Grassmannian m n = Ok g ->
  mutually_inverse (on_list (in_box m (n - m))) (on_list (index_set m n)) (part2index g) (index2part g).
Proof.
  intros Hg. apply gr_inv in Hg. destruct Hg as (Hm & Hk & ->).
  pose proof (p2iA m (n - m) Hm) as H1. pose proof (i2pA m (n - m)) as H2.
  replace (m + (n - m)) with n in * by lia.
  assert (E : gA m (n - m) = mkGr TA (n - m) n) by (unfold gA; f_equal; lia). rewrite E.
  split; intros p Hp.
  - destruct (conv_inverse _ _ _ _ _ _ p H1 (H2 Hm Hk)) as (x & r & E1 & W1 & E2 & _ & P2); auto.
    { intros [l|] Hs; [|contradiction]. simpl. f_equal. apply prtA_idxA; auto. }
    exists x, r. auto.
  - destruct (conv_inverse _ _ _ _ _ _ p (H2 Hm Hk) H1) as (x & r & E1 & W1 & E2 & _ & P2); auto.
    { intros [l|] Hs; [|contradiction]. simpl. f_equal. apply idxA_prtA; auto.
      replace (m + (n - m)) with n by lia. exact Hs. }
    exists x, r. auto.
Qed.

(** ** C17 *)
Lemma dualize_pS m k lam : 0 <= m -> 0 <= k -> in_box m k lam ->
  exists r, dualize (gA m k) (pS lam) = Ok r /\ peq r (pS (dlz m k lam)).
Proof.
  intros Hm Hk Hl.
  destruct (dualize_ok m k Hm Hk (pS lam) (expr_in_pS (on_list (in_box m k)) (SP lam) Hl)) as (r & E & Pr & _).
  exists r. split; [exact E|]. rewrite Pr. apply pvar_pS_peq.
Qed.

Lemma c17_class m n g lam : Grassmannian m n = Ok g -> in_box m (n - m) lam ->
  exists mu r, dualize g (pS lam) = Ok r /\ peq r (pS mu) /\ in_box m (n - m) mu /\
    complementary m (n - m) lam mu /\ size mu = m * (n - m) - size lam.
Proof.
  intros Hg Hl. apply gr_inv in Hg. destruct Hg as (Hm & Hk & ->).
  destruct (dualize_pS m (n - m) lam Hm Hk Hl) as (r & E & Pr).
  exists (dlz m (n - m) lam), r. split; auto. split; auto. split; [apply dlz_box; auto|].
  assert (C := dual_idx m (n - m) lam Hl). split; auto.
  pose proof (size_complement m (n - m) lam _ Hl (dlz_box m (n - m) Hm Hk lam Hl) C). lia.
Qed.

Lemma c17_inv m n g p : Grassmannian m n = Ok g -> expr_in (on_list (in_box m (n - m))) p ->
  exists x y, dualize g p = Ok x /\ expr_in (on_list (in_box m (n - m))) x /\
    dualize g x = Ok y /\ peq y p.
Proof.
  intros Hg Hp. apply gr_inv in Hg. destruct Hg as (Hm & Hk & ->).
  destruct (dualize_ok m (n - m) Hm Hk p Hp) as (x & E1 & P1 & W1).
  destruct (dualize_ok m (n - m) Hm Hk x W1) as (y & E2 & P2 & W2).
  exists x, y. split; auto. split; auto. split; auto. rewrite P2, P1, ren_comp.
  apply (ren_id (on_list (in_box m (n - m)))); auto. intros [l|] Hs; [|contradiction]. simpl. f_equal.
  apply dlz_dlz; auto.
Qed.

Lemma c17_point m n g : Grassmannian m n = Ok g -> exists r, dualize g (pS []) = Ok r /\ peq r (pS (point_class g)).
Proof.
  intros Hg. apply gr_inv in Hg. destruct Hg as (Hm & Hk & ->).
  assert (Hn : in_box m (n - m) []) by (apply in_box_nil; auto).
  destruct (dualize_pS m (n - m) [] Hm Hk Hn) as (r & E & Pr). exists r. split; auto.
  rewrite Pr. replace (dlz m (n - m) []) with (point_class (gA m (n - m))); [reflexivity|].
  assert (Hpt : in_box m (n - m) (point_class (gA m (n - m)))).
  { unfold point_class, gA. cbn [g_type g_k g_n]. destruct (0 <? n - m) eqn:E0; auto.
    replace (m + (n - m) - (n - m)) with m by lia.
    replace (repz (n - m) m) with (part_clip (repz (n - m) m)).
    - apply wbox_in_box; auto. split; [|apply zlen_repz; auto].
      unfold repz. induction (Z.to_nat m); simpl; auto. split; auto. lia.
    - apply part_clip_pos. apply Forall_forall. intros x Hx. apply repeat_spec in Hx. lia. }
  apply (complementary_unique m (n - m) []); auto using dlz_box.
  - intros j Hj. unfold point_class, gA. cbn [g_type g_k g_n].
    replace (m + (n - m) - (n - m)) with m by lia.
    rewrite (part_over [] j) by (simpl; lia). destruct (0 <? n - m) eqn:E0.
    + unfold part, repz. rewrite nth_indep with (d' := n - m) by (rewrite repeat_length; lia).
      rewrite nth_repeat. lia.
    + rewrite part_over by (simpl; lia). lia.
  - apply (dual_idx m (n - m)); auto.
Qed.

(** ** C11 in terms of dualize *)
Lemma c11_dual m n g lam mu : Grassmannian m n = Ok g -> 1 <= m ->
  in_box m (n - m) lam -> in_box m (n - m) mu ->
  exists d r, dualize g (pS lam) = Ok d /\ mult g (pS lam) (pS mu) = Ok r /\
    (peq d (pS mu) -> coef r [vS (point_class g)] = 1%Qc) /\
    (~ peq d (pS mu) -> coef r [vS (point_class g)] = 0%Qc).
Proof.
  intros Hg Hm Hl Hmu.
  destruct (c11 m n g lam mu Hg Hm Hl Hmu) as (r & E & H1 & H0).
  destruct (c17_class m n g lam Hg Hl) as (nu & d & Ed & Pd & Hnu & C & _).
  exists d, r. split; auto. split; auto. pose proof Hg as Hg'. apply gr_inv in Hg'. destruct Hg' as (_ & Hk & _).
  assert (Hiff : peq d (pS mu) <-> complementary m (n - m) lam mu).
  { split.
    - intros Pm. assert (nu = mu); [|subst; auto].
      assert (P2 : peq (pS nu) (pS mu)) by (rewrite <- Pd; auto).
      specialize (P2 [vS nu]). rewrite coef_pS_same in P2.
      destruct (list_eq_dec Z.eq_dec mu nu) as [En|En]; auto. rewrite coef_pS_diff in P2 by auto. discriminate.
    - intros Cm. rewrite Pd. rewrite (complementary_unique m (n - m) lam nu mu); auto; try lia. reflexivity. }
  rewrite Hiff. tauto.
Qed.
