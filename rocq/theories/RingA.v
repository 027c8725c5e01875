(** The type A products: the classical and the quantum Pieri operators satisfy
    the hypotheses of [pieri_sys]. *)

From Coq Require Import ZArith List Lia Bool Permutation QArith Qcanon Setoid Morphisms.
From Verif Require Import Py OrderFacts PyFacts ModelPart ModelQcalc ModelPoly ModelStr ModelGr Spec
  PolyFacts SuppFacts OpTheory Enum FillFacts PartFacts PieriA QPieriA CylA Sys.
Import ListNotations.
Open Scope Z_scope.

(** ** Listing the shapes *)

Fixpoint alll (d : nat) (k : Z) : list (list Z) :=
  match d with
  | O => [[]]
  | S d => flat_map (fun x => map (cons x) (alll d k)) (zrange 0 (k + 1))
  end.

Lemma in_alll d k l : In l (alll d k) <-> length l = d /\ Forall (fun x => 0 <= x <= k) l.
Proof.
  revert l. induction d as [|d IH]; intros l; simpl.
  - split.
    + intros [<-|[]]. auto.
    + intros [H _]. destruct l; auto. discriminate.
  - rewrite in_flat_map. split.
    + intros (x & Hx & Hl). apply in_map_iff in Hl. destruct Hl as (t & <- & Ht).
      apply IH in Ht. apply in_zrange in Hx. simpl. destruct Ht as [<- Ht]. split; auto.
      constructor; auto. lia.
    + intros [H1 H2]. destruct l as [|x t]; [discriminate|]. inversion H2; subst.
      exists x. split; [apply in_zrange; lia|]. apply in_map. apply IH. auto.
Qed.

Lemma alll_nodup d k : NoDup (alll d k).
Proof.
  induction d as [|d IH]; simpl; [constructor; auto; constructor|].
  pose proof (zrange_nodup 0 (k + 1)) as Hn.
  induction Hn as [|x l Hx Hl IHl]; simpl; [constructor|].
  apply nodup_app; auto.
  - apply FinFun.Injective_map_NoDup; auto. intros a b E. inversion E; auto.
  - intros a H1 H2. apply in_map_iff in H1. destruct H1 as (t & <- & _).
    apply in_flat_map in H2. destruct H2 as (y & Hy & H2). apply in_map_iff in H2.
    destruct H2 as (t' & E & _). inversion E; subst; auto.
Qed.

Fixpoint intlb (o : Z) (lam mu : list Z) : bool :=
  match lam, mu with
  | [], [] => true
  | x :: lam', y :: mu' => (x <=? y) && (y <=? o) && intlb x lam' mu'
  | _, _ => false
  end.
Lemma intlb_ok o lam mu : intlb o lam mu = true <-> intl o lam mu.
Proof.
  revert o mu. induction lam as [|x t IH]; intros o [|y mu]; simpl; try (intuition discriminate).
  rewrite !andb_true_iff, IH, !Z.leb_le. tauto.
Qed.
Definition qintb (lam mu : list Z) : bool :=
  match lam with
  | [] => false
  | x :: t => intlb (x - 1) (map (fun y => y - 1) t ++ [0]) mu
  end.
Lemma qintb_ok lam mu : qintb lam mu = true <-> qint lam mu.
Proof. destruct lam; simpl; [intuition discriminate|]. apply intlb_ok. Qed.

Definition EA (m k : Z) (qq : bool) (i : Z) (lam : list Z) : list (nat * list Z) :=
  map (fun mu => (0%nat, mu))
    (filter (fun mu => intlb k lam mu && (zsum mu =? zsum lam + i)) (alll (Z.to_nat m) k)) ++
  (if qq then
     map (fun mu => (1%nat, mu))
       (filter (fun mu => (zlen (part_clip lam) =? m) && qintb (part_clip lam) mu &&
                          (zsum mu =? zsum lam + i - (m + k))) (alll (Z.to_nat m) k))
   else []).

Lemma EA_nodup m k qq i lam : NoDup (EA m k qq i lam).
Proof.
  unfold EA. apply nodup_app.
  - apply FinFun.Injective_map_NoDup; [intros a b E; inversion E; auto|].
    apply NoDup_filter, alll_nodup.
  - destruct qq; [|constructor].
    apply FinFun.Injective_map_NoDup; [intros a b E; inversion E; auto|].
    apply NoDup_filter, alll_nodup.
  - intros x H1 H2. apply in_map_iff in H1. destruct H1 as (a & <- & _).
    destruct qq; [|contradiction]. apply in_map_iff in H2. destruct H2 as (b & E & _). discriminate.
Qed.

Lemma decp_range prev l : decp prev l -> Forall (fun x => 0 <= x <= prev) l.
Proof.
  revert prev. induction l as [|x l IH]; simpl; intros prev H; constructor.
  - lia.
  - eapply Forall_impl; [|apply (IH x); tauto]. simpl. intros; lia.
Qed.

Section RingA.

Variables m k : Z.
Hypothesis Hm : 1 <= m.
Hypothesis Hk : 0 <= k.

Lemma wbox_alll mu : wbox m k mu -> In mu (alll (Z.to_nat m) k).
Proof.
  intros [H1 H2]. apply in_alll. split; [unfold zlen in H2; lia|]. apply decp_range; auto.
Qed.

Lemma intl_wbox lam mu : wbox m k lam -> intl k lam mu -> wbox m k mu.
Proof.
  intros [H1 H2] H. split; [eapply intl_decp; eauto|]. rewrite (intl_pos_len _ _ _ H). auto.
Qed.

Lemma qint_wbox lam mu : wbox m k lam -> zlen (part_clip lam) = m -> qint (part_clip lam) mu ->
  wbox m k mu.
Proof.
  intros H1 H2 H. split.
  - eapply decp_mono; [|eapply (qint_decp m k)]; [| |exact H]; [lia|]. apply wbox_in_box; auto.
  - rewrite (qint_len _ _ H). auto.
Qed.

Lemma EA_in qq i lam d mu : wbox m k lam ->
  (In (d, mu) (EA m k qq i lam) <->
    (d = 0%nat /\ intl k lam mu /\ zsum mu = zsum lam + i) \/
    (qq = true /\ d = 1%nat /\ zlen (part_clip lam) = m /\ qint (part_clip lam) mu /\
     zsum mu = zsum lam + i - (m + k))).
Proof.
  intros Hl. unfold EA. rewrite in_app_iff, in_map_iff. split.
  - intros [(x & E & Hx)|H].
    + inversion E; subst. apply filter_In in Hx. rewrite andb_true_iff, intlb_ok in Hx. left.
      repeat split; try tauto. lia.
    + destruct qq; [|contradiction]. apply in_map_iff in H. destruct H as (x & E & Hx).
      inversion E; subst. apply filter_In in Hx. rewrite !andb_true_iff, qintb_ok in Hx. right.
      repeat split; try tauto; lia.
  - intros [(-> & H1 & H2)|(-> & -> & H1 & H2 & H3)].
    + left. exists mu. split; auto. apply filter_In. split.
      * apply wbox_alll. eapply intl_wbox; eauto.
      * rewrite andb_true_iff, intlb_ok. split; auto. lia.
    + right. apply in_map_iff. exists mu. split; auto. apply filter_In. split.
      * apply wbox_alll. eapply qint_wbox; eauto.
      * rewrite !andb_true_iff, qintb_ok. repeat split; auto; lia.
Qed.

(** *** agreement with the periodic description *)

Lemma il_0 lam mu : wbox m k lam -> wbox m k mu ->
  (intl k lam mu <-> il (per m k lam) (win m k 0 mu)).
Proof.
  intros Hl Hmu.
  pose proof (part_nonneg_w m k mu Hm Hk Hmu) as Pm. pose proof (part_nonneg_w m k lam Hm Hk Hl) as Pl.
  rewrite (il_iff_period m k) by (auto using per_perd, win_perd).
  rewrite intl_part. destruct Hl as [Dl Ll], Hmu as [Dm Lm]. unfold zlen in *.
  split.
  - intros (_ & A & B & C) j Hj. unfold win. replace (j - 0) with j by lia.
    rewrite !(per_in m k) by lia. split.
    + specialize (A (Z.to_nat j) ltac:(lia)). lia.
    + destruct (Z.eq_dec j 0) as [->|Hj0].
      * replace (0 - 1) with (-1) by lia. rewrite (per_m1 m k) by lia.
        specialize (C ltac:(destruct lam; [simpl in Ll; lia|discriminate])).
        pose proof (Pl (Z.to_nat (m - 1))). simpl Z.to_nat. lia.
      * rewrite (per_in m k) by lia. specialize (B (Z.to_nat (j - 1)) ltac:(lia)).
        replace (S (Z.to_nat (j - 1))) with (Z.to_nat j) in B by lia. lia.
  - intros H. repeat split.
    + lia.
    + intros j Hj. specialize (H (Z.of_nat j) ltac:(lia)). unfold win in H.
      replace (Z.of_nat j - 0) with (Z.of_nat j) in H by lia.
      rewrite !(per_in m k) in H by lia. rewrite Nat2Z.id in H. lia.
    + intros j Hj. specialize (H (Z.of_nat (S j)) ltac:(lia)). unfold win in H.
      replace (Z.of_nat (S j) - 0) with (Z.of_nat (S j)) in H by lia.
      replace (Z.of_nat (S j) - 1) with (Z.of_nat j) in H by lia.
      rewrite !(per_in m k) in H by lia. rewrite !Nat2Z.id in H. lia.
    + intros _. pose proof (Pm 0%nat). lia.
Qed.

Lemma part_map_pred l j : (j < length l)%nat -> part (map (fun y => y - 1) l ++ [0]) j = part l j - 1.
Proof.
  intros H. unfold part. rewrite app_nth1 by (rewrite map_length; auto).
  rewrite (nth_indep _ 0 (0 - 1)) by (rewrite map_length; auto).
  rewrite (map_nth (fun y => y - 1)). auto.
Qed.
Lemma part_map_pred_last l : part (map (fun y => y - 1) l ++ [0]) (length l) = 0.
Proof.
  unfold part. rewrite app_nth2; rewrite map_length; [|lia]. rewrite Nat.sub_diag. auto.
Qed.

Lemma qint_part lam mu : zlen lam = m ->
  (qint lam mu <-> zlen mu = m /\ (forall j, Z.of_nat j < m -> part mu j <= part lam j - 1) /\
     (forall j, Z.of_nat j + 1 < m -> part lam (S j) - 1 <= part mu j) /\
     0 <= part mu (Z.to_nat (m - 1))).
Proof.
  intros Hl. destruct lam as [|x t]; [unfold zlen in Hl; simpl in Hl; lia|].
  assert (Lt : length t = Z.to_nat (m - 1)) by (unfold zlen in Hl; simpl in Hl; lia).
  cbn [qint]. rewrite intl_part, app_length, map_length. cbn [length].
  rewrite <- Lt. unfold zlen. split.
  - intros (L & A & B & C). split; [lia|]. repeat split.
    + intros j Hj. destruct j as [|j].
      * apply C. destruct t; discriminate.
      * specialize (B j ltac:(lia)). rewrite part_map_pred in B by lia. auto.
    + intros j Hj. specialize (A j ltac:(lia)). rewrite part_map_pred in A by lia. auto.
    + specialize (A (length t) ltac:(lia)). rewrite part_map_pred_last in A. auto.
  - intros (L & A & B & C). repeat split.
    + lia.
    + intros j Hj. destruct (Nat.eq_dec j (length t)) as [->|Hj'].
      * rewrite part_map_pred_last. auto.
      * rewrite part_map_pred by lia. apply (B j). lia.
    + intros j Hj. rewrite part_map_pred by lia. apply (A (S j)). lia.
    + intros _. apply (A 0%nat). lia.
Qed.

Lemma clip_full lam : wbox m k lam -> 0 < part lam (Z.to_nat (m - 1)) -> zlen (part_clip lam) = m.
Proof.
  intros [Hd Hl] Hp.
  destruct (part_clip_spec lam) as (c & Hc & E).
  pose proof (zlen_clip lam).
  destruct (Z.eq_dec (zlen (part_clip lam)) m); auto. exfalso.
  rewrite <- part_clip_part in Hp. unfold part in Hp.
  rewrite nth_overflow in Hp; [lia|]. unfold zlen in *. lia.
Qed.

Lemma il_1 lam mu : wbox m k lam -> wbox m k mu ->
  ((zlen (part_clip lam) = m /\ qint (part_clip lam) mu) <-> il (per m k lam) (win m k 1 mu)).
Proof.
  intros Hl Hmu.
  pose proof (part_nonneg_w m k mu Hm Hk Hmu) as Pm. pose proof (part_nonneg_w m k lam Hm Hk Hl) as Pl.
  pose proof (decr_le m k Hm Hk _ (per_decr m k Hm Hk _ Hl)) as Dl || idtac.
  rewrite (il_iff_period m k) by (auto using per_perd, win_perd).
  split.
  - intros [Lf H]. rewrite qint_part in H by auto. destruct H as (Lm & A & B & C).
    setoid_rewrite part_clip_part in A. setoid_rewrite part_clip_part in B.
    intros j Hj. unfold win. destruct (Z.eq_dec j 0) as [->|Hj0].
    + replace (0 - 1) with (-1) by lia. rewrite !(per_m1 m k) by lia. rewrite per_in by lia.
      specialize (A (Z.to_nat (m - 1)) ltac:(lia)).
      pose proof (Pm (Z.to_nat (m - 1))). pose proof (Pl (Z.to_nat 0)). lia.
    + rewrite !(per_in m k) by lia.
      pose proof (A (Z.to_nat (j - 1)) ltac:(lia)). pose proof (B (Z.to_nat (j - 1)) ltac:(lia)).
      replace (S (Z.to_nat (j - 1))) with (Z.to_nat j) in * by lia. lia.
  - intros H.
    assert (HA : forall j, Z.of_nat j < m -> part mu j <= part lam j - 1).
    { intros j Hj. destruct (Z.eq_dec (Z.of_nat j) (m - 1)) as [E|E].
      - specialize (H 0 ltac:(lia)). unfold win in H. replace (0 - 1) with (-1) in H by lia.
        rewrite !(per_m1 m k) in H by lia. replace (Z.to_nat (m - 1)) with j in H by lia. lia.
      - specialize (H (Z.of_nat j + 1) ltac:(lia)). unfold win in H.
        replace (Z.of_nat j + 1 - 1) with (Z.of_nat j) in H by lia.
        rewrite !(per_in m k) in H by lia. rewrite Nat2Z.id in H. lia. }
    assert (Lf : zlen (part_clip lam) = m).
    { apply clip_full; auto. specialize (HA (Z.to_nat (m - 1)) ltac:(lia)).
      pose proof (Pm (Z.to_nat (m - 1))). lia. }
    split; auto. apply qint_part; auto. split; [apply Hmu|]. repeat split.
    + intros j Hj. rewrite part_clip_part. auto.
    + intros j Hj. rewrite part_clip_part. specialize (H (Z.of_nat j + 1) ltac:(lia)). unfold win in H.
      replace (Z.of_nat j + 1 - 1) with (Z.of_nat j) in H by lia.
      rewrite !(per_in m k) in H by lia. rewrite Nat2Z.id in H.
      replace (Z.to_nat (Z.of_nat j + 1)) with (S j) in H by lia. lia.
    + apply Pm.
Qed.

Lemma EA_edge qq i lam x : wbox m k lam ->
  (In x (EA m k qq i lam) <-> edge m k lam i x /\ (qq = true \/ fst x = 0%nat)).
Proof.
  intros Hl. destruct x as [d mu]. rewrite EA_in by auto. unfold edge. cbn [fst snd]. split.
  - intros [(-> & H1 & H2)|(-> & -> & H1 & H2 & H3)].
    + pose proof (intl_wbox _ _ Hl H1). split; [|auto]. split; auto. split; [|lia].
      apply il_0; auto.
    + pose proof (qint_wbox _ _ Hl H1 H2). split; [|auto]. split; auto. split; [|lia].
      apply il_1; auto.
  - intros [(H1 & H2 & H3) H4].
    pose proof (edge_d01 m k Hm Hk _ _ _ Hl H1 H2) as [Hd|Hd].
    + assert (d = 0%nat) by lia. subst d. left. split; auto. split; [|lia]. apply il_0; auto.
    + assert (d = 1%nat) by lia. subst d. right. destruct H4 as [->|H4]; [|lia].
      split; auto. split; auto. apply il_1 in H2; auto. repeat split; try tauto. lia.
Qed.

(** ** The Pieri operators as sums over edges *)

Definition gA : gr := mkGr TA k (m + k).
Definition piA (qq : bool) : Z -> list Z -> res poly := if qq then qpieri_fun gA else pieri_fun gA.

Lemma piA_enum (qq : bool) i lam : in_box m k lam -> (if qq then 1 <= i <= k else 0 <= i) ->
  exists p, piA qq i lam = Ok p /\ peq p (msum (map qterm (EA m k qq i (padm m lam)))).
Proof.
  intros Hb Hi. pose proof (in_box_wbox _ _ _ Hb) as Hw.
  assert (Hc : part_clip (padm m lam) = lam) by (eapply clip_padm; eauto).
  destruct qq.
  - destruct (qpieriA_enum m k lam i Hm Hb Hi) as (E & p & H1 & H2 & H3 & H4).
    exists p. split; [exact H1|]. rewrite H2. apply coef_msum_perm, Permutation_map.
    apply NoDup_Permutation; auto using EA_nodup. intros [d mu]. rewrite H4, EA_in by auto.
    rewrite Hc, !zsum_padm. intuition.
  - destruct (pieriA_enum m k lam i Hm Hb Hi) as (E & p & H1 & H2 & H3 & H4).
    exists p. split; [exact H1|]. rewrite H2.
    transitivity (msum (map qterm (map (fun mu => (0%nat, mu)) E))).
    { rewrite map_map. apply msum_map_perm. intros x _. apply Permutation_refl. }
    apply coef_msum_perm, Permutation_map.
    apply NoDup_Permutation; auto using EA_nodup.
    + apply FinFun.Injective_map_NoDup; auto. intros a b Eq. inversion Eq; auto.
    + intros [d mu]. rewrite EA_in by auto. rewrite in_map_iff, Hc, !zsum_padm. split.
      * intros (x & Eq & Hx). inversion Eq; subst. apply H4 in Hx. left. tauto.
      * intros [(-> & Ha & Hb')|(? & _)]; [|discriminate]. exists mu. split; auto. apply H4. auto.
Qed.

Lemma P_enum (qq : bool) i lam : in_box m k lam -> (if qq then 1 <= i <= k else 0 <= i) ->
  peq (P (piA qq) i lam) (msum (map qterm (EA m k qq i (padm m lam)))).
Proof.
  intros Hb Hi. destruct (piA_enum qq i lam Hb Hi) as (p & E & H).
  unfold P. rewrite E. auto.
Qed.

Definition IA (i : Z) : Prop := 1 <= i <= k.
(** the indices for which the Pieri rule is meaningful *)
Definition dom (qq : bool) (i : Z) : Prop := if qq then 1 <= i <= k else 0 <= i.
Lemma IA_dom qq i : IA i -> dom qq i.
Proof. unfold IA, dom. destruct qq; lia. Qed.

Lemma EA_wbox qq i lam x : wbox m k lam -> In x (EA m k qq i lam) -> wbox m k (snd x).
Proof. intros H Hx. apply EA_edge in Hx; auto. apply Hx. Qed.

Lemma qS_app d mu e : Permutation (qS d mu ++ repeat VQ e) (qS (d + e) mu).
Proof. unfold qS. rewrite repeat_app. apply Permutation_refl. Qed.

(** [ext j] on a sum of terms *)
Lemma ext_terms qq j E : dom qq j -> (forall x, In x E -> wbox m k (snd x)) ->
  peq (ext (piA qq) j (msum (map qterm E)))
      (msum (flat_map (fun x => map (fun y => qterm ((fst x + fst y)%nat, snd y)) (EA m k qq j (snd x))) E)).
Proof.
  intros Hj HE. unfold ext. rewrite psubst_msum.
  induction E as [|x E IH]; [reflexivity|]. cbn [map flat_map psum fold_right].
  change (fold_right padd pzero (map (msubst (sigma (piA qq) j)) (map qterm E)))
    with (psum (map (msubst (sigma (piA qq) j)) (map qterm E))).
  rewrite IH by (intros; apply HE; simpl; auto). rewrite msum_app.
  assert (Hx : wbox m k (snd x)) by (apply HE; simpl; auto).
  match goal with |- peq (padd ?a ?b) (padd ?c ?b) => assert (Ea : peq a c) end; [|rewrite Ea; reflexivity].
  destruct x as [d mu]. cbn [fst snd] in *. unfold qterm at 1, qS. cbn [fst snd msubst].
  change (msubst (sigma (piA qq) j) (vS (part_clip mu) :: repeat VQ d))
    with (pmul (sigma (piA qq) j (vS (part_clip mu))) (msubst (sigma (piA qq) j) (repeat VQ d))).
  rewrite (msubst_q (piA qq) (eq VQ) eqVQ_isqv j (repeat VQ d)).
  2: { clear. induction d; simpl; constructor; auto. }
  cbn [vS sigma].
  rewrite P_enum; [|apply wbox_in_box; auto | exact Hj].
  rewrite (wbox_padm_clip m k) by auto.
  rewrite pmul_comm, pmul_pmono_msum, map_map. apply msum_map_perm.
  intros [e nu] _. unfold qterm. cbn [fst snd].
  eapply perm_trans; [apply Permutation_app_comm|].
  eapply perm_trans; [apply qS_app|]. rewrite Nat.add_comm. apply Permutation_refl.
Qed.

Lemma qterm_linm x : wbox m k (snd x) -> linm (in_box m k) (eq VQ) (qterm x).
Proof.
  intros H. exists (part_clip (snd x)), (repeat VQ (fst x)).
  split; [apply wbox_in_box; auto|]. split; [apply Permutation_refl|].
  clear. induction (fst x); simpl; constructor; auto.
Qed.

Lemma msum_supp R (l : list mono) : minv R -> (forall x, In x l -> R x) -> supp R (msum l).
Proof.
  intros HR H. apply rawsupp_supp; auto. intros a c Ha. unfold msum in Ha.
  apply in_map_iff in Ha. destruct Ha as (x & E & Hx). inversion E; subst. auto.
Qed.

Lemma msum_terms_supp (R : mono -> Prop) (E : list (nat * list Z)) : minv R ->
  (forall x, In x E -> R (qterm x)) -> supp R (msum (map qterm E)).
Proof.
  intros HR H. apply msum_supp; auto. intros x Hx. apply in_map_iff in Hx.
  destruct Hx as (y & <- & Hy). auto.
Qed.

Lemma flat_paths qq i j lam :
  flat_map (fun x => map (fun y => qterm ((fst x + fst y)%nat, snd y)) (EA m k qq j (snd x))) (EA m k qq i lam)
  = map qterm (map pend (paths (EA m k qq) i j lam)).
Proof.
  unfold paths. induction (EA m k qq i lam) as [|x E IH]; [reflexivity|].
  cbn [flat_map]. rewrite !map_app, IH. f_equal. rewrite !map_map. reflexivity.
Qed.

Lemma P_comm qq i j l : dom qq i -> dom qq j -> in_box m k l ->
  peq (ext (piA qq) j (P (piA qq) i l)) (ext (piA qq) i (P (piA qq) j l)).
Proof.
  intros Hi Hj Hl. pose proof (in_box_wbox _ _ _ Hl) as Hw.
  rewrite (P_enum qq i l Hl Hi), (P_enum qq j l Hl Hj).
  rewrite !ext_terms; auto; try (intros x Hx; eapply EA_wbox; eauto).
  rewrite !flat_paths. apply coef_msum_perm, Permutation_map.
  apply (paths_comm m k Hm Hk qq (EA m k qq) (dom qq)); auto.
  - intros. apply EA_nodup.
  - intros. apply EA_edge; auto.
Qed.

(** *** the measure of the Giambelli recursion *)
Definition muA (l : list Z) : nat := Z.to_nat (zsum l * (k + 1) + (k - hd 0 l)).

Lemma in_box_cons x t : in_box m k (x :: t) -> 1 <= x <= k /\ in_box (m - 1) x t /\ in_box m k t.
Proof.
  intros ((H1 & H2) & H3 & H4). unfold part in *. simpl in *.
  pose proof (H1 0%nat ltac:(lia)). simpl in *. split; [lia|].
  assert (Ht : is_partition t).
  { split.
    - intros j Hj. apply (H1 (S j)). simpl. lia.
    - intros j. apply (H2 (S j)). }
  pose proof (H2 0%nat) as H0. simpl in H0. unfold in_box, part. repeat split; try lia; try apply Ht.
Qed.

Lemma in_box_sum_nonneg a b l : in_box a b l -> 0 <= zsum l.
Proof.
  intros H. apply zsum_nonneg. eapply Forall_impl; [|eapply in_box_full_pos; eauto]. simpl. intros; lia.
Qed.

Lemma hd_part l : hd 0 l = part l 0.
Proof. destruct l; auto. Qed.

Lemma decp_hd prev l : 0 <= prev -> decp prev l -> 0 <= hd 0 l <= prev.
Proof. destruct l; simpl; lia. Qed.

Lemma zsum_bound prev l : decp prev l -> 0 <= zsum l <= prev * zlen l.
Proof.
  revert prev. induction l as [|x l IH]; intros prev H.
  - unfold zlen. simpl. lia.
  - simpl in H. destruct H as [H1 H2]. specialize (IH x H2). rewrite zlen_cons. simpl zsum.
    pose proof (zlen_nonneg l). change (fold_right Z.add 0 l) with (zsum l). nia.
Qed.

(** a shape with the same size as [p0 :: t] reached from [t] has first part at least
    [p0], with equality only for [p0 :: t] *)
Lemma intl_first p0 t mu : intl k (t ++ [0]) mu -> zsum mu = p0 + zsum t ->
  p0 <= hd 0 mu /\ (hd 0 mu = p0 -> mu = p0 :: t).
Proof.
  assert (G : forall t o mu, intl o (t ++ [0]) mu -> zsum mu <= hd 0 mu + zsum t /\
            (zsum mu = hd 0 mu + zsum t -> mu = hd 0 mu :: t)).
  { induction t0 as [|x t' IH]; intros o [|y mu']; simpl; try tauto.
    - destruct mu'; simpl; try tauto. intros _. split; [lia|]. auto.
    - intros [H1 H2]. destruct (IH x mu' H2) as [A B].
      destruct mu' as [|z mu'']; [destruct t'; simpl in H2; tauto|].
      simpl hd in *. assert (Hz : z <= x).
      { destruct t'; simpl in H2; lia. }
      change (fold_right Z.add 0 ?l) with (zsum l) in *.
      change (zsum (x :: t')) with (x + zsum t').
      split; [lia|]. intros E. f_equal. assert (E' : z = x) by lia. subst z. apply B. lia. }
  intros H E. destruct (G t k mu H) as [A B]. split; [lia|]. intros Eh. rewrite Eh in B. apply B. lia.
Qed.

Lemma intl_app0 o t c mu : intl o (t ++ repz 0 c) mu -> 1 <= c -> decp o t ->
  intl o (t ++ [0]) (firstn (S (length t)) mu) /\ Forall (fun x => x = 0) (skipn (S (length t)) mu).
Proof.
  intros H Hc Hd. replace c with (c - 1 + 1) in H by lia. rewrite repz_succ in H by lia.
  revert o mu H Hd. induction t as [|x t IH]; intros o [|y mu] H Hd; try (simpl in H; tauto).
  - destruct H as [H1 H2]. simpl firstn. simpl skipn. split; [simpl; auto|].
    clear -H2. unfold repz in H2. revert mu H2. induction (Z.to_nat (c - 1)); intros [|z mu] H; simpl in H; try tauto.
    + constructor.
    + destruct H as [Ha Hb]. assert (z = 0) by lia. subst. constructor; auto.
  - simpl app in *. destruct H as [H1 H2]. destruct Hd as [H3 H4].
    destruct (IH x mu H2 H4) as [A B]. simpl length. rewrite firstn_cons, skipn_cons.
    split; auto. split; auto.
Qed.

Lemma zsum_all0 l : Forall (fun x => x = 0) l -> zsum l = 0.
Proof. induction 1; simpl; subst; auto. Qed.
Lemma all0_repz l : Forall (fun x => x = 0) l -> l = repz 0 (zlen l).
Proof.
  induction 1; auto. subst. rewrite zlen_cons, repz_succ by apply zlen_nonneg. f_equal. auto.
Qed.

Lemma padm_first p0 t mu : in_box m k (p0 :: t) ->
  intl k (padm m t) mu -> zsum mu = p0 + zsum t -> p0 <= hd 0 mu /\ (hd 0 mu = p0 -> mu = padm m (p0 :: t)).
Proof.
  intros Hb H E. destruct (in_box_cons _ _ Hb) as (H1 & H2 & H3).
  assert (Hl : zlen t + 1 <= m) by (destruct Hb as (_ & Hb & _); unfold zlen; simpl in Hb; lia).
  unfold padm in H.
  destruct (intl_app0 _ _ _ _ H ltac:(lia) (in_box_decp _ _ _ H3)) as [A B].
  assert (Ll : zlen mu = m).
  { rewrite (intl_pos_len _ _ _ H), zlen_app, zlen_repz by lia. lia. }
  pose proof (firstn_skipn (S (length t)) mu) as Es.
  assert (Z1 : zsum (firstn (S (length t)) mu) = p0 + zsum t).
  { rewrite <- E. rewrite <- Es at 2. rewrite zsum_app, (zsum_all0 _ B). lia. }
  destruct (intl_first p0 t _ A Z1) as [C D].
  assert (Eh : hd 0 (firstn (S (length t)) mu) = hd 0 mu) by (destruct mu; auto).
  rewrite Eh in *. split; auto. intros Ep. specialize (D Ep).
  rewrite <- Es, D. unfold padm. rewrite (all0_repz _ B). cbn [app]. do 3 f_equal.
  unfold zlen in *. rewrite skipn_length. simpl length. lia.
Qed.

Lemma gsel_A p0 t : in_box m k (p0 :: t) -> gsel k (p0 :: t) = Ok (p0, t).
Proof.
  intros Hb. unfold gsel.
  assert (Hlast : last (p0 :: t) 1 =? 0 = false).
  { pose proof (in_box_full_pos _ _ _ Hb) as Hp. rewrite Forall_forall in Hp.
    assert (In (last (p0 :: t) 1) (p0 :: t)).
    { assert (Hne : p0 :: t <> []) by discriminate. revert Hne. clear. generalize (p0 :: t) as l.
      induction l as [|a l IH]; intros H; [congruence|]. destruct l; simpl; auto.
      right. apply IH. discriminate. }
    specialize (Hp _ H). lia. }
  rewrite Hlast, andb_false_r. cbn [bind hd]. rewrite sl_from_1. reflexivity.
Qed.

Lemma padm_inj a b : in_box m k a -> in_box m k b -> padm m a = padm m b -> a = b.
Proof. intros Ha Hb E. rewrite <- (clip_padm _ _ _ Ha), <- (clip_padm _ _ _ Hb), E. auto. Qed.

Lemma P_rec qq l : in_box m k l -> l <> [] ->
  exists p l0, gsel k l = Ok (p, l0) /\ IA p /\ below (in_box m k) muA l l0 /\
    supp (linm (below (in_box m k) muA l) (eq VQ)) (psub (P (piA qq) p l0) (pS l)).
Proof.
  intros Hb Hne. destruct l as [|p0 t]; [congruence|]. clear Hne.
  exists p0, t. split; [apply gsel_A; auto|].
  destruct (in_box_cons _ _ Hb) as (H1 & H2 & H3).
  pose proof (in_box_sum_nonneg _ _ _ H3) as Hs.
  split; [exact H1|]. split.
  { split; auto. unfold muA. simpl zsum. simpl hd. change (fold_right Z.add 0 t) with (zsum t).
    pose proof (decp_hd k t Hk (in_box_decp _ _ _ H3)). apply Z2Nat.inj_lt; nia. }
  pose proof (in_box_wbox _ _ _ H3) as Hw.
  assert (Hlen : zlen t + 1 <= m) by (destruct Hb as (_ & Hb' & _); unfold zlen; simpl in Hb'; lia).
  set (x0 := (0%nat, padm m (p0 :: t))).
  assert (Hin : In x0 (EA m k qq p0 (padm m t))).
  { apply EA_in; auto. left. split; auto. split.
    - apply (intl_strip m k); auto. intros j. pose proof (proj2 (proj1 Hb) j) as Hj. destruct j.
      + unfold part. simpl. destruct t; simpl; [lia|]. unfold part in Hj. simpl in Hj. lia.
      + split; [apply Z.le_refl|]. exact (proj2 (proj1 Hb) (S j)).
    - rewrite !zsum_padm. simpl. change (fold_right Z.add 0 t) with (zsum t). lia. }
  destruct (in_split _ _ Hin) as (E1 & E2 & Es).
  pose proof (EA_nodup m k qq p0 (padm m t)) as Hnd. rewrite Es in Hnd.
  apply NoDup_remove_2 in Hnd.
  eapply (supp_peq _ (msum (map qterm (E1 ++ E2)))).
  { rewrite (P_enum qq p0 t); auto; [|apply IA_dom; auto]. rewrite Es.
    rewrite !map_app, !msum_app. cbn [map]. rewrite msum_cons.
    assert (Ex : qterm x0 = [vS (p0 :: t)]).
    { unfold qterm, x0, qS. simpl. rewrite <- (clip_padm m k (p0 :: t)) at 2 by auto. reflexivity. }
    rewrite Ex. change (pmono [vS (p0 :: t)]) with (pS (p0 :: t)). ring. }
  apply msum_terms_supp; [apply linm_inv|]. intros [d mu] Hx.
  assert (Hx' : In (d, mu) (EA m k qq p0 (padm m t))).
  { rewrite Es. apply in_app_iff in Hx. apply in_app_iff. simpl. tauto. }
  assert (Hne : (d, mu) <> x0) by (intros Ex; rewrite Ex in Hx; auto).
  pose proof (EA_wbox _ _ _ _ Hw Hx') as Wmu. cbn [snd] in Wmu.
  exists (part_clip mu), (repeat VQ d). split; [|split; [apply Permutation_refl|]].
  2: { clear. induction d; simpl; constructor; auto. }
  split; [apply wbox_in_box; auto|].
  assert (Hh : 0 <= hd 0 (part_clip mu) <= k).
  { rewrite hd_part, part_clip_part. apply (part_nonneg_w m k); auto. }
  assert (Hs' : 0 <= zsum mu) by (apply (zsum_bound k); apply Wmu).
  unfold muA. rewrite zsum_clip. simpl zsum. simpl hd. change (fold_right Z.add 0 t) with (zsum t).
  apply EA_in in Hx'; auto. rewrite zsum_padm in Hx'.
  destruct Hx' as [(-> & Ha & Hc)|(_ & -> & Ha & Hc & Hd)].
  - destruct (padm_first p0 t mu Hb Ha ltac:(lia)) as [Hf1 Hf2].
    rewrite hd_part, part_clip_part, <- hd_part in *.
    assert (hd 0 mu <> p0) by (intros E; apply Hne; unfold x0; f_equal; auto).
    replace (zsum mu) with (p0 + zsum t) by lia. apply Z2Nat.inj_lt; nia.
  - apply Z2Nat.inj_lt; nia.
Qed.

Lemma muA_fuel l : in_box m k l -> (muA l < giam_fuel gA)%nat.
Proof.
  intros H. unfold muA, giam_fuel, gA. cbn [g_n g_k].
  pose proof (zsum_bound k l (in_box_decp _ _ _ H)) as Hs.
  pose proof (decp_hd k l Hk (in_box_decp _ _ _ H)) as Hh.
  assert (Hl : 0 <= zlen l <= m) by (destruct H as (_ & H & _); unfold zlen; lia).
  assert (zsum l <= k * m) by nia.
  apply Z2Nat.inj_lt; [nia|nia|].
  assert (zsum l * (k + 1) + (k - hd 0 l) <= (k * m + 1) * (k + 1)) by nia.
  assert ((k * m + 1) * (k + 1) < ((m + k + 2) * (m + k + k + 1) + 2) * (m + k + k + 3)); [|lia].
  assert (k * m + 1 <= (m + k + 2) * (m + k + k + 1) + 2) by nia.
  nia.
Qed.

Lemma sysA qq : pieri_sys TA (piA qq) (in_box m k) IA k muA (giam_fuel gA).
Proof.
  split.
  - intros i l Hi Hl. destruct (piA_enum qq i l Hl (IA_dom qq i Hi)) as (p & E & _).
    unfold P. rewrite E. auto.
  - intros i l Hi Hl. eapply supp_peq; [symmetry; apply (P_enum qq i l Hl (IA_dom qq i Hi))|].
    apply msum_terms_supp; [apply linm_inv|]. intros x Hx. apply qterm_linm.
    eapply EA_wbox; [|eauto]. apply in_box_wbox; auto.
  - apply in_box_nil; lia.
  - intros i [Hi _]. unfold sv, num2spec. destruct (0 <? i) eqn:E; [|lia]. reflexivity.
  - intros. apply P_comm; auto using IA_dom.
  - intros l Hl. eapply in_box_nonneg; eauto.
  - intros i [Hi _]. unfold num2spec. destruct (0 <? i) eqn:E; [|lia]. simpl. rewrite andb_true_r. lia.
  - apply P_rec.
  - apply muA_fuel.
Qed.

End RingA.

(** Gr(0, k): the point *)
Lemma sysA0 k qq : 0 <= k ->
  pieri_sys TA (piA 0 k qq) (in_box 0 k) (fun _ => False) k (fun _ => O) (giam_fuel (gA 0 k)).
Proof.
  intros Hk. split; try (intros; contradiction).
  - apply in_box_nil; lia.
  - intros l Hl. eapply in_box_nonneg; eauto.
  - intros l (_ & Hl & _) Hne. destruct l; [congruence|]. simpl in Hl. lia.
  - intros l _. unfold giam_fuel, gA. cbn [g_k g_n]. nia.
Qed.
