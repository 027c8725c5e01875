(** The facts about type A behind the properties C01-C11, stated for the
    functions of the library. *)

From Coq Require Import ZArith List Lia Bool Permutation QArith Qcanon Setoid Morphisms.
From Verif Require Import Py OrderFacts PyFacts ModelPart ModelQcalc ModelPoly ModelStr ModelGr Spec
  PolyFacts SuppFacts OpTheory Enum FillFacts PartFacts PieriA QPieriA CylA Sys Sys2 RingA.
Import ListNotations.
Open Scope Z_scope.

Lemma gr_inv m n g : Grassmannian m n = Ok g -> 0 <= m /\ 0 <= n - m /\ g = gA m (n - m).
Proof.
  unfold Grassmannian, gA. destruct ((m <? 0) || (n <? 0)) eqn:E1; [discriminate|].
  destruct (n <? m) eqn:E2; [discriminate|]. intros E. inversion E; subst.
  split; [lia|]. split; [lia|]. f_equal. lia.
Qed.

(** ** Sums *)

Lemma msum_is_sum m k (E : list (nat * list Z)) p (R : nat -> list Z -> Prop) :
  0 <= k -> peq p (msum (map qterm E)) -> NoDup E -> (forall x, In x E -> wbox m k (snd x)) ->
  (forall d mu, R d mu <-> in_box m k mu /\ In (d, padm m mu) E) -> 
  is_sum_of p R.
Proof.
  intros Hk Hp Hn Hw HR.
  assert (Hinj : forall x y, In x E -> In y E -> Permutation (qterm x) (qterm y) -> x = y).
  { intros [d x] [e y] Hx Hy Hxy. unfold qterm in Hxy. cbn [fst snd] in Hxy.
    apply qS_inj in Hxy. destruct Hxy as [<- Hc]. f_equal.
    apply part_clip_inj; auto. pose proof (Hw _ Hx) as [_ ?]. pose proof (Hw _ Hy) as [_ ?].
    cbn [snd] in *. congruence. }
  split.
  - intros d mu H. apply HR in H. destruct H as [Hb Hin]. rewrite (Hp (qS d mu)).
    assert (Eq : qS d mu = qterm (d, padm m mu)).
    { unfold qterm. cbn [fst snd]. rewrite (clip_padm m k); auto. }
    rewrite Eq. apply coef_msum_in.
    + intros m' Hm' HP. apply in_map_iff in Hm'. destruct Hm' as (x & <- & Hx). f_equal.
      apply Hinj; auto.
    + clear -Hn Hinj. induction E as [|x E IH]; simpl; constructor; inversion Hn; subst.
      * intros Hin. apply in_map_iff in Hin. destruct Hin as (y & Ey & Hy).
        rewrite (Hinj y x) in Hy; simpl; auto. rewrite Ey. auto.
      * apply IH; auto. intros a b Ha Hb. apply Hinj; simpl; auto.
    + apply in_map; auto.
  - intros mo Hmo. rewrite (Hp mo) in Hmo.
    destruct (existsb (fun x => mono_eqb (qterm x) mo) E) eqn:Ex.
    + apply existsb_exists in Ex. destruct Ex as ([d x] & Hin & Heq).
      apply mono_eqb_perm in Heq. exists d, (part_clip x).
      pose proof (Hw _ Hin) as Hwx. cbn [snd] in Hwx.
      split; [|apply Permutation_sym; exact Heq].
      apply HR. rewrite (wbox_padm_clip m k) by auto. split; auto. apply wbox_in_box; auto.
    + exfalso. apply Hmo. apply coef_msum_notin. intros m' Hm' HP.
      apply in_map_iff in Hm'. destruct Hm' as (x & <- & Hx).
      assert (existsb (fun x => mono_eqb (qterm x) mo) E = true); [|congruence].
      apply existsb_exists. exists x. split; auto. apply mono_eqb_perm; auto.
Qed.

Definition pair_dec (a b : nat * list Z) : {a = b} + {a <> b}.
Proof. decide equality; [apply (list_eq_dec Z.eq_dec) | apply Nat.eq_dec]. Defined.

Lemma delta_sum (E : list (nat * list Z)) (f : nat * list Z -> Qc) x0 : NoDup E ->
  (forall x, In x E -> f x = if pair_dec x x0 then 1%Qc else 0%Qc) ->
  fold_right (fun x y => (f x + y)%Qc) 0%Qc E = if in_dec pair_dec x0 E then 1%Qc else 0%Qc.
Proof.
  induction 1 as [|x E Hx Hn IH]; intros Hf; [reflexivity|].
  cbn [fold_right]. rewrite IH by (intros; apply Hf; simpl; auto). rewrite (Hf x) by (simpl; auto).
  destruct (in_dec pair_dec x0 (x :: E)) as [Hi|Hi], (in_dec pair_dec x0 E) as [Hj|Hj],
    (pair_dec x x0) as [Ex|Ex]; subst; simpl in *; try ring; exfalso; tauto.
Qed.

Lemma map_fold {A} (g : A -> mono) (f : mono -> Qc) (l : list A) :
  fold_right (fun x y => (f x + y)%Qc) 0%Qc (map g l) = fold_right (fun x y => (f (g x) + y)%Qc) 0%Qc l.
Proof. induction l; simpl; auto. rewrite IHl. auto. Qed.

Section A.
Variables m k : Z.
Hypothesis Hm : 1 <= m.
Hypothesis Hk : 0 <= k.
Notation V := (in_box m k).
Notation g := (gA m k).
Notation lq := (supp (linm V (eq VQ))).

(** ** Pieri *)

Lemma on_class (f : list Z -> res poly) lam x : f lam = Ok x ->
  exists p, apply_lc (on_part f) (pS lam) = Ok p /\ peq p x.
Proof.
  intros E. destruct (apply_lc_ok (on_part f) (fun v => match v with VS (SP l) => x | _ => pvar v end) (pS lam))
    as (r & H1 & H2).
  - intros a c v Hin Hv. apply pnorm_in in Hin. destruct Hin as (m' & c' & [H|[]] & HP).
    inversion H; subst. apply Permutation_sym, Permutation_length_1_inv in HP. subst.
    destruct Hv as [<-|[]]. exists x. simpl. split; [auto|reflexivity].
  - exists r. split; auto. rewrite H2. unfold pS. rewrite psubst_pvar. reflexivity.
Qed.

Lemma pieriA_sum i lam : V lam -> 0 <= i ->
  exists p, pieri g i (pS lam) = Ok p /\
    is_sum_of p (fun d mu => d = O /\ V mu /\ adds_horizontal_strip lam mu /\ size mu = size lam + i).
Proof.
  intros Hl Hi. destruct (piA_enum m k Hm Hk false i lam Hl Hi) as (x & Hx & Ex).
  destruct (on_class (pieri_fun g i) lam x Hx) as (p & Hp & Ep). exists p. split; [exact Hp|].
  pose proof (in_box_wbox _ _ _ Hl) as Hw.
  eapply (msum_is_sum m k); auto.
  - rewrite Ep, Ex. reflexivity.
  - apply EA_nodup.
  - intros y Hy. eapply EA_wbox; eauto.
  - intros d mu. rewrite EA_in by auto. rewrite !size_zsum. split.
    + intros (-> & H1 & H2 & H3). split; auto. left. split; auto. rewrite (intl_strip m k); auto.
      rewrite !zsum_padm. split; auto.
    + intros (H1 & [(-> & H2 & H3)|(? & _)]); [|discriminate].
      rewrite (intl_strip m k) in H2 by auto. rewrite !zsum_padm in H3. auto.
Qed.

Lemma qint_bertram lam mu : V lam -> V mu ->
  ((zlen lam = m /\ qint lam (padm m mu)) <-> bertram m lam mu).
Proof.
  intros Hl Hmu. pose proof (in_box_wbox _ _ _ Hmu) as [_ Lm]. unfold bertram. split.
  - intros [H1 H2]. rewrite (qint_part m Hm) in H2 by auto. destruct H2 as (_ & A & B & C).
    split; intros j Hj; [specialize (A j Hj)|specialize (B j Hj)]; rewrite part_padm in *; auto.
  - intros [A B].
    assert (Hz : zlen lam = m).
    { assert (Hp : 0 < part lam (Z.to_nat (m - 1))).
      { specialize (A (Z.to_nat (m - 1)) ltac:(lia)).
        pose proof (is_partition_nonneg mu (Z.to_nat (m - 1)) (proj1 Hmu)). lia. }
      pose proof (clip_full m k (padm m lam) (in_box_wbox _ _ _ Hl)) as Hc.
      rewrite part_padm, (clip_padm m k) in Hc by auto. auto. }
    split; auto. apply (qint_part m Hm); auto. split; auto. repeat split.
    + intros j Hj. rewrite part_padm. auto.
    + intros j Hj. rewrite part_padm. auto.
    + rewrite part_padm. apply is_partition_nonneg, Hmu.
Qed.

Lemma qpieriA_sum i lam : V lam -> 1 <= i <= k ->
  exists p, qpieri g i (pS lam) = Ok p /\
    is_sum_of p (fun d mu => V mu /\
      ((d = 0%nat /\ adds_horizontal_strip lam mu /\ size mu = size lam + i) \/
       (d = 1%nat /\ bertram m lam mu /\ size mu + (m + k) = size lam + i))).
Proof.
  intros Hl Hi. destruct (piA_enum m k Hm Hk true i lam Hl Hi) as (x & Hx & Ex).
  destruct (on_class (qpieri_fun g i) lam x Hx) as (p & Hp & Ep). exists p. split; [exact Hp|].
  pose proof (in_box_wbox _ _ _ Hl) as Hw.
  eapply (msum_is_sum m k); auto.
  - rewrite Ep, Ex. reflexivity.
  - apply EA_nodup.
  - intros y Hy. eapply EA_wbox; eauto.
  - intros d mu. rewrite EA_in by auto. rewrite (size_zsum mu), (size_zsum lam), (clip_padm m k), !zsum_padm by auto. split.
    + intros (H1 & [(-> & H2 & H3)|(-> & H2 & H3)]); split; auto.
      * left. split; auto. split; auto. rewrite (intl_strip m k); auto.
      * right. apply qint_bertram in H2; auto. repeat split; try tauto. lia.
    + intros (H1 & [(-> & H2 & H3)|(_ & -> & H2 & H3 & H4)]); split; auto.
      * left. split; auto. split; auto. rewrite (intl_strip m k) in H2; auto.
      * right. split; auto. split; [apply qint_bertram; auto | lia].
Qed.

(** ** Linear extension and commutation *)

Lemma pi_lc qq i p : dom k qq i -> lq p ->
  exists r, apply_lc (on_part (piA m k qq i)) p = Ok r /\ peq r (ext (piA m k qq) i p).
Proof.
  intros Hi Hp. apply apply_lc_ok. intros a c v Hin Hv.
  apply supp_rawnorm in Hp. destruct (Hp a c Hin) as (x & qm & Hx & HP & HQ).
  apply (Permutation_in _ HP) in Hv. destruct Hv as [<-|Hv].
  - destruct (piA_enum m k Hm Hk qq i x Hx Hi) as (y & Ey & _).
    exists y. split; [exact Ey|]. simpl. unfold P. rewrite Ey. reflexivity.
  - rewrite Forall_forall in HQ. rewrite <- (HQ v Hv). exists (pvar VQ). split; reflexivity.
Qed.

Lemma P_lin qq i l : dom k qq i -> V l -> lq (P (piA m k qq) i l).
Proof.
  intros Hi Hl. eapply supp_peq; [symmetry; apply (P_enum m k Hm Hk qq i l Hl Hi)|].
  apply msum_terms_supp; [apply linm_inv|]. intros x Hx. apply qterm_linm; auto.
  eapply EA_wbox; [auto|auto| |eauto]. apply in_box_wbox; auto.
Qed.

Lemma pi_comm qq i j p : dom k qq i -> dom k qq j -> lq p ->
  exists x y x' y', apply_lc (on_part (piA m k qq i)) p = Ok x /\ apply_lc (on_part (piA m k qq j)) x = Ok y /\
    apply_lc (on_part (piA m k qq j)) p = Ok x' /\ apply_lc (on_part (piA m k qq i)) x' = Ok y' /\ peq y y'.
Proof.
  intros Hi Hj Hp.
  assert (HL : forall i p, dom k qq i -> lq p -> lq (ext (piA m k qq) i p)).
  { intros i' p' Hi' Hp'. eapply (ext_lin (piA m k qq) V (dom k qq) (eq VQ) eqVQ_isqv); eauto.
    intros. apply P_lin; auto. }
  destruct (pi_lc qq i p Hi Hp) as (x & X1 & X2).
  assert (Lx : lq x) by (eapply supp_peq; [symmetry; exact X2|]; auto).
  destruct (pi_lc qq j x Hj Lx) as (y & Y1 & Y2).
  destruct (pi_lc qq j p Hj Hp) as (x' & X1' & X2').
  assert (Lx' : lq x') by (eapply supp_peq; [symmetry; exact X2'|]; auto).
  destruct (pi_lc qq i x' Hi Lx') as (y' & Y1' & Y2').
  exists x, y, x', y'. repeat (split; [assumption|]).
  rewrite Y2, Y2', X2, X2'. 
  eapply (ext_comm (piA m k qq) V (dom k qq) (eq VQ) eqVQ_isqv); eauto.
  intros. apply P_comm; auto.
Qed.

(** ** Degrees *)

Lemma P_int qq i l : dom k qq i -> V l -> intp (P (piA m k qq) i l).
Proof.
  intros Hi Hl. eapply intp_peq; [symmetry; apply (P_enum m k Hm Hk qq i l Hl Hi)|].
  apply rawint_intp. intros a c Ha. unfold msum in Ha. apply in_map_iff in Ha.
  destruct Ha as (x & E & _). inversion E; subst. apply isint_1.
Qed.

Lemma P_deg qq i l : dom k qq i -> V l ->
  supp (fun mo => exists e x, Permutation mo (qS e x) /\ size x + Z.of_nat e * (m + k) = size l + Z.abs i)
    (P (piA m k qq) i l).
Proof.
  intros Hi Hl. eapply supp_peq; [symmetry; apply (P_enum m k Hm Hk qq i l Hl Hi)|].
  assert (Hi0 : 0 <= i) by (destruct qq; simpl in Hi; lia).
  apply msum_terms_supp.
  - intros a b Hab (e & x & H1 & H2). exists e, x. split; auto.
    eapply perm_trans; [apply Permutation_sym|]; eauto.
  - intros [e x] Hx. exists e, (part_clip x). split; [apply Permutation_refl|].
    rewrite (size_zsum (part_clip x)), (size_zsum l), zsum_clip. pose proof (in_box_wbox _ _ _ Hl) as Hw.
    apply EA_in in Hx; auto. rewrite zsum_padm in Hx.
    destruct Hx as [(-> & _ & H1)|(_ & -> & _ & _ & H1)]; lia.
Qed.

Lemma gsel_deg l p l0 : V l -> gsel k l = Ok (p, l0) -> size l = size l0 + Z.abs p.
Proof.
  intros Hl. destruct l as [|p0 t].
  - unfold gsel. change (last [] 1 =? 0) with false. rewrite andb_false_r.
    change (sl_from [] 1) with (@nil Z). cbn [bind hd]. intros E. inversion E; subst. reflexivity.
  - rewrite (gsel_A m k); auto. intros E. inversion E; subst.
    destruct (in_box_cons m k _ _ Hl) as (H1 & _). simpl. change (fold_right Z.add 0 l0) with (size l0). lia.
Qed.

Definition MA (qq : bool) := M TA (piA m k qq) k (giam_fuel g).

Lemma M_hom qq lam mu : V lam -> V mu ->
  supp (hom size (m + k) V (size lam + size mu)) (MA qq (pS lam) (pS mu)) /\
  intp (MA qq (pS lam) (pS mu)).
Proof.
  intros Hl Hmu. apply (sys_hom (sysA m k Hm Hk qq) size (m + k)); auto.
  - apply gsel_deg.
  - intros. apply P_int; auto using IA_dom.
  - intros. apply P_deg; auto using IA_dom.
  - apply supp_pvar; [apply hom_inv|]. exists O, mu. split; [apply Permutation_refl|]. split; auto. lia.
  - apply intp_pvar.
Qed.

(** ** q = 0 *)

Lemma P_q0 i l : IA k i -> V l -> peq (psubst z0 (P (piA m k true) i l)) (P (piA m k false) i l).
Proof.
  intros Hi Hl. rewrite (P_enum m k Hm Hk true i l Hl Hi).
  rewrite (P_enum m k Hm Hk false i l Hl (IA_dom k false i Hi)).
  rewrite psubst_msum. unfold EA. rewrite app_nil_r, !map_app.
  assert (E1 : forall L, peq (psum (map (msubst z0) (map qterm (map (fun mu => (0%nat, mu)) L))))
                  (msum (map qterm (map (fun mu => (0%nat, mu)) L)))).
  { induction L as [|x L IH]; [reflexivity|]. cbn [map]. rewrite msum_cons. simpl psum.
    change (fold_right padd pzero ?l) with (psum l). rewrite IH.
    assert (E2 : peq (msubst z0 (qterm (0%nat, x))) (pmono (qterm (0%nat, x)))).
    { apply msubst_z0_notin. intros [E|[]]. discriminate. }
    rewrite E2. reflexivity. }
  assert (E3 : forall L, peq (psum (map (msubst z0) (map qterm (map (fun mu => (1%nat, mu)) L)))) pzero).
  { induction L as [|x L IH]; [reflexivity|]. cbn [map]. simpl psum.
    change (fold_right padd pzero ?l) with (psum l). rewrite IH.
    assert (E2 : peq (msubst z0 (qterm (1%nat, x))) pzero).
    { apply msubst_z0_in. simpl. auto. }
    rewrite E2. reflexivity. }
  assert (Ea : forall a b, peq (psum (a ++ b)) (padd (psum a) (psum b))).
  { induction a as [|x a IH]; intros b; simpl; [symmetry; apply padd_0_l|].
    change (fold_right padd pzero ?l) with (psum l) in *. rewrite IH. ring. }
  rewrite Ea, E1, E3. ring.
Qed.

Lemma M_q0 a b : lq a -> lq b -> peq (psubst z0 (MA true a b)) (MA false (psubst z0 a) (psubst z0 b)).
Proof. apply (sys_q0 (sysA m k Hm Hk true) (sysA m k Hm Hk false)). apply P_q0. Qed.

(** ** Duality *)

Definition cw (w : list Z) : list Z := rev (map (fun x => k - x) w).
Definition dualA (l : list Z) : list Z := part_clip (cw (padm m l)).

Lemma cw_cw w : cw (cw w) = w.
Proof.
  unfold cw. rewrite map_rev, rev_involutive, map_map.
  rewrite <- (map_id w) at 2. apply map_ext. intros; lia.
Qed.
Lemma zlen_cw w : zlen (cw w) = zlen w.
Proof. unfold cw, zlen. rewrite rev_length, map_length. auto. Qed.

Lemma part_cw w j : (j < length w)%nat -> part (cw w) j = k - part w (length w - 1 - j).
Proof.
  intros Hj. unfold part, cw. rewrite rev_nth by (rewrite map_length; auto). rewrite map_length.
  rewrite (nth_indep _ 0 ((fun x => k - x) 0)) by (rewrite map_length; lia).
  rewrite (map_nth (fun x => k - x)). do 2 f_equal. lia.
Qed.

Lemma zsum_cw w : zsum (cw w) = k * zlen w - zsum w.
Proof.
  unfold cw. assert (Er : forall l, zsum (rev l) = zsum l).
  { induction l as [|x l IH]; auto. simpl rev. rewrite zsum_app, IH. simpl.
    change (fold_right Z.add 0 l) with (zsum l). lia. }
  rewrite Er. induction w as [|x w IH]; [unfold zlen; simpl; lia|]. rewrite zlen_cons. simpl.
  change (fold_right Z.add 0 ?l) with (zsum l). rewrite IH. lia.
Qed.

Lemma wbox_part w : wbox m k w <-> zlen w = m /\
  (forall j, (j < length w)%nat -> 0 <= part w j <= k) /\
  (forall j, (S j < length w)%nat -> part w (S j) <= part w j).
Proof.
  split.
  - intros H. split; [apply H|]. split; [intros; apply (part_nonneg_w m k); auto|].
    destruct H as [H _]. apply decp_part in H; auto. destruct H as (_ & B & _).
    intros j Hj. destruct (B j); auto. lia.
  - intros (H1 & H2 & H3). split; auto. apply decp_part; auto. repeat split.
    + intros j Hj. apply H2; auto.
    + intros j. destruct (Nat.lt_ge_cases (S j) (length w)); auto.
    + apply H2. unfold zlen in H1. lia.
Qed.

Lemma wbox_cw w : wbox m k w -> wbox m k (cw w).
Proof.
  rewrite !wbox_part. intros (H1 & H2 & H3).
  assert (Lc : length (cw w) = length w) by (unfold cw; rewrite rev_length, map_length; auto).
  split; [rewrite zlen_cw; auto|]. rewrite Lc. split.
  - intros j Hj. rewrite part_cw by auto. specialize (H2 (length w - 1 - j)%nat ltac:(lia)). lia.
  - intros j Hj. rewrite !part_cw by lia. specialize (H3 (length w - 1 - S j)%nat ltac:(lia)).
    replace (S (length w - 1 - S j)) with (length w - 1 - j)%nat in H3 by lia. lia.
Qed.

Lemma intl_cw a b : wbox m k a -> wbox m k b -> (intl k a b <-> intl k (cw b) (cw a)).
Proof.
  assert (G : forall a b, wbox m k a -> wbox m k b -> intl k a b -> intl k (cw b) (cw a)).
  { intros a' b' Ha Hb. rewrite !intl_part. intros (H1 & H2 & H3 & H4).
    assert (La : length (cw a') = length a') by (unfold cw; rewrite rev_length, map_length; auto).
    assert (Lb : length (cw b') = length b') by (unfold cw; rewrite rev_length, map_length; auto).
    rewrite La, Lb. repeat split.
    - auto.
    - intros j Hj. rewrite !part_cw by lia. rewrite H1 in *.
      specialize (H2 (length a' - 1 - j)%nat ltac:(lia)). lia.
    - intros j Hj. rewrite !part_cw by lia. rewrite H1 in *.
      specialize (H3 (length a' - 1 - S j)%nat ltac:(lia)).
      replace (S (length a' - 1 - S j)) with (length a' - 1 - j)%nat in H3 by lia. lia.
    - intros _. apply (part_nonneg_w m k); auto. apply wbox_cw; auto. }
  intros Ha Hb. split; [apply G; auto|]. intros H. apply G in H; auto using wbox_cw.
  rewrite !cw_cw in H. auto.
Qed.

Lemma dualA_box l : V l -> V (dualA l).
Proof. intros H. apply wbox_in_box; auto. apply wbox_cw, in_box_wbox; auto. Qed.
Lemma padm_dualA l : V l -> padm m (dualA l) = cw (padm m l).
Proof. intros H. apply (wbox_padm_clip m k). apply wbox_cw, in_box_wbox; auto. Qed.
Lemma dualA_dualA l : V l -> dualA (dualA l) = l.
Proof. intros H. unfold dualA at 1. rewrite padm_dualA, cw_cw by auto. apply (clip_padm m k); auto. Qed.

Lemma dualA_compl lam mu : V lam -> V mu -> (mu = dualA lam <-> complementary m k lam mu).
Proof.
  intros Hl Hmu. pose proof (in_box_wbox _ _ _ Hl) as Wl. pose proof (in_box_wbox _ _ _ Hmu) as Wm.
  assert (Ll : length (padm m lam) = Z.to_nat m) by (destruct Wl as [_ W]; unfold zlen in W; lia).
  assert (Lm : length (padm m mu) = Z.to_nat m) by (destruct Wm as [_ W]; unfold zlen in W; lia).
  unfold complementary. split.
  - intros E j Hj. rewrite <- (part_padm m lam j), <- (part_padm m mu), E, padm_dualA by auto.
    rewrite part_cw by lia. rewrite Ll.
    replace (Z.to_nat m - 1 - Z.to_nat (m - 1 - Z.of_nat j))%nat with j by lia. lia.
  - intros H. unfold dualA. rewrite <- (clip_padm m k mu) by auto. f_equal.
    assert (Lc : length (cw (padm m lam)) = Z.to_nat m) by (unfold cw; rewrite rev_length, map_length; auto).
    apply (nth_ext _ _ 0 0); [lia|]. intros j Hj.
    change (part (padm m mu) j = part (cw (padm m lam)) j). rewrite part_cw by lia. rewrite Ll, !part_padm.
    specialize (H (Z.to_nat m - 1 - j)%nat ltac:(lia)).
    replace (Z.to_nat (m - 1 - Z.of_nat (Z.to_nat m - 1 - j))) with j in H by lia. lia.
Qed.

Lemma phi_msum f (l : list mono) : phi f (msum l) = fold_right (fun x y => (f x + y)%Qc) 0%Qc l.
Proof. induction l as [|x l IH]; simpl; auto. rewrite <- IH. unfold msum. ring. Qed.

Lemma coef_pS_same l : coef (pS l) [vS l] = 1%Qc.
Proof. unfold pS, pvar. simpl. rewrite (proj2 (mono_eqb_perm [vS l] [vS l])) by auto. ring. Qed.
Lemma coef_pS_diff l l' : l <> l' -> coef (pS l) [vS l'] = 0%Qc.
Proof.
  intros Hne. destruct (Qc_eq_dec (coef (pS l) [vS l']) 0%Qc) as [E|E]; auto.
  apply coef_pvar_neq0 in E. inversion E; subst. congruence.
Qed.

Lemma adjA i l nu : IA k i -> V l -> V nu ->
  coef (P (piA m k false) i nu) [vS (dualA l)] = phi (pair_with dualA (pS nu)) (P (piA m k false) i l).
Proof.
  intros Hi Hl Hnu.
  pose proof (in_box_wbox _ _ _ Hl) as Wl. pose proof (in_box_wbox _ _ _ Hnu) as Wn.
  rewrite (P_enum m k Hm Hk false i nu Hnu (IA_dom k false i Hi) [vS (dualA l)]).
  rewrite (phi_peq _ _ _ (pair_inv dualA (pS nu)) (P_enum m k Hm Hk false i l Hl (IA_dom k false i Hi))).
  rewrite coef_phi, !phi_msum.
  set (A := EA m k false i (padm m nu)). set (B := EA m k false i (padm m l)).
  assert (HA : forall x, In x A -> fst x = 0%nat /\ wbox m k (snd x)).
  { intros [d x] Hx. split; [|exact (EA_wbox m k Hm Hk false i (padm m nu) _ Wn Hx)]. apply EA_in in Hx; auto.
    destruct Hx as [(-> & _)|(? & _)]; [auto|discriminate]. }
  assert (HB : forall x, In x B -> fst x = 0%nat /\ wbox m k (snd x)).
  { intros [d x] Hx. split; [|exact (EA_wbox m k Hm Hk false i (padm m l) _ Wl Hx)]. apply EA_in in Hx; auto.
    destruct Hx as [(-> & _)|(? & _)]; [auto|discriminate]. }
  assert (Iff : In (0%nat, cw (padm m l)) A <-> In (0%nat, cw (padm m nu)) B).
  { unfold A, B. rewrite !EA_in by auto. rewrite !zsum_cw, !zsum_padm.
    assert (Zl : zlen (padm m l) = m) by apply Wl. assert (Zn : zlen (padm m nu) = m) by apply Wn.
    rewrite Zl, Zn. rewrite (intl_cw (padm m l) (cw (padm m nu))), cw_cw by auto using wbox_cw.
    intuition (try discriminate); left; intuition lia. }
  assert (FA : forall x, In x A ->
     bq (mono_eqb (qterm x) [vS (dualA l)]) = if pair_dec x (0%nat, cw (padm m l)) then 1%Qc else 0%Qc).
  { intros [d x] Hx. destruct (HA _ Hx) as [Hd Hwx]. cbn [fst snd] in *. subst d.
    destruct (pair_dec _ _) as [E|E].
    - inversion E; subst. rewrite (proj2 (mono_eqb_perm _ _)); auto.
    - rewrite (proj2 (mono_eqb_false _ _)); auto. intros HP.
      apply Permutation_length_1_inv in HP. inversion HP as [Ec]. apply E. f_equal.
      apply part_clip_inj; auto. rewrite zlen_cw. destruct Wl as [_ ->]. apply Hwx. }
  assert (FB : forall x, In x B ->
     pair_with dualA (pS nu) (qterm x) = if pair_dec x (0%nat, cw (padm m nu)) then 1%Qc else 0%Qc).
  { intros [d x] Hx. destruct (HB _ Hx) as [Hd Hwx]. cbn [fst snd] in *. subst d.
    unfold pair_with, qterm, qS. cbn [fst snd repeat vS].
    assert (Ed : dualA (part_clip x) = part_clip (cw x)).
    { unfold dualA. rewrite (wbox_padm_clip m k); auto. }
    destruct (pair_dec _ _) as [E|E].
    - inversion E; subst. rewrite Ed, cw_cw, (clip_padm m k) by auto. apply coef_pS_same.
    - rewrite Ed. apply coef_pS_diff. intros Ec. apply E. f_equal.
      rewrite <- (cw_cw x). f_equal. apply part_clip_inj.
      + rewrite zlen_cw. destruct Wn as [_ ->]. apply Hwx.
      + rewrite (clip_padm m k); auto. }
  rewrite !map_fold, (delta_sum A _ _ (EA_nodup _ _ _ _ _) FA), (delta_sum B _ _ (EA_nodup _ _ _ _ _) FB).
  destruct (in_dec pair_dec _ A), (in_dec pair_dec _ B); tauto.
Qed.

Lemma complement_dec lam mu : {mu = dualA lam} + {mu <> dualA lam}.
Proof. apply (list_eq_dec Z.eq_dec). Qed.

Lemma dualA_nil : dualA [] = part_clip (repz k m).
Proof.
  unfold dualA, cw, padm. f_equal. cbn [app]. replace (m - zlen []) with m by (unfold zlen; simpl; lia).
  unfold repz. induction (Z.to_nat m) as [|n IHn]; auto. cbn [repeat map rev]. rewrite IHn, Z.sub_0_r.
  clear. induction n; simpl; auto. f_equal. auto.
Qed.

Lemma M_dual lam mu : V lam -> V mu ->
  coef (MA false (pS lam) (pS mu)) [vS (dualA [])] = if complement_dec lam mu then 1%Qc else 0%Qc.
Proof.
  intros Hl Hmu.
  transitivity (coef (pS mu) [vS (dualA lam)]).
  - apply (sys_dual (sysA m k Hm Hk false) dualA); auto.
    + intros. apply adjA; auto.
    + apply sys_lq_pS; auto.
  - destruct (complement_dec lam mu) as [->|E]; [apply coef_pS_same|]. apply coef_pS_diff; auto.
Qed.

End A.
