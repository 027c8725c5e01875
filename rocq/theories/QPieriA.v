(** The quantum Pieri rule of type A (grassmannian.py:149-166). *)

From Coq Require Import ZArith List Lia Bool Permutation QArith Qcanon Setoid Morphisms.
From Verif Require Import Py OrderFacts PyFacts ModelPart ModelQcalc ModelPoly ModelGr Spec
  PolyFacts SuppFacts Enum FillFacts PartFacts PieriA.
Import ListNotations.
Open Scope Z_scope.

Definition psum (l : list poly) : poly := fold_right padd pzero l.

Lemma psubst_msum s ms : peq (psubst s (msum ms)) (psum (map (msubst s) ms)).
Proof.
  induction ms as [|m ms IH]; simpl; [reflexivity|].
  rewrite IH, pscale_1. reflexivity.
Qed.

Lemma psum_ext l l' : Forall2 peq l l' -> peq (psum l) (psum l').
Proof. induction 1; simpl; [reflexivity|]. rewrite H, IHForall2. reflexivity. Qed.

Lemma psum_map_ext {A} (f g : A -> poly) l : (forall x, In x l -> peq (f x) (g x)) ->
  peq (psum (map f l)) (psum (map g l)).
Proof.
  induction l as [|x l IH]; simpl; intros H; [reflexivity|]. rewrite (H x), IH; auto. reflexivity.
Qed.

Lemma pmul_pmono_msum a ms : peq (pmul (pmono a) (msum ms)) (msum (map (app a) ms)).
Proof.
  induction ms as [|m ms IH]; simpl map.
  - change (msum []) with pzero. ring.
  - rewrite !msum_cons, <- IH, pmono_app. ring.
Qed.

Lemma msum_map_perm {A} (f g : A -> mono) l : (forall x, In x l -> Permutation (f x) (g x)) ->
  peq (msum (map f l)) (msum (map g l)).
Proof.
  induction l as [|x l IH]; simpl map; intros H; [reflexivity|].
  rewrite !msum_cons, IH by (intros; apply H; simpl; auto).
  rewrite (pmono_perm (f x) (g x)) by (apply H; simpl; auto). reflexivity.
Qed.

Definition lsub (F : list Z -> poly) (v : var) : poly :=
  match v with VS (SP l) => F l | _ => pvar v end.

Lemma apply_lc_sum (f : list Z -> res poly) (F : list Z -> poly) (y : poly) (ls : list (list Z)) :
  peq y (msum (map (fun l => [vS l]) ls)) ->
  (forall l, In l ls -> exists x, f l = Ok x /\ peq x (F l)) ->
  exists r, apply_lc (on_part f) y = Ok r /\ peq r (psum (map F ls)).
Proof.
  intros Hy Hf.
  destruct (apply_lc_ok (on_part f) (lsub F) y) as (r & Hr & Er).
  - intros m c v Hin Hv.
    assert (Hs : rawsupp (fun m => exists l, In l ls /\ m = [vS l]) (pnorm y)).
    { apply supp_rawnorm. eapply supp_peq; [symmetry; exact Hy|].
      apply rawsupp_supp.
      - intros a b Hp (l & Hl & ->). apply Permutation_length_1_inv in Hp. eauto.
      - intros a d Ha. unfold msum in Ha. rewrite map_map in Ha.
        apply in_map_iff in Ha. destruct Ha as (l & E & Hl). inversion E; subst. eauto. }
    destruct (Hs m c Hin) as (l & Hl & ->). destruct Hv as [<-|[]]. simpl. apply Hf; auto.
  - exists r. split; auto. rewrite Er, Hy, psubst_msum, map_map. apply psum_map_ext.
    intros l _. simpl. ring.
Qed.

(** the q-terms: interlacing with the shape shifted by one column and row *)
Definition qint (lam mu : list Z) : Prop :=
  match lam with
  | [] => False
  | x :: t => intl (x - 1) (map (fun y => y - 1) t ++ [0]) mu
  end.

Lemma clip_pred_filter prev lam : decp prev lam -> Forall (fun x => 0 < x) lam ->
  part_clip (map (fun x => x - 1) (filter (fun x => 1 <? x) lam)) =
  part_clip (map (fun x => x - 1) lam).
Proof.
  revert prev. induction lam as [|x t IH]; intros prev Hd Hp; auto.
  destruct Hd as [H1 H2]. inversion Hp; subst. simpl.
  destruct (1 <? x) eqn:E; simpl.
  - rewrite (IH x); auto.
  - assert (x = 1) by lia. subst x. rewrite (IH 1); auto. simpl.
    assert (Hz : part_clip (map (fun x => x - 1) t) = []).
    { rewrite <- (part_clip_repz (zlen t)). f_equal.
      clear -H2 H4. induction t as [|y t IHt]; auto. destruct H2 as [Ha Hb].
      inversion H4; subst. assert (y = 1) by lia. subst y.
      rewrite zlen_cons, repz_succ by apply zlen_nonneg. simpl. rewrite IHt; auto. }
    rewrite Hz. auto.
Qed.

Lemma zsum_pred l : zsum (map (fun y => y - 1) l) = zsum l - zlen l.
Proof. induction l; auto. rewrite zlen_cons. simpl. lia. Qed.

Lemma intl_pos_len o lam mu : intl o lam mu -> zlen mu = zlen lam.
Proof. intros H. unfold zlen. rewrite (intl_len _ _ _ H). auto. Qed.

Lemma clip_cons x t : x <> 0 -> part_clip (x :: t) = x :: part_clip t.
Proof. intros H. simpl. destruct (part_clip t); auto. destruct (x =? 0) eqn:E; auto. lia. Qed.

Lemma decp_pred prev l : decp prev l -> Forall (fun x => 0 < x) l ->
  decp (prev - 1) (map (fun y => y - 1) l ++ [0]) \/ prev <= 0.
Proof.
  intros Hd Hp. destruct (Z.le_gt_cases prev 0) as [H|H]; auto. left.
  revert prev Hd H. induction l as [|x l IH]; simpl; intros prev Hd H; [lia|].
  inversion Hp; subst. split; [lia|]. apply IH; auto; try tauto.
Qed.

Lemma in_box_full_pos m k lam : in_box m k lam -> Forall (fun x => 0 < x) lam.
Proof.
  intros ((H & _) & _). apply Forall_forall. intros x Hx.
  destruct (In_nth _ _ 0 Hx) as (j & Hj & <-). apply H; auto.
Qed.

Lemma in_box_decp m k lam : in_box m k lam -> decp k lam.
Proof. intros (H & _ & Hk). apply is_partition_decp; auto. Qed.

Definition qterm (x : nat * list Z) : mono := qS (fst x) (part_clip (snd x)).

(** the polynomial of the q-terms *)
Lemma qpieriA_qpart m k lam i : 1 <= m -> in_box m k lam -> zlen lam = m -> 1 <= i -> 2 <= k ->
  exists ms y z,
    pieriA_inner (i - 1) (map (fun x => x - 1) (filter (fun x => 1 <? x) lam)) (k - 1) (m + k) = Ok y /\
    apply_lc (on_part (fun x => opt_schur (part_star x (k - 1)))) y = Ok z /\
    peq (pmul (pvar VQ) z) (msum (map (fun mu => qS 1 (part_clip mu)) ms)) /\
    NoDup ms /\
    forall mu, In mu ms <-> qint lam mu /\ zsum mu = zsum lam + i - (m + k).
Proof.
  intros Hm Hb Hlen Hi Hk.
  pose proof (in_box_full_pos _ _ _ Hb) as Hpos. pose proof (in_box_decp _ _ _ Hb) as Hd.
  set (lab := map (fun x => x - 1) (filter (fun x => 1 <? x) lam)).
  assert (Ed : decp (k - 1) (map (fun y => y - 1) lam ++ [0])).
  { destruct (decp_pred k lam Hd Hpos); auto. lia. }
  assert (Hclip : part_clip lab = lab).
  { apply part_clip_pos. unfold lab. apply Forall_forall. intros x Hx. apply in_map_iff in Hx.
    destruct Hx as (y & <- & Hy). apply filter_In in Hy. lia. }
  assert (Hlab : lab = part_clip (map (fun y => y - 1) lam ++ [0])).
  { rewrite <- Hclip. unfold lab. rewrite (clip_pred_filter k); auto.
    symmetry. apply (part_clip_app0 _ 1). }
  assert (Hw : wbox (m + 1) (k - 1) (map (fun y => y - 1) lam ++ [0])).
  { split; auto. rewrite zlen_app, zlen_map, zlen_one. lia. }
  assert (Hb' : in_box (m + 1) (k - 1) lab).
  { rewrite Hlab. apply wbox_in_box; [lia|]. auto. }
  assert (Epad : padm (m + 1) lab = map (fun y => y - 1) lam ++ [0]).
  { rewrite Hlab. apply (wbox_padm_clip _ _ _ Hw). }
  destruct (pieriA_enum (m + 1) (k - 1) lab (i - 1)) as (ms & y & Hy & Ey & Hnd & Hin); auto; try lia.
  replace (m + 1 + (k - 1)) with (m + k) in Hy by lia.
  rewrite Epad in Hin.
  assert (Hwm : forall x, In x ms -> wbox (m + 1) (k - 1) x).
  { intros x Hx. apply Hin in Hx. destruct Hx as [Hx _]. split.
    - eapply intl_decp; eauto.
    - rewrite (intl_pos_len _ _ _ Hx). apply Hw. }
  set (F := fun l => match part_star l (k - 1) with None => pzero | Some t => pS t end).
  destruct (apply_lc_sum (fun x => opt_schur (part_star x (k - 1))) F y (map part_clip ms))
    as (z & Hz & Ez).
  { rewrite Ey, map_map. reflexivity. }
  { intros l Hl. apply in_map_iff in Hl. destruct Hl as (x & <- & Hx).
    pose proof (Hwm x Hx) as [Hdx Hlx]. unfold F.
    destruct x as [|a t]; [rewrite zlen_nil in Hlx; lia|].
    destruct (part_star (part_clip (a :: t)) (k - 1)) as [t'|] eqn:E; simpl; [|exists pzero; split; auto; reflexivity].
    exists (pS t'). split; [|reflexivity]. simpl in Hdx.
    unfold symbol. replace (schur_nonneg (SP t')) with true; auto. symmetry.
    unfold part_star in E. destruct (part_clip (a :: t)) as [|b t''] eqn:E'; [discriminate|].
    destruct (negb (b =? k - 1)); inversion E; subst.
    assert (Hp := clip_decp_pos (k - 1) (a :: t) Hdx). rewrite E' in Hp. inversion Hp; subst.
    simpl. apply forallb_forall. intros v Hv. rewrite Forall_forall in H2. specialize (H2 v Hv). lia. }
  set (ms' := map (fun x => tl x) (filter (fun x => hd 0 x =? k - 1) ms)).
  exists ms', y, z. split; [auto|]. split; [auto|]. split; [|split].
  - rewrite Ez, map_map. unfold ms'. rewrite map_map.
    assert (Es : peq (psum (map (fun x => F (part_clip x)) ms))
              (msum (map (fun x => [vS (part_clip (tl x))]) (filter (fun x => hd 0 x =? k - 1) ms)))).
    { clear -Hwm Hk Hm. induction ms as [|x ms IH]; simpl; [reflexivity|].
      rewrite IH by (intros; apply Hwm; simpl; auto).
      destruct (Hwm x) as [Hdx Hlx]; [simpl; auto|].
      destruct x as [|a t]; [rewrite zlen_nil in Hlx; lia|]. simpl in Hdx. simpl hd.
      destruct (a =? k - 1) eqn:Ea.
      - simpl map. rewrite msum_cons. unfold F. rewrite clip_cons by lia.
        simpl. rewrite Ea. simpl. reflexivity.
      - assert (EF : F (part_clip (a :: t)) = pzero).
        { unfold F. destruct (Z.eq_dec a 0) as [->|Ha].
          - destruct (part_clip (0 :: t)) as [|b u] eqn:E; auto.
            assert (Hp := clip_decp_pos (k - 1) (0 :: t) ltac:(simpl; tauto)). rewrite E in Hp.
            simpl in E. destruct (part_clip t) eqn:Et; [discriminate|]. inversion E; subst.
            inversion Hp; lia.
          - rewrite clip_cons by auto. simpl. rewrite Ea. auto. }
        rewrite EF. ring. }
    rewrite Es. change (pvar VQ) with (pmono [VQ]). rewrite pmul_pmono_msum, map_map.
    apply msum_map_perm. intros x _. simpl. apply perm_swap.
  - unfold ms'. clear -Hnd Hwm Hm. induction ms as [|x ms IH]; simpl; [constructor|].
    inversion Hnd as [|? ? H1 H2]; subst.
    assert (Hwm' : forall x, In x ms -> wbox (m + 1) (k - 1) x) by (intros; apply Hwm; simpl; auto).
    destruct (hd 0 x =? k - 1) eqn:E; auto.
    simpl. constructor; auto. intros Hin. apply in_map_iff in Hin.
    destruct Hin as (y & Ey & Hy). apply filter_In in Hy. destruct Hy as [Hy Hh].
    apply H1.
    destruct (Hwm x) as [_ Lx]; [simpl; auto|]. destruct (Hwm' y) as [_ Ly]; auto.
    destruct x as [|a t]; [rewrite zlen_nil in Lx; lia|].
    destruct y as [|b u]; [rewrite zlen_nil in Ly; lia|].
    simpl in *. subst. assert (a = b) by lia. subst. auto.
  - intros mu. unfold ms'. rewrite in_map_iff.
    assert (Hs : zsum lab = zsum lam - m).
    { rewrite Hlab, zsum_clip, zsum_app, zsum_pred. simpl. lia. }
    destruct lam as [|x0 t0]; [rewrite zlen_nil in Hlen; lia|]. simpl in Hd.
    split.
    + intros (x & <- & Hx). apply filter_In in Hx. destruct Hx as [Hx Hh].
      pose proof (Hwm x Hx) as [_ Lx]. apply Hin in Hx.
      destruct x as [|a t]; [rewrite zlen_nil in Lx; lia|]. simpl in Hh. assert (a = k - 1) by lia. subst a.
      simpl in Hx. simpl. simpl in Hs. split; [tauto|]. lia.
    + intros [H1 H2]. exists (k - 1 :: mu). split; auto. apply filter_In. split; [|simpl; lia].
      apply Hin. simpl in *. split; [|lia]. split; [lia|]. auto.
Qed.

Lemma qint_len lam mu : qint lam mu -> zlen mu = zlen lam.
Proof.
  destruct lam as [|x t]; simpl; [tauto|]. intros H. apply intl_pos_len in H.
  rewrite H, zlen_app, zlen_map, zlen_one, zlen_cons. lia.
Qed.

Lemma qint_decp m k lam mu : in_box m k lam -> qint lam mu -> decp (k - 1) mu.
Proof.
  intros Hb H. pose proof (in_box_full_pos _ _ _ Hb) as Hp. pose proof (in_box_decp _ _ _ Hb) as Hd.
  destruct lam as [|x t]; simpl in H; [tauto|]. inversion Hp; subst. simpl in Hd.
  eapply decp_mono; [|eapply intl_decp; [exact H|]]; [lia|].
  destruct (decp_pred x t); auto; try tauto. lia.
Qed.

Lemma decp_0 l : decp 0 l -> l = repz 0 (zlen l).
Proof.
  induction l as [|x l IH]; auto. intros [H1 H2]. assert (x = 0) by lia. subst.
  rewrite zlen_cons, repz_succ by apply zlen_nonneg. f_equal. auto.
Qed.

(** The quantum rule *)
Lemma qpieriA_enum m k lam i : 1 <= m -> in_box m k lam -> 1 <= i <= k ->
  exists E p, qpieriA_inner i lam k (m + k) = Ok p /\
    peq p (msum (map qterm E)) /\ NoDup E /\
    forall d mu, In (d, mu) E <->
      (d = 0%nat /\ intl k (padm m lam) mu /\ zsum mu = zsum lam + i) \/
      (d = 1%nat /\ zlen lam = m /\ qint lam mu /\ zsum mu = zsum lam + i - (m + k)).
Proof.
  intros Hm Hb Hi.
  destruct (pieriA_enum m k lam i Hm Hb ltac:(lia)) as (ms & p & Hp & Ep & Hnd & Hin).
  unfold qpieriA_inner. rewrite Hp. cbn [bind]. replace (m + k - k) with m by lia.
  assert (Hinj : forall d : nat, FinFun.Injective (@pair nat (list Z) d)).
  { intros d a b E. inversion E; auto. }
  assert (E0 : peq p (msum (map qterm (map (pair 0%nat) ms)))).
  { rewrite Ep, map_map. reflexivity. }
  assert (Hnd0 : NoDup (map (pair 0%nat) ms)) by (apply FinFun.Injective_map_NoDup; auto).
  destruct (zlen lam =? m) eqn:El.
  - assert (Hlen : zlen lam = m) by lia. clear El.
    rewrite (py_get_in lam (m - 1) 0) by lia. cbn [bind].
    assert (Hlast : 0 < nth (Z.to_nat (m - 1)) lam 0).
    { pose proof (in_box_full_pos _ _ _ Hb) as Hpos. rewrite Forall_forall in Hpos. apply Hpos.
      apply nth_In. unfold zlen in Hlen. lia. }
    destruct (0 <? nth (Z.to_nat (m - 1)) lam 0) eqn:Elast; [clear Elast|lia].
    assert (Hfin : forall ms' z r, 
      peq z (msum (map (fun mu => qS 1 (part_clip mu)) ms')) -> NoDup ms' ->
      (forall mu, In mu ms' <-> qint lam mu /\ zsum mu = zsum lam + i - (m + k)) ->
      peq r (padd p z) ->
      exists E p0, Ok r = Ok p0 /\ peq p0 (msum (map qterm E)) /\ NoDup E /\
       (forall d mu, In (d, mu) E <->
         d = 0%nat /\ intl k (padm m lam) mu /\ zsum mu = zsum lam + i \/
         d = 1%nat /\ zlen lam = m /\ qint lam mu /\ zsum mu = zsum lam + i - (m + k))).
    { intros ms' z r Ez Hnd' Hin' Er.
      exists (map (pair 0%nat) ms ++ map (pair 1%nat) ms'), r. split; auto. split; [|split].
      - rewrite Er, map_app, msum_app, <- E0, Ez, !map_map. reflexivity.
      - apply nodup_app; auto.
        + apply FinFun.Injective_map_NoDup; auto.
        + intros [d mu] Ha Hc. apply in_map_iff in Ha, Hc.
          destruct Ha as (? & E1 & _), Hc as (? & E2 & _). congruence.
      - intros d mu. rewrite in_app_iff, !in_map_iff. split.
        + intros [(x & E & Hx)|(x & E & Hx)]; inversion E; subst.
          * left. split; auto. apply Hin; auto.
          * right. split; auto. split; auto. apply Hin'; auto.
        + intros [(-> & H)|(-> & _ & H)].
          * left. exists mu. split; auto. apply Hin; auto.
          * right. exists mu. split; auto. apply Hin'; auto. }
    destruct (k =? 1) eqn:Ek.
    + assert (k = 1) by lia. subst k. assert (i = 1) by lia. subst i.
      assert (Hsum : zsum lam = m).
      { pose proof (in_box_full_pos _ _ _ Hb) as Hpos. pose proof (in_box_decp _ _ _ Hb) as Hd.
        rewrite <- Hlen. clear -Hpos Hd. induction lam as [|x t IH]; auto.
        inversion Hpos; subst. destruct Hd as [Ha Hc]. assert (x = 1) by lia. subst.
        rewrite zlen_cons. change (zsum (1 :: t)) with (1 + zsum t). rewrite IH; auto. lia. }
      (* the code returns the q-term alone: with k = 1 the classical part is 0 *)
      assert (Hms : ms = []).
      { destruct ms as [|x ms]; auto. exfalso. destruct (Hin x) as [Hx _].
        destruct (Hx (or_introl eq_refl)) as [H1 H2].
        pose proof (in_box_wbox _ _ _ Hb) as [Hd Hl].
        pose proof (intl_decp _ _ _ H1 Hd) as Hdx. pose proof (intl_pos_len _ _ _ H1) as Hlx.
        assert (Hle : zsum x <= zlen x).
        { clear -Hdx. generalize dependent x. assert (forall x p, p <= 1 -> decp p x -> zsum x <= zlen x).
          { induction x as [|a x IH]; intros p Hp Hd; [cbn; lia|].
            destruct Hd as [Ha Hd]. rewrite zlen_cons. simpl. specialize (IH a ltac:(lia) Hd). lia. }
          intros x Hx. eapply H; [|exact Hx]. lia. }
        lia. }
      eapply (Hfin [repz 0 m] [([VQ; VS (SP [])], 1%Qc)]).
      * simpl. rewrite part_clip_repz.
        change (peq (pmono [VQ; vS []]) (pmono [vS []; VQ])). apply pmono_perm. apply perm_swap.
      * repeat constructor. simpl; tauto.
      * intros mu. simpl. split.
        -- intros [<-|[]]. split; [|rewrite zsum_repz0; lia].
           clear Hfin Hin Hnd Hnd0 Ep E0 Hp Hms. pose proof (in_box_full_pos _ _ _ Hb) as Hpos.
           pose proof (in_box_decp _ _ _ Hb) as Hd. rewrite <- Hlen.
           destruct lam as [|x t]; [rewrite zlen_nil in Hlen; lia|].
           inversion Hpos; subst. destruct Hd as [Ha Hc]. assert (x = 1) by lia. subst. simpl.
           rewrite zlen_cons. clear -H2 Hc.
           induction t as [|y t IH]; [simpl; lia|]. inversion H2; subst. destruct Hc as [Ha Hc].
           assert (y = 1) by lia. subst. rewrite zlen_cons, repz_succ by (pose proof (zlen_nonneg t); lia).
           simpl. split; [lia|]. auto.
        -- intros [H1 H2]. left. pose proof (qint_decp _ _ _ _ Hb H1) as Hd.
           apply decp_0 in Hd. rewrite Hd, (qint_len _ _ H1), Hlen. auto.
      * rewrite Ep, Hms. generalize ([([VQ; VS (SP [])], 1%Qc)] : poly). intros z.
        cbn [map]. change (msum []) with pzero. ring.
    + destruct (qpieriA_qpart m k lam i) as (ms' & y & z & Hy & Hz & Ez & Hnd' & Hin'); auto; try lia.
      rewrite Hy. cbn [bind]. rewrite Hz. cbn [bind].
      eapply Hfin; eauto. reflexivity.
  - cbn [bind]. exists (map (pair 0%nat) ms), p. split; [auto|]. split; [auto|]. split; [auto|].
    intros d mu. rewrite in_map_iff. split.
    + intros (x & E & Hx). inversion E; subst. left. split; auto. apply Hin; auto.
    + intros [(-> & H)|(_ & H & _)]; [|lia]. exists mu. split; auto. apply Hin; auto.
Qed.
