(** The depth of the Giambelli recursion: the lemmas behind PropsDepth.v. *)

From Coq Require Import ZArith List Lia Bool Permutation QArith Qcanon.
From Verif Require Import Py OrderFacts PyFacts ModelPart ModelQcalc ModelPoly ModelStr ModelGr Spec SpecRing SpecPieri SpecDepth
  PolyFacts SuppFacts Enum FillFacts PartFacts ConjFacts PairFacts CompsFacts CompsBound PieriA QPieriA WSum PieriCoef PieriD QPieriD
  OpTheory Sys Word Transfer Extract CoefSys CommC RecBCD RingA FactsA RingC CommB RingB RingD RingD0 GrInv ApiA ApiRing ApiRingD.
Import ListNotations.
Open Scope Z_scope.

(** *** more nesting does not change a result *)
Lemma image_mono (f f' : schur -> res poly) v r : (forall s x, f s = Ok x -> f' s = Ok x) -> image f v = Ok r -> image f' v = Ok r.
Proof. intros H. unfold image. destruct v; auto. Qed.
Lemma mapply_mono (f f' : schur -> res poly) m : (forall s x, f s = Ok x -> f' s = Ok x) -> forall r, mapply f m = Ok r -> mapply f' m = Ok r.
Proof.
  intros H. induction m as [|v t IH]; intros r E; [exact E|]. cbn [mapply] in *. destruct (image f v) as [x|e] eqn:Ex; [|discriminate]. rewrite (image_mono _ _ _ _ H Ex). cbn [bind] in *.
  destruct (mapply f t) as [y|e] eqn:Ey; [|discriminate]. rewrite (IH _ eq_refl). exact E.
Qed.
Lemma tapply_mono (f f' : schur -> res poly) p : (forall s x, f s = Ok x -> f' s = Ok x) -> forall r, tapply f p = Ok r -> tapply f' p = Ok r.
Proof.
  intros H. induction p as [|[m c] t IH]; intros r E; [exact E|]. cbn [tapply] in *. destruct (mapply f m) as [x|e] eqn:Ex; [|discriminate]. rewrite (mapply_mono _ _ _ H _ Ex). cbn [bind] in *.
  destruct (tapply f t) as [y|e] eqn:Ey; [|discriminate]. rewrite (IH _ eq_refl). exact E.
Qed.
Lemma giam_mono pi k f : forall f' l E, (f <= f')%nat -> giambelli_rec_inner f pi k l = Ok E -> giambelli_rec_inner f' pi k l = Ok E.
Proof.
  induction f as [|f IH]; intros f' l E Hf H; [discriminate|]. destruct f' as [|f']; [lia|]. cbn [giambelli_rec_inner] in *. destruct l as [|p0 t]; [exact H|].
  set (sel := if last (p0 :: t) 1 =? 0 then _ else _) in *. destruct sel as [l0|e]; [|discriminate]. cbn [bind] in *. cbv zeta in *.
  destruct (pi _ l0) as [y|e]; [|discriminate]. cbn [bind] in *. destruct (symbol (SP (p0 :: t))) as [s|e]; [|discriminate]. cbn [bind] in *.
  destruct (giambelli_rec_inner f pi k l0) as [a|e] eqn:Ea; [|discriminate]. rewrite (IH f' _ _ ltac:(lia) Ea). cbn [bind] in *.
  destruct (apply_lc (on_part (giambelli_rec_inner f pi k)) (psub y s)) as [b|e] eqn:Eb; [|discriminate].
  assert (Eb' : apply_lc (on_part (giambelli_rec_inner f' pi k)) (psub y s) = Ok b).
  { unfold apply_lc in *. eapply tapply_mono; [|exact Eb]. intros [x|x x'] r Hr; [|discriminate]. cbn [on_part] in *. apply IH; auto. lia. }
  rewrite Eb'. exact H.
Qed.

(** *** the measure *)
Definition muT (l : list Z) : nat := match l with [] => O | _ => S (Z.to_nat (size l - part l 0)) end.
Lemma muT_head a b : b <> [] -> 0 <= size a - part a 0 -> size a = size b -> part b 0 < part a 0 -> (muT a < muT b)%nat.
Proof. intros Hb Ha Es Hp. destruct b as [|x b]; [congruence|]. destruct a as [|y a]; cbn [muT]; [lia|]. lia. Qed.
Lemma muT_drop a b : b <> [] -> (a <> [] -> 1 <= part a 0) -> 0 <= size a - part a 0 -> size a <= size b - part b 0 -> (muT a < muT b)%nat.
Proof. intros Hb Hn Ha Es. destruct b as [|x b]; [congruence|]. destruct a as [|y a]; cbn [muT]; [lia|]. specialize (Hn ltac:(discriminate)). lia. Qed.
Lemma below_first l : is_partition l -> 0 <= size l - part l 0 /\ (l <> [] -> 1 <= part l 0).
Proof.
  intros H. destruct l as [|x t]; [cbn; split; [lia|congruence]|]. destruct (partition_tl x t H) as (Ht & Hp & _).
  change (part (x :: t) 0) with x. change (size (x :: t)) with (x + size t). pose proof (size_nonneg t Ht). split; lia.
Qed.

Lemma shallow_of t pi V I k mu fuel (lim : nat -> poly -> res poly) (full : poly -> res poly) : pieri_sys t pi V I k mu fuel ->
  (forall d lc, lim d lc = apply_lc (on_part (giambelli_rec_inner d pi k)) lc) -> (forall lc, full lc = apply_lc (on_part (giambelli_rec_inner fuel pi k)) lc) ->
  (forall l, V l -> 0 <= size l - part l 0) ->
  (forall l, V l -> l <> [] -> exists p l0, gsel k l = Ok (p, l0) /\ I p /\ below V muT l l0 /\ supp (linm (below V muT l) (eq VQ)) (psub (P pi p l0) (pS l))) ->
  forall l, V l -> shallow lim full l.
Proof.
  intros [h1 h2 h3 h4 h5 h6 h7 h8 h9] E1 E2 HV HR l Hl d Hd. unfold boxes_below_first_row in Hd.
  assert (Hm : (muT l < d)%nat) by (pose proof (HV l Hl); destruct l as [|x l]; cbn [muT]; lia).
  destruct (giam_ok t _ _ _ (eq VQ) eqVQ_isqv h1 h2 h3 h4 h5 k muT h6 h7 HR d l Hl Hm) as (E & HE & _).
  destruct (on_class (giambelli_rec_inner d pi k) l E HE) as (e & Ee & _). exists e. rewrite E1, E2. split; [exact Ee|].
  destruct (giam_ok t _ _ _ (eq VQ) eqVQ_isqv h1 h2 h3 h4 h5 k _ h6 h7 h8 fuel l Hl (h9 l Hl)) as (E' & HE' & _).
  destruct (on_class (giambelli_rec_inner fuel pi k) l E' HE') as (e' & Ee' & _).
  assert (M : forall a b r, (a <= b)%nat -> apply_lc (on_part (giambelli_rec_inner a pi k)) (pS l) = Ok r -> apply_lc (on_part (giambelli_rec_inner b pi k)) (pS l) = Ok r).
  { intros a b r Hab Hr. unfold apply_lc in *. eapply tapply_mono; [|exact Hr]. intros [x|x x'] r' Hr'; [|discriminate]. cbn [on_part] in *. apply (giam_mono _ _ a); auto. }
  destruct (Nat.le_ge_cases d fuel) as [Hle|Hle]; [apply (M d); auto|]. rewrite (M fuel d e' Hle Ee') in Ee. congruence.
Qed.

(** *** the four families *)
Section TC.
Variables (k n : Z).
Hypothesis Hk : 0 <= k <= n.
Notation V := (kstrict_in k (n - k) (n + k)).
Lemma kbelow l : V l -> 0 <= size l - part l 0 /\ (l <> [] -> 1 <= part l 0).
Proof. intros H. apply below_first, H. Qed.
Lemma recTC qq l : V l -> l <> [] ->
  exists p l0, gsel k l = Ok (p, l0) /\ IC k n p /\ below V muT l l0 /\
    supp (linm (below V muT l) (eq VQ)) (psub (P (piC k n qq) p l0) (pS l)).
Proof.
  intros Hl Hne. destruct l as [|p t]; [congruence|]. exists p, t.
  assert (Hpl : is_partition (p :: t)) by apply Hl.
  split; [apply gsel_part; auto|]. destruct (kstrict_cons _ _ _ _ _ Hl) as (Hp & Ht). split; [exact Hp|].
  assert (Es : size (p :: t) = p + size t) by reflexivity. assert (Ep : part (p :: t) 0 = p) by reflexivity.
  split; [split; auto; apply muT_drop; try apply kbelow; auto; pose proof (is_partition_nonneg t 0 ltac:(apply Ht)); lia|].
  destruct (piC_coefs k n qq p t Hk Ht ltac:(lia)) as (r & W & E & HQ & H0 & H1 & H2). unfold P. rewrite E.
  apply (rec_supp _ r (p :: t) W HQ).
  - apply (coef_IG_tl k n p t); auto.
  - intros d nu HW Hd. destruct d as [|[|d]].
    + pose proof (coef_IG_supp _ _ _ _ _ _ _ (H0 nu) HW) as (A1 & A2 & A3). split; auto. destruct (kbelow nu A1).
      destruct (arrow_head k 0 p t nu) as [B1 B2]; auto; try lia; try apply Ht; try apply A1.
      apply muT_head; auto; try lia. rewrite Ep. assert (part nu 0 <> p) by (intros Eq; apply (Hd eq_refl); auto). lia.
    + specialize (H1 nu). destruct qq; [|congruence]. pose proof (coef_IG_supp _ _ _ _ _ _ _ H1 HW) as (A1 & A2 & A3).
      apply kstrict_row in A1; auto. split; auto. destruct (kbelow nu A1). apply muT_drop; auto.
      change (size (n + k + 1 :: nu)) with (n + k + 1 + size nu) in A2. lia.
    + exfalso. apply HW, H2. lia.
Qed.
End TC.

Lemma recTB k n qq (Hok : okB qq k n) l : kstrict_in k (n - k) (n + k) l -> l <> [] ->
  exists p l0, gsel k l = Ok (p, l0) /\ IC k n p /\ below (kstrict_in k (n - k) (n + k)) muT l l0 /\
    supp (linm (below (kstrict_in k (n - k) (n + k)) muT l) (eq VQ)) (psub (P (piB k n qq) p l0) (pS l)).
Proof.
  intros Hl Hne. destruct l as [|p t]; [congruence|]. exists p, t. pose proof Hok as (Hk & Hn & _).
  assert (Hpl : is_partition (p :: t)) by apply Hl.
  split; [apply gsel_part; auto|]. destruct (kstrict_cons _ _ _ _ _ Hl) as (Hp & Ht). split; [exact Hp|].
  assert (Es : size (p :: t) = p + size t) by reflexivity. assert (Ep : part (p :: t) 0 = p) by reflexivity.
  split; [split; auto; apply muT_drop; try apply (kbelow k n); auto; lia|].
  destruct (piB_coefs k n qq p t Hok Ht) as (r & W & E & HQ & H0 & H1 & H2). unfold P. rewrite E.
  apply (rec_supp _ r (p :: t) W HQ).
  - apply (coef_OG_tl k n p t); auto.
  - intros d nu HW Hd. destruct (piB_supp k n qq p t W Hok H0 H1 H2 d nu HW) as (_ & A1 & [(-> & A2 & A3 & A4)|(_ & A2)]); (split; [auto|]); destruct (kbelow k n nu A1).
    + destruct (arrow_head k 0 p t nu) as [B1 B2]; auto; try lia; try apply Ht; try apply A1.
      apply muT_head; auto; try lia. rewrite Ep. assert (part nu 0 <> p) by (intros Eq; apply (Hd eq_refl); auto). lia.
    + apply muT_drop; auto. pose proof (size_tl_le t ltac:(apply Ht)). lia.
Qed.

Lemma typed_below k n l : 1 <= k <= n -> typed_in k (n + 1 - k) (n + k) l -> 0 <= size l - part l 0 /\ (l <> [] -> 1 <= part l 0).
Proof.
  intros Hk H. destruct (typed_shape _ _ _ _ H) as (((A1 & A2 & A3) & _) & Hc). rewrite <- (size_shape _ _ _ _ H), <- (typed_part _ _ _ l 0 H).
  destruct (below_first _ A1) as (B1 & B2). split; auto. intros Hne. apply B2. intros Es. destruct Hc as [Hc|(_ & _ & Hc)]; rewrite Es in Hc; [congruence|destruct Hc].
Qed.
Lemma recTD k n qq (Hok : okD qq k n) l : typed_in k (n + 1 - k) (n + k) l -> l <> [] ->
  exists p l0, gsel k l = Ok (p, l0) /\ ID k n p /\ below (typed_in k (n + 1 - k) (n + k)) muT l l0 /\
    supp (linm (below (typed_in k (n + 1 - k) (n + k)) muT l) (eq VQ)) (psub (P (piD k n qq) p l0) (pS l)).
Proof.
  intros Hl Hne. pose proof Hok as (Hk & _). destruct (gselD k n qq Hok l Hl Hne) as (p & l0 & Eg & Hp & Hl0 & Hh). exists p, l0. split; auto. split; auto.
  assert (Hap : 1 <= Z.abs p <= n + k) by (destruct Hp as [H|H]; lia).
  assert (Es : size l = size l0 + Z.abs p).
  { destruct Hh as (Es & _). rewrite <- (size_shape _ _ _ _ Hl), <- (size_shape _ _ _ _ Hl0), Es. change (size (Z.abs p :: shape l0)) with (Z.abs p + size (shape l0)). lia. }
  assert (Ep : part l 0 = Z.abs p) by (rewrite <- (typed_part _ _ _ l 0 Hl), (proj1 Hh); reflexivity).
  destruct (typed_below k n l0 Hk Hl0) as (B1 & B2).
  split; [split; auto; apply muT_drop; auto; lia|].
  destruct (piD_coefs k n qq Hok p l0 Hl0) as (r & W & E & HQ & H). unfold P. rewrite E.
  pose proof (fun nu => coef_D_head k n qq Hok l p l0 nu _ Hl Hl0 Hh (piD_0 k n qq Hok _ _ _ H nu)) as HH.
  apply (rec_supp _ r l W HQ).
  - apply HH. reflexivity.
  - intros d nu HW Hd. destruct (piD_supp k n qq Hok p l0 W H d nu HW) as (_ & A1 & _ & A2). split; auto. destruct (typed_below k n nu Hk A1) as (N1 & N2). destruct d as [|d].
    + destruct (HH nu) as (_ & G). destruct (G HW (Hd eq_refl)) as (_ & G1 & G2). apply muT_head; auto.
    + apply muT_drop; auto. rewrite Nat2Z.inj_succ in A2. nia.
Qed.

Lemma recTA m k (Hm : 1 <= m) (Hk : 0 <= k) qq l : in_box m k l -> l <> [] ->
  exists p l0, gsel k l = Ok (p, l0) /\ IA k p /\ below (in_box m k) muT l l0 /\
    supp (linm (below (in_box m k) muT l) (eq VQ)) (psub (P (piA m k qq) p l0) (pS l)).
Proof.
  intros Hb Hne. destruct l as [|p0 t]; [congruence|].
  exists p0, t. split; [apply (gsel_A m k); auto|].
  destruct (in_box_cons m k p0 t Hb) as (H1 & H2 & H3).
  assert (Es : size (p0 :: t) = p0 + size t) by reflexivity. assert (Ep : part (p0 :: t) 0 = p0) by reflexivity.
  destruct (below_first t ltac:(apply H3)) as (B1 & B2).
  split; [exact H1|]. split; [split; auto; apply muT_drop; auto; lia|].
  pose proof (in_box_wbox _ _ _ H3) as Hw.
  assert (Hlen : zlen t + 1 <= m) by (destruct Hb as (_ & Hb' & _); unfold zlen; simpl in Hb'; lia).
  set (x0 := (0%nat, padm m (p0 :: t))).
  assert (Hin : In x0 (EA m k qq p0 (padm m t))).
  { apply EA_in; auto. left. split; auto. split.
    - apply (intl_strip m k); auto. intros j. pose proof (proj2 (proj1 Hb) j) as Hj. destruct j.
      + unfold part. simpl. destruct t; simpl; [lia|]. unfold part in Hj. simpl in Hj. lia.
      + split; [apply Z.le_refl|]. exact (proj2 (proj1 Hb) (S j)).
    - rewrite !zsum_padm. simpl. change (fold_right Z.add 0 t) with (zsum t). lia. }
  destruct (in_split _ _ Hin) as (E1 & E2 & Ex).
  pose proof (EA_nodup m k qq p0 (padm m t)) as Hnd. rewrite Ex in Hnd.
  apply NoDup_remove_2 in Hnd.
  eapply (supp_peq _ (msum (map qterm (E1 ++ E2)))).
  { rewrite (P_enum m k Hm Hk qq p0 t); auto; [|apply IA_dom; auto]. rewrite Ex.
    rewrite !map_app, !msum_app. cbn [map]. rewrite msum_cons.
    assert (Ey : qterm x0 = [vS (p0 :: t)]).
    { unfold qterm, x0, qS. simpl. rewrite <- (clip_padm m k (p0 :: t)) at 2 by auto. reflexivity. }
    rewrite Ey. change (pmono [vS (p0 :: t)]) with (pS (p0 :: t)). ring. }
  apply msum_terms_supp; [apply linm_inv|]. intros [d mu] Hx.
  assert (Hx' : In (d, mu) (EA m k qq p0 (padm m t))).
  { rewrite Ex. apply in_app_iff in Hx. apply in_app_iff. simpl. tauto. }
  assert (Hd : (d, mu) <> x0) by (intros Ey; rewrite Ey in Hx; auto).
  pose proof (EA_wbox m k Hm Hk _ _ _ _ Hw Hx') as Wmu. cbn [snd] in Wmu.
  exists (part_clip mu), (repeat VQ d). split; [|split; [apply Permutation_refl|]].
  2: { clear. induction d; simpl; constructor; auto. }
  assert (Bmu : in_box m k (part_clip mu)) by (apply wbox_in_box; auto). split; [exact Bmu|].
  destruct (below_first (part_clip mu) ltac:(apply Bmu)) as (N1 & N2).
  assert (Ez : size (part_clip mu) = zsum mu) by (rewrite (size_zsum (part_clip mu)); apply zsum_clip).
  assert (Et : size t = zsum t) by apply (size_zsum t).
  apply EA_in in Hx'; auto. rewrite zsum_padm in Hx'.
  destruct Hx' as [(-> & Ha & Hc)|(_ & -> & Ha & _ & Hc)].
  - destruct (padm_first m k p0 t mu Hb Ha ltac:(lia)) as [Hf1 Hf2].
    assert (hd 0 mu <> p0) by (intros E; apply Hd; unfold x0; f_equal; auto).
    apply muT_head; auto; [lia|]. rewrite Ep, part_clip_part, <- hd_part. lia.
  - apply muT_drop; auto. lia.
Qed.

(** *** the constructors *)
Lemma c101_Gr m n g lam : Grassmannian m n = Ok g -> 1 <= m -> in_box m (n - m) lam ->
  shallow (fun d => giambelli_limited d g) (giambelli g) lam /\ shallow (fun d => qgiambelli_limited d g) (qgiambelli g) lam.
Proof.
  intros Hg Hm Hl. apply gr_inv in Hg. destruct Hg as (_ & Hk & ->).
  assert (HV : forall l, in_box m (n - m) l -> 0 <= size l - part l 0) by (intros l (H & _); apply below_first; auto).
  split.
  - apply (shallow_of _ _ _ _ _ _ _ _ _ (sysA m (n - m) Hm Hk false) (fun _ _ => eq_refl) (fun _ => eq_refl) HV (recTA m (n - m) Hm Hk false) lam Hl).
  - apply (shallow_of _ _ _ _ _ _ _ _ _ (sysA m (n - m) Hm Hk true) (fun _ _ => eq_refl) (fun _ => eq_refl) HV (recTA m (n - m) Hm Hk true) lam Hl).
Qed.
Lemma c101_IG m N g lam : IsotropicGrassmannian m N = Ok g -> 1 <= m -> class_IG m N lam ->
  shallow (fun d => giambelli_limited d g) (giambelli g) lam /\ shallow (fun d => qgiambelli_limited d g) (qgiambelli g) lam.
Proof.
  intros Hg Hm Hl. apply ig_inv in Hg. destruct Hg as (n & EN & En & Hmn & ->). set (k := n - m) in *.
  assert (EV : class_IG m N = kstrict_in k (n - k) (n + k)) by (change (class_IG m N) with (kstrict_in (N / 2 - m) m (N - m)); unfold k; rewrite En; f_equal; lia).
  rewrite EV in Hl. assert (Hk : 0 <= k <= n) by lia.
  assert (HV : forall l, kstrict_in k (n - k) (n + k) l -> 0 <= size l - part l 0) by (intros l H; apply (kbelow k n l H)).
  split.
  - apply (shallow_of _ _ _ _ _ _ _ _ _ (sysC k n Hk false) (fun _ _ => eq_refl) (fun _ => eq_refl) HV (recTC k n Hk false) lam Hl).
  - apply (shallow_of _ _ _ _ _ _ _ _ _ (sysC k n Hk true) (fun _ _ => eq_refl) (fun _ => eq_refl) HV (recTC k n Hk true) lam Hl).
Qed.
Lemma c101_OG m N g lam : OrthogonalGrassmannian m N = Ok g -> 3 <= N -> 1 <= m <= N / 2 -> class_OG m N lam ->
  shallow (fun d => giambelli_limited d g) (giambelli g) lam /\
  (m <> N / 2 - 1 \/ Z.odd N = true -> shallow (fun d => qgiambelli_limited d g) (qgiambelli g) lam).
Proof.
  intros Hg HN Hm Hl. destruct (og_inv m N g Hg ltac:(lia)) as [(n & EN & En & Ev & Hmn & ->)|(n & EN & En & Ev & Hmn & ->)].
  - set (k := n - m) in *.
    assert (EV : class_OG m N = kstrict_in k (n - k) (n + k)) by (unfold class_OG, k; rewrite Ev, En; change (kstrict_in (n - m) m (N - 1 - m) = kstrict_in (n - m) (n - (n - m)) (n + (n - m))); f_equal; lia).
    rewrite EV in Hl. assert (Hok : forall qq, okB qq k n) by (intros; split; [lia|]; split; lia).
    assert (HV : forall l, kstrict_in k (n - k) (n + k) l -> 0 <= size l - part l 0) by (intros l H; apply (kbelow k n l H)).
    split.
    + apply (shallow_of _ _ _ _ _ _ _ _ _ (sysB k n false (Hok false)) (fun _ _ => eq_refl) (fun _ => eq_refl) HV (recTB k n false (Hok false)) lam Hl).
    + intros _. apply (shallow_of _ _ _ _ _ _ _ _ _ (sysB k n true (Hok true)) (fun _ _ => eq_refl) (fun _ => eq_refl) HV (recTB k n true (Hok true)) lam Hl).
  - rewrite (class_even m N n Ev En EN) in Hl. set (k := n + 1 - m) in *.
    assert (Ho : Z.odd N = false) by (rewrite <- Z.negb_even, Ev; reflexivity).
    destruct (Z.eq_dec k 0) as [Ek|Ek].
    + rewrite Ek in *. assert (Hn : 1 <= n) by lia.
      assert (Hl' : kstrict_in 0 (n - 0) (n + 0) lam) by (apply typed0; [lia|]; replace (n + 1 - 0) with (n + 1) in Hl by lia; rewrite Z.add_0_r in Hl; exact Hl).
      assert (HV : forall l, kstrict_in 0 (n - 0) (n + 0) l -> 0 <= size l - part l 0) by (intros l H; apply (kbelow 0 n l H)).
      assert (HR : forall qq l, kstrict_in 0 (n - 0) (n + 0) l -> l <> [] -> exists p l0, gsel 0 l = Ok (p, l0) /\ 1 <= p <= n + 0 /\ below (kstrict_in 0 (n - 0) (n + 0)) muT l l0 /\
        supp (linm (below (kstrict_in 0 (n - 0) (n + 0)) muT l) (eq VQ)) (psub (P (piD 0 n qq) p l0) (pS l))).
      { intros qq l A B. destruct (recTB 0 n qq ltac:(split; [lia|]; split; lia) l A B) as (p & l0 & C1 & C2 & C3 & C4). exists p, l0. split; auto. split; auto. split; auto.
        eapply supp_peq; [|exact C4]. rewrite (proj2 (piD0_agree n qq p l0 Hn ltac:(destruct C2; lia) ltac:(apply typed0; [lia|apply C3]))). reflexivity. }
      split; [|intros _].
      * apply (shallow_of _ _ _ _ _ _ _ _ _ (sysD0 n false Hn) (fun _ _ => eq_refl) (fun _ => eq_refl) HV (HR false) lam Hl').
      * apply (shallow_of _ _ _ _ _ _ _ _ _ (sysD0 n true Hn) (fun _ _ => eq_refl) (fun _ => eq_refl) HV (HR true) lam Hl').
    + assert (Hok : forall qq : bool, (qq = true -> 2 <= k) -> okD qq k n) by (intros qq H; split; [lia|]; auto).
      assert (HV : forall l, typed_in k (n + 1 - k) (n + k) l -> 0 <= size l - part l 0) by (intros l H; apply (typed_below k n l); auto; lia).
      split; [|intros Hq].
      * assert (O := Hok false ltac:(discriminate)). apply (shallow_of _ _ _ _ _ _ _ _ _ (sysD k n false O) (fun _ _ => eq_refl) (fun _ => eq_refl) HV (recTD k n false O) lam Hl).
      * assert (O := Hok true ltac:(intros; destruct Hq; [lia|congruence])). apply (shallow_of _ _ _ _ _ _ _ _ _ (sysD k n true O) (fun _ _ => eq_refl) (fun _ => eq_refl) HV (recTD k n true O) lam Hl).
Qed.
