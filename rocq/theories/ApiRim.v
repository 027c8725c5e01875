(** Quantum products from classical products by rim hooks: the lemmas behind
    PropsRim.v. *)

From Coq Require Import ZArith List Lia Bool Permutation QArith Qcanon Setoid Morphisms.
From Verif Require Import Py OrderFacts PyFacts ModelPart ModelQcalc ModelPoly ModelStr ModelGr Spec SpecMisc
  PolyFacts SuppFacts OpTheory Enum FillFacts PartFacts PieriA QPieriA CylA WSum Sys Sys2 SysApi RingA FactsA ApiA ApiPart
  ConjFacts RimFacts DualSys LRCore LRSum LRMult LRQuant LRTab ApiLR RimQ.
Import ListNotations.
Open Scope Z_scope.

Lemma sum_pick (R : list Z -> Z -> Prop) (f W : list Z -> Qc) ls : NoDup ls ->
  (forall ka, In ka ls -> (exists s, R ka s /\ f ka = zq s /\ forall s', R ka s' -> s' = s) \/ ((forall s, ~ R ka s) /\ f ka = 0%Qc)) ->
  exists L, NoDup L /\ (forall ka s, In (ka, s) L <-> In ka ls /\ R ka s) /\
    fold_right (fun l t => (W l * f l + t)%Qc) 0%Qc ls = signed_sum W L.
Proof.
  induction 1 as [|x ls Hx Hn IH]; intros HR.
  - exists []. split; [constructor|]. split; [|reflexivity]. intros ka s. simpl. tauto.
  - destruct IH as (L & H1 & H2 & H3); [intros; apply HR; right; auto|].
    destruct (HR x (or_introl eq_refl)) as [(s & A & B & C)|[A B]].
    + exists ((x, s) :: L). split; [constructor; auto; intros Hi; apply H2 in Hi; tauto|]. split.
      * intros ka s'. cbn [In]. rewrite H2. split.
        -- intros [E|[E1 E2]]; [inversion E; subst; auto|auto].
        -- intros [[->|Hi] Hr]; [left; f_equal; symmetry; auto|right; auto].
      * cbn [fold_right signed_sum fst snd]. fold (signed_sum W L). rewrite H3, B. unfold zq. ring.
    + exists L. split; auto. split.
      * intros ka s. rewrite H2. cbn [In]. split; [tauto|]. intros [[->|Hi] Hr]; [exfalso; eapply A; eauto|auto].
      * cbn [fold_right]. rewrite H3, B. ring.
Qed.

Section R.
Variables m k : Z.
Hypothesis Hm : 1 <= m.
Hypothesis Hk : 0 <= k.
Notation Mn := (Z.to_nat m).
Notation X l := (vadd (rho Mn) (padm m l)).
Notation chiq := (chiq m k).

(** the value of the coefficient function on a homogeneous combination *)
Lemma evq_coef p D d nu : supp (hom size (m + k) (in_box m k) D) p -> in_box m k nu -> D = size nu + Z.of_nat d * (m + k) ->
  evq m (chiq nu) p = coef p (qS d nu).
Proof.
  intros Hp Hn HD. unfold evq. rewrite <- (coef_pnorm p), coef_phi, <- (phi_pnorm_inv _ p) by apply wvq_inv.
  apply supp_rawnorm in Hp. apply phi_ext. intros mo c Hin. destruct (Hp mo c Hin) as (e & x & HP & Hx & Hd).
  rewrite (wvq_inv _ mo _ HP), wvq_qS. unfold val. rewrite chiq_box by auto.
  rewrite (mono_eqb_proper mo (qS e x) (qS d nu) (qS d nu) HP (Permutation_refl _)).
  destruct (mono_eqb (qS e x) (qS d nu)) eqn:E2; destruct (WSum.l_dec x nu) as [E|E]; try reflexivity; exfalso.
  - apply mono_eqb_perm, Sys.qS_inj in E2. destruct E2; auto.
  - subst x. assert (e = d) by nia. subst e. rewrite (proj2 (mono_eqb_perm _ _) (Permutation_refl _)) in E2. discriminate.
Qed.

(** a classical product as a finite sum of classes of one degree *)
Lemma classical_sum K lam mu : 0 <= K -> in_box m K lam -> in_box m K mu ->
  let c := MA m K false (pS lam) (pS mu) in
  exists ls, NoDup ls /\ peq c (wl ls (fun ka => coef c [vS ka])) /\
    (forall ka, coef c [vS ka] <> 0%Qc <-> In ka ls) /\ (forall ka, In ka ls -> in_box m K ka /\ size ka = size lam + size mu).
Proof.
  intros HK Hl Hmu c. pose proof (mult_q_free m K lam mu Hm HK Hl Hmu) as Hq.
  assert (HL : lincl c (fun ka => coef c [vS ka])).
  { intros mo. unfold wval. destruct (Qc_eq_dec (coef c mo) 0%Qc) as [E|E].
    - destruct mo as [|[[l|? ?]| | | ] [|? ?]]; auto.
    - destruct (Hq mo E) as (x & _ & ->). reflexivity. }
  destruct (lincl_wl _ _ HL) as (ls & H1 & H2 & H3). exists ls. split; auto. split; auto. split; auto.
  intros ka Hka. apply H3 in Hka. destruct (Hq _ Hka) as (x & Hx & E). injection E as <-. split; auto.
  destruct (proj1 (M_hom m K Hm HK false lam mu Hl Hmu) _ Hka) as (e & y & HP & _ & Hd).
  change [vS ka] with (qS 0 ka) in HP. apply Sys.qS_inj in HP. destruct HP as [<- <-]. lia.
Qed.
Lemma box_up K l : k <= K -> in_box m k l -> in_box m K l.
Proof. intros HK (A & B & C). split; auto. split; auto. lia. Qed.

Section P.
Variables (K : Z) (lam mu : list Z).
Hypothesis HK : 2 * k <= K.
Hypothesis Hl : in_box m k lam.
Hypothesis Hmu : in_box m k mu.
Notation c := (MA m K false (pS lam) (pS mu)).
Notation r := (MA m k true (pS lam) (pS mu)).
Let HKk : k <= K. Proof. lia. Qed.

Lemma coef_sum ls d nu : NoDup ls -> peq c (wl ls (fun ka => coef c [vS ka])) -> (forall ka, In ka ls -> in_box m K ka) -> in_box m k nu ->
  size lam + size mu = size nu + Z.of_nat d * (m + k) ->
  coef r (qS d nu) = fold_right (fun ka t => (coef c [vS ka] * chiq nu (X ka) + t)%Qc) 0%Qc ls.
Proof.
  intros Hn E Hb Hnu HD. destruct (M_hom m k Hm Hk true lam mu Hl Hmu) as [Hh _].
  rewrite <- (evq_coef r _ d nu Hh Hnu HD).
  etransitivity; [exact (quantum_classical m k Hm Hk (chiq nu) mu lam K (chiq_good m k Hm Hk nu) Hmu Hl HK)|].
  change (M TA (piA m K false) K (giam_fuel (gA m K)) (pS lam) (pS mu)) with c.
  unfold ev. rewrite (phi_peq _ _ _ (wval_inv _) E), phi_wl.
  clear -Hm Hk Hb HK HKk. induction ls as [|ka ls IH]; [reflexivity|]. cbn [fold_right]. rewrite IH by (intros; apply Hb; right; auto). f_equal. f_equal.
  cbn [wval vS]. unfold val, cut. replace (forallb _ _) with true; [reflexivity|]. symmetry. apply forallb_forall.
  intros x Hx. apply Z.ltb_lt. apply (X_in m Hm K ka) in Hx; [lia|]. apply Hb. left; auto.
Qed.
Lemma coef_wrong d nu : size lam + size mu <> size nu + Z.of_nat d * (m + k) -> coef r (qS d nu) = 0%Qc.
Proof.
  intros HD. destruct (Qc_eq_dec (coef r (qS d nu)) 0%Qc) as [E|E]; auto. exfalso.
  destruct (proj1 (M_hom m k Hm Hk true lam mu Hl Hmu) _ E) as (e & x & HP & _ & Hd). apply Sys.qS_inj in HP. destruct HP as [<- <-]. lia.
Qed.

Lemma chiq_cases nu ka d : in_box m K ka -> in_box m k nu -> size ka = size nu + Z.of_nat d * (m + k) ->
  (exists s, rim_reduces m k ka d nu s /\ chiq nu (X ka) = zq s /\ forall s', rim_reduces m k ka d nu s' -> s' = s) \/
  ((forall s, ~ rim_reduces m k ka d nu s) /\ chiq nu (X ka) = 0%Qc).
Proof.
  intros Hka Hnu Hs. destruct (reduction m k Hm Hk K ka Hka) as [(d' & nu' & s & H1 & H2)|[H1 H2]].
  - specialize (H2 _ (chiq_good m k Hm Hk nu)). destruct (reduces_box m k ka d' nu' s H1) as [Hb' Hs'].
    rewrite (chiq_box m k Hm nu nu' Hnu Hb') in H2. destruct (WSum.l_dec nu' nu) as [->|E].
    + assert (d' = d) by nia. subst d'. left. exists s. split; auto. split; [rewrite H2; ring|].
      intros s' H'. destruct (reduces_fun m k Hm Hk _ _ _ _ H' _ _ _ H1) as (_ & _ & ->). auto.
    + right. split; [|rewrite H2; ring]. intros s' H'. destruct (reduces_fun m k Hm Hk _ _ _ _ H' _ _ _ H1) as (_ & -> & _). auto.
  - right. split; auto. apply H2, chiq_good; auto.
Qed.

Lemma rim_rule d nu : in_box m k nu -> exists L, NoDup L /\
  (forall ka s, In (ka, s) L <-> coef c [vS ka] <> 0%Qc /\ rim_reduces m k ka d nu s) /\
  coef r (qS d nu) = signed_sum (fun ka => coef c [vS ka]) L.
Proof.
  intros Hnu. destruct (classical_sum K lam mu ltac:(lia) (box_up K _ HKk Hl) (box_up K _ HKk Hmu)) as (ls & H1 & H2 & H3 & H4).
  destruct (Z.eq_dec (size lam + size mu) (size nu + Z.of_nat d * (m + k))) as [HD|HD].
  - destruct (sum_pick (fun ka s => rim_reduces m k ka d nu s) (fun ka => chiq nu (X ka)) (fun ka => coef c [vS ka]) ls H1) as (L & A & B & C).
    { intros ka Hka. destruct (H4 ka Hka) as [Hb Hs]. apply chiq_cases; auto. lia. }
    exists L. split; auto. split; [|rewrite <- C; apply coef_sum; auto; intros; apply H4; auto].
    intros ka s. rewrite B, H3. tauto.
  - exists []. split; [constructor|]. split; [|apply coef_wrong; auto].
    intros ka s. split; [intros []|]. intros [A B]. exfalso. apply H3 in A. destruct (H4 ka A) as [_ Hs]. apply reduces_box in B. lia.
Qed.
End P.
End R.

Lemma c51 m n g K g' lam mu : Grassmannian m n = Ok g -> 1 <= m -> in_box m (n - m) lam -> in_box m (n - m) mu ->
  2 * (n - m) <= K -> Grassmannian m (m + K) = Ok g' ->
  exists r c, qmult g (pS lam) (pS mu) = Ok r /\ mult g' (pS lam) (pS mu) = Ok c /\
    forall d nu, in_box m (n - m) nu -> exists L, NoDup L /\
      (forall ka s, In (ka, s) L <-> coef c [vS ka] <> 0%Qc /\ rim_reduces m (n - m) ka d nu s) /\
      coef r (qS d nu) = signed_sum (fun ka => coef c [vS ka]) L.
Proof.
  intros Hg Hm Hl Hmu HK Hg'. apply gr_inv in Hg. destruct Hg as (_ & Hk & ->). apply gr_inv in Hg'. destruct Hg' as (_ & _ & ->).
  replace (m + K - m) with K by lia.
  assert (HKk : n - m <= K) by lia.
  destruct (api_prod (sysA m (n - m) Hm Hk true) (pS lam) (pS mu)) as (r & E & Pr & _); auto using lin_comb_poly_in, lin_comb_pS.
  pose proof (box_up m (n - m) K lam HKk Hl) as Hl'. pose proof (box_up m (n - m) K mu HKk Hmu) as Hmu'.
  assert (HK0 : 0 <= K) by lia.
  destruct (api_prod (sysA m K Hm HK0 false) (pS lam) (pS mu)) as (c & E' & Pc & _); auto using lin_comb_poly_in, lin_comb_pS.
  exists r, c. split; [exact E|]. split; [exact E'|]. intros d nu Hnu.
  destruct (rim_rule m (n - m) Hm Hk K lam mu HK Hl Hmu d nu Hnu) as (L & A & B & C). exists L. split; auto. split.
  - intros ka s. rewrite B. rewrite (Pc [vS ka]). reflexivity.
  - rewrite (Pr (qS d nu)). etransitivity; [exact C|]. clear -Pc. unfold signed_sum. induction L as [|x L IH]; [reflexivity|]. cbn [fold_right]. rewrite IH, (Pc [vS (fst x)]). reflexivity.
Qed.

(** ** qmult_rh *)

Section H.
Variables m k : Z.
Hypothesis Hm : 1 <= m.
Hypothesis Hk : 0 <= k.
Let stop := in_box m k.

Lemma th_pre c : forall l1 nu, top_hooks stop (m + k) c l1 nu -> forall l, top_hook (m + k) l l1 -> ~ stop l1 -> top_hooks stop (m + k) (c + 1) l nu.
Proof.
  intros l1 nu H. induction H as [l1 nu H|c l1 rh nu H IH Hs HH]; intros l Hl Hn.
  - eapply th_more; [apply th_one; exact Hl|auto|auto].
  - eapply th_more; [apply IH; auto|auto|auto].
Qed.
Lemma reduces_hooks l d nu s : rim_reduces m k l d nu s -> (d = O /\ nu = l) \/ ((0 < d)%nat /\ top_hooks stop (m + k) (Z.of_nat d) l nu).
Proof.
  induction 1 as [l Hb|l mu nu b d s Hb Hh Hs H IH]; [auto|]. right. split; [lia|].
  assert (HT : top_hook (m + k) l mu) by (split; eauto).
  destruct IH as [[-> ->]|[Hd IH]]; [apply th_one; auto|]. rewrite Nat2Z.inj_succ. apply th_pre with (l1 := mu); auto.
  inversion H; subst; [lia|auto].
Qed.
Lemma hooks_reduces c l nu : top_hooks stop (m + k) c l nu -> ~ stop l -> forall d mu s, rim_reduces m k nu d mu s ->
  exists s', rim_reduces m k l (Z.to_nat c + d) mu s'.
Proof.
  induction 1 as [l nu (Hs & b & Hh)|c l rh nu H IH Hs HH]; intros Hn d mu s Hr.
  - eexists. change (Z.to_nat 1 + d)%nat with (S d). econstructor; eauto.
  - destruct HH as (H1 & b & H2).
    assert (Hr' : rim_reduces m k rh (S d) mu ((-1) ^ (m - (Z.of_nat b + 1)) * s)) by (econstructor; eauto).
    destruct (IH Hn _ _ _ Hr') as (s' & H'). exists s'.
    pose proof (top_hooks_pos _ _ _ _ _ _ H). replace (Z.to_nat (c + 1) + d)%nat with (Z.to_nat c + S d)%nat by lia. auto.
Qed.
Lemma rows_fun l mu h h' : rows_changed l mu h -> rows_changed l mu h' -> h = h'.
Proof.
  intros (L & A & B & ->) (L' & A' & B' & ->). f_equal. apply Permutation_length, NoDup_Permutation; auto.
  intros j. rewrite B, B'. tauto.
Qed.
Lemma rows_le K l mu h : in_box m K l -> is_partition mu -> rows_changed l mu h -> 0 <= h <= m.
Proof.
  intros (Hp & Hlen & _) Hmu (L & A & B & ->). split; [lia|].
  assert (length L <= length (seq 0 (Z.to_nat m)))%nat; [|rewrite seq_length in *; lia].
  apply NoDup_incl_length; auto. intros j Hj. apply B in Hj. apply in_seq.
  destruct (Nat.lt_ge_cases j (length l)); [lia|]. exfalso. unfold part in Hj at 2. rewrite nth_overflow in Hj by auto.
  pose proof (is_partition_nonneg mu j Hmu). lia.
Qed.
Lemma rows_hook b l mu : rim_hook 0 b l mu -> rows_changed l mu (Z.of_nat b + 1).
Proof.
  intros (Hp & Hq & _ & _ & B1 & B2 & B3). exists (seq 0 (S b)). split; [apply seq_NoDup|]. split; [|rewrite seq_length; lia].
  intros j. rewrite in_seq. destruct (Nat.lt_trichotomy j b) as [Q|[->|Q]].
  - rewrite B1 by lia. pose proof (proj2 Hp j). lia.
  - lia.
  - rewrite B3 by lia. lia.
Qed.
Lemma sign_zq h : h <= m -> sign_of (h - m) = zq ((-1) ^ (m - h)).
Proof.
  intros Hh. rewrite zq_pm by lia. replace (h - m) with (- (m - h)) by lia. unfold sign_of. rewrite Z.even_opp.
  rewrite <- (Z2Nat.id (m - h)) at 1 by lia. generalize (Z.to_nat (m - h)). intros n. induction n as [|n IH]; [reflexivity|].
  rewrite Nat2Z.inj_succ, Z.even_succ, <- Z.negb_even, pm_S, <- IH. destruct (Z.even (Z.of_nat n)); cbn [negb]; ring.
Qed.

(** the coefficient that [rm_rim_hook] gives to q^d S_nu *)
Definition hook_sign (ka : list Z) (d : nat) (nu : list Z) (s : Z) : Prop :=
  (exists s', rim_reduces m k ka d nu s') /\ (d = O -> s = 1) /\
  ((0 < d)%nat -> exists h, rows_changed ka nu h /\ s = (-1) ^ (m - h)).
Lemma hook_sign_fun ka d nu s s' : hook_sign ka d nu s -> hook_sign ka d nu s' -> s' = s.
Proof.
  intros (_ & A & B) (_ & A' & B'). destruct d as [|d]; [rewrite A, A'; auto|].
  destruct (B ltac:(lia)) as (h & H1 & ->). destruct (B' ltac:(lia)) as (h' & H2 & ->). rewrite (rows_fun _ _ _ _ H1 H2). auto.
Qed.
Lemma hook_sign_1 ka d nu s : (d <= 1)%nat -> rim_reduces m k ka d nu s -> hook_sign ka d nu s.
Proof.
  intros Hd H. split; [eauto|]. destruct d as [|[|]]; [|split; [lia|]|lia].
  - split; [|lia]. inversion H; subst; auto.
  - intros _. inversion H as [|? mu ? b ? s1 Hn Hh Hs H2]; subst. inversion H2; subst. exists (Z.of_nat b + 1). split; [apply rows_hook; auto|ring].
Qed.

Lemma rm_spec K ka : in_box m K ka -> exists p, rm_rim_hook (gA m k) ka = Ok p /\
  ((exists d nu s, hook_sign ka d nu s /\ in_box m k nu /\ peq p [(qS d nu, zq s)]) \/
   ((forall d nu s, ~ rim_reduces m k ka d nu s) /\ peq p pzero)).
Proof.
  intros Hka. pose proof Hka as (Hp & _ & _). unfold rm_rim_hook. cbn [gA g_n g_k]. replace (m + k - k) with m by lia.
  assert (NN : forall l, is_partition l -> symbol (SP l) = Ok (pS l)).
  { intros l Hl. apply PieriCoef.symbol_ok. apply Forall_forall. intros x Hx. apply partition_pos in Hl. rewrite Forall_forall in Hl. specialize (Hl x Hx). lia. }
  unfold mk_partition. rewrite (decp_valid _ _ (RimFacts.part_decp _ Hp)). cbn [negb bind].
  destruct (in_range_iff ka m k ltac:(lia) Hk Hp) as (bb & -> & Hbb). cbn [bind]. destruct bb.
  - rewrite NN by auto. eexists. split; [reflexivity|]. left. exists O, ka, 1. pose proof (proj1 Hbb eq_refl) as Hin.
    split; [|split; auto; unfold pS, pvar, qS; reflexivity]. apply hook_sign_1; [lia|]. constructor; auto.
  - assert (Hn : ~ stop ka) by (intros H; apply Hbb in H; discriminate).
    destruct (c28_main ka (m + k) m k Hp ltac:(lia) ltac:(lia) Hk) as (x & c & h & -> & Hc & H1 & H2 & H3). cbn [bind].
    destruct (Z.ltb_spec 0 c) as [Q|Q].
    + destruct (H1 Q) as (mu & -> & Hb & HT & Hsz & HR). rewrite NN by apply Hb. cbn [bind]. eexists. split; [reflexivity|]. left.
      exists (Z.to_nat c), mu, ((-1) ^ (m - h)). split; [|split; auto].
      * split; [|split; [lia|eauto]]. destruct (hooks_reduces c ka mu HT Hn 0 mu 1) as (s' & H'); [constructor; auto|].
        rewrite Nat.add_0_r in H'. eauto.
      * rewrite sign_zq by (apply (rows_le K ka mu); auto; apply Hb). intros mo. rewrite coef_pscale. unfold pmul, pS, pvar. rewrite coef_pnorm.
        cbn [flat_map tmul map app fst snd]. unfold repz. change ([VS (SP mu)] ++ repeat VQ (Z.to_nat c)) with (qS (Z.to_nat c) mu).
        rewrite !coef_cons. cbn [coef]. change (vS mu :: repeat VQ (Z.to_nat c)) with (qS (Z.to_nat c) mu). ring.
    + assert (c = 0) by lia. subst c. assert (HN : forall d nu s, ~ rim_reduces m k ka d nu s).
      { intros d nu s H. destruct (reduces_hooks _ _ _ _ H) as [[-> ->]|[Hd HT]]; [inversion H; subst; auto|].
        apply reduces_box in H. assert (0 < 0); [|lia]. apply H2. exists (Z.of_nat d), nu. split; auto. apply H. }
      destruct (H3 eq_refl) as [-> | ->]; eexists; (split; [reflexivity|]); right; (split; [auto|reflexivity]).
Qed.
Definition rmv (ka : list Z) : poly := match rm_rim_hook (gA m k) ka with Ok p => p | Err _ => pzero end.
Lemma rm_cases K ka d nu : in_box m K ka ->
  (exists s, hook_sign ka d nu s /\ coef (rmv ka) (qS d nu) = zq s /\ forall s', hook_sign ka d nu s' -> s' = s) \/
  ((forall s, ~ hook_sign ka d nu s) /\ coef (rmv ka) (qS d nu) = 0%Qc).
Proof.
  intros Hka. unfold rmv. destruct (rm_spec K ka Hka) as (p & -> & [(d' & nu' & s & H1 & H2 & H3)|[H1 H2]]).
  - rewrite (H3 _), coef_cons. cbn [coef]. destruct (mono_eqb (qS d' nu') (qS d nu)) eqn:E.
    + apply mono_eqb_perm, Sys.qS_inj in E. destruct E as [-> ->]. left. exists s. split; auto. split; [unfold bq; ring|].
      intros s' H'. apply (hook_sign_fun _ _ _ _ _ H1 H').
    + right. split; [|unfold bq; ring]. intros s' ((s1 & H') & _). destruct H1 as ((s2 & H1) & _).
      destruct (reduces_fun m k Hm Hk _ _ _ _ H1 _ _ _ H') as (-> & -> & _).
      rewrite (proj2 (mono_eqb_perm _ _) (Permutation_refl _)) in E. discriminate.
  - right. rewrite (H2 _). split; [|reflexivity]. intros s ((s' & H') & _). exact (H1 _ _ _ H').
Qed.
End H.

Lemma coef_wsum (F : list Z -> poly) (W : list Z -> Qc) ls mo :
  coef (psubst (lsub F) (wl ls W)) mo = fold_right (fun l t => (W l * coef (F l) mo + t)%Qc) 0%Qc ls.
Proof.
  induction ls as [|l ls IH]; [reflexivity|]. change (wl (l :: ls) W) with (([vS l], W l) :: wl ls W).
  cbn [psubst fold_right]. rewrite coef_padd, coef_pscale, IH. f_equal. f_equal.
  assert (E : peq (msubst (lsub F) [vS l]) (F l)) by (simpl; ring). apply E.
Qed.

Section T.
Variables m k : Z.
Hypothesis Hm : 1 <= m.
Hypothesis Hk : 0 <= k.
Notation K := (2 * (m + k) - 1 - m).
Variables lam mu : list Z.
Hypothesis Hl : in_box m k lam.
Hypothesis Hmu : in_box m k mu.
Notation c := (MA m K false (pS lam) (pS mu)).
Notation r := (MA m k true (pS lam) (pS mu)).
Let HK : 2 * k <= K. Proof. lia. Qed.
Let HKk : k <= K. Proof. lia. Qed.
Let HK0 : 0 <= K. Proof. lia. Qed.

Lemma rh_sum : exists ls r0 c0, NoDup ls /\ peq c (wl ls (fun ka => coef c [vS ka])) /\
  (forall ka, coef c [vS ka] <> 0%Qc <-> In ka ls) /\ (forall ka, In ka ls -> in_box m K ka /\ size ka = size lam + size mu) /\
  qmult_rh (gA m k) (pS lam) (pS mu) = Ok r0 /\ mult (gA m K) (pS lam) (pS mu) = Ok c0 /\ peq c0 c /\
  forall mo, coef r0 mo = fold_right (fun ka t => (coef c [vS ka] * coef (rmv m k ka) mo + t)%Qc) 0%Qc ls.
Proof.
  pose proof (box_up m k K lam HKk Hl) as Hl'. pose proof (box_up m k K mu HKk Hmu) as Hmu'.
  destruct (classical_sum m Hm K lam mu HK0 Hl' Hmu') as (ls & H1 & H2 & H3 & H4).
  destruct (api_prod (sysA m K Hm HK0 false) (pS lam) (pS mu)) as (c0 & E' & Pc & _); auto using lin_comb_poly_in, lin_comb_pS.
  change (peq c0 c) in Pc. change (mult (gA m K) (pS lam) (pS mu) = Ok c0) in E'.
  assert (E2 : peq c0 (wl ls (fun ka => coef c [vS ka]))) by (rewrite Pc; auto).
  destruct (apply_lc_ok (on_part (rm_rim_hook (gA m k))) (lsub (rmv m k)) c0) as (r0 & E3 & E4).
  { intros mo e v Hin Hv. 
    assert (Hs : rawsupp (fun m => exists l, In l ls /\ m = [vS l]) (pnorm c0)).
    { apply supp_rawnorm. intros mo' Hmo. rewrite (Pc mo') in Hmo. destruct (mult_q_free m K lam mu Hm HK0 Hl' Hmu' mo' Hmo) as (x & _ & ->).
      exists x. split; auto. apply H3. exact Hmo. }
    destruct (Hs mo e Hin) as (l & Hin' & ->). destruct Hv as [<-|[]]. cbn [image vS on_part lsub].
    destruct (rm_spec m k Hm Hk K l (proj1 (H4 l Hin'))) as (p & Ep & _). exists p. split; auto. unfold rmv. rewrite Ep. reflexivity. }
  exists ls, r0, c0. split; auto. split; auto. split; auto. split; auto. split; [|split; [auto|split; [auto|]]].
  - unfold qmult_rh. cbn [gA g_n g_k].
    assert (EC : exists g, clone (gA m k) = Ok g).
    { unfold clone. cbn [gA g_type g_n g_k]. replace (m + k - k) with m by lia. unfold Grassmannian.
      replace ((m <? 0) || (m + k <? 0)) with false by (destruct (Z.ltb_spec m 0), (Z.ltb_spec (m + k) 0); auto; lia).
      replace (m + k <? m) with false by (destruct (Z.ltb_spec (m + k) m); auto; lia). eauto. }
    destruct EC as (g & EC). change (clone (mkGr TA k (m + k))) with (clone (gA m k)). rewrite EC. cbn [bind].
    replace (mkGr TA (2 * (m + k) - 1 - (m + k - k)) (2 * (m + k) - 1)) with (gA m K) by (unfold gA; f_equal; lia).
    rewrite E'. cbn [bind]. exact E3.
  - intros mo. rewrite (E4 mo). etransitivity; [|apply coef_wsum]. apply psubst_proper. exact E2.
Qed.

Lemma fold_nonzero {A} (f : A -> Qc) ls : fold_right (fun x t => (f x + t)%Qc) 0%Qc ls <> 0%Qc -> exists x, In x ls /\ f x <> 0%Qc.
Proof.
  induction ls as [|x ls IH]; cbn [fold_right]; [congruence|]. intros H. destruct (Qc_eq_dec (f x) 0%Qc) as [E|E].
  - rewrite E in H. destruct IH as (y & Hy & Hf); [intros E'; apply H; rewrite E'; ring|]. exists y. split; [right|]; auto.
  - exists x. split; [left|]; auto.
Qed.
Lemma fold_ext {A} (f h : A -> Qc) ls : (forall x, In x ls -> f x = h x) ->
  fold_right (fun x t => (f x + t)%Qc) 0%Qc ls = fold_right (fun x t => (h x + t)%Qc) 0%Qc ls.
Proof. induction ls as [|x ls IH]; intros H; cbn [fold_right]; [auto|]. rewrite (H x (or_introl eq_refl)), IH by (intros; apply H; right; auto). auto. Qed.
Lemma size_nonneg l : in_box m k l -> 0 <= size l.
Proof. apply in_box_sum_nonneg. Qed.

Lemma rh_main : exists r0 c0, qmult_rh (gA m k) (pS lam) (pS mu) = Ok r0 /\ mult (gA m K) (pS lam) (pS mu) = Ok c0 /\
  lin_comb (in_box m k) r0 /\
  (forall d nu, in_box m k nu -> exists L, NoDup L /\
     (forall ka s, In (ka, s) L <-> coef c0 [vS ka] <> 0%Qc /\ hook_sign m k ka d nu s) /\
     coef r0 (qS d nu) = signed_sum (fun ka => coef c0 [vS ka]) L) /\
  (forall d nu, in_box m k nu -> (d <= 1)%nat \/ size lam + size mu < 2 * (m + k) -> coef r0 (qS d nu) = coef r (qS d nu)).
Proof.
  destruct rh_sum as (ls & r0 & c0 & H1 & H2 & H3 & H4 & E & E' & Pc & HC). exists r0, c0. split; auto. split; auto.
  split; [|split].
  - intros mo Hmo. rewrite HC in Hmo. apply fold_nonzero in Hmo. destruct Hmo as (ka & Hka & Hf).
    unfold rmv in Hf. destruct (rm_spec m k Hm Hk K ka (proj1 (H4 ka Hka))) as (p & Ep & HH). rewrite Ep in Hf.
    destruct HH as [(d & nu & s & A & B & C)|[_ A]].
    + exists d, nu. split; auto. rewrite (C mo), coef_cons in Hf. cbn [coef] in Hf.
      destruct (mono_eqb (qS d nu) mo) eqn:Q; [apply mono_eqb_perm in Q; apply Permutation_sym; auto|]. exfalso. apply Hf. unfold bq. ring.
    + exfalso. apply Hf. rewrite (A mo). unfold pzero. cbn [coef]. ring.
  - intros d nu Hnu.
    destruct (sum_pick (fun ka s => hook_sign m k ka d nu s) (fun ka => coef (rmv m k ka) (qS d nu)) (fun ka => coef c [vS ka]) ls H1) as (L & A & B & C).
    { intros ka Hka. apply (rm_cases m k Hm Hk K). apply H4; auto. }
    exists L. split; auto. split.
    + intros ka s. rewrite B, (Pc [vS ka]), H3. tauto.
    + rewrite HC, C. clear -Pc. unfold signed_sum. induction L as [|x L IH]; [reflexivity|]. cbn [fold_right]. rewrite IH, (Pc [vS (fst x)]). reflexivity.
  - intros d nu Hnu Hd. rewrite HC. destruct (Z.eq_dec (size lam + size mu) (size nu + Z.of_nat d * (m + k))) as [HD|HD].
    + assert (Hd1 : (d <= 1)%nat).
      { destruct Hd as [Hd|Hd]; auto. pose proof (size_nonneg nu Hnu). nia. }
      rewrite (coef_sum m k Hm Hk K lam mu HK Hl Hmu ls d nu H1 H2) by (auto; intros; apply H4; auto).
      apply fold_ext. intros ka Hka. f_equal. destruct (H4 ka Hka) as [Hb Hs].
      destruct (rm_cases m k Hm Hk K ka d nu Hb) as [(s & A1 & A2 & A3)|[A1 A2]];
      destruct (chiq_cases m k Hm Hk K nu ka d Hb Hnu ltac:(lia)) as [(s' & B1 & B2 & B3)|[B1 B2]]; rewrite A2, B2; auto.
      * rewrite (A3 s'); auto. apply hook_sign_1; auto.
      * exfalso. destruct A1 as ((s' & A1) & _). exact (B1 _ A1).
      * exfalso. apply (A1 s'). apply hook_sign_1; auto.
    + rewrite (coef_wrong m k Hm Hk lam mu Hl Hmu d nu HD).
      destruct (Qc_eq_dec (fold_right (fun ka t => (coef c [vS ka] * coef (rmv m k ka) (qS d nu) + t)%Qc) 0%Qc ls) 0%Qc) as [Z|Z]; auto. exfalso.
      apply fold_nonzero in Z. destruct Z as (ka & Hka & Hf). destruct (H4 ka Hka) as [Hb Hs].
      destruct (rm_cases m k Hm Hk K ka d nu Hb) as [(s & ((s' & A1) & _) & _)|[_ A2]]; [apply reduces_box in A1; lia|].
      apply Hf. rewrite A2. ring.
Qed.
End T.

Lemma c29_terms m n g lam mu : Grassmannian m n = Ok g -> 1 <= m -> in_box m (n - m) lam -> in_box m (n - m) mu ->
  exists g' r c, Grassmannian m (2 * n - 1) = Ok g' /\ qmult_rh g (pS lam) (pS mu) = Ok r /\ mult g' (pS lam) (pS mu) = Ok c /\
    lin_comb (in_box m (n - m)) r /\
    forall d nu, in_box m (n - m) nu -> exists L, NoDup L /\
      (forall ka s, In (ka, s) L <-> coef c [vS ka] <> 0%Qc /\ (exists s', rim_reduces m (n - m) ka d nu s') /\
         (d = O -> s = 1) /\ ((0 < d)%nat -> exists h, rows_changed ka nu h /\ s = (-1) ^ (m - h))) /\
      coef r (qS d nu) = signed_sum (fun ka => coef c [vS ka]) L.
Proof.
  intros Hg Hm Hl Hmu. apply gr_inv in Hg. destruct Hg as (_ & Hk & ->).
  destruct (rh_main m (n - m) Hm Hk lam mu Hl Hmu) as (r & c & E1 & E2 & E3 & E4 & _).
  exists (gA m (2 * (m + (n - m)) - 1 - m)), r, c. split; [|auto].
  unfold Grassmannian.
  replace ((m <? 0) || (2 * n - 1 <? 0)) with false by (destruct (Z.ltb_spec m 0), (Z.ltb_spec (2 * n - 1) 0); auto; lia).
  replace (2 * n - 1 <? m) with false by (destruct (Z.ltb_spec (2 * n - 1) m); auto; lia). unfold gA. do 2 f_equal; lia.
Qed.
Lemma c29_low m n g lam mu : Grassmannian m n = Ok g -> 1 <= m -> in_box m (n - m) lam -> in_box m (n - m) mu ->
  exists x y, qmult_rh g (pS lam) (pS mu) = Ok x /\ qmult g (pS lam) (pS mu) = Ok y /\
    (forall d nu, (d <= 1)%nat -> in_box m (n - m) nu -> coef x (qS d nu) = coef y (qS d nu)) /\
    (size lam + size mu < 2 * n -> peq x y).
Proof.
  intros Hg Hm Hl Hmu. apply gr_inv in Hg. destruct Hg as (_ & Hk & ->).
  destruct (rh_main m (n - m) Hm Hk lam mu Hl Hmu) as (x & c & E1 & _ & E3 & _ & E5).
  destruct (api_prod (sysA m (n - m) Hm Hk true) (pS lam) (pS mu)) as (y & E & Pr & Ly); auto using lin_comb_poly_in, lin_comb_pS.
  exists x, y. split; auto. split; [exact E|]. split.
  - intros d nu Hd Hnu. rewrite (Pr (qS d nu)). apply E5; auto.
  - intros Hs mo. destruct (Qc_eq_dec (coef x mo) 0%Qc) as [Z|Z]; [destruct (Qc_eq_dec (coef y mo) 0%Qc) as [Z'|Z']; [congruence|]|].
    + destruct (Ly mo Z') as (d & nu & Hnu & HP). rewrite !(coef_perm _ _ _ HP), (Pr (qS d nu)). apply E5; auto. right. lia.
    + destruct (E3 mo Z) as (d & nu & Hnu & HP). rewrite !(coef_perm _ _ _ HP), (Pr (qS d nu)). apply E5; auto. right. lia.
Qed.
