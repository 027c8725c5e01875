(** The presentations of the rings of IG(n,2n), OG(n,2n+1) and OG(n+1,2n+2). *)

From Coq Require Import ZArith List Lia Bool Permutation QArith Qcanon Setoid Morphisms.
From Verif Require Import Py OrderFacts PyFacts ModelPart ModelQcalc ModelPoly ModelStr ModelGr Spec SpecPieri SpecDet SpecRel SpecTwoD SpecPres SpecPresMax
  PolyFacts SuppFacts OpTheory PartFacts Sys Sys2 SysApi DetFacts GiamDet ExprFacts RingC RingB RingD RingD0 ApiRing ApiRingD RingData GrInv RelBC RelD SwapRing CommC CommB ApiGr
  Pfaff2 Pfaff3 PresIdeal PresIdeal2 PresMax.
Import ListNotations.
Open Scope Z_scope.

Section M.
Context {t : gtype} {pi : Z -> list Z -> res poly} {mu : list Z -> nat} {fuel : nat}.
Variable n : Z.
Hypothesis Hn : 1 <= n.
Notation V := (kstrict_in 0 (n - 0) (n + 0)).
Notation I := (fun i => 1 <= i <= n + 0).
Hypothesis SYS : pieri_sys t pi V I 0 mu fuel.
Variable dq : Z.
Hypothesis Hdq : 1 <= dq.
Hypothesis HI : forall i, 1 <= i <= n -> peq (pS [i]) (P pi i []).
Hypothesis Hg : forall i l, 1 <= i <= n -> V l -> homogeneous dq (i + size l) (P pi i l).
Variable w : Z -> nat -> Qc.
Hypothesis Hw : forall i, w i 0%nat = 1%Qc.
Variable qt : Z -> list (Qc * Z).
Hypothesis Hqt : forall i c a, 1 <= i <= n -> In (c, a) (qt i) -> 0 <= a <= n /\ a + dq = 2 * i.
Notation h := (hclass n).
Notation MM := (M t pi 0 fuel).
Definition Rel (i : Z) : poly := psub (quadratic n i (w i)) (psumf (fun x => pscale (fst x) (pmul (pvar VQ) (h (snd x)))) (qt i)).
Variable R : poly -> Prop.
Hypothesis HR1 : forall i, 1 <= i <= n -> exists r, R r /\ peq r (Rel i).
Hypothesis HR2 : forall r, R r -> exists i, 1 <= i <= n /\ peq r (Rel i).
Hypothesis Hval : forall i, 1 <= i <= n -> peq (MM (quadratic n i (w i)) (pS [])) (psumf (fun x => pscale (fst x) (pmul (pvar VQ) (pS (row (snd x))))) (qt i)).

Lemma mHI i : 1 <= i <= n -> I i /\ V [i] /\ peq (pS [i]) (P pi i []).
Proof. intros Hi. split; [cbv beta; lia|]. split; [apply kstrict_row1; lia|auto]. Qed.
Lemma mgr i l : 1 <= i <= n -> V l -> supp (gm (V := V) dq (i + size l)) (P pi i l).
Proof.
  intros Hi Hl mo Hmo. destruct (Hg i l Hi Hl mo Hmo) as (d & x & H1 & H2). exists d, x. split; auto.
  destruct (ps_lin _ _ _ _ _ _ _ SYS i l ltac:(cbv beta; lia) Hl mo Hmo) as (y & qm & Hy & HP & HQ).
  assert (Hx : In (vS x) (vS y :: qm)) by (apply (Permutation_in _ HP), (Permutation_in _ (Permutation_sym H1)); left; reflexivity).
  destruct Hx as [Hx|Hx]; [injection Hx as ->; auto|]. rewrite Forall_forall in HQ. specialize (HQ _ Hx). discriminate.
Qed.
Lemma mrec a l : V (a :: l) -> 1 <= a <= n /\ V l /\ (mu l < mu (a :: l))%nat /\
  supp (linm (below V mu (a :: l)) (eq VQ)) (psub (P pi a l) (pS (a :: l))).
Proof.
  intros Hl. destruct (ps_rec _ _ _ _ _ _ _ SYS (a :: l) Hl ltac:(discriminate)) as (p & l0 & E & Hp & [H1 H2] & H3).
  rewrite gsel_part in E by apply Hl. injection E as <- <-. cbv beta in Hp. split; [lia|]. auto.
Qed.
Lemma msz l : V l -> 0 <= size l.
Proof. intros ((H1 & _) & _). apply size_nonneg; auto. Qed.
Lemma mcons a l : V l -> 1 <= a <= n -> match l with [] => True | b :: _ => b < a end -> V (a :: l).
Proof.
  intros Hl Ha Hd. pose proof (V_bw n ltac:(lia)) as HVw. destruct (V_inv n Hn HVw l Hl) as [S1 S2]. apply (V_sorted n Hn HVw).
  - constructor; auto. destruct l as [|b l]; [constructor|]. apply Sorting.Sorted.StronglySorted_inv in S1. destruct S1 as [S1 S3]. constructor; auto. rewrite Forall_forall in *. intros x Hx. specialize (S3 x Hx). lia.
  - intros j [<-|Hj]; auto.
Qed.
Definition mterms (i : Z) : list (Qc * Z * Z * nat) :=
  map (fun j => ((- w i j)%Qc, i + Z.of_nat j, i - Z.of_nat j, 0%nat)) (seq 1 (Z.to_nat (n - i))) ++ map (fun x => (fst x, snd x, 0, 1%nat)) (qt i).
Lemma mRel i : peq (psub (pmul (h i) (h i)) (psumf (tm n) (mterms i))) (Rel i).
Proof.
  unfold mterms, Rel. rewrite psumf_app, !psumf_map. unfold quadratic. cbn [seq]. rewrite psumf_cons. cbn [Z.of_nat]. rewrite Hw. replace (i + 0) with i by lia. replace (i - 0) with i by lia.
  assert (E1 : peq (psumf (fun x => tm n ((- w i x)%Qc, i + Z.of_nat x, i - Z.of_nat x, 0%nat)) (seq 1 (Z.to_nat (n - i)))) (popp (psumf (fun i0 => pscale (w i i0) (pmul (h (i + Z.of_nat i0)) (h (i - Z.of_nat i0)))) (seq 1 (Z.to_nat (n - i)))))).
  { generalize (seq 1 (Z.to_nat (n - i))). intros L. induction L as [|x L IH]; [change (peq pzero (popp pzero)); ring|]. rewrite !psumf_cons, IH. cbn [tm repeat]. change (pmono []) with pone. rewrite !pscale_pmul, pconst_opp. ring. }
  assert (E2 : peq (psumf (fun x => tm n (fst x, snd x, 0, 1%nat)) (qt i)) (psumf (fun x => pscale (fst x) (pmul (pvar VQ) (h (snd x)))) (qt i))).
  { apply psumf_ext. intros x _. cbn [tm repeat]. change (pmono [VQ]) with (pvar VQ). change (h 0) with pone. rewrite !pscale_pmul. ring. }
  rewrite E1, E2. rewrite (pscale_pmul 1%Qc). change (pconst 1%Qc) with pone. ring.
Qed.
Lemma mterms_ok i : 1 <= i <= n -> in_ideal (special_poly n) R (psub (pmul (h i) (h i)) (psumf (tm n) (mterms i))).
Proof. intros Hi. destruct (HR1 i Hi) as (r & Hr & Er). apply (J_peq _ _ r); [rewrite mRel; exact Er|]. apply J_gen; auto. apply A_one. Qed.
Lemma mdeg i c a b d : 1 <= i <= n -> In (c, a, b, d) (mterms i) -> b < i /\ a + b + Z.of_nat d * dq = 2 * i.
Proof.
  intros Hi Hin. unfold mterms in Hin. apply in_app_iff in Hin. destruct Hin as [Hin|Hin]; apply in_map_iff in Hin.
  - destruct Hin as (j & E & Hj). injection E as <- <- <- <-. apply in_seq in Hj. lia.
  - destruct Hin as ([c' a'] & E & Hx). injection E as <- <- <- <-. destruct (Hqt i c' a' Hi Hx). cbn [snd]. lia.
Qed.
Lemma mh a : 0 <= a <= n -> peq (MM (h a) (pS [])) (pS (row a)).
Proof.
  intros Ha. unfold row. destruct (Z.eqb_spec a 0) as [->|Ha0]; [apply (MM_pone SYS), (sys_lq_one SYS)|]. rewrite (hq_at n a) by lia. apply (sys_one SYS). apply sys_lq_pS, kstrict_row1; lia.
Qed.
Lemma A_quad i : special_poly n (quadratic n i (w i)).
Proof. unfold quadratic. apply A_psumf. intros j _. apply A_scale, A_mul; apply A_h. Qed.
Lemma A_qpart L : special_poly n (psumf (fun x => pscale (fst x) (pmul (pvar VQ) (h (snd x)))) L).
Proof. apply A_psumf. intros j _. apply A_scale, A_mul; [apply A_q|apply A_h]. Qed.
Lemma mR r : R r -> supp (polym V) r /\ peq (MM r (pS [])) pzero.
Proof.
  intros Hr. destruct (HR2 r Hr) as (i & Hi & E). pose proof (A_vp n mHI) as AV. pose proof (sys_lq_one SYS) as H1.
  assert (AR : special_poly n (Rel i)) by (unfold Rel, psub; apply A_add; [apply A_quad|apply A_scale, A_qpart]).
  split; [eapply supp_peq; [symmetry; exact E|apply AV, AR]|].
  etransitivity; [apply (sys_peq (k := 0)); [exact E|reflexivity]|]. unfold Rel. etransitivity; [apply (MM_sub SYS); [apply AV, A_quad|apply AV, A_qpart|exact H1]|].
  assert (Eq : peq (MM (psumf (fun x => pscale (fst x) (pmul (pvar VQ) (h (snd x)))) (qt i)) (pS [])) (psumf (fun x => pscale (fst x) (pmul (pvar VQ) (pS (row (snd x))))) (qt i))).
  { assert (G : forall L, (forall x, In x L -> In x (qt i)) -> peq (MM (psumf (fun x => pscale (fst x) (pmul (pvar VQ) (h (snd x)))) L) (pS [])) (psumf (fun x => pscale (fst x) (pmul (pvar VQ) (pS (row (snd x))))) L)); [|apply G; auto].
    induction L as [|[c a] L IH]; intros HL; [apply MM_zero_l|]. rewrite !psumf_cons. cbn [fst snd].
    assert (Ah : special_poly n (pmul (pvar VQ) (h a))) by (apply A_mul; [apply A_q|apply A_h]).
    etransitivity; [apply (sys_add_l SYS); [apply AV, A_scale, Ah|apply AV, A_qpart|exact H1]|]. apply padd_proper; [|apply IH; intros x Hx; apply HL; right; auto].
    destruct (Hqt i c a Hi (HL _ (or_introl eq_refl))) as [Ha _].
    etransitivity; [apply (sys_scale_l SYS); [apply AV, Ah|exact H1]|]. apply pscale_proper.
    etransitivity; [apply (sys_pmul SYS); [apply AV, A_q|apply AV, A_h|exact H1]|]. etransitivity; [apply (sys_peq (k := 0)); [reflexivity|apply mh; auto]|].
    change (pvar VQ) with (pmono [VQ]). apply (MM_qm SYS n mHI); [repeat constructor|]. apply sys_lq_pS. unfold row. destruct (Z.eqb_spec a 0); [apply kstrict_nil; lia|apply kstrict_row1; lia]. }
  etransitivity; [apply psub_proper; [apply Hval; auto|exact Eq]|]. ring.
Qed.
Lemma m_pres : presents n R (fun p => prod t pi 0 fuel p (pS [])).
Proof.
  intros p p' Hp Hp'.
  assert (HP : forall a, special_poly n a -> exists r, prod t pi 0 fuel a (pS []) = Ok r /\ peq r (MM a (pS []))).
  { intros a Ha. destruct (api_prod SYS a (pS [])) as (r & E & Pr & _); [apply poly_in_iff; apply (A_vp n mHI); auto|apply lin_comb_pS, kstrict_nil; lia|]. exists r. auto. }
  destruct (HP p Hp) as (r & Er & Pr). destruct (HP p' Hp') as (r' & Er' & Pr'). exists r, r'. split; auto. split; auto.
  pose proof (pres_max SYS n dq Hdq mHI mgr mrec msz mcons R mterms mterms_ok mdeg mR p p' Hp Hp') as X. rewrite Pr, Pr'. exact X.
Qed.
End M.

Lemma graded_P t pi V (I : Z -> Prop) k mu fuel dq i l : pieri_sys t pi V I k mu fuel -> graded dq I V pi -> I i -> 1 <= i -> V l -> homogeneous dq (i + size l) (P pi i l).
Proof.
  intros H G Hi H1 Hl. destruct (G i l Hi Hl) as (r & E & _ & Hr). destruct (SysRing.sys_pi_lc H i (pS l) Hi (sys_lq_pS l Hl)) as (r' & E' & Pr). assert (r' = r) by congruence. subst r'. rewrite ext_pS in Pr.
  intros mo Hmo. rewrite <- (Pr mo) in Hmo. destruct (Hr mo Hmo) as (d & x & A1 & A2). exists d, x. split; auto. lia.
Qed.
Lemma Z_n0 n : n + 0 = n. Proof. lia. Qed.

Lemma c105_LG n g : 1 <= n -> IsotropicGrassmannian n (2 * n) = Ok g -> presents n (relation_LG n) (toS g) /\ presents n (qrelation_LG n) (qtoS g).
Proof.
  intros Hn Hg. destruct (rd_IG n (2 * n) g Hg Hn) as (mu & RD). destruct (ig_inv _ _ _ Hg) as (n0 & EN & En & Hmn & Eg). assert (E0 : n0 = n) by lia. rewrite E0 in *. replace (n - n) with 0 in Eg by lia.
  assert (EV : class_IG n (2 * n) = kstrict_in 0 (n - 0) (n + 0)) by (change (class_IG n (2 * n)) with (kstrict_in (2 * n / 2 - n) n (2 * n - n)); rewrite En; f_equal; lia). rewrite EV in RD.
  assert (Hk : 0 <= 0 <= n) by lia.
  assert (GR : forall qq, graded (n + 1 + 0) (fun i => 1 <= i <= 2 * n - n) (kstrict_in 0 (n - 0) (n + 0)) (piC 0 n qq)).
  { intros qq. pose proof (rd_gc _ _ _ _ RD) as G1. pose proof (rd_gq _ _ _ _ RD) as G2. rewrite Eg in G1, G2. destruct qq; [exact G2|exact G1]. }
  assert (G : forall qq R, (forall i, 1 <= i <= n -> exists r, R r /\ peq r (Rel n (fun _ => weight_IG) (fun i => if qq && (n <? 2 * i) then [(sign (Z.to_nat (n - i)), 2 * i - n - 1)] else []) i)) ->
     (forall r, R r -> exists i, 1 <= i <= n /\ peq r (Rel n (fun _ => weight_IG) (fun i => if qq && (n <? 2 * i) then [(sign (Z.to_nat (n - i)), 2 * i - n - 1)] else []) i)) ->
     presents n R (fun p => prod TC (piC 0 n qq) 0 (giam_fuel (gC 0 n)) p (pS []))).
  { intros qq R HR1 HR2. apply (m_pres n Hn (sysC 0 n Hk qq) (n + 1 + 0) ltac:(lia)) with (w := fun _ => weight_IG) (qt := fun i => if qq && (n <? 2 * i) then [(sign (Z.to_nat (n - i)), 2 * i - n - 1)] else []); auto.
    - intros i Hi. apply specialC; lia.
    - intros i l Hi Hl. specialize (GR qq). replace (2 * n - n) with (n + 0) in GR by lia. apply (graded_P _ _ _ _ _ _ _ _ i l (sysC 0 n Hk qq) GR); auto; cbv beta; unfold IC; lia.
    - intros i c a Hi. destruct (Z.ltb_spec n (2 * i)); rewrite ?andb_false_r; [|intros []]. destruct qq; [|intros []]. intros [E|[]]. assert (Ea : 2 * i - n - 1 = a) by congruence. lia.
    - intros i Hi. pose proof (rel_C 0 n i Hk ltac:(lia) ltac:(lia) qq) as X. rewrite Z_n0 in X. rewrite X. unfold rhsC. rewrite Z_n0.
      replace (n + 1 <=? 2 * i) with (n <? 2 * i) by (destruct (Z.ltb_spec n (2 * i)), (Z.leb_spec (n + 1) (2 * i)); lia).
      destruct (qq && (n <? 2 * i)); [|reflexivity]. rewrite psumf_cons. cbn [psumf fold_right fst snd]. replace (2 * i - (n + 1)) with (2 * i - n - 1) by lia. ring. }
  rewrite Eg. split.
  - apply (G false).
    + intros i Hi. exists (quadratic n i weight_IG). split; [exists i; auto|]. unfold Rel. cbn [andb]. change (psumf _ []) with pzero. ring.
    + intros r (i & Hi & ->). exists i. split; auto. unfold Rel. cbn [andb]. change (psumf _ []) with pzero. ring.
  - assert (E : forall i, peq (psub (quadratic n i weight_IG) (if n <? 2 * i then pscale (sign (Z.to_nat (n - i))) (pmul (pvar VQ) (hclass n (2 * i - n - 1))) else pzero))
      (Rel n (fun _ => weight_IG) (fun i => if true && (n <? 2 * i) then [(sign (Z.to_nat (n - i)), 2 * i - n - 1)] else []) i)).
    { intros i. unfold Rel. cbn [andb]. destruct (n <? 2 * i); [rewrite psumf_cons; cbn [fst snd]|]; change (psumf _ []) with pzero; ring. }
    apply (G true).
    + intros i Hi. eexists. split; [exists i; split; [auto|reflexivity]|apply E].
    + intros r (i & Hi & ->). exists i. split; auto.
Qed.

Section OG.
Variable n : Z.
Hypothesis Hn : 1 <= n.
Notation V := (kstrict_in 0 (n - 0) (n + 0)).
Notation qtB := (fun qq i => if (qq : bool) && (i =? n) then [(1%Qc, 0)] else []).
Lemma Rel_cl r : relation_OG n r <-> exists i, 1 <= i <= n /\ r = quadratic n i (weight_OG 0 i).
Proof. reflexivity. Qed.
Lemma og_pres t pi mu fuel (qq : bool) : pieri_sys t pi V (fun i => 1 <= i <= n + 0) 0 mu fuel ->
  (forall i l, 1 <= i <= n -> V l -> peq (P pi i l) (P (piB 0 n qq) i l)) ->
  (forall i l, 1 <= i <= n -> V l -> homogeneous (2 * n) (i + size l) (P pi i l)) ->
  (forall i, 1 <= i <= n -> peq (M t pi 0 fuel (quadratic n i (weight_OG 0 i)) (pS [])) (rhsB 0 n i qq)) ->
  presents n (if qq then qrelation_OG n else relation_OG n) (fun p => prod t pi 0 fuel p (pS [])).
Proof.
  intros SYS HP HG HV.
  assert (E : forall i, peq (psub (quadratic n i (weight_OG 0 i)) (if qq && (i =? n) then pvar VQ else pzero)) (Rel n (weight_OG 0) (qtB qq) i)).
  { intros i. unfold Rel. destruct (qq && (i =? n)); [rewrite psumf_cons; cbn [fst snd]|]; change (psumf _ []) with pzero; [|ring]. change (hclass n 0) with pone. rewrite pscale_pmul. change (pconst 1%Qc) with pone. ring. }
  apply (m_pres n Hn SYS (2 * n) ltac:(lia)) with (w := weight_OG 0) (qt := qtB qq); auto.
  - intros i Hi. rewrite HP by (auto; apply kstrict_nil; lia). apply (specialB 0 n ltac:(lia) ltac:(lia) qq). lia.
  - intros i c a Hi. destruct (Z.eqb_spec i n); rewrite ?andb_false_r; [|intros []]. destruct qq; [|intros []]. intros [E'|[]]. injection E' as <- <-. lia.
  - intros i Hi. destruct qq; cbn [andb] in *.
    + eexists. split; [exists i; split; [auto|reflexivity]|apply E].
    + exists (quadratic n i (weight_OG 0 i)). split; [exists i; auto|]. rewrite <- E. ring.
  - intros r Hr. destruct qq; cbn [andb] in *; destruct Hr as (i & Hi & ->); exists i; split; auto. rewrite <- E. ring.
  - intros i Hi. rewrite HV by auto. unfold rhsB. rewrite Z_n0. destruct (qq && (i =? n)); [|reflexivity]. rewrite psumf_cons. cbn [psumf fold_right fst snd row Z.eqb]. rewrite pscale_pmul. change (pconst 1%Qc) with pone. ring.
Qed.
Lemma piB_hom g (qq : bool) i l : OrthogonalGrassmannian n (2 * n + 1) = Ok g -> 1 <= i <= n -> V l -> homogeneous (2 * n) (i + size l) (P (piB 0 n qq) i l).
Proof.
  intros Hg Hi Hl. pose proof (odd_div n). destruct (rd_OGodd n (2 * n + 1) g Hg (N_odd n) ltac:(lia)) as (mu & RD). rewrite (OG_V n) in RD.
  destruct (og_inv _ _ _ Hg ltac:(lia)) as [(n0 & EN & En & Ev & Hm & Eg)|(n0 & EN & En & Ev & Hm & Eg)]; [|lia]. assert (E0 : n0 = n) by lia. rewrite E0 in Eg. replace (n - n) with 0 in Eg by lia.
  assert (Hok : okB qq 0 n) by (unfold okB; lia). replace (2 * n + 1 - 1 - n) with (n + 0) in RD by lia.
  pose proof (rd_gc _ _ _ _ RD) as G1. pose proof (rd_gq _ _ _ _ RD) as G2. rewrite Eg in G1, G2.
  assert (G : graded (2 * n) (fun i => 1 <= i <= n + 0) V (piB 0 n qq)) by (destruct qq; [exact G2|exact G1]).
  apply (graded_P _ _ _ _ _ _ _ _ i l (sysB 0 n qq Hok) G); auto; cbv beta; unfold IC; lia.
Qed.
Lemma c105_odd g : OrthogonalGrassmannian n (2 * n + 1) = Ok g -> presents n (relation_OG n) (toS g) /\ presents n (qrelation_OG n) (qtoS g).
Proof.
  intros Hg. pose proof (fun qq i l => piB_hom g qq i l Hg) as HH. pose proof (odd_div n). destruct (og_inv _ _ _ Hg ltac:(lia)) as [(n0 & EN & En & Ev & Hm & Eg)|(n0 & EN & En & Ev & Hm & Eg)]; [|lia].
  assert (E0 : n0 = n) by lia. rewrite E0 in Eg. replace (n - n) with 0 in Eg by lia. rewrite Eg. assert (Hok : forall qq, okB qq 0 n) by (intros qq; unfold okB; lia).
  assert (G : forall qq : bool, presents n (if qq then qrelation_OG n else relation_OG n) (fun p => prod TB (piB 0 n qq) 0 (giam_fuel (gB 0 n)) p (pS []))).
  { intros qq. apply (og_pres _ _ _ _ qq (sysB 0 n qq (Hok qq))); auto.
    - reflexivity.
    - intros i Hi. pose proof (rel_B 0 n i ltac:(lia) ltac:(lia) ltac:(lia) qq) as X. rewrite Z_n0 in X. exact X. }
  split; [exact (G false)|exact (G true)].
Qed.
Lemma c105_even g : OrthogonalGrassmannian (n + 1) (2 * n + 2) = Ok g -> presents n (relation_OG n) (toS g) /\ presents n (qrelation_OG n) (qtoS g).
Proof.
  intros Hg. destruct (proj2 (c32_OG n (2 * n + 1)) ltac:(lia)) as (g0 & Hg0). pose proof (fun qq i l => piB_hom g0 qq i l Hg0) as HH. destruct (same_g n g0 g Hg0 Hg) as [_ Eg]. rewrite Eg.
  assert (HA : forall qq i l, 1 <= i <= n -> V l -> peq (P (piD 0 n qq) i l) (P (piB 0 n qq) i l)) by (intros qq i l Hi Hl; symmetry; apply (piD0_agree n qq); [lia|lia|apply typed0; [lia|exact Hl]]).
  assert (G : forall qq : bool, presents n (if qq then qrelation_OG n else relation_OG n) (fun p => prod TD (piD 0 n qq) 0 (giam_fuel (gD 0 n)) p (pS []))).
  { intros qq. apply (og_pres _ _ _ _ qq (sysD0 n qq Hn)); auto.
    - intros i l Hi Hl mo Hmo. rewrite (HA qq i l Hi Hl mo) in Hmo. apply (HH qq i l Hi Hl mo Hmo).
    - intros i Hi. pose proof (rel_D0 n qq Hn i Hi) as X. rewrite <- X. apply (sys_peq (k := 0)); [|reflexivity]. pose proof (products_quadratic (n + 0) i) as Y. rewrite Z_n0 in Y |- *. symmetry. apply Y; lia. }
  split; [exact (G false)|exact (G true)].
Qed.
End OG.
