(** Homogeneity of Giambelli polynomials and of products with two quantum parameters: the lemmas behind PropsWeight.v. *)

From Coq Require Import ZArith List Lia Bool Permutation QArith Qcanon Setoid Morphisms.
From Verif Require Import Py OrderFacts ModelPart ModelQcalc ModelPoly ModelStr ModelGr Spec SpecRing SpecPieri SpecAct SpecPos SpecWeight
  PolyFacts SuppFacts OpTheory PartFacts Sys Sys2 SysApi RingA FactsA RingData RingC RingD QPieriD1 ApiA ApiRing ApiRingD ApiPieriQ ApiPieriP ExprFacts GiamSame TwoRing ActLaws ApiAct WtFacts PosFacts ApiPos RelAct.
Import ListNotations.
Open Scope Z_scope.

Lemma size_num2spec i : size (num2spec i) = Z.abs i.
Proof. unfold num2spec. destruct (Z.ltb_spec 0 i); cbn [size fold_right]; unfold size; cbn [fold_right]; lia. Qed.

Section K.
Variables (g : gr) (V : list Z -> Prop) (I : Z -> Prop) (mu : list Z -> nat) (pi : Z -> list Z -> res poly) (op : poly -> res poly).
Hypothesis H : pieri_sys (g_type g) pi V I (g_k g) mu (giam_fuel g).
Hypothesis HG : forall l p l0, V l -> gsel (g_k g) l = Ok (p, l0) -> size l = size l0 + Z.abs p.
Hypothesis HD : forall i l, I i -> V l ->
  intp (P pi i l) /\ supp (fun m => exists e x, Permutation m (qS e x) /\ size x + Z.of_nat e * degree_q g = size l + Z.abs i) (P pi i l).
Lemma keeps (E : forall lc, op lc = apply_lc (on_part (giambelli_rec_inner (giam_fuel g) pi (g_k g))) lc) : keeps_degree V (degree_q g) op.
Proof.
  intros lam Hl. rewrite E. destruct (giam_wi (degree_q g) (fun _ => True) H HG HD (fun i _ => size_num2spec i) (fun _ => Logic.I) (fun _ _ _ _ _ _ _ _ => Logic.I) lam Hl) as (e & Ee & W & Hi).
  exists e. split; auto. split; auto. intros m Hm. apply (W m Hm).
Qed.
End K.

Lemma c83_A m n g : Grassmannian m n = Ok g -> 1 <= m ->
  keeps_degree (in_box m (n - m)) (degree_q g) (giambelli g) /\ keeps_degree (in_box m (n - m)) (degree_q g) (qgiambelli g).
Proof.
  intros Hg Hm. apply gr_inv in Hg. destruct Hg as (_ & Hk & ->).
  assert (G : forall qq : bool, keeps_degree (in_box m (n - m)) (degree_q (gA m (n - m))) (fun lc => apply_lc (on_part (giambelli_rec_inner (giam_fuel (gA m (n - m))) (piA m (n - m) qq) (n - m))) lc)).
  { intros qq. apply (keeps (gA m (n - m)) (in_box m (n - m)) (IA (n - m)) (muA (n - m)) (piA m (n - m) qq)); [apply sysA; lia|apply (gsel_deg m (n - m))| |reflexivity].
    intros i l Hi Hl. split; [apply P_int; auto using IA_dom; lia|]. change (degree_q (gA m (n - m))) with (m + (n - m)).
    assert (Hi1 : 1 <= i) by (destruct Hi; lia). pose proof (P_deg m (n - m) ltac:(lia) Hk qq i l) as HH. apply HH; auto using IA_dom. }
  split; [apply (G false)|apply (G true)].
Qed.
Lemma c83_rd g V I mu : ring_data g V I mu -> keeps_degree V (degree_q g) (giambelli g) /\ keeps_degree V (degree_q g) (qgiambelli g).
Proof.
  intros D. split.
  - apply (keeps g V I mu (pieri_fun g)); [apply (rd_cl _ _ _ _ D)|apply (rd_gsel _ _ _ _ D)| |reflexivity].
    apply (graded_P _ _ (ps_ok _ _ _ _ _ _ _ (rd_cl _ _ _ _ D)) (rd_gc _ _ _ _ D)).
  - apply (keeps g V I mu (qpieri_fun g)); [apply (rd_qu _ _ _ _ D)|apply (rd_gsel _ _ _ _ D)| |reflexivity].
    apply (graded_P _ _ (ps_ok _ _ _ _ _ _ _ (rd_qu _ _ _ _ D)) (rd_gq _ _ _ _ D)).
Qed.
Lemma c83_IG m N g : IsotropicGrassmannian m N = Ok g -> 1 <= m ->
  keeps_degree (class_IG m N) (degree_q g) (giambelli g) /\ keeps_degree (class_IG m N) (degree_q g) (qgiambelli g).
Proof. intros Hg Hm. destruct (rd_IG m N g Hg Hm) as (mu & D). apply (c83_rd _ _ _ _ D). Qed.
Lemma c83_OG m N g : OrthogonalGrassmannian m N = Ok g -> 3 <= N -> 1 <= m <= N / 2 ->
  keeps_degree (class_OG m N) (degree_q g) (giambelli g) /\ keeps_degree (class_OG m N) (degree_q g) (qgiambelli g).
Proof.
  intros Hg HN Hm. destruct (Z.even N) eqn:Ev.
  - assert (H4 : 4 <= N) by (apply Z.even_spec in Ev; destruct Ev; lia). destruct (half_even m N g Hg Ev H4 Hm) as (mu & D).
    specialize (D false ltac:(discriminate)).
    assert (G : keeps_degree (class_OG m N) (degree_q g) (giambelli g)).
    { eapply (keeps g _ _ mu (pieri_fun g)); [apply (hf_sys _ _ _ _ _ D)|apply (hf_gsel _ _ _ _ _ D)| |reflexivity].
      apply (graded_P _ _ (ps_ok _ _ _ _ _ _ _ (hf_sys _ _ _ _ _ D)) (hf_gr _ _ _ _ _ D)). }
    split; auto. intros lam Hl. rewrite (c78_OG m N g (pS lam) Hg HN Hm); [apply G; auto|].
    intros mo Hmo v Hv. apply coef_pvar_neq0 in Hmo. subst mo. destruct Hv as [<-|[]]. right. right. right. exists lam. auto.
  - assert (Ho : Z.odd N = true) by (rewrite <- Z.negb_even, Ev; reflexivity). destruct (rd_OGodd m N g Hg Ho Hm) as (mu & D). apply (c83_rd _ _ _ _ D).
Qed.

(** ** two quantum parameters *)
Lemma mdeg_size dq m : (forall v, In v m -> exists x, v = vS x) -> mono_degree dq m = mdeg size m.
Proof.
  induction m as [|v t IH]; intros H; [reflexivity|]. cbn [mono_degree mdeg]. rewrite IH by (intros w Hw; apply H; right; auto).
  destruct (H v ltac:(left; auto)) as (x & ->). reflexivity.
Qed.
Lemma msubst_class s x qs : (forall v, isqv v -> s v = pvar v) -> Forall isqv qs -> peq (msubst s (vS x :: qs)) (pmul (s (vS x)) (pmono qs)).
Proof.
  intros Hs Hq. change (msubst s (vS x :: qs)) with (pmul (s (vS x)) (msubst s qs)). apply pmul_proper; [reflexivity|]. induction qs as [|v t IH]; [reflexivity|]. inversion Hq; subst. change (msubst s (v :: t)) with (pmul (s v) (msubst s t)). rewrite IH, Hs by auto.
  change (v :: t) with ([v] ++ t). rewrite pmono_app. reflexivity.
Qed.
(** all q set to zero *)
Definition zq (v : var) : poly := match v with VS _ => pvar v | _ => pzero end.
Lemma msubst_zq_in m : (exists v, In v m /\ isqv v) -> peq (msubst zq m) pzero.
Proof.
  induction m as [|v t IH]; intros (w & Hw & Hq); [destruct Hw|]. change (msubst zq (v :: t)) with (pmul (zq v) (msubst zq t)). destruct Hw as [->|Hw].
  - destruct w; simpl in Hq; try contradiction; apply pmul_0_l.
  - assert (E := IH (ex_intro _ w (conj Hw Hq))). rewrite E. rewrite pmul_comm. apply pmul_0_l.
Qed.
Lemma msubst_zq_notin m : (forall v, In v m -> ~ isqv v) -> peq (msubst zq m) (pmono m).
Proof.
  induction m as [|v t IH]; intros H; [reflexivity|]. change (msubst zq (v :: t)) with (pmul (zq v) (msubst zq t)). assert (E : peq (msubst zq t) (pmono t)) by (apply IH; intros w Hw; apply H; right; auto). rewrite E.
  change (v :: t) with ([v] ++ t). rewrite pmono_app. destruct v; try (exfalso; apply (H _ ltac:(left; reflexivity)); exact Logic.I). reflexivity.
Qed.
Lemma qv_dec m : {exists v, In v m /\ isqv v} + {forall v, In v m -> ~ isqv v}.
Proof.
  induction m as [|v t [IH|IH]]; [right; intros v []|left; destruct IH as (w & Hw & Hq); exists w; split; auto; right; auto|].
  destruct v; [right; intros w [<-|Hw]; [simpl; auto|auto]|left; eexists; split; [left; reflexivity|exact Logic.I]..].
Qed.
Lemma coef_zq p m : coef (psubst zq p) m = if qv_dec m then 0%Qc else coef p m.
Proof.
  induction p as [|[a c] t IH]; [destruct (qv_dec m); reflexivity|].
  change (psubst zq ((a, c) :: t)) with (padd (pscale c (msubst zq a)) (psubst zq t)). rewrite coef_padd, coef_pscale, IH. cbn [coef].
  destruct (qv_dec a) as [Ha|Ha].
  - rewrite (msubst_zq_in a Ha m). cbn [coef pzero]. destruct (mono_eqb a m) eqn:E; [|destruct (qv_dec m); ring].
    apply mono_eqb_perm in E. destruct (qv_dec m) as [Hm|Hm]; [ring|]. exfalso. destruct Ha as (v & Hv & Hq). apply (Hm v); auto. eapply Permutation_in; eauto.
  - rewrite (msubst_zq_notin a Ha m). unfold pmono. cbn [coef]. destruct (mono_eqb a m) eqn:E; [|destruct (qv_dec m); ring].
    apply mono_eqb_perm in E. destruct (qv_dec m) as [(v & Hv & Hq)|Hm]; [|ring]. exfalso. apply (Ha v); auto. eapply Permutation_in; [symmetry|]; eauto.
Qed.

Section Two.
Variables (m N : Z) (g : gr).
Hypothesis Hg : OrthogonalGrassmannian m N = Ok g.
Hypothesis HN : Z.even N = true.
Hypothesis H16 : N <= 16.
Hypothesis Hm : 1 <= m.
Hypothesis Hk : m = N / 2 - 1.
Notation V := (class_OG m N).
Notation I := (index_even m N).
Notation X := (special_even m N).
Notation dq := (degree_q g).
Notation qpi := (qpieri_fun g).
Notation cpi := (pieri_fun g).

Lemma two_N : 4 <= N /\ 1 <= m <= N / 2 /\ 3 <= N.
Proof. assert (4 <= N); [|lia]. pose proof (Z.div_mod N 2 ltac:(lia)). pose proof (Z.mod_pos_bound N 2 ltac:(lia)). lia. Qed.

Lemma cl_P i l : V l -> exists r c, pieri g i (pS l) = Ok r /\ peq r (P cpi i l) /\ expands0 r c /\ forall mu, coef_D 1 m i l mu (c mu).
Proof.
  intros Hl. destruct two_N as (A & B & C). destruct (c44_OG' m N g i l Hg ltac:(lia) ltac:(lia) Hl) as (r & c & E & Hx & Hc). rewrite HN in Hc.
  replace (N / 2 - m) with 1 in Hc by lia. rewrite <- Hk in Hc. exists r, c. split; auto. split; auto.
  unfold pieri in E. apply apply_lc_val' in E. rewrite E. change (pS l) with (pvar (vS l)). rewrite psubst_pvar.
  unfold val, P, vS. cbn [image on_part]. destruct (cpi i l); reflexivity.
Qed.
Lemma qu_P i l : V l -> exists r c, qpieri g i (pS l) = Ok r /\ peq r (P qpi i l) /\ expands12 r c /\ quantum_D1 m i l c /\ positive_coefs r /\ homogeneous12 dq (size l + Z.abs i) r.
Proof.
  intros Hl. destruct (c44_qOG_one m N g i l Hg HN H16 Hm Hk Hl) as (r & c & E & Hx & Hc & Hp & Hh). exists r, c. split; auto. split; auto.
  unfold qpieri in E. apply apply_lc_val' in E. rewrite E. change (pS l) with (pvar (vS l)). rewrite psubst_pvar.
  unfold val, P, vS. cbn [image on_part]. destruct (qpi i l); reflexivity.
Qed.

(** the Giambelli polynomial of a class *)
Lemma giam_two lam : V lam -> exists E, giambelli_rec_inner (giam_fuel g) cpi (g_k g) lam = Ok E /\
  supp (fun mo => cm X mo /\ mdeg size mo = size lam) E /\ intp E.
Proof.
  intros Hl. destruct two_N as (A & B & C). destruct (half_even m N g Hg HN A B) as (mu & D). specialize (D false ltac:(discriminate)). cbv iota in D.
  pose proof (hf_sys _ _ _ _ _ D) as HS. destruct (sys_giam HS lam Hl) as (E & EE & Hsp & _). exists E. split; auto.
  assert (W : wi dq (fun v => exists x, v = vS x) (size lam) E).
  { eapply (gri_wi dq (fun v => exists x, v = vS x) HS); eauto.
    - apply (hf_gsel _ _ _ _ _ D).
    - apply (graded_P _ _ (ps_ok _ _ _ _ _ _ _ HS) (hf_gr _ _ _ _ _ D)).
    - intros i _. apply size_num2spec.
    - intros i l mo v Hi HVl Hmo Hv. destruct (cl_P i l HVl) as (r & c & _ & Pr & [_ Hx] & _). rewrite <- (Pr mo) in Hmo. destruct (Hx mo Hmo) as (x & ->). destruct Hv as [<-|[]]. eauto. }
  destruct W as [W Hi]. split; auto. intros mo Hmo. destruct (W mo Hmo) as [W1 W2]. rewrite Forall_forall in W2. split.
  - pose proof (proj2 (poly_in_spoly X I E ltac:(intros l; apply even_iff; lia)) Hsp mo Hmo) as HF.
    apply Forall_forall. intros v Hv. rewrite Forall_forall in HF. destruct (HF v Hv) as [->|(x & Hx & ->)]; eauto. destruct (W2 VQ Hv) as (x & Ex). discriminate.
  - rewrite <- (mdeg_size dq); auto.
Qed.
(** of a combination of classes *)
Lemma giam_comb a : lin_comb0 V a -> exists e, giambelli g a = Ok e /\ qgiambelli g a = Ok e /\ supp (cm X) e.
Proof.
  intros Ha. destruct two_N as (A & B & C).
  destruct (apply_lc_ok (on_part (giambelli_rec_inner (giam_fuel g) cpi (g_k g))) (val (on_part (giambelli_rec_inner (giam_fuel g) cpi (g_k g)))) a) as (e & Ee & Pe).
  { intros mo c v Hin Hv. apply supp_rawnorm in Ha. destruct (Ha mo c Hin) as (x & Hx & ->). destruct Hv as [<-|[]]. destruct (giam_two x Hx) as (E & EE & _).
    unfold val, vS. cbn [image on_part]. rewrite EE. exists E. split; auto. reflexivity. }
  exists e. split; auto. split.
  - rewrite (c78_OG m N g a Hg C B); auto. intros mo Hmo v Hv. destruct (Ha mo Hmo) as (x & Hx & ->). destruct Hv as [<-|[]]. right. right. right. eauto.
  - eapply supp_peq; [symmetry; exact Pe|]. eapply supp_psubst; [|  |exact Ha].
    + intros x y Hxy Hx. eapply Permutation_Forall; eauto.
    + intros mo (x & Hx & ->). destruct (giam_two x Hx) as (E & EE & HE & _). eapply supp_peq; [symmetry; apply msubst_class|].
      * intros v Hv. destruct v; simpl in Hv; try contradiction; reflexivity.
      * constructor.
      * assert (Q : peq (pmul (val (on_part (giambelli_rec_inner (giam_fuel g) cpi (g_k g))) (vS x)) (pmono [])) E).
        { unfold val, vS. cbn [image on_part]. rewrite EE, pmul_comm. apply pmul_1_l. }
        eapply supp_peq; [symmetry; exact Q|]. eapply supp_impl; [|exact HE]. intros mo' H; apply H.
Qed.

Lemma two_acts : action_laws (poly_in X) (lin_comb_qs V) (qact g) /\ special_acts I (lin_comb_qs V) (qact g) (qpieri g) /\
  action_laws (poly_in X) (lin_comb V) (act g) /\ special_acts I (lin_comb V) (act g) (pieri g).
Proof.
  destruct two_N as (A & B & C). destruct (c76_OG_two m N g Hg HN H16 Hm Hk) as [E1 E2]. destruct (c76_OG_even m N g Hg HN A B) as [[E3 E4] _]. auto.
Qed.

(** ** homogeneous *)
Definition hom12 (d : Z) (mo : mono) : Prop := exists d1 d2 mu, V mu /\ Permutation mo (q12S d1 d2 mu) /\ size mu + Z.of_nat (d1 + d2) * dq = d.
Lemma hom12_inv d : minv (hom12 d).
Proof. intros a b Hab (d1 & d2 & x & Hx & HP & Hd). exists d1, d2, x. split; auto. split; auto. rewrite <- Hab. exact HP. Qed.
Lemma qP_hom i l : V l -> intp (P qpi i l) /\ supp (hom12 (size l + Z.abs i)) (P qpi i l).
Proof.
  intros Hl. destruct (qu_P i l Hl) as (r & c & E & Pr & [X1 X2] & HW & Hp & Hh). split.
  - eapply intp_peq; [exact Pr|]. intros mo. destruct (Qc_eq_dec (coef r mo) 0%Qc) as [E0|E0]; [rewrite E0; exists 0; reflexivity|]. destruct (Hp mo E0) as (z & _ & Hz). exists z. exact Hz.
  - eapply supp_peq; [exact Pr|]. intros mo Hmo. destruct (Hh mo Hmo) as (d1 & d2 & mu & HP & Hd). exists d1, d2, mu. split; auto.
    rewrite (coef_perm _ _ _ HP), X1 in Hmo. destruct HW as (_ & _ & _ & _ & H4). destruct (two_inv m N g Hg HN H16 Hm Hk) as (_ & _ & -> & _). apply (H4 d1 d2 mu Hmo).
Qed.
Definition Rh (d : Z) (a b : poly) : Prop := intp a /\ supp (hom12 d) a.
Lemma Rh_pi d i a x : qpieri g i a = Ok x -> intp a -> supp (hom12 d) a -> intp x /\ supp (hom12 (size (special_class i) + d)) x.
Proof.
  intros E Hi Ha. unfold qpieri in E. apply apply_lc_val' in E. set (s := val (on_part (qpi i))) in *.
  assert (Hs : forall v, isqv v -> s v = pvar v) by (intros v Hv; destruct v; simpl in Hv; try contradiction; reflexivity).
  assert (Hc : forall l, s (vS l) = P qpi i l) by (intros l; unfold s, val, P, vS; cbn [image on_part]; destruct (qpi i l); reflexivity).
  assert (Hq : forall d1 d2, Forall isqv (repeat VQ1 d1 ++ repeat VQ2 d2)) by (intros; apply q12_isqv).
  split.
  - eapply intp_peq; [symmetry; exact E|]. eapply intp_psubst; [exact Ha|exact Hi|]. intros mo v (d1 & d2 & y & Hy & HP & _) Hv.
    apply (Permutation_in v HP) in Hv. destruct Hv as [<-|Hv]; [rewrite Hc; apply qP_hom; auto|]. rewrite Hs; [apply intp_pvar|]. specialize (Hq d1 d2). rewrite Forall_forall in Hq. auto.
  - eapply supp_peq; [symmetry; exact E|]. eapply supp_psubst; [apply hom12_inv| |exact Ha]. intros mo (d1 & d2 & y & Hy & HP & Hd).
    eapply supp_peq; [symmetry; apply msubst_perm; exact HP|]. unfold q12S. eapply supp_peq; [symmetry; apply msubst_class; auto|]. rewrite Hc.
    eapply (supp_pmul (hom12 (size y + Z.abs i)) (fun mo => Permutation mo (repeat VQ1 d1 ++ repeat VQ2 d2))); [apply hom12_inv| |apply qP_hom; auto|].
    + intros u w (e1 & e2 & z & Hz & HPz & Hdz) Hw. exists (e1 + d1)%nat, (e2 + d2)%nat, z. split; auto. split.
      * rewrite HPz, Hw. unfold q12S. cbn [app]. constructor. rewrite !repeat_app, <- !app_assoc. apply Permutation_app_head. rewrite !app_assoc. apply Permutation_app_tail. apply Permutation_app_comm.
      * change (special_class i) with (num2spec i). rewrite size_num2spec. lia.
    + apply supp_pmono; auto. intros u w Huw Hu. rewrite <- Huw. exact Hu.
Qed.
Lemma two_homog lam nu : V lam -> V nu ->
  exists r, qmult g (pS lam) (pS nu) = Ok r /\ homogeneous12 dq (size lam + size nu) r /\ integral r.
Proof.
  intros Hl Hn. assert (La : lin_comb0 V (pS lam)) by (intros mo Hmo; apply coef_pvar_neq0 in Hmo; eauto).
  destruct (giam_comb (pS lam) La) as (e & Ee & Eq & _). destruct (giam_two lam Hl) as (E & EE & HE & Hi).
  assert (Pe : peq E e).
  { unfold giambelli in Ee. apply apply_lc_val' in Ee. symmetry. rewrite Ee. change (pS lam) with (pvar (vS lam)). rewrite psubst_pvar. unfold val, vS. cbn [image on_part]. rewrite EE. reflexivity. }
  destruct two_acts as (A1 & A2 & _).
  assert (Ln : lin_comb_qs V (pS nu)) by (intros mo Hmo; apply coef_pvar_neq0 in Hmo; subst mo; exists nu, []; split; auto; split; [reflexivity|intros v []]).
  destruct (rel_act X I (lin_comb_qs V) (lin_comb_qs V) (qact g) (qact g) (qpieri g) (qpieri g) size Rh isint (even_special m N) A1 A1 A2 A2) with (d := size nu) (d1 := size lam) (e := e) (c1 := pS nu) (c2 := pS nu) as (r & _ & Er & _ & _ & _ & R1 & R2); auto.
  - intros d a a' b b' Pa _ [R1 R2]. split; [eapply intp_peq|eapply supp_peq]; eauto.
  - intros d. split; [apply intp_zero|apply supp_zero].
  - intros d a a' b b' [] []. split; [apply intp_padd|apply supp_padd]; auto.
  - intros d c a b Hc []. split; [apply intp_pscale|apply supp_pscale]; auto.
  - intros d i a b x y Hi' La' _ [] Ex _. apply (Rh_pi d i a x); auto.
  - eapply supp_peq; eauto.
  - intros mo _. apply (intp_peq _ _ Pe Hi mo).
  - split; [apply intp_pvar|]. apply supp_pvar; [apply hom12_inv|]. exists O, O, nu. split; auto. split; [reflexivity|]. cbn. lia.
  - exists r. unfold qmult. rewrite Eq. split; auto. split; auto. intros mo Hmo. destruct (R2 mo Hmo) as (d1 & d2 & x & Hx & HP & Hd). exists d1, d2, x. auto.
Qed.

(** ** at q = q1 = q2 = 0 *)
Lemma P_zq i l : V l -> peq (psubst zq (P qpi i l)) (P cpi i l).
Proof.
  intros Hl. destruct (qu_P i l Hl) as (r & c & _ & Pr & [X1 X2] & (HW & _) & _). destruct (cl_P i l Hl) as (r' & c' & _ & Pr' & [Y1 Y2] & HW').
  rewrite <- Pr, <- Pr'. intros mo. rewrite coef_zq. destruct (qv_dec mo) as [(v & Hv & Hq)|Hn].
  - destruct (Qc_eq_dec (coef r' mo) 0%Qc) as [E|E]; auto. exfalso. destruct (Y2 mo E) as (x & ->). destruct Hv as [<-|[]]. exact Hq.
  - assert (G : forall x, coef r [vS x] = coef r' [vS x]).
    { intros x. pose proof (X1 O O x) as A. change (q12S 0 0 x) with [vS x] in A. rewrite A, Y1. apply (coef_D_unique _ _ _ _ _ _ _ (HW x) (HW' x)). }
    destruct (Qc_eq_dec (coef r mo) 0%Qc) as [E|E].
    + destruct (Qc_eq_dec (coef r' mo) 0%Qc) as [E'|E']; [congruence|]. destruct (Y2 mo E') as (x & ->). apply G.
    + destruct (X2 mo E) as (d1 & d2 & x & HP). assert (Hd : d1 = O /\ d2 = O).
      { split; [destruct d1|destruct d2]; auto; exfalso; [apply (Hn VQ1)|apply (Hn VQ2)]; try exact Logic.I; eapply Permutation_in; try (symmetry; exact HP); unfold q12S; right; apply in_or_app; [left|right]; left; reflexivity. }
      destruct Hd as [-> ->]. change (q12S 0 0 x) with [vS x] in HP. rewrite !(coef_perm _ _ _ HP). apply G.
Qed.
Lemma zq_pi i a b x y : lin_comb_qs V a -> peq (psubst zq a) b -> qpieri g i a = Ok x -> pieri g i b = Ok y -> peq (psubst zq x) y.
Proof.
  intros Ha Pb Ex Ey. unfold qpieri in Ex. unfold pieri in Ey. apply apply_lc_val' in Ex. apply apply_lc_val' in Ey.
  set (s := val (on_part (qpi i))) in *. set (s' := val (on_part (cpi i))) in *.
  assert (Hc : forall l, s (vS l) = P qpi i l) by (intros l; unfold s, val, P, vS; cbn [image on_part]; destruct (qpi i l); reflexivity).
  assert (Hc' : forall l, s' (vS l) = P cpi i l) by (intros l; unfold s', val, P, vS; cbn [image on_part]; destruct (cpi i l); reflexivity).
  rewrite Ex, Ey, <- Pb.
  transitivity (psubst zq (psubst s (pnorm a))); [rewrite pnorm_peq; reflexivity|].
  transitivity (psubst s' (psubst zq (pnorm a))); [|rewrite pnorm_peq; reflexivity].
  rewrite !psubst_comp. apply psubst_ext. intros mo c v Hin Hv.
  apply lin_comb_qs_iff, supp_rawnorm in Ha. destruct (Ha mo c Hin) as (l & qm & Hl & HP & HQ).
  apply (Permutation_in _ HP) in Hv. destruct Hv as [<-|Hv].
  - rewrite Hc. change (zq (vS l)) with (pvar (vS l)). rewrite psubst_pvar, Hc'. apply P_zq; auto.
  - rewrite Forall_forall in HQ. specialize (HQ v Hv). destruct v; simpl in HQ; try contradiction; unfold s, val; cbn [image]; rewrite psubst_pvar; reflexivity.
Qed.
Lemma two_q0 a b : lin_comb0 V a -> lin_comb0 V b ->
  exists x r, qmult g a b = Ok x /\ mult g a b = Ok r /\ same_part_without_q x r.
Proof.
  intros Ha Hb. destruct (giam_comb a Ha) as (e & Ee & Eq & HX). destruct two_acts as (A1 & A2 & A3 & A4).
  assert (Lb : lin_comb_qs V b) by (intros mo Hmo; destruct (Hb mo Hmo) as (x & Hx & ->); exists x, []; split; auto; split; [reflexivity|intros v []]).
  destruct (rel_act X I (lin_comb_qs V) (lin_comb V) (qact g) (act g) (qpieri g) (pieri g) (fun _ => 0) (fun _ u w => peq (psubst zq u) w) (fun _ => True) (even_special m N) A1 A3 A2 A4)
    with (d := 0) (d1 := 0) (e := e) (c1 := b) (c2 := b) as (x & r & Ex & Er & _ & _ & R1); auto.
  - intros d u u' w w' Pu Pw R. rewrite <- Pu, <- Pw. exact R.
  - intros d. reflexivity.
  - intros d u u' w w' R R'. rewrite psubst_padd, R, R'. reflexivity.
  - intros d c u w _ R. rewrite psubst_pscale, R. reflexivity.
  - intros d i u w x y Hi Lu _ R Ex Ey. apply (zq_pi i u w); auto.
  - eapply supp_impl; [|exact HX]. intros mo Hmo. split; auto. clear. induction mo as [|v t IH]; [reflexivity|]. cbn [mdeg]. rewrite IH. destruct v as [[]| | |]; reflexivity.
  - apply lin_comb0_lin; auto.
  - intros mo. rewrite coef_zq. destruct (qv_dec mo) as [(v & Hv & Hq)|Hn]; auto. destruct (Qc_eq_dec (coef b mo) 0%Qc) as [E|E]; auto. exfalso. destruct (Hb mo E) as (x & _ & ->). destruct Hv as [<-|[]]. exact Hq.
  - exists x, r. unfold qmult, mult. rewrite Ee, Eq. split; auto. split; auto. intros mo N0 N1 N2. rewrite <- (R1 mo), coef_zq. destruct (qv_dec mo) as [(v & Hv & Hq)|Hn]; auto.
    exfalso. destruct v; simpl in Hq; auto.
Qed.
End Two.
