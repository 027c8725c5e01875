(** The quantum product of IG(n,2n) up to the second power of q, read off the classical product of IG(n+1,2n+2). *)

From Coq Require Import ZArith List Lia Bool Permutation QArith Qcanon Setoid Morphisms.
From Verif Require Import Py OrderFacts PyFacts ModelPart ModelQcalc ModelPoly ModelStr ModelGr Spec SpecPieri SpecRing SpecAct SpecQG
  PolyFacts SuppFacts OpTheory GrInv WSum Sys Sys2 SysApi SysRing FillFacts PartFacts ConjFacts PieriCoef RecBCD CommC RingC RingData ApiRing TopClass CompsFacts CompsBound PieriD
  DetFacts QGiamC GiamDet PresIdeal2 Pfaff2 Pfaff3 DualSys ApiGr Check.
Import ListNotations.
Open Scope Z_scope.

Section L.
Variable n : Z.
Hypothesis Hn : 1 <= n.
Notation Vs := (kstrict_in 0 (n - 0) (n + 0)).
Notation Vb := (kstrict_in 0 (n + 1 - 0) (n + 1 + 0)).
Notation t := (n + 0 + 1).
Notation pis := (piC 0 n true).
Notation pib := (piC 0 (n + 1) false).
Notation lqs := (supp (linm Vs (eq VQ))).
Notation lqb := (supp (linm Vb (eq VQ))).
Lemma Hks : 0 <= 0 <= n. Proof. lia. Qed.
Lemma Hkb : 0 <= 0 <= n + 1. Proof. lia. Qed.
Let SS := sysC 0 n Hks true.
Let SB := sysC 0 (n + 1) Hkb false.
Notation Ms := (M TC pis 0 (giam_fuel (gC 0 n))).
Notation Mb := (M TC pib 0 (giam_fuel (gC 0 (n + 1)))).
Notation sbig := (small_big 0 n).

(** classes of the larger space *)
Lemma big_cases mu : Vb mu -> (part mu 0 <= n + 0 /\ Vs mu) \/ (exists r, mu = t :: r /\ Vs r).
Proof.
  intros Hm. destruct (Z.le_gt_cases (part mu 0) (n + 0)) as [L|L].
  - left. split; auto. assert (Hn1 : 1 <= n + 1) by lia. destruct (V_inv (n + 1) Hn1 (V_bw (n + 1) ltac:(lia)) mu Hm) as [S1 S2].
    apply (V_sorted n Hn (V_bw n ltac:(lia))); auto. intros j Hj. specialize (S2 j Hj). split; [lia|]. destruct mu as [|x mu]; [destruct Hj|]. unfold part in L. cbn in L.
    destruct Hj as [<-|Hj]; [lia|]. apply Sorting.Sorted.StronglySorted_inv in S1. destruct S1 as [_ S1]. rewrite Forall_forall in S1. specialize (S1 j Hj). lia.
  - right. pose proof Hm as ((M1 & M2 & M3) & M4). destruct mu as [|x r]; [unfold part in L; cbn in L; lia|]. unfold part in L, M3. cbn in L, M3.
    assert (x = t) by lia. subst x. exists r. split; auto. apply kstrict_row; auto using Hks.
Qed.
Lemma coef_sm p l0 mu c c' : coef_IG 0 n p 0 l0 mu c -> coef_IG 0 (n + 1) p 0 l0 mu c' -> c = if part mu 0 <=? n + 0 then c' else 0%Qc.
Proof.
  intros Hc Hc'. assert (Ht : pieri_term 0 n p l0 mu <-> pieri_term 0 (n + 1) p l0 mu /\ part mu 0 <= n + 0).
  { split.
    - intros (A & B & C). split; [split; [apply sbig; auto|auto]|]. apply A.
    - intros [(A & B & C) Hx]. destruct (big_cases mu A) as [[_ A']|(r & -> & _)]; [split; auto|]. unfold part in Hx. cbn in Hx. lia. }
  destruct (Z.leb_spec (part mu 0) (n + 0)) as [L|L].
  - destruct Hc as [(H1 & N & H2 & _ & ->)|(H1 & ->)], Hc' as [(H3 & N' & H4 & _ & ->)|(H3 & ->)]; try tauto. rewrite (component_count_unique _ _ _ _ H2 H4). reflexivity.
  - destruct Hc as [(H1 & _)|(_ & ->)]; auto. apply Ht in H1. lia.
Qed.

(** half of q times an element *)
Definition hm (c : poly) : poly := pscale (Q2Qc (1 # 2)) (pmul (pmono [VQ]) c).
Definition D (l : list Z) : poly := match l with x :: r => if x =? t then hm (pS r) else pS l | [] => pS [] end.
Notation psi := (psubst (dv D)).
Lemma D_small l : part l 0 <= n + 0 -> D l = pS l.
Proof. destruct l as [|x l]; [reflexivity|]. unfold part. cbn [nth D]. intros Hx. destruct (Z.eqb_spec x t); [lia|reflexivity]. Qed.
Lemma D_top r : D (t :: r) = hm (pS r).
Proof. cbn [D]. rewrite Z.eqb_refl. reflexivity. Qed.
Lemma D_Vs l : Vs l -> D l = pS l.
Proof. intros ((_ & _ & H) & _). apply D_small; auto. Qed.
Lemma psi_S l : peq (psi (pS l)) (D l).
Proof. unfold pS. rewrite psubst_pvar. reflexivity. Qed.
Lemma hm_peq a b : peq a b -> peq (hm a) (hm b).
Proof. intros E. unfold hm. rewrite E. reflexivity. Qed.
Lemma lqs_hm c : lqs c -> lqs (hm c).
Proof. intros Hc. apply supp_pscale. apply (lin_qmul Vs (eq VQ)); auto. Qed.
Lemma lqs_D l : Vb l -> lqs (D l).
Proof. intros Hl. destruct (big_cases l Hl) as [[A B]|(r & -> & B)]; [rewrite D_small by auto|rewrite D_top; apply lqs_hm]; apply (sys_lq_pS (V := Vs)); auto. Qed.
Lemma psi_term a qm l : Forall (eq VQ) qm -> peq (psi (pscale a (pmul (pmono qm) (pS l)))) (pscale a (pmul (pmono qm) (D l))).
Proof. intros Hq. rewrite psubst_pscale, psubst_pmul, psubst_pmono, (dv_q D qm Hq), psi_S. reflexivity. Qed.
Lemma lqs_psi c : lqb c -> lqs (psi c).
Proof.
  revert c. apply (lin_ind Vb (eq VQ)).
  - intros p r E Hp. eapply supp_peq; [apply psubst_proper; exact E|exact Hp].
  - apply supp_zero.
  - intros qm l c p Hl Hq Hp IH. eapply supp_peq; [symmetry; rewrite psubst_padd; apply padd_proper; [apply (psi_term c qm l Hq)|reflexivity]|].
    apply supp_padd; auto. apply supp_pscale. apply (lin_qmul Vs (eq VQ)); auto. apply lqs_D; auto.
Qed.

(** ** equality up to the square of q *)
Definition E2 (x y : poly) : Prop := exists z, lqs z /\ peq x (padd y (pmul (pmono [VQ; VQ]) z)).
Lemma E2_of x y : peq x y -> E2 x y.
Proof. intros E. exists pzero. split; [apply supp_zero|]. rewrite E. ring. Qed.
Lemma E2_peq x x' y y' : peq x x' -> peq y y' -> E2 x y -> E2 x' y'.
Proof. intros A B (z & Hz & E). exists z. split; auto. rewrite <- A, <- B. exact E. Qed.
Lemma E2_trans x y w : E2 x y -> E2 y w -> E2 x w.
Proof. intros (z & Hz & E) (z' & Hz' & E'). exists (padd z' z). split; [apply supp_padd; auto|]. rewrite E, E'. ring. Qed.
Lemma lqs_opp z : lqs z -> lqs (pscale (- (1))%Qc z).
Proof. apply supp_pscale. Qed.
Lemma E2_sym x y : E2 x y -> E2 y x.
Proof. intros (z & Hz & E). exists (pscale (- (1))%Qc z). split; [apply lqs_opp; auto|]. rewrite E, pscale_pmul, pconst_opp. change (pconst 1%Qc) with pone. ring. Qed.
Lemma E2_add x y x' y' : E2 x y -> E2 x' y' -> E2 (padd x x') (padd y y').
Proof. intros (z & Hz & E) (z' & Hz' & E'). exists (padd z z'). split; [apply supp_padd; auto|]. rewrite E, E'. ring. Qed.
Lemma E2_scale c x y : E2 x y -> E2 (pscale c x) (pscale c y).
Proof. intros (z & Hz & E). exists (pscale c z). split; [apply supp_pscale; auto|]. rewrite E, !pscale_pmul. ring. Qed.
Lemma E2_sub x y x' y' : E2 x y -> E2 x' y' -> E2 (psub x x') (psub y y').
Proof. intros A B. unfold psub. apply E2_add; auto. apply E2_scale; auto. Qed.
Lemma E2_q qm x y : Forall (eq VQ) qm -> E2 x y -> E2 (pmul (pmono qm) x) (pmul (pmono qm) y).
Proof. intros Hq (z & Hz & E). exists (pmul (pmono qm) z). split; [apply (lin_qmul Vs (eq VQ)); auto|]. rewrite E. ring. Qed.
Lemma E2_hm x y : E2 x y -> E2 (hm x) (hm y).
Proof. intros H. unfold hm. apply E2_scale, E2_q; auto. Qed.

(** ** one special class *)
Definition Oq (i : Z) (c : poly) : poly := if i =? t then hm c else ext pis i c.
Lemma Oq_peq i a b : peq a b -> peq (Oq i a) (Oq i b).
Proof. intros E. unfold Oq. destruct (i =? t); [apply hm_peq; auto|]. unfold ext. rewrite E. reflexivity. Qed.
Lemma Oq_zero i : peq (Oq i pzero) pzero.
Proof. unfold Oq, hm. destruct (i =? t); [rewrite pscale_pmul; ring|reflexivity]. Qed.
Lemma Oq_add i a b : peq (Oq i (padd a b)) (padd (Oq i a) (Oq i b)).
Proof. unfold Oq, hm. destruct (i =? t); [rewrite !pscale_pmul; ring|]. unfold ext. apply psubst_padd. Qed.
Lemma Oq_scale i c a : peq (Oq i (pscale c a)) (pscale c (Oq i a)).
Proof. unfold Oq, hm. destruct (i =? t); [rewrite !pscale_pmul; ring|]. unfold ext. apply psubst_pscale. Qed.
Lemma Oq_q i qm a : Forall (eq VQ) qm -> peq (Oq i (pmul (pmono qm) a)) (pmul (pmono qm) (Oq i a)).
Proof.
  intros Hq. unfold Oq, hm. destruct (i =? t); [rewrite !pscale_pmul; ring|]. unfold ext. rewrite psubst_pmul, psubst_pmono.
  rewrite (msubst_q pis (eq VQ) eqVQ_isqv i qm Hq). reflexivity.
Qed.
Lemma Oq_lqs i c : 1 <= i <= t -> lqs c -> lqs (Oq i c).
Proof. intros Hi Hc. unfold Oq. destruct (Z.eqb_spec i t); [apply lqs_hm; auto|]. apply (sys_ext_lin SS); auto. unfold IC. lia. Qed.
Lemma Oq_E2 i x y : 1 <= i <= t -> E2 x y -> E2 (Oq i x) (Oq i y).
Proof.
  intros Hi (z & Hz & E). exists (Oq i z). split; [apply Oq_lqs; auto|]. rewrite (Oq_peq i _ _ E), Oq_add, Oq_q by (repeat constructor). reflexivity.
Qed.
Lemma Oq_M i a b : 1 <= i <= t -> lqs a -> lqs b -> peq (Oq i (Ms a b)) (Ms (Oq i a) b).
Proof.
  intros Hi Ha Hb. unfold Oq. destruct (Z.eqb_spec i t).
  - unfold hm. assert (H1 : lqs (pmul (pmono [VQ]) a)) by (apply (lin_qmul Vs (eq VQ)); auto). rewrite (sys_scale_l SS) by auto using (@sys_lq_vp Vs). rewrite (sys_q_l SS) by auto. reflexivity.
  - apply (sys_ext SS); auto. unfold IC. lia.
Qed.
Lemma Oq_pS i l : i <> t -> peq (Oq i (pS l)) (P pis i l).
Proof. intros Hi. unfold Oq. destruct (Z.eqb_spec i t); [contradiction|]. apply ext_pS. Qed.

(** the small classes *)
Lemma step_small p l0 : 1 <= p <= n -> Vs l0 -> peq (psi (P pib p l0)) (P pis p l0).
Proof.
  intros Hp H0. pose proof Hks as Hk.
  destruct (pieriC_lincl 0 n l0 p Hk H0) as (a & Wa & Ea & Ha & HWa).
  destruct (pieriC_lincl 0 (n + 1) l0 p Hkb (sbig l0 H0)) as (b & Wb & Eb & Hb & HWb).
  assert (Hka : peq a (psubst (keepv 0 n) b)).
  { pose proof (lincl_keep 0 n b Wb Hb) as HH. intros m. rewrite (Ha m), (HH m). unfold wval. destruct m as [|[[x|u w]| | |] [|v m]]; auto. apply (coef_sm p l0 x); auto. }
  destruct (apply_lc_ok (on_part (fun x => opt_schur (part_star x t))) (starv 0 n) b) as (z & Ez & Pz).
  { intros m c v Hin Hv. assert (Hc : coef b m <> 0%Qc).
    { rewrite <- coef_pnorm. rewrite (nf_coef_in _ _ _ (pnorm_nf b) Hin). destruct (pnorm_nf b) as (_ & Hz). rewrite Forall_forall in Hz. apply (Hz _ Hin). }
    destruct (lincl_inv _ _ _ Hb Hc) as (l & -> & Hl'). destruct Hv as [<-|[]]. cbn [image on_part vS starv].
    destruct (part_star l t) as [r|] eqn:E; cbn [opt_schur]; [|eexists; split; reflexivity].
    destruct (coef_IG_supp _ _ _ _ _ _ _ (HWb l) Hl') as ((( A & _) & _) & _). apply part_nonneg in A. unfold part_star in E.
    destruct l as [|x l]; [discriminate|]. destruct (x =? t); [|discriminate]. injection E as <-. inversion A; subst. rewrite symbol_ok by auto. eexists. split; reflexivity. }
  assert (Eys : exists ys, pis p l0 = Ok ys /\ peq ys (padd (psubst (keepv 0 n) b) (pmul half_q (psubst (starv 0 n) b)))).
  { unfold piC. cbn [qpieri_fun g_type g_k g_n gC]. unfold qpieriC_inner. rewrite Ea. cbn [bind]. rewrite Eb. cbn [bind]. rewrite Ez. cbn [bind].
    eexists. split; [reflexivity|]. rewrite Hka, Pz. reflexivity. }
  destruct Eys as (ys & Ey & Pys). assert (Eyb : pib p l0 = Ok b) by exact Eb. unfold P. rewrite Ey, Eyb, Pys.
  apply (subst_split _ _ _ half_q b Wb Hb). intros x Hx. destruct (coef_IG_supp _ _ _ _ _ _ _ (HWb x) Hx) as (A & _ & _).
  rewrite keepv_S, starv_S. change (dv D (vS x)) with (D x). destruct (big_cases x A) as [[B1 B2]|(r & -> & B2)].
  - rewrite D_small by auto. assert (Ek : part x 0 <=? n + 0 = true) by lia. rewrite Ek.
    assert (Est : part_star x t = None).
    { unfold part_star. destruct x as [|u x]; [reflexivity|]. unfold part in B1. cbn in B1. destruct (Z.eqb_spec u t); [lia|reflexivity]. }
    rewrite Est. ring.
  - rewrite D_top. assert (Ek : part (t :: r) 0 <=? n + 0 = false) by (unfold part; cbn; lia). rewrite Ek.
    assert (Est : part_star (t :: r) t = Some r) by (unfold part_star; rewrite Z.eqb_refl; reflexivity). rewrite Est. unfold hm, half_q. rewrite !pscale_pmul. change (pmono [VQ]) with (pvar VQ). ring.
Qed.
(** the largest row *)
Lemma top_small r : Vs r -> peq (P pib t r) (pS (t :: r)).
Proof.
  intros Hr. assert (Hx : Z.of_nat (length r) < n + 1 - 0 /\ part r 0 < t) by (destruct Hr as ((_ & A & B) & _); lia).
  assert (HV : Vb (t :: r)) by (apply TopClass.kstrict_cons; auto; [apply sbig; auto|lia|lia]).
  destruct (pieriC_lincl 0 (n + 1) r t Hkb (sbig r Hr)) as (b & Wb & Eb & Hb & HWb). assert (Eyb : pib t r = Ok b) by exact Eb. unfold P. rewrite Eyb.
  intros m. rewrite (Hb m), coef_pS. unfold wval. destruct m as [|[[x|u w]| | |] [|v m]]; try reflexivity.
  destruct (l_dec (t :: r) x) as [<-|Nx].
  - apply (coef_IG_tl 0 (n + 1) t r _ Hkb HV (HWb (t :: r))).
  - destruct (Qc_eq_dec (Wb x) 0%Qc) as [->|Hc]; [reflexivity|]. exfalso. apply Nx. symmetry. destruct (coef_IG_supp _ _ _ _ _ _ _ (HWb x) Hc) as (A & B & C).
    apply (top_shape 0 0); auto; [apply Hr|apply A|lia|]. destruct A as ((_ & _ & A) & _). lia.
Qed.
Lemma top_top r : Vs r -> Vb (t :: r) -> peq (P pib t (t :: r)) pzero.
Proof.
  intros Hr HV. destruct (pieriC_lincl 0 (n + 1) (t :: r) t Hkb HV) as (b & Wb & Eb & Hb & HWb). assert (Eyb : pib t (t :: r) = Ok b) by exact Eb. unfold P. rewrite Eyb.
  intros m. rewrite (Hb m). change (coef pzero m) with 0%Qc. unfold wval. destruct m as [|[[x|u w]| | |] [|v m]]; try reflexivity.
  destruct (Qc_eq_dec (Wb x) 0%Qc) as [->|Hc]; [reflexivity|]. exfalso. destruct (coef_IG_supp _ _ _ _ _ _ _ (HWb x) Hc) as (A & B & C).
  assert (Ex : x = t :: t :: r) by (apply (top_shape 0 0); auto; [apply HV|apply A|lia|destruct A as ((_ & _ & A) & _); lia]). subst x.
  assert (Hn1 : 1 <= n + 1) by lia. destruct (V_inv (n + 1) Hn1 (V_bw (n + 1) ltac:(lia)) _ A) as [S1 _]. apply Sorting.Sorted.StronglySorted_inv in S1. destruct S1 as [_ S1]. inversion S1; lia.
Qed.
Lemma Vb_top r : Vs r -> Vb (t :: r).
Proof.
  intros Hr. assert (Hx : Z.of_nat (length r) < n + 1 - 0 /\ part r 0 < t) by (destruct Hr as ((_ & A & B) & _); lia).
  apply TopClass.kstrict_cons; auto; [apply sbig; auto|lia|lia].
Qed.
(** linear extension *)
Lemma lift (F G : poly -> poly) : (forall a b, peq a b -> peq (F a) (F b)) -> (forall a b, peq a b -> peq (G a) (G b)) ->
  peq (F pzero) pzero -> peq (G pzero) pzero ->
  (forall a qm l c, Forall (eq VQ) qm -> Vb l -> lqb c -> peq (F (padd (pscale a (pmul (pmono qm) (pS l))) c)) (padd (pscale a (pmul (pmono qm) (F (pS l)))) (F c))) ->
  (forall a qm l c, Forall (eq VQ) qm -> Vb l -> lqb c -> peq (G (padd (pscale a (pmul (pmono qm) (pS l))) c)) (padd (pscale a (pmul (pmono qm) (G (pS l)))) (G c))) ->
  (forall l, Vb l -> E2 (F (pS l)) (G (pS l))) -> forall c, lqb c -> E2 (F c) (G c).
Proof.
  intros F1 G1 F0 G0 FA GA HE. apply (lin_ind Vb (eq VQ)).
  - intros p r E H. eapply E2_peq; [apply F1; exact E|apply G1; exact E|exact H].
  - apply E2_of. rewrite F0, G0. reflexivity.
  - intros qm l c p Hl Hq Hp IH. eapply E2_peq; [symmetry; apply FA; auto|symmetry; apply GA; auto|]. apply E2_add; auto. apply E2_scale, E2_q; auto.
Qed.
Lemma extb_lin i a qm l c : Forall (eq VQ) qm -> peq (ext pib i (padd (pscale a (pmul (pmono qm) (pS l))) c)) (padd (pscale a (pmul (pmono qm) (ext pib i (pS l)))) (ext pib i c)).
Proof. intros Hq. unfold ext. rewrite psubst_padd, psubst_pscale, psubst_pmul, psubst_pmono, (msubst_q pib (eq VQ) eqVQ_isqv i qm Hq). reflexivity. Qed.
Lemma psi_lin a qm x c : Forall (eq VQ) qm -> peq (psi (padd (pscale a (pmul (pmono qm) x)) c)) (padd (pscale a (pmul (pmono qm) (psi x))) (psi c)).
Proof. intros Hq. rewrite psubst_padd, psubst_pscale, psubst_pmul, psubst_pmono, (dv_q D qm Hq). reflexivity. Qed.
Lemma Oq_lin i a qm x c : Forall (eq VQ) qm -> peq (Oq i (padd (pscale a (pmul (pmono qm) x)) c)) (padd (pscale a (pmul (pmono qm) (Oq i x))) (Oq i c)).
Proof. intros Hq. rewrite Oq_add, Oq_scale. rewrite (pscale_proper a _ _ (Oq_q i qm x Hq)). reflexivity. Qed.
Lemma ext_lift i : (forall l, Vb l -> E2 (psi (ext pib i (pS l))) (Oq i (psi (pS l)))) -> forall c, lqb c -> E2 (psi (ext pib i c)) (Oq i (psi c)).
Proof.
  intros H. apply (lift (fun c => psi (ext pib i c)) (fun c => Oq i (psi c))); auto.
  - intros a b E. unfold ext. rewrite E. reflexivity.
  - intros a b E. apply Oq_peq. rewrite E. reflexivity.
  - reflexivity.
  - exact (Oq_zero i).
  - intros a qm l c Hq Hl Hc. etransitivity; [apply psubst_proper, (extb_lin i a qm l c Hq)|]. apply psi_lin; auto.
  - intros a qm l c Hq Hl Hc. etransitivity; [apply Oq_peq, (psi_lin a qm (pS l) c Hq)|]. apply Oq_lin; auto.
Qed.
Lemma star_top c : lqb c -> E2 (psi (ext pib t c)) (hm (psi c)).
Proof.
  intros Hc. assert (G : E2 (psi (ext pib t c)) (Oq t (psi c))); [|unfold Oq in G; rewrite Z.eqb_refl in G; exact G]. revert c Hc. apply ext_lift. intros l Hl.
  apply (E2_peq (psi (P pib t l)) _ (hm (D l)) _); [apply psubst_proper; symmetry; apply ext_pS|unfold Oq; rewrite Z.eqb_refl; apply hm_peq; symmetry; apply psi_S|].
  destruct (big_cases l Hl) as [[_ A]|(r & -> & A)].
  - apply E2_of. rewrite (psubst_proper _ _ _ (top_small l A)), psi_S, D_top, (D_Vs l A). reflexivity.
  - apply E2_sym. exists (pscale (Q2Qc (1 # 2) * Q2Qc (1 # 2))%Qc (pS r)). split; [apply supp_pscale, (sys_lq_pS (V := Vs)); auto|].
    rewrite (psubst_proper _ _ _ (top_top r A Hl)), D_top. change (psi pzero) with pzero. unfold hm. rewrite pscale_mul. rewrite !pscale_pmul. change [VQ; VQ] with ([VQ] ++ [VQ]). rewrite pmono_app. ring.
Qed.
Lemma star i c : 1 <= i <= t -> lqb c -> E2 (psi (ext pib i c)) (Oq i (psi c)).
Proof.
  intros Hi. destruct (Z.eq_dec i t) as [->|Hit].
  - intros Hc. unfold Oq. rewrite Z.eqb_refl. apply star_top; auto.
  - revert c. apply ext_lift. intros l Hl. assert (Hp : 1 <= i <= n) by lia.
    apply (E2_peq (psi (P pib i l)) _ (Oq i (D l)) _); [apply psubst_proper; symmetry; apply ext_pS|apply Oq_peq; symmetry; apply psi_S|].
    destruct (big_cases l Hl) as [[_ A]|(r & -> & A)].
    + apply E2_of. rewrite (step_small i l Hp A), (D_Vs l A), (Oq_pS i l Hit). reflexivity.
    + assert (I1 : IC 0 (n + 1) i) by (unfold IC; lia). assert (I2 : IC 0 (n + 1) t) by (unfold IC; lia).
      assert (E : peq (P pib i (t :: r)) (ext pib t (P pib i r))).
      { rewrite <- (ps_comm _ _ _ _ _ _ _ SB t i r I2 I1 (sbig r A)). unfold ext at 1. rewrite (top_small r A). symmetry. apply ext_pS. }
      apply (E2_peq (psi (ext pib t (P pib i r))) _ (hm (psi (P pib i r))) _); [apply psubst_proper; symmetry; exact E| |apply star_top; apply (sys_P_lq SB); auto; apply sbig; auto].
      rewrite D_top. etransitivity; [apply hm_peq, (step_small i r Hp A)|]. unfold hm. rewrite Oq_scale. apply pscale_proper. rewrite Oq_q by (repeat constructor). rewrite (Oq_pS i r Hit). reflexivity.
Qed.

(** ** the product *)
Lemma E2_Ml x y b : lqs y -> lqs b -> E2 x y -> E2 (Ms x b) (Ms y b).
Proof.
  intros Hy Hb (z & Hz & E). assert (Hq : lqs (pmul (pmono [VQ; VQ]) z)) by (apply (lin_qmul Vs (eq VQ)); auto).
  exists (Ms z b). split; [apply (sys_lin SS); auto using (@sys_lq_vp Vs)|]. rewrite (M_peq TC pis 0 (giam_fuel (gC 0 n)) _ _ b b E (reflexivity _)), (sys_add_l SS) by auto using (@sys_lq_vp Vs). rewrite (sys_q_l SS) by auto. reflexivity.
Qed.
Lemma Mb_lin b a qm x c : lqb b -> lqb x -> lqb c -> Forall (eq VQ) qm -> peq (Mb (padd (pscale a (pmul (pmono qm) x)) c) b) (padd (pscale a (pmul (pmono qm) (Mb x b))) (Mb c b)).
Proof.
  intros Hb Hx Hc Hq. assert (Hqx : lqb (pmul (pmono qm) x)) by (apply (lin_qmul Vb (eq VQ)); auto). rewrite (sys_add_l SB) by (auto using (@sys_lq_vp Vb); apply (@sys_lq_vp Vb), supp_pscale; auto).
  rewrite (sys_scale_l SB) by auto using (@sys_lq_vp Vb). rewrite (pscale_proper a _ _ (sys_q_l SB qm x b Hq Hx Hb)). reflexivity.
Qed.
Lemma Ms_lin b a qm x c : lqs b -> lqs x -> lqs c -> Forall (eq VQ) qm -> peq (Ms (padd (pscale a (pmul (pmono qm) x)) c) b) (padd (pscale a (pmul (pmono qm) (Ms x b))) (Ms c b)).
Proof.
  intros Hb Hx Hc Hq. assert (Hqx : lqs (pmul (pmono qm) x)) by (apply (lin_qmul Vs (eq VQ)); auto). rewrite (sys_add_l SS) by (auto using (@sys_lq_vp Vs); apply (@sys_lq_vp Vs), supp_pscale; auto).
  rewrite (sys_scale_l SS) by auto using (@sys_lq_vp Vs). rewrite (pscale_proper a _ _ (sys_q_l SS qm x b Hq Hx Hb)). reflexivity.
Qed.
Lemma main_l b : lqb b -> forall N l, (muM (n + 1 + 0) l < N)%nat -> Vb l -> E2 (psi (Mb (pS l) b)) (Ms (D l) (psi b)).
Proof.
  intros Hb. assert (Hpb : lqs (psi b)) by (apply lqs_psi; auto). induction N as [|N IH]; intros l HN Hl; [lia|].
  destruct l as [|a l'].
  { apply E2_of. rewrite (psubst_proper _ _ _ (sys_unit SB b Hb)). symmetry. apply (sys_unit SS); auto. }
  destruct (sys_rec SB (a :: l') b Hl Hb ltac:(discriminate)) as (p & l0 & E1 & Ip & [V0 M0] & Hst & ER). set (l := a :: l') in *. set (st := psub (P pib p l0) (pS l)) in *.
  unfold IC in Ip. assert (Hp : 1 <= p <= t) by lia.
  assert (Lst : lqb st) by (eapply supp_impl; [|exact Hst]; intros m (x & qm & (Hx & _) & HP & HQ); exists x, qm; auto).
  assert (B1 : E2 (psi (Mb st b)) (Ms (psi st) (psi b))).
  { cut (lqb st /\ E2 (psi (Mb st b)) (Ms (psi st) (psi b))); [tauto|]. generalize st Hst. clear st Hst Lst ER.
    apply (lin_ind (below Vb (muM (n + 1 + 0)) l) (eq VQ)).
    - intros x y E [H1 H2]. split; [eapply supp_peq; eauto|]. eapply E2_peq; [| |exact H2]; [apply psubst_proper, M_peq; [exact E|reflexivity]|apply M_peq; [apply psubst_proper; exact E|reflexivity]].
    - split; [apply supp_zero|]. apply E2_of. rewrite (psubst_proper _ _ _ (sys_zero_l b Hb)). change (psi pzero) with pzero. symmetry. apply (sys_zero_l (V := Vs)); auto.
    - intros qm x c y [Hx Hmx] Hq _ [Hy HE]. assert (Lx : lqb (pS x)) by (apply (sys_lq_pS (V := Vb)); auto). split; [apply supp_padd; auto; apply supp_pscale, (lin_qmul Vb (eq VQ)); auto|].
      eapply E2_peq; [symmetry; etransitivity; [apply psubst_proper, (Mb_lin b c qm (pS x) y Hb Lx Hy Hq)|apply psi_lin; auto]| |].
      + symmetry. etransitivity; [apply M_peq; [apply (psi_lin c qm (pS x) y Hq)|reflexivity]|]. apply Ms_lin; auto using lqs_psi.
      + apply E2_add; auto. apply E2_scale, E2_q; auto. eapply E2_peq; [reflexivity|apply M_peq; [symmetry; apply psi_S|reflexivity]|]. apply IH; auto. lia. }
  assert (B2 : E2 (psi (ext pib p (Mb (pS l0) b))) (Ms (Oq p (D l0)) (psi b))).
  { apply (E2_trans _ (Oq p (psi (Mb (pS l0) b)))); [apply star; auto; apply (sys_lin SB); auto using (@sys_lq_vp Vb), (sys_lq_pS (V := Vb))|].
    apply (E2_trans _ (Oq p (Ms (D l0) (psi b)))); [apply Oq_E2; auto; apply IH; auto; lia|]. apply E2_of. apply Oq_M; auto using lqs_D. }
  assert (L1 : lqs (Oq p (D l0))) by (apply Oq_lqs; auto using lqs_D). assert (L2 : lqs (psi st)) by (apply lqs_psi; auto).
  assert (B3 : E2 (D l) (psub (Oq p (D l0)) (psi st))).
  { apply (E2_peq (psub (psi (P pib p l0)) (psi st)) _ (psub (Oq p (D l0)) (psi st)) _).
    - unfold st, psub. rewrite psubst_padd, psubst_pscale, psi_S. rewrite !pscale_pmul, !pconst_opp. change (pconst 1%Qc) with pone. ring.
    - reflexivity.
    - apply E2_sub; [|apply E2_of; reflexivity]. apply (E2_peq (psi (ext pib p (pS l0))) _ (Oq p (psi (pS l0))) _); [apply psubst_proper, ext_pS|apply Oq_peq, psi_S|]. apply star; auto. apply (sys_lq_pS (V := Vb)); auto. }
  assert (L3 : lqs (psub (Oq p (D l0)) (psi st))) by (unfold psub; apply supp_padd; auto; apply supp_pscale; auto).
  apply (E2_trans _ (psub (Ms (Oq p (D l0)) (psi b)) (Ms (psi st) (psi b)))).
  - eapply E2_peq; [symmetry; etransitivity; [apply psubst_proper; exact ER|unfold psub; rewrite psubst_padd, psubst_pscale; reflexivity]|reflexivity|]. apply E2_sub; auto.
  - apply E2_sym. apply (E2_trans _ (Ms (psub (Oq p (D l0)) (psi st)) (psi b))); [apply E2_Ml; auto|]. apply E2_of. apply (sys_sub_l SS); auto.
Qed.
Lemma main a b : Vb a -> Vb b -> E2 (psi (Mb (pS a) (pS b))) (Ms (D a) (D b)).
Proof.
  intros Ha Hb. assert (Lb : lqb (pS b)) by (apply (sys_lq_pS (V := Vb)); auto). eapply E2_peq; [reflexivity| |apply (main_l (pS b) Lb (S (muM (n + 1 + 0) a)) a); auto].
  apply M_peq; [reflexivity|apply psi_S].
Qed.

(** ** coefficients *)
Lemma coef_D l d nu : Vb l -> Vs nu -> (d <= 1)%nat ->
  coef (D l) (qS d nu) = (coef (pS l) (qS d nu) + (if (d =? 1)%nat then Q2Qc (1 # 2) * coef (pS l) (qS 0 (t :: nu)) else 0))%Qc.
Proof.
  intros Hl Hnu Hd. assert (Nt : forall x, Vs x -> forall r, x <> t :: r) by (intros x ((_ & _ & A) & _) r ->; unfold part in A; cbn in A; lia).
  destruct (big_cases l Hl) as [[_ A]|(r & -> & A)].
  - rewrite (D_Vs l A), !coef_pS_q. destruct (l_dec l (t :: nu)) as [E|_]; [destruct (Nt l A nu E)|]. cbn [Nat.eqb]. destruct (d =? 1)%nat; ring.
  - rewrite D_top. unfold hm. rewrite coef_pscale. change (pmono [VQ]) with (pmono (repeat VQ 1)). rewrite coef_qmul, !coef_pS_q.
    destruct (l_dec (t :: r) nu) as [E|_]; [destruct (Nt nu Hnu r (eq_sym E))|]. destruct d as [|[|d]]; [|cbn [Nat.eqb Nat.leb Nat.sub]|lia].
    + cbn [Nat.eqb Nat.leb]. ring.
    + destruct (l_dec r nu) as [E1|N]; destruct (l_dec (t :: r) (t :: nu)) as [E|N']; try congruence; ring.
Qed.
Lemma coef_psi c d nu : lqb c -> Vs nu -> (d <= 1)%nat ->
  coef (psi c) (qS d nu) = (coef c (qS d nu) + (if (d =? 1)%nat then Q2Qc (1 # 2) * coef c (qS 0 (t :: nu)) else 0))%Qc.
Proof.
  intros Hc Hnu Hd. revert c Hc. apply (lin_ind Vb (eq VQ)).
  - intros p r E H. rewrite <- !(E _), <- H. apply psubst_proper. symmetry. exact E.
  - change (psi pzero) with pzero. change (0 = 0 + (if (d =? 1)%nat then Q2Qc (1 # 2) * 0 else 0))%Qc. destruct (d =? 1)%nat; ring.
  - intros qm l a p Hl Hq Hp IH. assert (Eq : qm = repeat VQ (length qm)) by (clear -Hq; induction Hq as [|v qm <- _ IH]; [reflexivity|cbn [length repeat]; congruence]). rewrite Eq in *. clear Eq. set (e := length qm) in *.
    rewrite (psi_lin a (repeat VQ e) (pS l) p Hq _), !coef_padd, IH, !coef_pscale, !coef_qmul.
    assert (HD : forall d', (d' <= 1)%nat -> coef (psi (pS l)) (qS d' nu) = (coef (pS l) (qS d' nu) + (if (d' =? 1)%nat then Q2Qc (1 # 2) * coef (pS l) (qS 0 (t :: nu)) else 0))%Qc) by (intros d' Hd'; rewrite (psi_S l _); apply coef_D; auto).
    destruct (Nat.leb_spec e d) as [L|L].
    + rewrite HD by lia. destruct e as [|[|e]]; [|assert (d = 1%nat) by lia; subst d|lia].
      * rewrite Nat.sub_0_r. destruct (d =? 1)%nat; cbn [Nat.leb Nat.sub]; ring.
      * cbn [Nat.eqb Nat.leb Nat.sub]. ring.
    + destruct (e <=? 0)%nat eqn:E0; [apply Nat.leb_le in E0; lia|]. destruct (d =? 1)%nat; ring.
Qed.
Lemma E2_coef x y d nu : (d <= 1)%nat -> E2 x y -> coef x (qS d nu) = coef y (qS d nu).
Proof.
  intros Hd (z & _ & E). rewrite (E _), coef_padd. change [VQ; VQ] with (repeat VQ 2). rewrite coef_qmul. destruct (Nat.leb_spec 2 d); [lia|]. ring.
Qed.
Lemma Mb_free a b m : Vb a -> Vb b -> In VQ m -> coef (Mb (pS a) (pS b)) m = 0%Qc.
Proof.
  intros Ha Hb Hm. assert (HP : forall i l, IC 0 (n + 1) i -> Vb l -> peq (psubst z0 (P (piC 0 (n + 1) true) i l)) (P pib i l)) by (intros i l Hi Hl; apply (q0C 0 (n + 1) Hkb i l); auto).
  assert (Lb : lqb (pS b)) by (apply (sys_lq_pS (V := Vb)); auto).
  pose proof (z0_M (sysC 0 (n + 1) Hkb true) SB HP (pS b) Lb a Ha) as E. assert (Ez : peq (psubst z0 (pS b)) (pS b)) by (unfold pS; rewrite psubst_pvar; reflexivity).
  rewrite <- (M_peq TC pib 0 (giam_fuel (gC 0 (n + 1))) _ _ _ _ (reflexivity (pS a)) Ez m), <- (E m). apply coef_z0_in; auto.
Qed.
Lemma Mb_at a b nu : Vb a -> Vb b -> Vs nu ->
  coef (Mb (pS a) (pS b)) (qS 0 nu) = coef (Ms (D a) (D b)) (qS 0 nu) /\ (Q2Qc (1 # 2) * coef (Mb (pS a) (pS b)) (qS 0 (t :: nu)))%Qc = coef (Ms (D a) (D b)) (qS 1 nu).
Proof.
  intros Ha Hb Hnu. pose proof (main a b Ha Hb) as HE.
  assert (L : lqb (Mb (pS a) (pS b))) by (apply (sys_lin SB); auto using (@sys_lq_vp Vb), (sys_lq_pS (V := Vb))). split.
  - rewrite <- (E2_coef _ _ 0 nu ltac:(lia) HE), (coef_psi _ 0 nu L Hnu ltac:(lia)). cbn [Nat.eqb]. ring.
  - rewrite <- (E2_coef _ _ 1 nu ltac:(lia) HE), (coef_psi _ 1 nu L Hnu ltac:(lia)). cbn [Nat.eqb]. rewrite (Mb_free a b (qS 1 nu)) by (auto; right; left; reflexivity). ring.
Qed.
Lemma Ms_hm a b : lqs a -> lqs b -> peq (Ms (hm a) b) (hm (Ms a b)).
Proof. intros Ha Hb. pose proof (Oq_M t a b ltac:(lia) Ha Hb) as E. unfold Oq in E. rewrite Z.eqb_refl in E. symmetry. exact E. Qed.
Lemma coef_hm x d nu : coef (hm x) (qS d nu) = (if (1 <=? d)%nat then Q2Qc (1 # 2) * coef x (qS (d - 1) nu) else 0)%Qc.
Proof. unfold hm. rewrite coef_pscale. change (pmono [VQ]) with (pmono (repeat VQ 1)). rewrite coef_qmul. destruct (1 <=? d)%nat; ring. Qed.
Lemma half2 x y : (Q2Qc (1 # 2) * x = Q2Qc (1 # 2) * y)%Qc -> x = y.
Proof.
  intros E. apply (f_equal (fun z => ((1 + 1) * z)%Qc)) in E. rewrite !Qcmult_assoc in E. replace ((1 + 1) * Q2Qc (1 # 2))%Qc with 1%Qc in E by (apply Qc_is_canon; reflexivity). rewrite !Qcmult_1_l in E. exact E.
Qed.
Lemma half1 x y : (Q2Qc (1 # 2) * x = y)%Qc -> x = ((1 + 1) * y)%Qc.
Proof. intros <-. rewrite Qcmult_assoc. replace ((1 + 1) * Q2Qc (1 # 2))%Qc with 1%Qc by (apply Qc_is_canon; reflexivity). ring. Qed.
Lemma prod_small a b nu : Vs a -> Vs b -> Vs nu ->
  coef (Mb (pS a) (pS b)) (qS 0 nu) = coef (Ms (pS a) (pS b)) (qS 0 nu) /\ coef (Mb (pS a) (pS b)) (qS 0 (t :: nu)) = ((1 + 1) * coef (Ms (pS a) (pS b)) (qS 1 nu))%Qc.
Proof.
  intros Ha Hb Hnu. destruct (Mb_at a b nu (sbig a Ha) (sbig b Hb) Hnu) as [A B]. rewrite (D_Vs a Ha), (D_Vs b Hb) in A, B. split; auto. apply half1; auto.
Qed.
Lemma prod_mixed a b nu : Vs a -> Vs b -> Vs nu ->
  coef (Mb (pS (t :: a)) (pS b)) (qS 0 nu) = 0%Qc /\ coef (Mb (pS (t :: a)) (pS b)) (qS 0 (t :: nu)) = coef (Ms (pS a) (pS b)) (qS 0 nu).
Proof.
  intros Ha Hb Hnu. destruct (Mb_at (t :: a) b nu (Vb_top a Ha) (sbig b Hb) Hnu) as [A B]. rewrite D_top, (D_Vs b Hb) in A, B.
  pose proof (Ms_hm (pS a) (pS b) (sys_lq_pS (V := Vs) a Ha) (sys_lq_pS (V := Vs) b Hb)) as E. rewrite (E (qS 0 nu)), coef_hm in A. rewrite (E (qS 1 nu)), coef_hm in B. cbn [Nat.leb Nat.sub] in A, B. split; auto. apply half2; auto.
Qed.
Lemma prod_top a b : Vs a -> Vs b -> peq (Mb (pS (t :: a)) (pS (t :: b))) pzero.
Proof.
  intros Ha Hb. assert (La : lqs (pS a)) by (apply (sys_lq_pS (V := Vs)); auto). assert (Lb : lqs (pS b)) by (apply (sys_lq_pS (V := Vs)); auto).
  pose proof (Vb_top a Ha) as Ta. pose proof (Vb_top b Hb) as Tb.
  assert (E : peq (Ms (hm (pS a)) (hm (pS b))) (hm (hm (Ms (pS a) (pS b))))).
  { rewrite (Ms_hm (pS a) (hm (pS b)) La (lqs_hm _ Lb)). apply hm_peq. rewrite (sys_comm SS) by (auto; apply lqs_hm; auto). rewrite (Ms_hm (pS b) (pS a) Lb La). apply hm_peq, (sys_comm SS); auto. }
  assert (L : lqb (Mb (pS (t :: a)) (pS (t :: b)))) by (apply (sys_lin SB); auto using (@sys_lq_vp Vb), (sys_lq_pS (V := Vb))).
  intros m. change (coef pzero m) with 0%Qc. destruct (Qc_eq_dec (coef (Mb (pS (t :: a)) (pS (t :: b))) m) 0%Qc) as [|N]; auto. exfalso. apply N.
  destruct (L m N) as (x & qm & Hx & HP & HQ). destruct qm as [|v qm].
  - rewrite (coef_perm _ _ _ HP). change [vS x] with (qS 0 x). destruct (big_cases x Hx) as [[_ A]|(r & -> & A)].
    + destruct (Mb_at _ _ x Ta Tb A) as [E0 _]. rewrite !D_top, (E _), coef_hm in E0. exact E0.
    + destruct (Mb_at _ _ r Ta Tb A) as [_ E0]. rewrite !D_top, (E _), !coef_hm in E0. cbn [Nat.leb Nat.sub] in E0. apply half2. rewrite E0. ring.
  - apply Mb_free; auto. apply (Permutation_in _ (Permutation_sym HP)). inversion HQ; subst. right. left. reflexivity.
Qed.
End L.

Section Api.
Variables (n : Z) (g g' : gr).
Hypothesis Hn : 1 <= n.
Hypothesis Hg : IsotropicGrassmannian n (2 * n) = Ok g.
Hypothesis Hg' : IsotropicGrassmannian (n + 1) (2 * n + 2) = Ok g'.
Lemma IG_data m h : 1 <= m -> IsotropicGrassmannian m (2 * m) = Ok h -> h = mkGr TC 0 m /\ class_IG m (2 * m) = kstrict_in 0 (m - 0) (m + 0).
Proof.
  intros Hm Hh. destruct (ig_inv _ _ _ Hh) as (n0 & EN & En & Hmn & Eg). assert (E0 : n0 = m) by lia. rewrite E0 in Eg. replace (m - m) with 0 in Eg by lia. split; auto.
  change (class_IG m (2 * m)) with (kstrict_in (2 * m / 2 - m) m (2 * m - m)). rewrite En. f_equal; lia.
Qed.
Lemma data : g = mkGr TC 0 n /\ class_IG n (2 * n) = kstrict_in 0 (n - 0) (n + 0) /\ g' = mkGr TC 0 (n + 1) /\ class_IG (n + 1) (2 * n + 2) = kstrict_in 0 (n + 1 - 0) (n + 1 + 0).
Proof.
  destruct (IG_data n g Hn Hg) as [A B]. revert Hg'. replace (2 * n + 2) with (2 * (n + 1)) by lia. intros Hg2. destruct (IG_data (n + 1) g' ltac:(lia) Hg2) as [C E]. auto.
Qed.
Lemma c106_classes l : class_IG (n + 1) (2 * n + 2) l <-> class_IG n (2 * n) l \/ exists r, l = n + 1 :: r /\ class_IG n (2 * n) r.
Proof.
  destruct data as (_ & EV & _ & EV'). rewrite EV, EV'. assert (Et : n + 0 + 1 = n + 1) by lia. split.
  - intros Hl. destruct (big_cases n Hn l Hl) as [[_ A]|(r & -> & A)]; [auto|]. right. exists r. rewrite Et. auto.
  - intros [Hl|(r & -> & Hr)]; [apply (small_big 0 n); auto|]. assert (EE : n + 1 :: r = n + 0 + 1 :: r) by (f_equal; lia). rewrite EE. apply (Vb_top n); auto.
Qed.
Lemma c106_product a b : class_IG n (2 * n) a -> class_IG n (2 * n) b ->
  exists s r r1 r2, qmult g (pS a) (pS b) = Ok s /\ mult g' (pS a) (pS b) = Ok r /\
    mult g' (pS (n + 1 :: a)) (pS b) = Ok r1 /\ mult g' (pS (n + 1 :: a)) (pS (n + 1 :: b)) = Ok r2 /\
    (forall nu, class_IG n (2 * n) nu ->
      coef r (qS 0 nu) = coef s (qS 0 nu) /\ coef r (qS 0 (n + 1 :: nu)) = ((1 + 1) * coef s (qS 1 nu))%Qc /\
      coef r1 (qS 0 nu) = 0%Qc /\ coef r1 (qS 0 (n + 1 :: nu)) = coef s (qS 0 nu)) /\
    peq r2 pzero.
Proof.
  intros Ha Hb. pose proof (fun l => proj2 (c106_classes l)) as HC. assert (Ba := HC a (or_introl Ha)). assert (Bb := HC b (or_introl Hb)).
  assert (Ta := HC (n + 1 :: a) (or_intror (ex_intro _ a (conj eq_refl Ha)))). assert (Tb := HC (n + 1 :: b) (or_intror (ex_intro _ b (conj eq_refl Hb)))). clear HC.
  destruct data as (Eg & EV & Eg' & EV'). rewrite EV, EV' in *. rewrite Eg, Eg'.
  assert (K1 : 0 <= 0 <= n) by lia. assert (K2 : 0 <= 0 <= n + 1) by lia. pose proof (sysC 0 n K1 true) as SS. pose proof (sysC 0 (n + 1) K2 false) as SB.
  assert (PS : forall x y, kstrict_in 0 (n - 0) (n + 0) x -> kstrict_in 0 (n - 0) (n + 0) y -> exists r, qmult (mkGr TC 0 n) (pS x) (pS y) = Ok r /\ peq r (M TC (piC 0 n true) 0 (giam_fuel (gC 0 n)) (pS x) (pS y))).
  { intros x y Hx Hy. destruct (api_prod SS (pS x) (pS y)) as (r & E & Pr & _); [apply lin_comb_poly_in, lin_comb_iff, sys_lq_pS; auto|apply lin_comb_iff, sys_lq_pS; auto|]. exists r. split; auto. }
  assert (PB : forall x y, kstrict_in 0 (n + 1 - 0) (n + 1 + 0) x -> kstrict_in 0 (n + 1 - 0) (n + 1 + 0) y -> exists r, mult (mkGr TC 0 (n + 1)) (pS x) (pS y) = Ok r /\ peq r (M TC (piC 0 (n + 1) false) 0 (giam_fuel (gC 0 (n + 1))) (pS x) (pS y))).
  { intros x y Hx Hy. destruct (api_prod SB (pS x) (pS y)) as (r & E & Pr & _); [apply lin_comb_poly_in, lin_comb_iff, sys_lq_pS; auto|apply lin_comb_iff, sys_lq_pS; auto|]. exists r. split; auto. }
  destruct (PS a b Ha Hb) as (s & Es & Qs). destruct (PB a b Ba Bb) as (r & Er & Qr). destruct (PB _ _ Ta Bb) as (r1 & Er1 & Qr1). destruct (PB _ _ Ta Tb) as (r2 & Er2 & Qr2).
  exists s, r, r1, r2. split; [exact Es|]. split; [exact Er|]. split; [exact Er1|]. split; [exact Er2|].
  assert (Et : n + 1 = n + 0 + 1) by lia. split.
  - intros nu Hnu. destruct (prod_small n Hn a b nu Ha Hb Hnu) as [A1 A2]. destruct (prod_mixed n Hn a b nu Ha Hb Hnu) as [A3 A4].
    rewrite !(Qs _), !(Qr _), !(Qr1 _). split; [exact A1|]. split; [replace (n + 1 :: nu) with (n + 0 + 1 :: nu) by (f_equal; lia); exact A2|].
    assert (EE : n + 1 :: a = n + 0 + 1 :: a) by (f_equal; lia). rewrite EE. split; [exact A3|]. replace (n + 1 :: nu) with (n + 0 + 1 :: nu) by (f_equal; lia). exact A4.
  - rewrite Qr2. assert (EE : forall x, n + 1 :: x = n + 0 + 1 :: x) by (intros x; f_equal; lia). rewrite !EE. apply (prod_top n Hn a b Ha Hb).
Qed.
End Api.
