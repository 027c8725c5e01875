(** The quantum product of IG(m,N) up to the second power of q, for classes with at most m + 1 rows together, read off the
    classical product of IG(m+1,N+2). *)

From Coq Require Import ZArith List Lia Bool Permutation QArith Qcanon Setoid Morphisms.
From Verif Require Import Py OrderFacts PyFacts ModelPart ModelQcalc ModelPoly ModelStr ModelGr Spec SpecPieri SpecRing SpecAct SpecQG
  PolyFacts SuppFacts OpTheory GrInv WSum Sys Sys2 SysApi SysRing FillFacts PartFacts ConjFacts PieriCoef RecBCD CommC RingC RingData ApiRing TopClass CompsFacts CompsBound PieriD
  DetFacts QGiamC GiamDet PresIdeal2 DualSys ApiGr Check LGQuant.
Import ListNotations.
Open Scope Z_scope.

Section L.
Variables k n : Z.
Hypothesis Hks : 0 <= k <= n.
Notation Vs := (kstrict_in k (n - k) (n + k)).
Notation Vb := (kstrict_in k (n + 1 - k) (n + 1 + k)).
Notation t := (n + k + 1).
Notation mm := (Z.to_nat (n - k)).
Notation pis := (piC k n true).
Notation pib := (piC k (n + 1) false).
Notation lqs := (supp (linm Vs (eq VQ))).
Notation lqb := (supp (linm Vb (eq VQ))).
Lemma Hkb : 0 <= k <= n + 1. Proof. lia. Qed.
Let SS := sysC k n Hks true.
Let SB := sysC k (n + 1) Hkb false.
Notation Ms := (M TC pis k (giam_fuel (gC k n))).
Notation Mb := (M TC pib k (giam_fuel (gC k (n + 1)))).
Notation sbig := (small_big k n).

(** classes of the larger space with a further row of its own *)
Definition long (l : list Z) : Prop := Vb l /\ part l 0 <= n + k /\ length l = S mm.
(** classes of the smaller space with at most j rows, or with a row t in front, and these for large j *)
Definition W (j : nat) (l : list Z) : Prop :=
  (Vs l /\ (length l <= j)%nat) \/ (exists r, l = t :: r /\ Vs r /\ (length r <= j)%nat) \/ ((S mm <= j)%nat /\ long l).
Notation lqw j := (supp (linm (W j) (eq VQ))).
Lemma Vb_top r : Vs r -> Vb (t :: r).
Proof.
  intros Hr. assert (Hx : Z.of_nat (length r) < n + 1 - k /\ part r 0 < t) by (destruct Hr as ((_ & A & B) & _); lia).
  apply TopClass.kstrict_cons; auto; [apply sbig; auto|lia|lia].
Qed.
Lemma W_Vb j l : W j l -> Vb l.
Proof. intros [[A _]|[(r & -> & A & _)|(_ & A & _)]]; [apply sbig; auto|apply Vb_top; auto|auto]. Qed.
Lemma W_le j j' l : (j <= j')%nat -> W j l -> W j' l.
Proof. intros Hj [[A B]|[(r & -> & A & B)|(A & B)]]; [left; split; auto; lia|right; left; exists r; split; auto; split; auto; lia|right; right; split; auto; lia]. Qed.
Lemma lqw_lqb j c : lqw j c -> lqb c.
Proof. apply supp_impl. intros m (x & qm & A & B). exists x, qm. split; [apply (W_Vb j); auto|auto]. Qed.
Lemma lqw_le j j' c : (j <= j')%nat -> lqw j c -> lqw j' c.
Proof. intros Hj. apply supp_impl. intros m (x & qm & A & B). exists x, qm. split; [apply (W_le j j'); auto|auto]. Qed.
Lemma W_case j l : W j l -> Vs l \/ (exists r, l = t :: r /\ Vs r) \/ long l.
Proof. intros [[A _]|[(r & -> & A & _)|(_ & A)]]; eauto. Qed.
Lemma lqw_pS j l : W j l -> lqw j (pS l).
Proof. intros Hl. apply (sys_lq_pS (V := W j)); auto. Qed.
(** terms of a Pieri product *)
Lemma Vb_Vs l : Vb l -> part l 0 <= n + k -> Vs l \/ long l.
Proof.
  intros Hl Hx. pose proof Hl as ((M1 & M2 & M3) & M4). destruct (Nat.le_gt_cases (length l) mm) as [L|L]; [left|right].
  - split; auto. split; auto. split; auto. lia.
  - split; auto. split; auto. lia.
Qed.
Lemma Vs_len l : Vs l -> (length l <= mm)%nat.
Proof. intros ((_ & A & _) & _). lia. Qed.
Lemma term_W p j l0 mu : Vs l0 -> (length l0 <= j)%nat -> (j <= mm)%nat -> pieri_term k (n + 1) p l0 mu -> W (S j) mu.
Proof.
  intros H0 Hj Hjm (Hm & Hs & Ha). pose proof Hm as ((M1 & M2 & M3) & M4). pose proof (arrow_len k l0 mu ltac:(apply H0) M1 Ha) as HL. destruct (Z.le_gt_cases (part mu 0) (n + k)) as [L|L].
  - destruct (Vb_Vs mu Hm L) as [A|A]; [left; split; auto; lia|right; right; split; auto]. destruct A as (_ & _ & A). lia.
  - right. left. destruct mu as [|x r]; [unfold part in L; cbn in L; lia|]. unfold part in L, M3. cbn in L, M3.
    assert (x = t) by lia. subst x. exists r. split; auto. cbn [length] in HL. split; [|lia]. apply kstrict_row; auto.
Qed.
Definition fits (l : list Z) : bool := (part l 0 <=? n + k) && (length l <=? mm)%nat.
Lemma fits_Vs l : Vs l -> fits l = true.
Proof. intros A. pose proof (Vs_len l A). destruct A as ((_ & _ & A) & _). unfold fits. apply andb_true_intro. split; [lia|apply Nat.leb_le; lia]. Qed.
Lemma fits_long l : long l -> fits l = false.
Proof. intros (_ & _ & A). unfold fits. apply andb_false_intro2. apply Nat.leb_gt. lia. Qed.
Lemma coef_sm p l0 mu c c' : Vs l0 -> coef_IG k n p 0 l0 mu c -> coef_IG k (n + 1) p 0 l0 mu c' -> c = if fits mu then c' else 0%Qc.
Proof.
  intros H0 Hc Hc'. assert (Ht : pieri_term k n p l0 mu <-> pieri_term k (n + 1) p l0 mu /\ fits mu = true).
  { split.
    - intros (A & B & C). split; [split; [apply sbig; auto|auto]|]. apply fits_Vs; auto.
    - intros [HT Hx]. pose proof (Vs_len l0 H0) as HL. destruct (W_case _ _ (term_W p (length l0) l0 mu H0 ltac:(lia) HL HT)) as [A'|[(r & -> & _)|A']]; [destruct HT as (A & B & C); split; auto| |].
      + unfold fits, part in Hx. cbn [nth] in Hx. apply andb_prop in Hx. lia.
      + rewrite (fits_long mu A') in Hx. discriminate. }
  destruct (fits mu).
  - destruct Hc as [(H1 & N & H2 & _ & ->)|(H1 & ->)], Hc' as [(H3 & N' & H4 & _ & ->)|(H3 & ->)]; try tauto. rewrite (component_count_unique _ _ _ _ H2 H4). reflexivity.
  - destruct Hc as [(H1 & _)|(_ & ->)]; auto. apply Ht in H1. destruct H1. discriminate.
Qed.
Definition kpv (v : var) : poly := match v with VS (SP mu) => if fits mu then pvar v else pzero | _ => pvar v end.
Lemma kpv_S l : kpv (vS l) = if fits l then pS l else pzero.
Proof. reflexivity. Qed.
Lemma lincl_kp p X : lincl p X -> lincl (psubst kpv p) (fun l => if fits l then X l else 0%Qc).
Proof.
  intros Hp. destruct (lincl_wl p X Hp) as (ls & Hnd & E & HW). intros m. rewrite (psubst_proper _ _ _ E m). rewrite (psubst_wl kpv ls X m).
  assert (HH : wval (fun l => if fits l then X l else 0%Qc) m = wval (fun l => if fits l then coef (wl ls X) [vS l] else 0%Qc) m).
  { unfold wval. destruct m as [|[[l|a b]| | |] [|v m]]; auto. change (VS (SP l)) with (vS l). rewrite <- (E [vS l]), (lincl_coef p X l Hp). reflexivity. }
  rewrite HH. clear HH HW E Hp Hnd. induction ls as [|l ls IH].
  - cbn. unfold wval. destruct m as [|[[l|a b]| | |] [|v m]]; auto. destruct (fits l); reflexivity.
  - cbn [fold_right]. rewrite coef_padd, IH. change (wl (l :: ls) X) with (([vS l], X l) :: wl ls X). rewrite coef_pscale, kpv_S.
    assert (Ec : forall x, coef (([vS l], X l) :: wl ls X) [vS x] = ((if l_dec l x then X l else 0) + coef (wl ls X) [vS x])%Qc).
    { intros x. change (([vS l], X l) :: wl ls X) with (wl (l :: ls) X). transitivity (coef (padd (pscale (X l) (pS l)) (wl ls X)) [vS x]).
      - apply poly_cons.
      - rewrite coef_padd, coef_pscale, coef_pS. unfold wval, vS. destruct (l_dec l x); ring. }
    destruct (fits l) eqn:El.
    + rewrite coef_pS. unfold wval. destruct m as [|[[x|a b]| | |] [|v m]]; try ring.
      change (VS (SP x)) with (vS x). rewrite Ec. destruct (l_dec l x) as [<-|]; [rewrite El; ring|]. destruct (fits x); ring.
    + change (coef pzero m) with 0%Qc. unfold wval. destruct m as [|[[x|a b]| | |] [|v m]]; try ring. change (VS (SP x)) with (vS x). rewrite Ec.
      destruct (l_dec l x) as [<-|]; [rewrite El; ring|]. destruct (fits x); ring.
Qed.

(** half of q times an element *)
Definition hm (c : poly) : poly := pscale (Q2Qc (1 # 2)) (pmul (pmono [VQ]) c).
Definition D (l : list Z) : poly := match l with x :: r => if x =? t then hm (pS r) else if (length l <=? mm)%nat then pS l else pzero | [] => pS [] end.
Notation psi := (psubst (dv D)).
Lemma D_top r : D (t :: r) = hm (pS r).
Proof. cbn [D]. rewrite Z.eqb_refl. reflexivity. Qed.
Lemma D_Vs l : Vs l -> D l = pS l.
Proof.
  intros A. pose proof (Vs_len l A) as L. destruct A as ((_ & _ & A) & _). destruct l as [|x l]; [reflexivity|]. unfold part in A. cbn [nth] in A. unfold D. destruct (Z.eqb_spec x t); [lia|].
  apply Nat.leb_le in L. rewrite L. reflexivity.
Qed.
Lemma D_long l : long l -> D l = pzero.
Proof.
  intros (_ & A & L). destruct l as [|x l]; [discriminate|]. unfold part in A. cbn [nth] in A. unfold D. destruct (Z.eqb_spec x t); [lia|].
  assert (L' : (length (x :: l) <=? mm)%nat = false) by (apply Nat.leb_gt; lia). rewrite L'. reflexivity.
Qed.
Lemma psi_S l : peq (psi (pS l)) (D l).
Proof. unfold pS. rewrite psubst_pvar. reflexivity. Qed.
Lemma hm_peq a b : peq a b -> peq (hm a) (hm b).
Proof. intros E. unfold hm. rewrite E. reflexivity. Qed.
Lemma lqs_hm c : lqs c -> lqs (hm c).
Proof. intros Hc. apply supp_pscale. apply (lin_qmul Vs (eq VQ)); auto. Qed.
Lemma lqs_D j l : W j l -> lqs (D l).
Proof.
  intros Hl. destruct (W_case j l Hl) as [A|[(r & -> & A)|A]]; [rewrite (D_Vs l A); apply (sys_lq_pS (V := Vs)); auto|rewrite D_top; apply lqs_hm, (sys_lq_pS (V := Vs)); auto|rewrite (D_long l A); apply supp_zero].
Qed.
Lemma psi_term a qm l : Forall (eq VQ) qm -> peq (psi (pscale a (pmul (pmono qm) (pS l)))) (pscale a (pmul (pmono qm) (D l))).
Proof. intros Hq. rewrite psubst_pscale, psubst_pmul, psubst_pmono, (dv_q D qm Hq), psi_S. reflexivity. Qed.
Lemma lqs_psi j c : lqw j c -> lqs (psi c).
Proof.
  revert c. apply (lin_ind (W j) (eq VQ)).
  - intros p r E Hp. eapply supp_peq; [apply psubst_proper; exact E|exact Hp].
  - apply supp_zero.
  - intros qm l c p Hl Hq Hp IH. eapply supp_peq; [symmetry; rewrite psubst_padd; apply padd_proper; [apply (psi_term c qm l Hq)|reflexivity]|].
    apply supp_padd; auto. apply supp_pscale. apply (lin_qmul Vs (eq VQ)); auto. apply (lqs_D j); auto.
Qed.

(** ** equality up to the square of q *)
Definition E2 (x y : poly) : Prop := exists z, lqs z /\ peq x (padd y (pmul (pmono [VQ; VQ]) z)).
Lemma E2_of x y : peq x y -> E2 x y.
Proof. intros E. exists pzero. split; [apply supp_zero|]. rewrite E. ring. Qed.
Lemma E2_peq x x' y y' : peq x x' -> peq y y' -> E2 x y -> E2 x' y'.
Proof. intros A B (z & Hz & E). exists z. split; auto. rewrite <- A, <- B. exact E. Qed.
Lemma E2_trans x y w : E2 x y -> E2 y w -> E2 x w.
Proof. intros (z & Hz & E) (z' & Hz' & E'). exists (padd z' z). split; [apply supp_padd; auto|]. rewrite E, E'. ring. Qed.
Lemma lqs_opp z : lqs z -> lqs (pscale (- (1))%Qc z).
Proof. apply supp_pscale. Qed.
Lemma E2_sym x y : E2 x y -> E2 y x.
Proof. intros (z & Hz & E). exists (pscale (- (1))%Qc z). split; [apply lqs_opp; auto|]. rewrite E, pscale_pmul, pconst_opp. change (pconst 1%Qc) with pone. ring. Qed.
Lemma E2_add x y x' y' : E2 x y -> E2 x' y' -> E2 (padd x x') (padd y y').
Proof. intros (z & Hz & E) (z' & Hz' & E'). exists (padd z z'). split; [apply supp_padd; auto|]. rewrite E, E'. ring. Qed.
Lemma E2_scale c x y : E2 x y -> E2 (pscale c x) (pscale c y).
Proof. intros (z & Hz & E). exists (pscale c z). split; [apply supp_pscale; auto|]. rewrite E, !pscale_pmul. ring. Qed.
Lemma E2_sub x y x' y' : E2 x y -> E2 x' y' -> E2 (psub x x') (psub y y').
Proof. intros A B. unfold psub. apply E2_add; auto. apply E2_scale; auto. Qed.
Lemma E2_q qm x y : Forall (eq VQ) qm -> E2 x y -> E2 (pmul (pmono qm) x) (pmul (pmono qm) y).
Proof. intros Hq (z & Hz & E). exists (pmul (pmono qm) z). split; [apply (lin_qmul Vs (eq VQ)); auto|]. rewrite E. ring. Qed.
Lemma E2_hm x y : E2 x y -> E2 (hm x) (hm y).
Proof. intros H. unfold hm. apply E2_scale, E2_q; auto. Qed.

(** ** one special class *)
Definition Oq (i : Z) (c : poly) : poly := if i =? t then hm c else ext pis i c.
Lemma Oq_peq i a b : peq a b -> peq (Oq i a) (Oq i b).
Proof. intros E. unfold Oq. destruct (i =? t); [apply hm_peq; auto|]. unfold ext. rewrite E. reflexivity. Qed.
Lemma Oq_zero i : peq (Oq i pzero) pzero.
Proof. unfold Oq, hm. destruct (i =? t); [rewrite pscale_pmul; ring|reflexivity]. Qed.
Lemma Oq_add i a b : peq (Oq i (padd a b)) (padd (Oq i a) (Oq i b)).
Proof. unfold Oq, hm. destruct (i =? t); [rewrite !pscale_pmul; ring|]. unfold ext. apply psubst_padd. Qed.
Lemma Oq_scale i c a : peq (Oq i (pscale c a)) (pscale c (Oq i a)).
Proof. unfold Oq, hm. destruct (i =? t); [rewrite !pscale_pmul; ring|]. unfold ext. apply psubst_pscale. Qed.
Lemma Oq_q i qm a : Forall (eq VQ) qm -> peq (Oq i (pmul (pmono qm) a)) (pmul (pmono qm) (Oq i a)).
Proof.
  intros Hq. unfold Oq, hm. destruct (i =? t); [rewrite !pscale_pmul; ring|]. unfold ext. rewrite psubst_pmul, psubst_pmono.
  rewrite (msubst_q pis (eq VQ) eqVQ_isqv i qm Hq). reflexivity.
Qed.
Lemma Oq_lqs i c : 1 <= i <= t -> lqs c -> lqs (Oq i c).
Proof. intros Hi Hc. unfold Oq. destruct (Z.eqb_spec i t); [apply lqs_hm; auto|]. apply (sys_ext_lin SS); auto. unfold IC. lia. Qed.
Lemma Oq_E2 i x y : 1 <= i <= t -> E2 x y -> E2 (Oq i x) (Oq i y).
Proof.
  intros Hi (z & Hz & E). exists (Oq i z). split; [apply Oq_lqs; auto|]. rewrite (Oq_peq i _ _ E), Oq_add, Oq_q by (repeat constructor). reflexivity.
Qed.
Lemma Oq_M i a b : 1 <= i <= t -> lqs a -> lqs b -> peq (Oq i (Ms a b)) (Ms (Oq i a) b).
Proof.
  intros Hi Ha Hb. unfold Oq. destruct (Z.eqb_spec i t).
  - unfold hm. assert (H1 : lqs (pmul (pmono [VQ]) a)) by (apply (lin_qmul Vs (eq VQ)); auto). rewrite (sys_scale_l SS) by auto using (@sys_lq_vp Vs). rewrite (sys_q_l SS) by auto. reflexivity.
  - apply (sys_ext SS); auto. unfold IC. lia.
Qed.
Lemma Oq_pS i l : i <> t -> peq (Oq i (pS l)) (P pis i l).
Proof. intros Hi. unfold Oq. destruct (Z.eqb_spec i t); [contradiction|]. apply ext_pS. Qed.

(** the small classes *)
Lemma step_small p l0 : 1 <= p <= n + k -> Vs l0 -> peq (psi (P pib p l0)) (P pis p l0).
Proof.
  intros Hp H0. pose proof Hks as Hk. pose proof (Vs_len l0 H0) as HL.
  destruct (pieriC_lincl k n l0 p Hk H0) as (a & Wa & Ea & Ha & HWa).
  destruct (pieriC_lincl k (n + 1) l0 p Hkb (sbig l0 H0)) as (b & Wb & Eb & Hb & HWb).
  assert (Hka : peq a (psubst kpv b)).
  { pose proof (lincl_kp b Wb Hb) as HH. intros m. rewrite (Ha m), (HH m). unfold wval. destruct m as [|[[x|u w]| | |] [|v m]]; auto. apply (coef_sm p l0 x); auto. }
  destruct (apply_lc_ok (on_part (fun x => opt_schur (part_star x t))) (starv k n) b) as (z & Ez & Pz).
  { intros m c v Hin Hv. assert (Hc : coef b m <> 0%Qc).
    { rewrite <- coef_pnorm. rewrite (nf_coef_in _ _ _ (pnorm_nf b) Hin). destruct (pnorm_nf b) as (_ & Hz). rewrite Forall_forall in Hz. apply (Hz _ Hin). }
    destruct (lincl_inv _ _ _ Hb Hc) as (l & -> & Hl'). destruct Hv as [<-|[]]. cbn [image on_part vS starv].
    destruct (part_star l t) as [r|] eqn:E; cbn [opt_schur]; [|eexists; split; reflexivity].
    destruct (coef_IG_supp _ _ _ _ _ _ _ (HWb l) Hl') as ((( A & _) & _) & _). apply part_nonneg in A. unfold part_star in E.
    destruct l as [|x l]; [discriminate|]. destruct (x =? t); [|discriminate]. injection E as <-. inversion A; subst. rewrite symbol_ok by auto. eexists. split; reflexivity. }
  assert (Eys : exists ys, pis p l0 = Ok ys /\ peq ys (padd (psubst kpv b) (pmul half_q (psubst (starv k n) b)))).
  { unfold piC. cbn [qpieri_fun g_type g_k g_n gC]. unfold qpieriC_inner. rewrite Ea. cbn [bind]. rewrite Eb. cbn [bind]. rewrite Ez. cbn [bind].
    eexists. split; [reflexivity|]. rewrite Hka, Pz. reflexivity. }
  destruct Eys as (ys & Ey & Pys). assert (Eyb : pib p l0 = Ok b) by exact Eb. unfold P. rewrite Ey, Eyb, Pys.
  apply (subst_split _ _ _ half_q b Wb Hb). intros x Hx. pose proof (term_W p (length l0) l0 x H0 ltac:(lia) HL (coef_IG_supp _ _ _ _ _ _ _ (HWb x) Hx)) as A.
  rewrite kpv_S, starv_S. change (dv D (vS x)) with (D x).
  assert (Est : part x 0 <= n + k -> part_star x t = None).
  { intros B1. unfold part_star. destruct x as [|u x]; [reflexivity|]. unfold part in B1. cbn in B1. destruct (Z.eqb_spec u t); [lia|reflexivity]. }
  destruct (W_case _ x A) as [B2|[(r & -> & B2)|B2]].
  - rewrite (D_Vs x B2), (fits_Vs x B2), Est by apply B2. ring.
  - rewrite D_top. assert (Ek : fits (t :: r) = false) by (unfold fits, part; cbn [nth]; apply andb_false_intro1; lia). rewrite Ek.
    assert (Est2 : part_star (t :: r) t = Some r) by (unfold part_star; rewrite Z.eqb_refl; reflexivity). rewrite Est2. unfold hm, half_q. rewrite !pscale_pmul. change (pmono [VQ]) with (pvar VQ). ring.
  - rewrite (D_long x B2), (fits_long x B2), Est by apply B2. ring.
Qed.
(** the largest row *)
Lemma top_small r : Vs r -> peq (P pib t r) (pS (t :: r)).
Proof.
  intros Hr. assert (Hx : Z.of_nat (length r) < n + 1 - k /\ part r 0 < t) by (destruct Hr as ((_ & A & B) & _); lia).
  assert (HV : Vb (t :: r)) by (apply TopClass.kstrict_cons; auto; [apply sbig; auto|lia|lia]).
  destruct (pieriC_lincl k (n + 1) r t Hkb (sbig r Hr)) as (b & Wb & Eb & Hb & HWb). assert (Eyb : pib t r = Ok b) by exact Eb. unfold P. rewrite Eyb.
  intros m. rewrite (Hb m), coef_pS. unfold wval. destruct m as [|[[x|u w]| | |] [|v m]]; try reflexivity.
  destruct (l_dec (t :: r) x) as [<-|Nx].
  - apply (coef_IG_tl k (n + 1) t r _ Hkb HV (HWb (t :: r))).
  - destruct (Qc_eq_dec (Wb x) 0%Qc) as [->|Hc]; [reflexivity|]. exfalso. apply Nx. symmetry. destruct (coef_IG_supp _ _ _ _ _ _ _ (HWb x) Hc) as (A & B & C).
    apply (top_shape 0 k); auto; [apply Hr|apply A|lia|]. destruct A as ((_ & _ & A) & _). lia.
Qed.
Lemma top_none l : Vb l -> ~ Vs l -> peq (P pib t l) pzero.
Proof.
  intros HV Hn. destruct (pieriC_lincl k (n + 1) l t Hkb HV) as (b & Wb & Eb & Hb & HWb). assert (Eyb : pib t l = Ok b) by exact Eb. unfold P. rewrite Eyb.
  intros m. rewrite (Hb m). change (coef pzero m) with 0%Qc. unfold wval. destruct m as [|[[x|u w]| | |] [|v m]]; try reflexivity.
  destruct (Qc_eq_dec (Wb x) 0%Qc) as [->|Hc]; [reflexivity|]. exfalso. destruct (coef_IG_supp _ _ _ _ _ _ _ (HWb x) Hc) as (A & B & C).
  assert (Ex : x = t :: l) by (apply (top_shape 0 k); auto; [apply HV|apply A|lia|destruct A as ((_ & _ & A) & _); lia]). subst x.
  apply Hn. apply kstrict_row; auto.
Qed.
Lemma top_top r : Vs r -> Vb (t :: r) -> peq (P pib t (t :: r)) pzero.
Proof. intros _ HV. apply top_none; auto. intros ((_ & _ & A) & _). unfold part in A. cbn in A. lia. Qed.
Lemma top_long l : long l -> peq (P pib t l) pzero.
Proof. intros A. apply top_none; [apply A|]. intros B. apply Vs_len in B. destruct A as (_ & _ & A). lia. Qed.
(** the terms of the products *)
Lemma stepW p j l : 1 <= p <= n + k -> Vs l -> (length l <= j)%nat -> (j <= mm)%nat -> lqw (S j) (P pib p l).
Proof.
  intros Hp Hl Hj Hm. destruct (pieriC_lincl k (n + 1) l p Hkb (sbig l Hl)) as (b & Wb & Eb & Hb & HWb). assert (Eyb : pib p l = Ok b) by exact Eb. unfold P. rewrite Eyb.
  intros m Hc. destruct (lincl_inv _ _ _ Hb Hc) as (x & -> & Hx). exists x, []. split; [|split; [apply Permutation_refl|constructor]]. apply (term_W p j l x); auto. apply (coef_IG_supp _ _ _ _ _ _ _ (HWb x) Hx).
Qed.
Lemma topW j l : W j l -> lqw j (P pib t l).
Proof.
  intros [[A B]|[(r & -> & A & B)|(_ & A)]].
  - eapply supp_peq; [symmetry; apply (top_small l A)|]. apply lqw_pS. right. left. eauto.
  - eapply supp_peq; [symmetry; apply (top_top r A (Vb_top r A))|]. apply supp_zero.
  - eapply supp_peq; [symmetry; apply (top_long l A)|]. apply supp_zero.
Qed.
(** linear extension *)
Lemma lift j (F G : poly -> poly) : (forall a b, peq a b -> peq (F a) (F b)) -> (forall a b, peq a b -> peq (G a) (G b)) ->
  peq (F pzero) pzero -> peq (G pzero) pzero ->
  (forall a qm l c, Forall (eq VQ) qm -> W j l -> lqw j c -> peq (F (padd (pscale a (pmul (pmono qm) (pS l))) c)) (padd (pscale a (pmul (pmono qm) (F (pS l)))) (F c))) ->
  (forall a qm l c, Forall (eq VQ) qm -> W j l -> lqw j c -> peq (G (padd (pscale a (pmul (pmono qm) (pS l))) c)) (padd (pscale a (pmul (pmono qm) (G (pS l)))) (G c))) ->
  (forall l, W j l -> E2 (F (pS l)) (G (pS l))) -> forall c, lqw j c -> E2 (F c) (G c).
Proof.
  intros F1 G1 F0 G0 FA GA HE. apply (lin_ind (W j) (eq VQ)).
  - intros p r E H. eapply E2_peq; [apply F1; exact E|apply G1; exact E|exact H].
  - apply E2_of. rewrite F0, G0. reflexivity.
  - intros qm l c p Hl Hq Hp IH. eapply E2_peq; [symmetry; apply FA; auto|symmetry; apply GA; auto|]. apply E2_add; auto. apply E2_scale, E2_q; auto.
Qed.
Lemma extb_lin i a qm l c : Forall (eq VQ) qm -> peq (ext pib i (padd (pscale a (pmul (pmono qm) (pS l))) c)) (padd (pscale a (pmul (pmono qm) (ext pib i (pS l)))) (ext pib i c)).
Proof. intros Hq. unfold ext. rewrite psubst_padd, psubst_pscale, psubst_pmul, psubst_pmono, (msubst_q pib (eq VQ) eqVQ_isqv i qm Hq). reflexivity. Qed.
Lemma psi_lin a qm x c : Forall (eq VQ) qm -> peq (psi (padd (pscale a (pmul (pmono qm) x)) c)) (padd (pscale a (pmul (pmono qm) (psi x))) (psi c)).
Proof. intros Hq. rewrite psubst_padd, psubst_pscale, psubst_pmul, psubst_pmono, (dv_q D qm Hq). reflexivity. Qed.
Lemma Oq_lin i a qm x c : Forall (eq VQ) qm -> peq (Oq i (padd (pscale a (pmul (pmono qm) x)) c)) (padd (pscale a (pmul (pmono qm) (Oq i x))) (Oq i c)).
Proof. intros Hq. rewrite Oq_add, Oq_scale. rewrite (pscale_proper a _ _ (Oq_q i qm x Hq)). reflexivity. Qed.
Lemma ext_lift i j : (forall l, W j l -> E2 (psi (ext pib i (pS l))) (Oq i (psi (pS l)))) -> forall c, lqw j c -> E2 (psi (ext pib i c)) (Oq i (psi c)).
Proof.
  intros H. apply (lift j (fun c => psi (ext pib i c)) (fun c => Oq i (psi c))); auto.
  - intros a b E. unfold ext. rewrite E. reflexivity.
  - intros a b E. apply Oq_peq. rewrite E. reflexivity.
  - reflexivity.
  - exact (Oq_zero i).
  - intros a qm l c Hq Hl Hc. etransitivity; [apply psubst_proper, (extb_lin i a qm l c Hq)|]. apply psi_lin; auto.
  - intros a qm l c Hq Hl Hc. etransitivity; [apply Oq_peq, (psi_lin a qm (pS l) c Hq)|]. apply Oq_lin; auto.
Qed.
Lemma extW i j j' : (forall l, W j l -> lqw j' (P pib i l)) -> forall c, lqw j c -> lqw j' (ext pib i c).
Proof.
  intros H. apply (lin_ind (W j) (eq VQ)).
  - intros p r E Hp. eapply supp_peq; [|exact Hp]. unfold ext. apply psubst_proper. exact E.
  - apply supp_zero.
  - intros qm l c p Hl Hq Hp IH. eapply supp_peq; [symmetry; apply (extb_lin i c qm l p Hq)|]. apply supp_padd; auto. apply supp_pscale, (lin_qmul (W j') (eq VQ)); auto.
    eapply supp_peq; [symmetry; apply ext_pS|]. auto.
Qed.
Lemma star_top j c : lqw j c -> E2 (psi (ext pib t c)) (hm (psi c)).
Proof.
  intros Hc. assert (G : E2 (psi (ext pib t c)) (Oq t (psi c))); [|unfold Oq in G; rewrite Z.eqb_refl in G; exact G]. revert c Hc. apply ext_lift. intros l Hl.
  apply (E2_peq (psi (P pib t l)) _ (hm (D l)) _); [apply psubst_proper; symmetry; apply ext_pS|unfold Oq; rewrite Z.eqb_refl; apply hm_peq; symmetry; apply psi_S|].
  destruct (W_case j l Hl) as [A|[(r & -> & A)|A]].
  - apply E2_of. rewrite (psubst_proper _ _ _ (top_small l A)), psi_S, D_top, (D_Vs l A). reflexivity.
  - apply E2_sym. exists (pscale (Q2Qc (1 # 2) * Q2Qc (1 # 2))%Qc (pS r)). split; [apply supp_pscale, (sys_lq_pS (V := Vs)); auto|].
    rewrite (psubst_proper _ _ _ (top_top r A (Vb_top r A))), D_top. change (psi pzero) with pzero. unfold hm. rewrite pscale_mul. rewrite !pscale_pmul. change [VQ; VQ] with ([VQ] ++ [VQ]). rewrite pmono_app. ring.
  - apply E2_of. rewrite (psubst_proper _ _ _ (top_long l A)), (D_long l A). change (psi pzero) with pzero. unfold hm. rewrite pscale_pmul. ring.
Qed.
Lemma comm_top i r : 1 <= i <= n + k -> Vs r -> peq (P pib i (t :: r)) (ext pib t (P pib i r)).
Proof.
  intros Hi A. assert (I1 : IC k (n + 1) i) by (unfold IC; lia). assert (I2 : IC k (n + 1) t) by (unfold IC; lia).
  rewrite <- (ps_comm _ _ _ _ _ _ _ SB t i r I2 I1 (sbig r A)). unfold ext at 1. rewrite (top_small r A). symmetry. apply ext_pS.
Qed.
Lemma star i j c : 1 <= i <= n + k -> (j <= mm)%nat -> lqw j c -> E2 (psi (ext pib i c)) (Oq i (psi c)).
Proof.
  intros Hi Hj. assert (Hit : i <> t) by lia. revert c. apply ext_lift. intros l Hl.
  apply (E2_peq (psi (P pib i l)) _ (Oq i (D l)) _); [apply psubst_proper; symmetry; apply ext_pS|apply Oq_peq; symmetry; apply psi_S|].
  destruct Hl as [[A B]|[(r & -> & A & B)|(A & _)]]; [| |lia].
  + apply E2_of. rewrite (step_small i l Hi A). rewrite (D_Vs l A), (Oq_pS i l Hit). reflexivity.
  + apply (E2_peq (psi (ext pib t (P pib i r))) _ (hm (psi (P pib i r))) _); [apply psubst_proper; symmetry; apply comm_top; auto| |apply (star_top (S j)); apply stepW; auto].
    rewrite D_top. etransitivity; [apply hm_peq, (step_small i r Hi A)|]. unfold hm. rewrite Oq_scale. apply pscale_proper. rewrite Oq_q by (repeat constructor). rewrite (Oq_pS i r Hit). reflexivity.
Qed.
Lemma nextW i j l : 1 <= i <= n + k -> (j <= mm)%nat -> W j l -> lqw (S j) (P pib i l).
Proof.
  intros Hi Hj [[A B]|[(r & -> & A & B)|(A & _)]]; [apply stepW; auto| |lia]. eapply supp_peq; [symmetry; apply comm_top; auto|].
  apply (extW t (S j) (S j)); [apply topW|]. apply stepW; auto.
Qed.
(** one step of the recursion, for both kinds of classes *)
Definition next (p : Z) (i0 i1 : nat) : Prop := (p = t /\ i1 = i0 /\ (i0 <= S mm)%nat) \/ (1 <= p <= n + k /\ i1 = S i0 /\ (i0 <= mm)%nat).
Lemma star_next p i0 i1 c : next p i0 i1 -> lqw i0 c -> lqw i1 (ext pib p c) /\ E2 (psi (ext pib p c)) (Oq p (psi c)).
Proof.
  intros [(-> & -> & H)|(H1 & -> & H2)] Hc.
  - split; [apply (extW t i0 i0); auto; apply topW|]. unfold Oq. rewrite Z.eqb_refl. apply (star_top i0); auto.
  - split; [apply (extW p i0 (S i0)); auto; intros; apply nextW; auto|apply (star p i0); auto].
Qed.
Lemma next_range p i0 i1 : next p i0 i1 -> 1 <= p <= t.
Proof. intros [(-> & _)|(H & _)]; lia. Qed.

(** ** the product *)
Lemma E2_Ml x y b : lqs y -> lqs b -> E2 x y -> E2 (Ms x b) (Ms y b).
Proof.
  intros Hy Hb (z & Hz & E). assert (Hq : lqs (pmul (pmono [VQ; VQ]) z)) by (apply (lin_qmul Vs (eq VQ)); auto).
  exists (Ms z b). split; [apply (sys_lin SS); auto using (@sys_lq_vp Vs)|]. rewrite (M_peq TC pis k (giam_fuel (gC k n)) _ _ b b E (reflexivity _)), (sys_add_l SS) by auto using (@sys_lq_vp Vs). rewrite (sys_q_l SS) by auto. reflexivity.
Qed.
Lemma Mb_lin b a qm x c : lqb b -> lqb x -> lqb c -> Forall (eq VQ) qm -> peq (Mb (padd (pscale a (pmul (pmono qm) x)) c) b) (padd (pscale a (pmul (pmono qm) (Mb x b))) (Mb c b)).
Proof.
  intros Hb Hx Hc Hq. assert (Hqx : lqb (pmul (pmono qm) x)) by (apply (lin_qmul Vb (eq VQ)); auto). rewrite (sys_add_l SB) by (auto using (@sys_lq_vp Vb); apply (@sys_lq_vp Vb), supp_pscale; auto).
  rewrite (sys_scale_l SB) by auto using (@sys_lq_vp Vb). rewrite (pscale_proper a _ _ (sys_q_l SB qm x b Hq Hx Hb)). reflexivity.
Qed.
Lemma Ms_lin b a qm x c : lqs b -> lqs x -> lqs c -> Forall (eq VQ) qm -> peq (Ms (padd (pscale a (pmul (pmono qm) x)) c) b) (padd (pscale a (pmul (pmono qm) (Ms x b))) (Ms c b)).
Proof.
  intros Hb Hx Hc Hq. assert (Hqx : lqs (pmul (pmono qm) x)) by (apply (lin_qmul Vs (eq VQ)); auto). rewrite (sys_add_l SS) by (auto using (@sys_lq_vp Vs); apply (@sys_lq_vp Vs), supp_pscale; auto).
  rewrite (sys_scale_l SS) by auto using (@sys_lq_vp Vs). rewrite (pscale_proper a _ _ (sys_q_l SS qm x b Hq Hx Hb)). reflexivity.
Qed.
Lemma main_l j b : lqw j b -> forall N l i, (muM (n + 1 + k) l < N)%nat -> W i l -> (i + j <= S mm)%nat ->
  lqw (i + j) (Mb (pS l) b) /\ E2 (psi (Mb (pS l) b)) (Ms (D l) (psi b)).
Proof.
  intros Hbw. assert (Hb : lqb b) by (apply (lqw_lqb j); auto). assert (Hpb : lqs (psi b)) by (apply (lqs_psi j); auto). induction N as [|N IH]; intros l i HN Hl Hij; [lia|].
  destruct l as [|a l'].
  { split; [eapply supp_peq; [symmetry; apply (sys_unit SB b Hb)|]; apply (lqw_le j); auto; lia|]. apply E2_of. rewrite (psubst_proper _ _ _ (sys_unit SB b Hb)). symmetry. apply (sys_unit SS); auto. }
  assert (HlV : Vb (a :: l')) by (apply (W_Vb i); auto).
  destruct (sys_rec SB (a :: l') b HlV Hb ltac:(discriminate)) as (p & l0 & E1 & Ip & [V0 M0] & Hst & ER). rewrite gsel_part in E1 by apply HlV. assert (a = p) by congruence. assert (l' = l0) by congruence. subst a l'.
  assert (HN0 : exists i0, W i0 l0 /\ next p i0 i /\ next p (i0 + j) (i + j)).
  { destruct Hl as [[A B]|[(r & Er & A & B)|(A & B)]].
    - destruct (RingC.kstrict_cons _ _ _ _ _ A) as [A1 A2]. cbn [length] in B. destruct i as [|i]; [lia|]. exists i. split; [left; split; auto; lia|]. split; right; (split; [lia|split; lia]).
    - injection Er as -> ->. exists i. split; [left; auto|]. split; left; (split; [auto|split; lia]).
    - destruct B as (B1 & B2 & B3). destruct (RingC.kstrict_cons _ _ _ _ _ B1) as [A1 A2]. cbn [length] in B3. unfold part in B2. cbn [nth] in B2. destruct i as [|i]; [lia|]. exists i.
      assert (Px : part l0 0 <= p) by (destruct (partition_tl p l0 ltac:(apply HlV)) as (_ & _ & Q); exact Q).
      destruct (Vb_Vs l0 A2 ltac:(lia)) as [A3|(_ & _ & A3)]; [|lia]. split; [left; split; auto; lia|]. split; right; (split; [lia|split; lia]). }
  destruct HN0 as (i0 & W0 & N1 & N2). pose proof (next_range _ _ _ N1) as Hp. set (l := p :: l0) in *. set (st := psub (P pib p l0) (pS l)) in *.
  destruct (star_next p i0 i (pS l0) N1 (lqw_pS i0 l0 W0)) as [S1 S2].
  assert (Lst : lqw i st).
  { unfold st, psub. apply supp_padd; [eapply supp_peq; [apply ext_pS|exact S1]|]. apply supp_pscale, lqw_pS; auto. }
  assert (Hst2 : supp (linm (fun x => below Vb (muM (n + 1 + k)) l x /\ W i x) (eq VQ)) st).
  { intros m Hm. destruct (Hst m Hm) as (x & qm & Hx & HP & HQ). destruct (Lst m Hm) as (y & qm' & Hy & HP' & HQ').
    assert (Hin : In (vS y) (vS x :: qm)) by (apply (Permutation_in _ HP), (Permutation_in _ (Permutation_sym HP')); left; reflexivity).
    destruct Hin as [Hin|Hin]; [injection Hin as ->; exists y, qm; auto|]. rewrite Forall_forall in HQ. specialize (HQ _ Hin). discriminate. }
  assert (B1 : lqw (i + j) (Mb st b) /\ E2 (psi (Mb st b)) (Ms (psi st) (psi b))).
  { cut (lqw i st /\ lqw (i + j) (Mb st b) /\ E2 (psi (Mb st b)) (Ms (psi st) (psi b))); [tauto|]. generalize st Hst2. clear st Hst Hst2 Lst ER.
    apply (lin_ind (fun x => below Vb (muM (n + 1 + k)) l x /\ W i x) (eq VQ)).
    - intros x y E (H1 & H2 & H3). split; [eapply supp_peq; eauto|]. split; [eapply supp_peq; [|exact H2]; apply M_peq; [exact E|reflexivity]|].
      eapply E2_peq; [| |exact H3]; [apply psubst_proper, M_peq; [exact E|reflexivity]|apply M_peq; [apply psubst_proper; exact E|reflexivity]].
    - split; [apply supp_zero|]. split; [apply supp_zero|]. apply E2_of. rewrite (psubst_proper _ _ _ (sys_zero_l b Hb)). change (psi pzero) with pzero. symmetry. apply (sys_zero_l (V := Vs)); auto.
    - intros qm x c y [[Hx Hmx] Wx] Hq _ (Hy & HL & HE). assert (Lx : lqb (pS x)) by (apply (sys_lq_pS (V := Vb)); auto). destruct (IH x i ltac:(lia) Wx Hij) as [IH1 IH2].
      assert (Lyb : lqb y) by (apply (lqw_lqb i); auto).
      split; [apply supp_padd; auto; apply supp_pscale, (lin_qmul (W i) (eq VQ)); auto; apply lqw_pS; auto|].
      split; [eapply supp_peq; [symmetry; apply (Mb_lin b c qm (pS x) y Hb Lx Lyb Hq)|]; apply supp_padd; auto; apply supp_pscale, (lin_qmul (W (i + j)) (eq VQ)); auto|].
      eapply E2_peq; [symmetry; etransitivity; [apply psubst_proper, (Mb_lin b c qm (pS x) y Hb Lx Lyb Hq)|apply psi_lin; auto]| |].
      + symmetry. etransitivity; [apply M_peq; [apply (psi_lin c qm (pS x) y Hq)|reflexivity]|]. apply Ms_lin; auto; [apply (lqs_psi i), lqw_pS; auto|apply (lqs_psi i); auto].
      + apply E2_add; auto. apply E2_scale, E2_q; auto. eapply E2_peq; [reflexivity|apply M_peq; [symmetry; apply psi_S|reflexivity]|]. exact IH2. }
  destruct (IH l0 i0 ltac:(lia) W0 ltac:(destruct N1 as [(_ & -> & _)|(_ & -> & _)]; lia)) as [I1 I2].
  destruct (star_next p (i0 + j) (i + j) (Mb (pS l0) b) N2 I1) as [T1 T2]. destruct B1 as [B0 B1].
  assert (L0 : lqs (D l0)) by (apply (lqs_D i0); auto).
  assert (B2 : E2 (psi (ext pib p (Mb (pS l0) b))) (Ms (Oq p (D l0)) (psi b))).
  { apply (E2_trans _ (Oq p (psi (Mb (pS l0) b)))); [exact T2|].
    apply (E2_trans _ (Oq p (Ms (D l0) (psi b)))); [apply Oq_E2; auto|]. apply E2_of. apply Oq_M; auto. }
  assert (L1 : lqs (Oq p (D l0))) by (apply Oq_lqs; auto). assert (L2 : lqs (psi st)) by (apply (lqs_psi i); auto).
  assert (B3 : E2 (D l) (psub (Oq p (D l0)) (psi st))).
  { apply (E2_peq (psub (psi (P pib p l0)) (psi st)) _ (psub (Oq p (D l0)) (psi st)) _).
    - unfold st, psub. rewrite psubst_padd, psubst_pscale, psi_S. rewrite !pscale_pmul, !pconst_opp. change (pconst 1%Qc) with pone. ring.
    - reflexivity.
    - apply E2_sub; [|apply E2_of; reflexivity]. apply (E2_peq (psi (ext pib p (pS l0))) _ (Oq p (psi (pS l0))) _); [apply psubst_proper, ext_pS|apply Oq_peq, psi_S|]. exact S2. }
  assert (L3 : lqs (psub (Oq p (D l0)) (psi st))) by (unfold psub; apply supp_padd; auto; apply supp_pscale; auto).
  split.
  { eapply supp_peq; [symmetry; exact ER|]. unfold psub. apply supp_padd; auto. apply supp_pscale; auto. }
  apply (E2_trans _ (psub (Ms (Oq p (D l0)) (psi b)) (Ms (psi st) (psi b)))).
  - eapply E2_peq; [symmetry; etransitivity; [apply psubst_proper; exact ER|unfold psub; rewrite psubst_padd, psubst_pscale; reflexivity]|reflexivity|]. apply E2_sub; auto.
  - apply E2_sym. apply (E2_trans _ (Ms (psub (Oq p (D l0)) (psi st)) (psi b))); [apply E2_Ml; auto|]. apply E2_of. apply (sys_sub_l SS); auto.
Qed.
Lemma main a b i j : W i a -> W j b -> (i + j <= S mm)%nat -> lqw (i + j) (Mb (pS a) (pS b)) /\ E2 (psi (Mb (pS a) (pS b))) (Ms (D a) (D b)).
Proof.
  intros Ha Hb Hij. destruct (main_l j (pS b) (lqw_pS j b Hb) (S (muM (n + 1 + k) a)) a i ltac:(lia) Ha Hij) as [A B]. split; auto. eapply E2_peq; [reflexivity| |exact B].
  apply M_peq; [reflexivity|apply psi_S].
Qed.

(** ** coefficients *)
Lemma coef_D j l d nu : W j l -> Vs nu -> (d <= 1)%nat ->
  coef (D l) (qS d nu) = (coef (pS l) (qS d nu) + (if (d =? 1)%nat then Q2Qc (1 # 2) * coef (pS l) (qS 0 (t :: nu)) else 0))%Qc.
Proof.
  intros Hl Hnu Hd. assert (Nl : long l -> l <> nu /\ l <> t :: nu).
  { intros (_ & A & B). pose proof (Vs_len nu Hnu). split; intros ->; [lia|]. unfold part in A. cbn in A. lia. }
  assert (Nt : forall x, Vs x -> forall r, x <> t :: r) by (intros x ((_ & _ & A) & _) r ->; unfold part in A; cbn in A; lia).
  destruct (W_case j l Hl) as [A|[(r & -> & A)|A]].
  - rewrite (D_Vs l A), !coef_pS_q. destruct (l_dec l (t :: nu)) as [E|_]; [destruct (Nt l A nu E)|]. cbn [Nat.eqb]. destruct (d =? 1)%nat; ring.
  - rewrite D_top. unfold hm. rewrite coef_pscale. change (pmono [VQ]) with (pmono (repeat VQ 1)). rewrite coef_qmul, !coef_pS_q.
    destruct (l_dec (t :: r) nu) as [E|_]; [destruct (Nt nu Hnu r (eq_sym E))|]. destruct d as [|[|d]]; [|cbn [Nat.eqb Nat.leb Nat.sub]|lia].
    + cbn [Nat.eqb Nat.leb]. ring.
    + destruct (l_dec r nu) as [E1|N]; destruct (l_dec (t :: r) (t :: nu)) as [E|N']; try congruence; ring.
  - destruct (Nl A) as [N1 N2]. rewrite (D_long l A), !coef_pS_q. change (coef pzero (qS d nu)) with 0%Qc. destruct (l_dec l nu); [contradiction|]. destruct (l_dec l (t :: nu)); [contradiction|].
    destruct (d =? 0)%nat, (d =? 1)%nat; cbn [Nat.eqb]; ring.
Qed.
Lemma coef_psi j c d nu : lqw j c -> Vs nu -> (d <= 1)%nat ->
  coef (psi c) (qS d nu) = (coef c (qS d nu) + (if (d =? 1)%nat then Q2Qc (1 # 2) * coef c (qS 0 (t :: nu)) else 0))%Qc.
Proof.
  intros Hc Hnu Hd. revert c Hc. apply (lin_ind (W j) (eq VQ)).
  - intros p r E H. rewrite <- !(E _), <- H. apply psubst_proper. symmetry. exact E.
  - change (psi pzero) with pzero. change (0 = 0 + (if (d =? 1)%nat then Q2Qc (1 # 2) * 0 else 0))%Qc. destruct (d =? 1)%nat; ring.
  - intros qm l a p Hl Hq Hp IH. assert (Eq : qm = repeat VQ (length qm)) by (clear -Hq; induction Hq as [|v qm <- _ IH]; [reflexivity|cbn [length repeat]; congruence]). rewrite Eq in *. clear Eq. set (e := length qm) in *.
    rewrite (psi_lin a (repeat VQ e) (pS l) p Hq _), !coef_padd, IH, !coef_pscale, !coef_qmul.
    assert (HD : forall d', (d' <= 1)%nat -> coef (psi (pS l)) (qS d' nu) = (coef (pS l) (qS d' nu) + (if (d' =? 1)%nat then Q2Qc (1 # 2) * coef (pS l) (qS 0 (t :: nu)) else 0))%Qc) by (intros d' Hd'; rewrite (psi_S l _); apply (coef_D j); auto).
    destruct (Nat.leb_spec e d) as [L|L].
    + rewrite HD by lia. destruct e as [|[|e]]; [|assert (d = 1%nat) by lia; subst d|lia].
      * rewrite Nat.sub_0_r. destruct (d =? 1)%nat; cbn [Nat.leb Nat.sub]; ring.
      * cbn [Nat.eqb Nat.leb Nat.sub]. ring.
    + destruct (e <=? 0)%nat eqn:E0; [apply Nat.leb_le in E0; lia|]. destruct (d =? 1)%nat; ring.
Qed.
Lemma E2_coef x y d nu : (d <= 1)%nat -> E2 x y -> coef x (qS d nu) = coef y (qS d nu).
Proof.
  intros Hd (z & _ & E). rewrite (E _), coef_padd. change [VQ; VQ] with (repeat VQ 2). rewrite coef_qmul. destruct (Nat.leb_spec 2 d); [lia|]. ring.
Qed.
Lemma Mb_free a b m : Vb a -> Vb b -> In VQ m -> coef (Mb (pS a) (pS b)) m = 0%Qc.
Proof.
  intros Ha Hb Hm. assert (HP : forall i l, IC k (n + 1) i -> Vb l -> peq (psubst z0 (P (piC k (n + 1) true) i l)) (P pib i l)) by (intros i l Hi Hl; apply (q0C k (n + 1) Hkb i l); auto).
  assert (Lb : lqb (pS b)) by (apply (sys_lq_pS (V := Vb)); auto).
  pose proof (z0_M (sysC k (n + 1) Hkb true) SB HP (pS b) Lb a Ha) as E. assert (Ez : peq (psubst z0 (pS b)) (pS b)) by (unfold pS; rewrite psubst_pvar; reflexivity).
  rewrite <- (M_peq TC pib k (giam_fuel (gC k (n + 1))) _ _ _ _ (reflexivity (pS a)) Ez m), <- (E m). apply coef_z0_in; auto.
Qed.
Lemma Mb_at a b i j nu : W i a -> W j b -> (i + j <= S mm)%nat -> Vs nu ->
  coef (Mb (pS a) (pS b)) (qS 0 nu) = coef (Ms (D a) (D b)) (qS 0 nu) /\ (Q2Qc (1 # 2) * coef (Mb (pS a) (pS b)) (qS 0 (t :: nu)))%Qc = coef (Ms (D a) (D b)) (qS 1 nu).
Proof.
  intros Ha Hb Hij Hnu. destruct (main a b i j Ha Hb Hij) as [L HE]. split.
  - rewrite <- (E2_coef _ _ 0 nu ltac:(lia) HE), (coef_psi _ _ 0 nu L Hnu ltac:(lia)). cbn [Nat.eqb]. ring.
  - rewrite <- (E2_coef _ _ 1 nu ltac:(lia) HE), (coef_psi _ _ 1 nu L Hnu ltac:(lia)). cbn [Nat.eqb].
    rewrite (Mb_free a b (qS 1 nu)) by (try apply (W_Vb i a Ha); try apply (W_Vb j b Hb); right; left; reflexivity). ring.
Qed.
Lemma Mb_terms a b i j m : W i a -> W j b -> (i + j <= mm)%nat -> coef (Mb (pS a) (pS b)) m <> 0%Qc -> exists x, m = [vS x] /\ (Vs x \/ exists r, x = t :: r /\ Vs r).
Proof.
  intros Ha Hb Hij Hm. destruct (main a b i j Ha Hb ltac:(lia)) as [L _]. destruct (L m Hm) as (x & qm & Hx & HP & HQ). exists x. destruct qm as [|v qm].
  - split; [apply Permutation_length_1_inv, Permutation_sym; exact HP|]. destruct Hx as [[A _]|[(r & -> & A & _)|(A & _)]]; eauto. lia.
  - exfalso. apply Hm. apply Mb_free; [apply (W_Vb i); auto|apply (W_Vb j); auto|]. apply (Permutation_in _ (Permutation_sym HP)). inversion HQ; subst. right. left. reflexivity.
Qed.
(** products with the largest row *)
Lemma ext_top c : lqb c -> supp (linm (fun x => exists r, x = t :: r /\ Vs r) (eq VQ)) (ext pib t c).
Proof.
  revert c. apply (lin_ind Vb (eq VQ)).
  - intros p r E Hp. eapply supp_peq; [|exact Hp]. unfold ext. apply psubst_proper. exact E.
  - apply supp_zero.
  - intros qm l c p Hl Hq Hp IH. eapply supp_peq; [symmetry; apply (extb_lin t c qm l p Hq)|]. apply supp_padd; auto. apply supp_pscale, (lin_qmul _ (eq VQ)); auto.
    eapply supp_peq; [symmetry; apply ext_pS|]. destruct (Z.le_gt_cases (part l 0) (n + k)) as [L|L].
    + destruct (Vb_Vs l Hl L) as [A|A]; [|eapply supp_peq; [symmetry; apply (top_long l A)|]; apply supp_zero].
      eapply supp_peq; [symmetry; apply (top_small l A)|]. apply (sys_lq_pS (V := fun x => exists r, x = t :: r /\ Vs r)). eauto.
    + eapply supp_peq; [symmetry; apply top_none; auto; intros ((_ & _ & A) & _); lia|]. apply supp_zero.
Qed.
Lemma ext_top2 c : supp (linm (fun x => exists r, x = t :: r /\ Vs r) (eq VQ)) c -> peq (ext pib t c) pzero.
Proof.
  revert c. apply (lin_ind (fun x => exists r, x = t :: r /\ Vs r) (eq VQ)).
  - intros p r E Hp. rewrite <- Hp. unfold ext. apply psubst_proper. symmetry. exact E.
  - reflexivity.
  - intros qm l c p (r & -> & Hr) Hq Hp IH. etransitivity; [apply (extb_lin t c qm (t :: r) p Hq)|]. rewrite IH.
    etransitivity; [apply padd_proper; [apply pscale_proper, pmul_proper; [reflexivity|etransitivity; [apply ext_pS|apply (top_top r Hr (Vb_top r Hr))]]|reflexivity]|]. rewrite pscale_pmul. ring.
Qed.
Lemma M_top a c : Vs a -> lqb c -> peq (Mb (pS (t :: a)) c) (ext pib t (Mb (pS a) c)).
Proof.
  intros Ha Hc. assert (I2 : IC k (n + 1) t) by (unfold IC; lia). rewrite (sys_ext SB) by (auto; apply (sys_lq_pS (V := Vb)), sbig; auto).
  apply M_peq; [|reflexivity]. rewrite <- (top_small a Ha). symmetry. apply ext_pS.
Qed.
Lemma Ms_hm a b : lqs a -> lqs b -> peq (Ms (hm a) b) (hm (Ms a b)).
Proof. intros Ha Hb. pose proof (Oq_M t a b ltac:(lia) Ha Hb) as E. unfold Oq in E. rewrite Z.eqb_refl in E. symmetry. exact E. Qed.
Lemma coef_hm x d nu : coef (hm x) (qS d nu) = (if (1 <=? d)%nat then Q2Qc (1 # 2) * coef x (qS (d - 1) nu) else 0)%Qc.
Proof. unfold hm. rewrite coef_pscale. change (pmono [VQ]) with (pmono (repeat VQ 1)). rewrite coef_qmul. destruct (1 <=? d)%nat; ring. Qed.
Section AB.
Variables a b : list Z.
Hypothesis Ha : Vs a.
Hypothesis Hb : Vs b.
Hypothesis Hab : (length a + length b <= S mm)%nat.
Lemma Wa : W (length a) a. Proof. left. auto. Qed.
Lemma Wb : W (length b) b. Proof. left. auto. Qed.
Lemma Wta : W (length a) (t :: a). Proof. right. left. eauto. Qed.
Lemma Wtb : W (length b) (t :: b). Proof. right. left. eauto. Qed.
Lemma prod_small nu : Vs nu ->
  coef (Mb (pS a) (pS b)) (qS 0 nu) = coef (Ms (pS a) (pS b)) (qS 0 nu) /\ coef (Mb (pS a) (pS b)) (qS 0 (t :: nu)) = ((1 + 1) * coef (Ms (pS a) (pS b)) (qS 1 nu))%Qc.
Proof.
  intros Hnu. destruct (Mb_at a b _ _ nu Wa Wb Hab Hnu) as [A B]. rewrite (D_Vs a Ha), (D_Vs b Hb) in A, B. split; auto. apply half1; auto.
Qed.
Lemma prod_mixed nu : Vs nu ->
  coef (Mb (pS (t :: a)) (pS b)) (qS 0 nu) = 0%Qc /\ coef (Mb (pS (t :: a)) (pS b)) (qS 0 (t :: nu)) = coef (Ms (pS a) (pS b)) (qS 0 nu).
Proof.
  intros Hnu. destruct (Mb_at (t :: a) b _ _ nu Wta Wb Hab Hnu) as [A B]. rewrite D_top, (D_Vs b Hb) in A, B.
  pose proof (Ms_hm (pS a) (pS b) (sys_lq_pS (V := Vs) a Ha) (sys_lq_pS (V := Vs) b Hb)) as E. rewrite (E (qS 0 nu)), coef_hm in A. rewrite (E (qS 1 nu)), coef_hm in B. cbn [Nat.leb Nat.sub] in A, B. split; auto. apply half2; auto.
Qed.
Lemma prod_top : peq (Mb (pS (t :: a)) (pS (t :: b))) pzero.
Proof.
  assert (La : lqb (pS a)) by (apply (sys_lq_pS (V := Vb)), sbig; auto). assert (Lb : lqb (pS b)) by (apply (sys_lq_pS (V := Vb)), sbig; auto).
  assert (Lt : lqb (pS (t :: b))) by (apply (sys_lq_pS (V := Vb)), Vb_top; auto).
  rewrite (M_top a _ Ha Lt). apply ext_top2. eapply supp_peq; [symmetry; etransitivity; [apply (sys_comm SB); auto|apply (M_top b _ Hb La)]|]. apply ext_top. apply (sys_lin SB); auto using (@sys_lq_vp Vb).
Qed.
Lemma terms_top m : coef (Mb (pS (t :: a)) (pS b)) m <> 0%Qc -> exists r, m = [vS (t :: r)] /\ Vs r.
Proof.
  intros Hm. assert (La : lqb (pS a)) by (apply (sys_lq_pS (V := Vb)), sbig; auto). assert (Lb : lqb (pS b)) by (apply (sys_lq_pS (V := Vb)), sbig; auto).
  assert (Hm' := Hm). rewrite (M_top a _ Ha Lb m) in Hm'. destruct (ext_top _ (sys_lin SB _ _ (sys_lq_vp (pS a) La) Lb) m Hm') as (x & qm & (r & -> & Hr) & HP & HQ). exists r. split; auto.
  destruct qm as [|v qm]; [apply Permutation_length_1_inv, Permutation_sym; exact HP|].
  exfalso. apply Hm. apply Mb_free; [apply Vb_top; auto|apply sbig; auto|]. apply (Permutation_in _ (Permutation_sym HP)). inversion HQ; subst. right. left. reflexivity.
Qed.
End AB.
End L.

Section Api.
Variables (m N : Z) (g g' : gr).
Hypothesis Hg : IsotropicGrassmannian m N = Ok g.
Hypothesis Hg' : IsotropicGrassmannian (m + 1) (N + 2) = Ok g'.
Lemma data : exists k n, 0 <= k <= n /\ m = n - k /\ N = 2 * n /\ g = mkGr TC k n /\ class_IG m N = kstrict_in k (n - k) (n + k) /\
  g' = mkGr TC k (n + 1) /\ class_IG (m + 1) (N + 2) = kstrict_in k (n + 1 - k) (n + 1 + k).
Proof.
  destruct (ig_inv _ _ _ Hg) as (n & EN & En & Hmn & Eg). destruct (ig_inv _ _ _ Hg') as (n' & EN' & En' & Hmn' & Eg'). assert (E1 : n' = n + 1) by lia. rewrite E1 in En', Eg'.
  exists (n - m), n. split; [lia|]. split; [lia|]. split; [lia|]. split; [exact Eg|].
  split; [change (class_IG m N) with (kstrict_in (N / 2 - m) m (N - m)); rewrite En; f_equal; lia|]. split; [rewrite Eg'; f_equal; lia|].
  change (class_IG (m + 1) (N + 2)) with (kstrict_in ((N + 2) / 2 - (m + 1)) (m + 1) (N + 2 - (m + 1))). rewrite En'. f_equal; lia.
Qed.
Lemma c107 a b : class_IG m N a -> class_IG m N b -> Z.of_nat (length a + length b) <= m + 1 ->
  exists s r r1 r2, qmult g (pS a) (pS b) = Ok s /\ mult g' (pS a) (pS b) = Ok r /\
    mult g' (pS (N + 1 - m :: a)) (pS b) = Ok r1 /\ mult g' (pS (N + 1 - m :: a)) (pS (N + 1 - m :: b)) = Ok r2 /\
    (forall nu, class_IG m N nu ->
      coef r (qS 0 nu) = coef s (qS 0 nu) /\ coef r (qS 0 (N + 1 - m :: nu)) = ((1 + 1) * coef s (qS 1 nu))%Qc /\
      coef r1 (qS 0 (N + 1 - m :: nu)) = coef s (qS 0 nu)) /\
    (forall mo, coef r1 mo <> 0%Qc -> exists nu, class_IG m N nu /\ mo = qS 0 (N + 1 - m :: nu)) /\
    (Z.of_nat (length a + length b) <= m -> forall mo, coef r mo <> 0%Qc -> exists nu, class_IG m N nu /\ (mo = qS 0 nu \/ mo = qS 0 (N + 1 - m :: nu))) /\
    peq r2 pzero.
Proof.
  destruct data as (k & n & Hk & Em & En & Eg & EV & Eg' & EV'). rewrite EV. intros Ha Hb Hab. rewrite Eg, Eg'. replace (N + 1 - m) with (n + k + 1) by lia.
  assert (Hab' : (length a + length b <= S (Z.to_nat (n - k)))%nat) by lia. assert (K2 : 0 <= k <= n + 1) by lia. pose proof (sysC k n Hk true) as SS. pose proof (sysC k (n + 1) K2 false) as SB.
  assert (PS : forall x y, kstrict_in k (n - k) (n + k) x -> kstrict_in k (n - k) (n + k) y -> exists r, qmult (mkGr TC k n) (pS x) (pS y) = Ok r /\ peq r (M TC (piC k n true) k (giam_fuel (gC k n)) (pS x) (pS y))).
  { intros x y Hx Hy. destruct (api_prod SS (pS x) (pS y)) as (r & E & Pr & _); [apply lin_comb_poly_in, lin_comb_iff, sys_lq_pS; auto|apply lin_comb_iff, sys_lq_pS; auto|]. exists r. split; auto. }
  assert (PB : forall x y, kstrict_in k (n + 1 - k) (n + 1 + k) x -> kstrict_in k (n + 1 - k) (n + 1 + k) y -> exists r, mult (mkGr TC k (n + 1)) (pS x) (pS y) = Ok r /\ peq r (M TC (piC k (n + 1) false) k (giam_fuel (gC k (n + 1))) (pS x) (pS y))).
  { intros x y Hx Hy. destruct (api_prod SB (pS x) (pS y)) as (r & E & Pr & _); [apply lin_comb_poly_in, lin_comb_iff, sys_lq_pS; auto|apply lin_comb_iff, sys_lq_pS; auto|]. exists r. split; auto. }
  pose proof (small_big k n a Ha) as Ba. pose proof (small_big k n b Hb) as Bb. pose proof (Vb_top k n Hk a Ha) as Ta. pose proof (Vb_top k n Hk b Hb) as Tb.
  destruct (PS a b Ha Hb) as (s & Es & Qs). destruct (PB a b Ba Bb) as (r & Er & Qr). destruct (PB _ _ Ta Bb) as (r1 & Er1 & Qr1). destruct (PB _ _ Ta Tb) as (r2 & Er2 & Qr2).
  exists s, r, r1, r2. split; [exact Es|]. split; [exact Er|]. split; [exact Er1|]. split; [exact Er2|]. split; [|split; [|split]].
  - intros nu Hnu. rewrite !(Qs _), !(Qr _), !(Qr1 _). destruct (prod_small k n Hk a b Ha Hb Hab' nu Hnu) as [A1 A2]. destruct (prod_mixed k n Hk a b Ha Hb Hab' nu Hnu) as [_ A4]. auto.
  - intros mo Hmo. rewrite (Qr1 mo) in Hmo. destruct (terms_top k n Hk a b Ha Hb mo Hmo) as (x & -> & A). exists x. auto.
  - intros Hm mo Hmo. rewrite (Qr mo) in Hmo. destruct (Mb_terms k n Hk a b _ _ mo (Wa k n a Ha) (Wb k n b Hb) ltac:(lia) Hmo) as (x & -> & [A|(y & -> & A)]); [exists x|exists y]; auto.
  - rewrite Qr2. apply (prod_top k n Hk a b Ha Hb).
Qed.
End Api.
