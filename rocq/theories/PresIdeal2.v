(** The relations present the ring of Gr(m,n): the Pieri rule holds for the determinants modulo
    the relations, so every polynomial is congruent to the combination of determinants given by
    its value. *)

From Coq Require Import ZArith List Lia Bool Permutation QArith Qcanon Setoid Morphisms.
From Verif Require Import Py OrderFacts PyFacts ModelPart ModelQcalc ModelPoly ModelStr ModelGr Spec SpecDet SpecPres
  PolyFacts SuppFacts OpTheory Enum FillFacts PartFacts PieriA QPieriA CylA WSum Sys Sys2 RingA FactsA
  SysApi ApiA Transfer CoefSys CommD2 Schub ConjFacts RimFacts DualSys LRCore LRSum LRMult LRQuant Kostka DetFacts GiamDet ExprFacts PresA PresIdeal.
Import ListNotations.
Open Scope Z_scope.

Lemma psumf_perm {B} (f : B -> poly) l l' : Permutation l l' -> peq (psumf f l) (psumf f l').
Proof. induction 1 as [|x l l' _ IH|x y l|l l' l'' _ IH1 _ IH2]; rewrite ?psumf_cons; [reflexivity|rewrite IH; reflexivity|ring|rewrite IH1; exact IH2]. Qed.
Lemma psumf_flat {B C} (f : C -> poly) (g : B -> list C) l : peq (psumf f (flat_map g l)) (psumf (fun x => psumf f (g x)) l).
Proof. induction l as [|x l IH]; [reflexivity|]. cbn [flat_map]. rewrite psumf_app, psumf_cons, IH. reflexivity. Qed.
Lemma psumf_sub {B} (f g : B -> poly) l : peq (psub (psumf f l) (psumf g l)) (psumf (fun x => psub (f x) (g x)) l).
Proof. induction l as [|x l IH]; [cbn [psumf fold_right]; ring|]. rewrite !psumf_cons, <- IH. ring. Qed.
Lemma dv_q D qm : Forall (eq VQ) qm -> peq (msubst (dv D) qm) (pmono qm).
Proof.
  induction 1 as [|v qm <- _ IH]; [reflexivity|]. change (msubst (dv D) (VQ :: qm)) with (pmul (pvar VQ) (msubst (dv D) qm)). rewrite IH.
  change (VQ :: qm) with ([VQ] ++ qm). rewrite pmono_app. reflexivity.
Qed.
Lemma rep_q d : Forall (eq VQ) (repeat VQ d).
Proof. induction d; constructor; auto. Qed.
Lemma theta_sum D L : peq (psubst (dv D) (msum (map qterm L))) (psumf (fun x => pmul (D (part_clip (snd x))) (pmono (repeat VQ (fst x)))) L).
Proof.
  induction L as [|[d v] L IH]; [reflexivity|]. cbn [map]. rewrite psumf_cons, <- IH, (psubst_proper _ _ _ (msum_cons _ _)), psubst_padd, psubst_pmono. apply padd_proper; [|reflexivity].
  unfold qterm, qS. cbn [fst snd]. change (msubst (dv D) (vS (part_clip v) :: repeat VQ d)) with (pmul (D (part_clip v)) (msubst (dv D) (repeat VQ d))). rewrite dv_q by apply rep_q. reflexivity.
Qed.
Lemma vadd_in n : forall u x, In x (vadd (rho n) u) -> exists a b, x = a + b /\ 0 <= a < Z.of_nat n /\ In b u.
Proof.
  induction n as [|n IH]; intros u x; [intros []|]. destruct u as [|y u]; [intros []|]. cbn [rho vadd]. intros [<-|Hx].
  - exists (Z.of_nat n), y. split; auto. split; [lia|left; auto].
  - destruct (IH u x Hx) as (a & b & E & Ha & Hb). exists a, b. split; auto. split; [lia|right; auto].
Qed.
Lemma decp_range2 u : forall o b, decp o u -> In b u -> last u 0 <= b <= o.
Proof.
  induction u as [|y u IH]; intros o b; [intros _ []|]. intros [H1 H2] [<-|Hb].
  - split; [|lia]. destruct u as [|z u]; [cbn; lia|]. rewrite last_cons by discriminate. specialize (IH y z H2 ltac:(left; auto)). lia.
  - rewrite last_cons by (destruct u; [destruct Hb|discriminate]). specialize (IH y b H2 Hb). lia.
Qed.

Section Q.
Variables m k : Z.
Hypothesis Hm : 1 <= m.
Hypothesis Hk : 1 <= k.
Variable qq : bool.
Let Hk0 : 0 <= k. Proof. lia. Qed.
Let Hm1 : 1 <= m + 1. Proof. lia. Qed.
Notation Mn := (Z.to_nat m).
Notation A := (special_poly k).
Notation J := (in_ideal A (RR m k qq)).
Notation VB := (in_box m k).
Notation SYS := (sysA m k Hm Hk0 qq).
Notation MM := (MA m k qq).
Notation lq := (supp (linm VB (eq VQ))).
Notation vp := (supp (polym VB)).
Notation D := (Dl m k).
Notation theta := (psubst (dv D)).
Let JP := J_peq A (RR m k qq).
Let JM := J_mul A (RR m k qq) (A_mul k).
Let JO := J_opp A (RR m k qq) (A_mul k) (A_const k).
Let JA := J_add A (RR m k qq).
Let JZ := J_zero A (RR m k qq).

Lemma A_D l : A (D l).
Proof. unfold Dl, DJ. apply A_dd. intros. apply A_h. Qed.

(** one term *)
Lemma term i l u : 1 <= i <= k -> VB l -> In u (L1 m k i l) ->
  J (psub (Dl (m + 1) k (part_clip u)) (psumf (fun x => pmul (D (part_clip (snd x))) (pmono (repeat VQ (fst x)))) (gx k qq u))).
Proof.
  intros Hi Hl Hu.
  assert (Wu : wbox (m + 1) k u).
  { unfold L1 in Hu. apply in_map_iff in Hu. destruct Hu as (x & <- & Hx). apply (EA_wbox (m + 1) k Hm1 Hk0 false i _ x) in Hx; auto. apply in_box_wbox. apply box_S. auto. }
  assert (Wx : forall x, In x (gx k qq u) -> wbox m k (snd x)).
  { intros x Hx. apply (EA_wbox m k Hm Hk0 qq i (padm m l)); [apply in_box_wbox; auto|]. apply (Permutation_in _ (flat_perm m k Hm Hk qq i l Hi Hl)). apply in_flat_map. exists u. auto. }
  assert (Lu : length u = S Mn) by (destruct Wu as [_ Wu]; unfold zlen in Wu; lia).
  unfold gx in *. destruct (Z.eqb_spec (last u 0) 0) as [E0|E0].
  - apply (JP pzero); [|apply JZ]. rewrite psumf_cons. cbn [fst snd repeat psumf fold_right]. set (v := removelast u) in *.
    assert (Hne : u <> []) by (intros ->; discriminate). assert (Eu : u = v ++ [0]) by (rewrite <- E0 at 1; apply app_removelast_last; auto).
    assert (Wv := Wx _ (or_introl eq_refl)). cbn [snd] in Wv. assert (Ec : part_clip u = part_clip v) by (rewrite Eu; apply (part_clip_app0 v 1)).
    rewrite Ec. rewrite (Dl_jt (m + 1) k Hm1) by (apply box_S, wbox_in_box; auto). rewrite (Dl_jt m k Hm) by (apply wbox_in_box; auto). change (pmono []) with pone. ring.
  - destruct u as [|y u]; [discriminate|]. cbn [hd tl] in *. assert (Lu2 : length u = Mn) by (cbn [length] in Lu; lia).
    assert (ED : peq (Dl (m + 1) k (part_clip (y :: u))) (dd (S Mn) (fun j x => hclass k (x + Z.of_nat j - m)) (Z.of_nat Mn + y :: vadd (rho Mn) u))).
    { unfold Dl. rewrite (wbox_padm_clip (m + 1) k) by auto. unfold DJ. replace (Z.to_nat (m + 1)) with (S Mn) by lia. cbn [rho vadd]. apply dd_ext.
      - intros j x _ _. unfold eta. replace (m + 1 - 1) with m by lia. reflexivity.
      - cbn [length]. rewrite vadd_len; rewrite rho_len; auto. }
    assert (Hr : forall b, In b (y :: u) -> 1 <= b <= k). { intros b Hb. destruct (wbox_facts (m + 1) k Hm1 Hk0 _ Wu) as (_ & Wpos & _). destruct Wu as [Wu _]. pose proof (decp_range2 _ _ _ Wu Hb). pose proof (decp_range2 _ _ _ Wu (or_introl eq_refl : In y (y :: u))).
      assert (0 <= last (y :: u) 0); [|lia]. destruct (exists_last (l := y :: u) ltac:(discriminate)) as (w & z & Ez). rewrite Ez, last_last.
      specialize (Wpos (length w)). rewrite Ez in Wpos. unfold part in Wpos. rewrite app_nth2, Nat.sub_diag in Wpos by lia. exact Wpos. }
    pose proof (Hr y (or_introl eq_refl)) as Hy.
    assert (HJ : J (psub (dd (S Mn) (fun j x => hclass k (x + Z.of_nat j - m)) (Z.of_nat Mn + y :: vadd (rho Mn) u))
       (if qq && (Z.of_nat Mn + y =? m + k) then pmul (pvar VQ) (dd Mn (fun j x => hclass k (x + Z.of_nat j - m)) (vadd (rho Mn) u)) else pzero))).
    { apply dd_top; auto; [rewrite vadd_len; rewrite rho_len; auto|lia|]. intros x Hx. apply vadd_in in Hx. destruct Hx as (a & b & -> & Ha & Hb). pose proof (Hr b (or_intror Hb)). lia. }
    eapply JP; [|exact HJ]. rewrite ED. replace (Z.of_nat Mn + y =? m + k) with (y =? k) by (destruct (Z.eqb_spec y k), (Z.eqb_spec (Z.of_nat Mn + y) (m + k)); lia).
    destruct (qq && (y =? k)); [|reflexivity]. rewrite psumf_cons. cbn [fst snd repeat psumf fold_right]. 
    assert (Wv := Wx _ (or_introl eq_refl)). cbn [snd] in Wv. unfold Dl. rewrite (wbox_padm_clip m k) by auto. unfold DJ.
    assert (EV : vadd (rho Mn) (map (fun y => y - 1) u) = map (fun y => y - 1) (vadd (rho Mn) u)).
    { clear. generalize (rho Mn). revert u. intros u r. revert u. induction r as [|a r IH]; intros [|b u]; try reflexivity. cbn [map vadd]. rewrite IH. f_equal. lia. }
    rewrite EV, dd_map by (rewrite vadd_len; rewrite rho_len; auto). change (pmono [VQ]) with (pvar VQ).
    assert (EE : peq (dd Mn (fun j x => eta m k (x - 1 + Z.of_nat j)) (vadd (rho Mn) u)) (dd Mn (fun j x => hclass k (x + Z.of_nat j - m)) (vadd (rho Mn) u))).
    { apply dd_ext; [|rewrite vadd_len; rewrite rho_len; auto]. intros j x _ _. unfold eta. replace (x - 1 + Z.of_nat j - (m - 1)) with (x + Z.of_nat j - m) by lia. reflexivity. }
    rewrite EE. ring.
Qed.

(** the Pieri rule modulo the relations *)
Lemma stepA i l : 1 <= i <= k -> VB l -> J (psub (pmul (pS [i]) (D l)) (theta (P (piA m k qq) i l))).
Proof.
  intros Hi Hl. assert (Hl1 := box_S m k l Hl). assert (Hlen : zlen l < m + 1) by (destruct Hl as (_ & H2 & _); unfold zlen; lia).
  pose proof (D_pieri (m + 1) k Hm1 Hk0 i l Hi Hl1 Hlen) as HD.
  rewrite (psubst_proper _ _ _ (P_enum (m + 1) k Hm1 Hk0 false i l Hl1 (IA_dom k false i Hi))), theta_sum in HD.
  assert (E1 : peq (pmul (pS [i]) (D l)) (psumf (fun u => Dl (m + 1) k (part_clip u)) (L1 m k i l))).
  { transitivity (pmul (pvar (sv i)) (Dl (m + 1) k l)).
    - apply pmul_proper; [rewrite <- (hclass_sv k i Hi); unfold hclass; destruct (Z.eqb_spec i 0); [lia|]; destruct (Z.ltb_spec 0 i); [|lia]; destruct (Z.leb_spec i k); [reflexivity|lia]|].
      rewrite (Dl_jt m k Hm), (Dl_jt (m + 1) k Hm1) by auto. reflexivity.
    - rewrite <- HD. unfold L1. rewrite psumf_map. apply psumf_ext. intros [d v] Hx. apply EA_in in Hx; [|lia|lia|apply in_box_wbox; auto]. destruct Hx as [(-> & _)|(? & _)]; [|discriminate].
      cbn [fst snd repeat]. change (pmono []) with pone. ring. }
  assert (E2 : peq (theta (P (piA m k qq) i l)) (psumf (fun u => psumf (fun x => pmul (D (part_clip (snd x))) (pmono (repeat VQ (fst x)))) (gx k qq u)) (L1 m k i l))).
  { rewrite (psubst_proper _ _ _ (P_enum m k Hm Hk0 qq i l Hl (IA_dom k qq i Hi))), theta_sum. rewrite <- psumf_flat. apply psumf_perm. symmetry. apply flat_perm; auto. }
  eapply JP; [rewrite E1, E2, psumf_sub; reflexivity|]. apply J_sum. intros u Hu. apply term with (i := i) (l := l); auto.
Qed.
(** ... for linear combinations *)
Lemma stepB i c : 1 <= i <= k -> lq c -> J (psub (pmul (pS [i]) (theta c)) (theta (ext (piA m k qq) i c))).
Proof.
  intros Hi Hc. apply supp_rawnorm in Hc.
  assert (G : forall r, rawsupp (linm VB (eq VQ)) r -> J (psub (pmul (pS [i]) (theta r)) (theta (ext (piA m k qq) i r)))).
  { induction r as [|[mo a] r IH]; intros Hr.
    - apply (JP pzero); [|apply JZ]. change (peq pzero (psub (pmul (pS [i]) pzero) pzero)). ring.
    - assert (IH' := IH (fun m' c' Hi' => Hr m' c' (or_intror Hi'))). destruct (Hr mo a (or_introl eq_refl)) as (l & qm & Hl & HP & HQ).
      assert (Es : peq (msubst (dv D) mo) (pmul (D l) (pmono qm))).
      { rewrite (msubst_perm _ _ _ HP). change (msubst (dv D) (vS l :: qm)) with (pmul (D l) (msubst (dv D) qm)). rewrite dv_q by auto. reflexivity. }
      assert (Ee : peq (psubst (dv D) (msubst (sigma (piA m k qq) i) mo)) (pmul (theta (P (piA m k qq) i l)) (pmono qm))).
      { rewrite (psubst_proper _ _ _ (msubst_perm (sigma (piA m k qq) i) _ _ HP)). change (msubst (sigma (piA m k qq) i) (vS l :: qm)) with (pmul (P (piA m k qq) i l) (msubst (sigma (piA m k qq) i) qm)).
        rewrite psubst_pmul. apply pmul_proper; [reflexivity|]. rewrite (psubst_proper _ _ _ (msubst_q (piA m k qq) (eq VQ) eqVQ_isqv i qm HQ)), psubst_pmono. apply dv_q. auto. }
      apply (JP (padd (pmul (pmul (pconst a) (pmono qm)) (psub (pmul (pS [i]) (D l)) (theta (P (piA m k qq) i l)))) (psub (pmul (pS [i]) (theta r)) (theta (ext (piA m k qq) i r))))).
      + unfold ext at 2. cbn [psubst]. rewrite psubst_padd, psubst_pscale, Ee, Es. fold (ext (piA m k qq) i r). rewrite !pscale_pmul. ring.
      + apply JA; auto. apply JM; [|apply stepA; auto]. apply A_mul; [apply A_const|]. apply A_iff. apply supp_pmono; [apply polym_inv|].
        eapply Forall_impl; [|exact HQ]. intros v <-. left. reflexivity. }
  eapply JP; [|exact (G _ Hc)]. unfold ext. rewrite (psubst_proper (dv D) _ _ (pnorm_peq c)), (psubst_proper (dv D) _ _ (psubst_proper (sigma (piA m k qq) i) _ _ (pnorm_peq c))). reflexivity.
Qed.

(** every polynomial is congruent to the determinants of its value *)
Lemma row_box i : 1 <= i <= k -> VB [i].
Proof. intros Hi. change [i] with (i :: repeat 1 0). apply hook_box; lia. Qed.
Lemma A_vp p : A p -> vp p.
Proof. intros Hp. apply A_iff in Hp. eapply supp_impl; [|exact Hp]. intros mo. apply Forall_impl. intros v [->|(l & (i & Hi & ->) & ->)]; [left; auto|right; exists [i]; split; auto using row_box]. Qed.
Lemma one_lq : lq (pS []).
Proof. apply (sys_lq_one SYS). Qed.
Lemma MM_pone : peq (MM pone (pS [])) (pS []).
Proof. apply (XX_0 m k Hm Hk qq). Qed.
Lemma q_vp : vp (pvar VQ).
Proof. apply A_vp, A_q. Qed.
Lemma MM_q c : lq c -> peq (MM (pvar VQ) c) (pmul (pvar VQ) c).
Proof.
  intros Hc. assert (Hq : Forall (eq VQ) [VQ]) by (repeat constructor).
  transitivity (MM (pvar VQ) (MM (pS []) c)); [apply (sys_peq (k := k)); [reflexivity|symmetry; apply (sys_unit SYS); auto]|].
  transitivity (MM (pmul (pvar VQ) (pS [])) c); [symmetry; apply (sys_pmul SYS); auto using q_vp, one_lq; apply (sys_lq_vp (V := VB)), one_lq|].
  change (pvar VQ) with (pmono [VQ]). etransitivity; [apply (sys_q_l SYS); auto using one_lq|]. apply pmul_proper; [reflexivity|apply (sys_unit SYS); auto].
Qed.
Lemma A_mono mo : Forall (fun v => v = VQ \/ exists l, (exists i, 1 <= i <= k /\ l = [i]) /\ v = vS l) mo -> A (pmono mo).
Proof. intros H. apply A_iff. apply supp_pmono; [apply polym_inv|exact H]. Qed.
Lemma stepC_mono mo : Forall (fun v => v = VQ \/ exists l, (exists i, 1 <= i <= k /\ l = [i]) /\ v = vS l) mo -> J (psub (pmono mo) (theta (MM (pmono mo) (pS [])))).
Proof.
  induction 1 as [|v mo Hv Hmo IH].
  - apply (JP pzero); [|apply JZ]. change (pmono []) with pone. rewrite (psubst_proper _ _ _ MM_pone). unfold pS. rewrite psubst_pvar. cbn [dv vS].
    assert (E : peq (D []) pone) by (rewrite (Dl_jt m k Hm) by (apply in_box_nil; lia); reflexivity). unfold vS. cbn [dv]. rewrite E. ring.
  - assert (HA := A_mono mo Hmo). set (c := MM (pmono mo) (pS [])) in *. assert (Hc : lq c) by (apply (sys_lin SYS); [apply A_vp; auto|apply one_lq]).
    assert (Ep : peq (pmono (v :: mo)) (pmul (pvar v) (pmono mo))) by (change (v :: mo) with ([v] ++ mo); rewrite pmono_app; reflexivity).
    assert (HvA : A (pvar v)) by (destruct Hv as [->|(l & (i & Hi & ->) & ->)]; [apply A_q|apply (A_S k i Hi)]).
    assert (EM : peq (MM (pmono (v :: mo)) (pS [])) (MM (pvar v) c)).
    { etransitivity; [apply (sys_peq (k := k)); [exact Ep|reflexivity]|]. apply (sys_pmul SYS); auto using one_lq, A_vp. }
    destruct Hv as [->|(l & (i & Hi & ->) & ->)].
    + apply (JP (pmul (pvar VQ) (psub (pmono mo) (theta c)))); [|apply JM; auto].
      transitivity (psub (pmul (pvar VQ) (pmono mo)) (theta (pmul (pvar VQ) c))); [rewrite psubst_pmul, psubst_pvar; cbn [dv]; ring|].
      symmetry. apply psub_proper; [exact Ep|]. apply psubst_proper. etransitivity; [exact EM|apply MM_q; auto].
    + change (pvar (vS [i])) with (pS [i]) in *.
      assert (EP : peq (MM (pS [i]) c) (ext (piA m k qq) i c)) by (apply (sys_pieri SYS); auto; [apply row_box; auto|apply special_P; auto; lia]).
      apply (JP (padd (pmul (pS [i]) (psub (pmono mo) (theta c))) (psub (pmul (pS [i]) (theta c)) (theta (ext (piA m k qq) i c))))).
      * transitivity (psub (pmul (pS [i]) (pmono mo)) (theta (ext (piA m k qq) i c))); [ring|].
        symmetry. apply psub_proper; [exact Ep|]. apply psubst_proper. etransitivity; [exact EM|exact EP].
      * apply JA; [apply JM; auto|apply stepB; auto].
Qed.
Lemma stepC p : A p -> J (psub p (theta (MM p (pS [])))).
Proof.
  intros Hp. apply A_iff, supp_rawnorm in Hp.
  assert (G : forall r, rawsupp (polym (fun l => exists i, 1 <= i <= k /\ l = [i])) r -> A r /\ J (psub r (theta (MM r (pS []))))).
  { induction r as [|[mo a] r IH]; intros Hr.
    - split; [apply A_zero|]. apply (JP pzero); [|apply JZ]. change (MM [] (pS [])) with (MM pzero (pS [])). rewrite (psubst_proper _ _ _ (MM_zero_l m k qq (pS []))). change (peq pzero (psub pzero pzero)). ring.
    - destruct (IH (fun m' c' Hi' => Hr m' c' (or_intror Hi'))) as [HA HJ]. pose proof (Hr mo a (or_introl eq_refl)) as Hmo. pose proof (A_mono mo Hmo) as HAm. pose proof (stepC_mono mo Hmo) as HJm.
      assert (E : peq ((mo, a) :: r) (padd (pscale a (pmono mo)) r)).
      { intros x. rewrite coef_padd, coef_pscale. unfold pmono. cbn [coef]. destruct (mono_eqb mo x); ring. }
      split; [apply (A_peq k (padd (pscale a (pmono mo)) r)); [symmetry; exact E|apply A_add; auto; apply A_scale; auto]|].
      assert (EM : peq (MM ((mo, a) :: r) (pS [])) (padd (pscale a (MM (pmono mo) (pS []))) (MM r (pS [])))).
      { etransitivity; [apply (sys_peq (k := k)); [exact E|reflexivity]|]. etransitivity; [apply (sys_add_l SYS); [apply A_vp, A_scale; auto|apply A_vp; auto|apply one_lq]|].
        apply padd_proper; [|reflexivity]. apply (sys_scale_l SYS); [apply A_vp; auto|apply one_lq]. }
      apply (JP (padd (pmul (pconst a) (psub (pmono mo) (theta (MM (pmono mo) (pS []))))) (psub r (theta (MM r (pS [])))))).
      + transitivity (psub (padd (pscale a (pmono mo)) r) (theta (padd (pscale a (MM (pmono mo) (pS []))) (MM r (pS []))))); [rewrite psubst_padd, psubst_pscale, !pscale_pmul; ring|].
        symmetry. apply psub_proper; [exact E|]. apply psubst_proper. exact EM.
      + apply JA; auto. apply JM; auto. apply A_const. }
  destruct (G _ Hp) as [_ HJ]. eapply JP; [|exact HJ]. apply psub_proper; [apply pnorm_peq|]. apply psubst_proper. apply (sys_peq (k := k)); [apply pnorm_peq|reflexivity].
Qed.

(** the relations have the value 0 *)
Lemma R_ok r : RR m k qq r -> vp r /\ peq (MM r (pS [])) pzero.
Proof.
  assert (Hcol : forall d, vp (column k d)) by (intros d; eapply supp_peq; [symmetry; apply EE_jt|]; apply EE_vp; auto).
  assert (HX : forall d, Z.of_nat d <= m + k -> peq (MM (column k d) (pS [])) (Xval m k qq d)).
  { intros d Hd. rewrite <- (X_val m k Hm Hk qq d Hd). apply (sys_peq (k := k)); [apply EE_jt|reflexivity]. }
  unfold RR. destruct qq eqn:Eq.
  - intros [(d & Hd & ->)| ->].
    + split; auto. rewrite HX by lia. unfold Xval. destruct (Z.leb_spec (Z.of_nat d) m); [lia|]. destruct (Z.eqb_spec (Z.of_nat d) (m + k)); [lia|]. reflexivity.
    + set (s := sign (Z.to_nat (k - 1))). assert (Hq : vp (pscale s (pvar VQ))) by (apply supp_pscale, q_vp).
      assert (Hv : vp (pscale (- (1))%Qc (pscale s (pvar VQ)))) by (apply supp_pscale; auto).
      split; [unfold psub; apply supp_padd; auto|]. unfold psub. rewrite <- Eq in HX |- *. etransitivity; [apply (sys_add_l SYS); auto using one_lq|].
      rewrite (HX (Z.to_nat (m + k)) ltac:(lia)). unfold Xval. destruct (Z.leb_spec (Z.of_nat (Z.to_nat (m + k))) m); [lia|]. destruct (Z.eqb_spec (Z.of_nat (Z.to_nat (m + k))) (m + k)); [|lia]. rewrite Eq at 1. cbn [andb]. fold s.
      rewrite (sys_scale_l SYS _ _ _ Hq one_lq). rewrite (sys_scale_l SYS _ _ _ q_vp one_lq). rewrite (MM_q (pS []) one_lq : peq (M _ _ _ _ _ _) _). rewrite !pscale_pmul, pconst_opp. change (pconst 1%Qc) with pone. ring.
  - intros (d & Hd & ->). split; auto. rewrite HX by lia. unfold Xval. destruct (Z.leb_spec (Z.of_nat d) m); [lia|]. reflexivity.
Qed.
Lemma J_value p : J p -> A p -> peq (MM p (pS [])) pzero.
Proof.
  intros (l & Hl & E) _. assert (G : vp (psumf (fun x => pmul (fst x) (snd x)) l) /\ peq (MM (psumf (fun x => pmul (fst x) (snd x)) l) (pS [])) pzero).
  { clear E. induction l as [|[a r] l IH]; [split; [apply supp_zero|apply MM_zero_l]|]. rewrite psumf_cons. cbn [fst snd].
    destruct (IH (fun x Hx => Hl x (or_intror Hx))) as [I1 I2]. destruct (Hl (a, r) (or_introl eq_refl)) as [Ha Hr]. cbn [fst snd] in Ha, Hr. apply R_ok in Hr. destruct Hr as [Hr1 Hr2].
    assert (Hv : vp (pmul a r)) by (apply vpoly_pmul; auto using A_vp). split; [apply supp_padd; auto|].
    etransitivity; [apply (sys_add_l SYS); auto using one_lq|]. rewrite (I2 : peq (M _ _ _ _ _ _) _). rewrite (sys_pmul SYS a r (pS []) (A_vp a Ha) Hr1 one_lq).
    assert (E0 : peq (MM a (MM r (pS []))) (MM a pzero)) by (apply (sys_peq (k := k)); [reflexivity|exact Hr2]). rewrite (E0 : peq (M _ _ _ _ _ _) _). rewrite (MM_zero m k qq a). ring. }
  etransitivity; [apply (sys_peq (k := k)); [exact E|reflexivity]|apply G].
Qed.
Lemma pres p p' : A p -> A p' -> (peq (MM p (pS [])) (MM p' (pS [])) <-> J (psub p p')).
Proof.
  intros Hp Hp'. split.
  - intros E. apply (JP (psub (psub p (theta (MM p (pS [])))) (psub p' (theta (MM p' (pS [])))))).
    + rewrite (psubst_proper (dv D) _ _ E). ring.
    + apply (JP (padd (psub p (theta (MM p (pS [])))) (popp (psub p' (theta (MM p' (pS []))))))); [ring|]. apply JA; [apply stepC; auto|apply JO, stepC; auto].
  - intros HJ. assert (H0 : peq (MM (psub p p') (pS [])) pzero) by (apply J_value; auto; unfold psub; apply A_add; auto; apply A_scale; auto).
    assert (E1 : peq (MM p (pS [])) (padd (MM (psub p p') (pS [])) (MM p' (pS [])))).
    { transitivity (MM (padd (psub p p') p') (pS [])); [apply (sys_peq (k := k)); [ring|reflexivity]|]. apply (sys_add_l SYS); [apply A_vp; unfold psub; apply A_add; auto; apply A_scale; auto|apply A_vp; auto|apply one_lq]. }
    rewrite E1, H0. ring.
Qed.
End Q.

Lemma c104 m n g p p' : Grassmannian m n = Ok g -> 1 <= m < n -> special_poly (n - m) p -> special_poly (n - m) p' ->
  exists r r' s s', toS g p = Ok r /\ toS g p' = Ok r' /\ qtoS g p = Ok s /\ qtoS g p' = Ok s' /\
    (peq r r' <-> in_ideal (special_poly (n - m)) (relation m (n - m)) (psub p p')) /\
    (peq s s' <-> in_ideal (special_poly (n - m)) (qrelation m (n - m)) (psub p p')).
Proof.
  intros Hg Hm Hp Hp'. apply gr_inv in Hg. destruct Hg as (_ & Hk & ->). assert (Hm1 : 1 <= m) by lia. assert (Hk1 : 1 <= n - m) by lia.
  assert (HP : forall (qq : bool) a, special_poly (n - m) a -> exists r, prod TA (piA m (n - m) qq) (n - m) (giam_fuel (gA m (n - m))) a (pS []) = Ok r /\ peq r (MA m (n - m) qq a (pS []))).
  { intros qq a Ha. destruct (api_prod (sysA m (n - m) Hm1 Hk qq) a (pS [])) as (r & E & Pr & _).
    - apply poly_in_iff. apply (A_vp m (n - m)); auto.
    - apply lin_comb_pS, in_box_nil; lia.
    - exists r. split; auto. }
  destruct (HP false p Hp) as (r & Er & Pr). destruct (HP false p' Hp') as (r' & Er' & Pr'). destruct (HP true p Hp) as (s & Es & Ps). destruct (HP true p' Hp') as (s' & Es' & Ps').
  exists r, r', s, s'. split; [exact Er|]. split; [exact Er'|]. split; [exact Es|]. split; [exact Es'|]. split.
  - pose proof (pres m (n - m) Hm1 Hk1 false p p' Hp Hp') as X. rewrite Pr, Pr'. exact X.
  - pose proof (pres m (n - m) Hm1 Hk1 true p p' Hp Hp') as X. rewrite Ps, Ps'. exact X.
Qed.
