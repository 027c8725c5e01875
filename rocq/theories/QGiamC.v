(** The Giambelli polynomials of IG(m,N) from those of IG(m+1,N+2). *)

From Coq Require Import ZArith List Lia Bool Permutation QArith Qcanon Setoid Morphisms.
From Verif Require Import Py OrderFacts PyFacts ModelPart ModelQcalc ModelPoly ModelStr ModelGr Spec SpecPieri SpecRing SpecAct SpecQG
  PolyFacts SuppFacts OpTheory GrInv WSum Sys Sys2 SysRing FillFacts PartFacts ConjFacts PieriCoef RecBCD CommC RingC RingData ApiRing TopClass CompsFacts CompsBound PieriD.
Import ListNotations.
Open Scope Z_scope.

Lemma put_mono_eq s m : put_mono s m = msubst s m.
Proof. induction m as [|v m IH]; [reflexivity|]. change (pmul (s v) (put_mono s m) = pmul (s v) (msubst s m)). rewrite IH. reflexivity. Qed.
Lemma put_eq s p : put s p = psubst s p.
Proof. induction p as [|[m c] p IH]; [reflexivity|]. change (padd (pscale c (put_mono s m)) (put s p) = padd (pscale c (msubst s m)) (psubst s p)). rewrite IH, put_mono_eq. reflexivity. Qed.

(** ** substitution into a sum of classes *)
Lemma psubst_wl s ls W : peq (psubst s (wl ls W)) (fold_right (fun l x => padd (pscale (W l) (s (vS l))) x) pzero ls).
Proof.
  induction ls as [|l ls IH]; [reflexivity|]. change (wl (l :: ls) W) with (([vS l], W l) :: wl ls W). cbn [psubst fold_right msubst]. rewrite IH.
  apply padd_proper; [|reflexivity]. apply pscale_proper. ring.
Qed.
Lemma subst_split s s1 s2 h p W : lincl p W ->
  (forall l, W l <> 0%Qc -> peq (s (vS l)) (padd (s1 (vS l)) (pmul h (s2 (vS l))))) ->
  peq (psubst s p) (padd (psubst s1 p) (pmul h (psubst s2 p))).
Proof.
  intros Hp Hs. destruct (lincl_wl p W Hp) as (ls & _ & E & HW). rewrite !(psubst_proper _ _ _ E), !psubst_wl.
  assert (Hin : forall l, In l ls -> W l <> 0%Qc) by (intros l; apply HW). clear HW E. induction ls as [|l ls IH]; cbn [fold_right]; [ring|].
  rewrite IH by (intros; apply Hin; right; auto). rewrite Hs by (apply Hin; left; auto). rewrite !pscale_pmul. ring.
Qed.
Lemma subst_same s s1 p W : lincl p W -> (forall l, W l <> 0%Qc -> peq (s (vS l)) (s1 (vS l))) -> peq (psubst s p) (psubst s1 p).
Proof.
  intros Hp Hs. destruct (lincl_wl p W Hp) as (ls & _ & E & HW). rewrite !(psubst_proper _ _ _ E), !psubst_wl.
  assert (Hin : forall l, In l ls -> W l <> 0%Qc) by (intros l; apply HW). clear HW E. induction ls as [|l ls IH]; cbn [fold_right]; [reflexivity|].
  rewrite IH by (intros; apply Hin; right; auto). rewrite Hs by (apply Hin; left; auto). reflexivity.
Qed.

Section Q.
Variables (k n : Z) (qq : bool).
Hypothesis Hk : 0 <= k <= n.
Notation Vs := (kstrict_in k (n - k) (n + k)).
Notation Vb := (kstrict_in k (n + 1 - k) (n + 1 + k)).
Notation t := (n + k + 1).
Notation pis := (piC k n qq).
Notation pib := (piC k (n + 1) false).
Definition hq : poly := if qq then half_q else pzero.

Lemma small_big l : Vs l -> Vb l.
Proof. intros ((H1 & H2 & H3) & H4). split; auto. split; auto. lia. Qed.
Lemma arrow_len lam mu : is_partition lam -> is_partition mu -> pieri_arrow k 0 lam mu -> (length mu <= S (length lam))%nat.
Proof.
  intros Hl [Hm _] ((nu & Hnu & Hr & Hs) & _). destruct (Nat.le_gt_cases (length mu) (S (length lam))) as [|G]; auto. exfalso.
  specialize (Hm (S (length lam)) G). destruct (Hs (length lam)) as [S1 _]. destruct (Hr (length lam)) as [R1 _].
  assert (E : part lam (length lam) = 0) by (unfold part; apply nth_overflow; lia). lia.
Qed.
(** terms of the larger space *)
Lemma big_terms p l0 mu : Vs (p :: l0) -> pieri_term k (n + 1) p l0 mu ->
  (part mu 0 <= n + k /\ Vs mu) \/ (exists r, mu = t :: r /\ Vs r).
Proof.
  intros Hl (Hm & Hs & Ha). destruct (Z.le_gt_cases (part mu 0) (n + k)) as [L|L].
  - left. split; auto. pose proof Hm as ((M1 & M2 & M3) & M4). split; auto. split; auto. split; auto.
    destruct Hl as ((L1 & L2 & L3) & L4). cbn [length] in L2. destruct (partition_tl p l0 L1) as (P0 & _). pose proof (arrow_len l0 mu P0 M1 Ha). lia.
  - right. pose proof Hm as ((M1 & M2 & M3) & M4). destruct mu as [|x r]; [unfold part in L; cbn in L; lia|]. unfold part in L, M3. cbn in L, M3.
    assert (x = t) by lia. subst x. exists r. split; auto. apply kstrict_row; auto.
Qed.
Lemma coef_small p l0 mu c c' : Vs (p :: l0) -> coef_IG k n p 0 l0 mu c -> coef_IG k (n + 1) p 0 l0 mu c' -> c = if part mu 0 <=? n + k then c' else 0%Qc.
Proof.
  intros Hl Hc Hc'. assert (Ht : pieri_term k n p l0 mu <-> pieri_term k (n + 1) p l0 mu /\ part mu 0 <= n + k).
  { split.
    - intros (A & B & C). split; [split; [apply small_big; auto|auto]|]. apply A.
    - intros [HT Hx]. destruct (big_terms p l0 mu Hl HT) as [[_ A]|(r & -> & _)]; [destruct HT as (_ & B & C); split; auto|].
      unfold part in Hx. cbn in Hx. lia. }
  destruct (Z.leb_spec (part mu 0) (n + k)) as [L|L].
  - destruct Hc as [(H1 & N & H2 & _ & ->)|(H1 & ->)], Hc' as [(H3 & N' & H4 & _ & ->)|(H3 & ->)]; try tauto. rewrite (component_count_unique _ _ _ _ H2 H4). reflexivity.
  - destruct Hc as [(H1 & _)|(_ & ->)]; auto. apply Ht in H1. lia.
Qed.

Definition keepv (v : var) : poly := match v with VS (SP mu) => if part mu 0 <=? n + k then pvar v else pzero | _ => pvar v end.
Definition starv (v : var) : poly := match v with VS (SP mu) => match part_star mu t with Some r => pS r | None => pzero end | _ => pvar v end.
Lemma keepv_S l : keepv (vS l) = if part l 0 <=? n + k then pS l else pzero.
Proof. reflexivity. Qed.
Lemma starv_S l : starv (vS l) = match part_star l t with Some r => pS r | None => pzero end.
Proof. reflexivity. Qed.
Lemma lincl_keep p W : lincl p W -> lincl (psubst keepv p) (fun l => if part l 0 <=? n + k then W l else 0%Qc).
Proof.
  intros Hp. destruct (lincl_wl p W Hp) as (ls & Hnd & E & HW). intros m. rewrite (psubst_proper _ _ _ E m). rewrite (psubst_wl keepv ls W m).
  assert (HH : wval (fun l => if part l 0 <=? n + k then W l else 0%Qc) m = wval (fun l => if part l 0 <=? n + k then coef (wl ls W) [vS l] else 0%Qc) m).
  { unfold wval. destruct m as [|[[l|a b]| | |] [|v m]]; auto. change (VS (SP l)) with (vS l). rewrite <- (E [vS l]), (lincl_coef p W l Hp). reflexivity. }
  rewrite HH. clear HH HW E Hp Hnd. induction ls as [|l ls IH].
  - cbn. unfold wval. destruct m as [|[[l|a b]| | |] [|v m]]; auto. destruct (_ <=? _); reflexivity.
  - cbn [fold_right]. rewrite coef_padd, IH. change (wl (l :: ls) W) with (([vS l], W l) :: wl ls W). rewrite coef_pscale, keepv_S.
    assert (Ec : forall x, coef (([vS l], W l) :: wl ls W) [vS x] = ((if l_dec l x then W l else 0) + coef (wl ls W) [vS x])%Qc).
    { intros x. change (([vS l], W l) :: wl ls W) with (wl (l :: ls) W). transitivity (coef (padd (pscale (W l) (pS l)) (wl ls W)) [vS x]).
      - apply poly_cons.
      - rewrite coef_padd, coef_pscale, coef_pS. unfold wval, vS. destruct (l_dec l x); ring. }
    destruct (part l 0 <=? n + k) eqn:El.
    + rewrite coef_pS. unfold wval. destruct m as [|[[x|a b]| | |] [|v m]]; try ring.
      change (VS (SP x)) with (vS x). rewrite Ec. destruct (l_dec l x) as [<-|]; [rewrite El; ring|]. destruct (part x 0 <=? n + k); ring.
    + change (coef pzero m) with 0%Qc. unfold wval. destruct m as [|[[x|a b]| | |] [|v m]]; try ring. change (VS (SP x)) with (vS x). rewrite Ec.
      destruct (l_dec l x) as [<-|]; [rewrite El; ring|]. destruct (part x 0 <=? n + k); ring.
Qed.

(** one Pieri product *)
Lemma pieri_step p l0 : Vs (p :: l0) -> exists ys yb Wb, pis p l0 = Ok ys /\ pib p l0 = Ok yb /\ lincl yb Wb /\
  (forall mu, coef_IG k (n + 1) p 0 l0 mu (Wb mu)) /\ peq ys (padd (psubst keepv yb) (pmul hq (psubst starv yb))).
Proof.
  intros Hl. destruct (RingC.kstrict_cons _ _ _ _ _ Hl) as (Hp & H0).
  destruct (pieriC_lincl k n l0 p Hk H0) as (a & Wa & Ea & Ha & HWa).
  destruct (pieriC_lincl k (n + 1) l0 p ltac:(lia) (small_big l0 H0)) as (b & Wb & Eb & Hb & HWb).
  assert (Hka : peq a (psubst keepv b)).
  { pose proof (lincl_keep b Wb Hb) as HH. intros m. rewrite (Ha m), (HH m). unfold wval. destruct m as [|[[x|u w]| | |] [|v m]]; auto. apply (coef_small p l0 x); auto. }
  destruct (apply_lc_ok (on_part (fun x => opt_schur (part_star x t))) starv b) as (z & Ez & Pz).
  { intros m c v Hin Hv. assert (Hc : coef b m <> 0%Qc).
    { rewrite <- coef_pnorm. rewrite (nf_coef_in _ _ _ (pnorm_nf b) Hin). destruct (pnorm_nf b) as (_ & Hz). rewrite Forall_forall in Hz. apply (Hz _ Hin). }
    destruct (lincl_inv _ _ _ Hb Hc) as (l & -> & Hl'). destruct Hv as [<-|[]]. cbn [image on_part vS starv].
    destruct (part_star l t) as [r|] eqn:E; cbn [opt_schur]; [|eexists; split; reflexivity].
    destruct (coef_IG_supp _ _ _ _ _ _ _ (HWb l) Hl') as ((( A & _) & _) & _). apply part_nonneg in A. unfold part_star in E.
    destruct l as [|x l]; [discriminate|]. destruct (x =? t); [|discriminate]. injection E as <-. inversion A; subst. rewrite symbol_ok by auto. eexists. split; reflexivity. }
  unfold piC, hq. cbn [pieri_fun g_type g_k g_n gC]. destruct qq.
  - cbn [qpieri_fun g_type g_k g_n gC]. unfold qpieriC_inner. rewrite Ea. cbn [bind]. rewrite Eb. cbn [bind]. rewrite Ez. cbn [bind].
    eexists. exists b, Wb. split; [reflexivity|]. split; [auto|]. split; auto. split; auto. rewrite Hka, Pz. apply padd_proper; [reflexivity|]. apply pmul_proper; [|reflexivity]. reflexivity.
  - exists a, b, Wb. split; auto. split; auto. split; auto. split; auto. rewrite Hka. ring.
Qed.

(** ** the recursion *)
Definition sg : var -> poly := row_becomes t hq.
Lemma giam_f b l f : 0 <= k <= b -> kstrict_in k (b - k) (b + k) l -> forall u, (muM (b + k) l < f)%nat -> exists E, giambelli_rec_inner f (piC k b u) k l = Ok E.
Proof.
  intros Hb Hl u Hf. pose proof (sysC k b Hb u) as H.
  destruct H as [h1 h2 h3 h4 h5 h6 h7 h8 h9].
  destruct (giam_ok TC _ _ _ (eq VQ) eqVQ_isqv h1 h2 h3 h4 h5 k _ h6 h7 h8 f l Hl Hf) as (E & HE & _). eauto.
Qed.
Lemma row_sg x : x <> t -> peq (psubst sg (pS [x])) (pS [x]).
Proof. intros Hx. unfold pS, vS. rewrite psubst_pvar. unfold sg, row_becomes. destruct (Z.eqb_spec x t); [contradiction|reflexivity]. Qed.
Lemma top_sg : peq (psubst sg (pS [t])) hq.
Proof. unfold pS, vS. rewrite psubst_pvar. unfold sg, row_becomes. rewrite Z.eqb_refl. reflexivity. Qed.

(** the class with a row of the largest length *)
Lemma giam_top r f E : Vs r -> giambelli_rec_inner (S f) pib k (t :: r) = Ok E -> (muM (n + 1 + k) r < f)%nat ->
  exists a, giambelli_rec_inner f pib k r = Ok a /\ peq E (pmul (pS [t]) a).
Proof.
  intros Hr HE Hf. assert (Hn : 0 <= k <= n + 1) by lia.
  assert (Hx : Z.of_nat (length r) < n + 1 - k /\ part r 0 < t) by (destruct Hr as ((_ & A & B) & _); lia).
  assert (HV : Vb (t :: r)) by (apply TopClass.kstrict_cons; auto; [apply small_big; auto|lia|lia]).
  destruct (giam_f (n + 1) r f Hn (small_big r Hr) false Hf) as (a & Ea). exists a. split; auto.
  rewrite gri_unfold in HE by discriminate. rewrite gsel_part in HE by apply HV. cbn [bind] in HE.
  destruct (pieriC_lincl k (n + 1) r t Hn (small_big r Hr)) as (b & Wb & Eb & Hb & HWb).
  unfold piC at 1 in HE. cbn [pieri_fun g_type g_k g_n gC] in HE. rewrite Eb in HE. cbn [bind] in HE.
  rewrite (symbol_ok (t :: r)) in HE by (apply part_nonneg; apply HV). cbn [bind] in HE. rewrite Ea in HE. cbn [bind] in HE.
  assert (Eq : peq (psub b (pS (t :: r))) pzero).
  { intros m. rewrite coef_psub, (Hb m), coef_pS. change (coef pzero m) with 0%Qc. unfold wval. destruct m as [|[[x|u w]| | |] [|v m]]; try ring.
    destruct (l_dec (t :: r) x) as [<-|Nx].
    - rewrite (coef_IG_tl k (n + 1) t r _ Hn HV (HWb (t :: r))). ring.
    - destruct (Qc_eq_dec (Wb x) 0%Qc) as [->|Hc]; [ring|]. exfalso. apply Nx. symmetry. destruct (coef_IG_supp _ _ _ _ _ _ _ (HWb x) Hc) as (A & B & C).
      apply (top_shape 0 k); auto; [apply Hr|apply A|lia|]. destruct A as ((_ & _ & A) & _). lia. }
  rewrite (apply_lc_peq _ _ _ Eq) in HE. change (apply_lc (on_part (giambelli_rec_inner f pib k)) pzero) with (Ok pzero) in HE. cbn [bind] in HE.
  assert (En : num2spec t = [t]) by (unfold num2spec; destruct (Z.ltb_spec 0 t); [reflexivity|lia]). rewrite En in HE. rewrite (symbol_ok [t]) in HE by (repeat constructor; lia). cbn [bind] in HE. injection HE as <-.
  unfold psub. rewrite pscale_pmul. ring.
Qed.

(** without the class itself *)
Definition but (l : list Z) (f : schur -> res poly) (v : var) : poly :=
  match v with
  | VS (SP x) => if l_dec l x then pzero else match f (SP x) with Ok e => e | Err _ => pzero end
  | _ => pvar v
  end.
Lemma but_self l f : but l f (vS l) = pzero.
Proof. unfold but, vS. destruct (l_dec l l); [reflexivity|congruence]. Qed.
Lemma but_other l f x e : l <> x -> f (SP x) = Ok e -> but l f (vS x) = e.
Proof. intros Hx E. unfold but, vS. destruct (l_dec l x); [contradiction|]. rewrite E. reflexivity. Qed.
(** the sum over the other terms *)
Lemma rest_ok l f y b : supp (linm (fun x => x <> l /\ exists e, f (SP x) = Ok e) (eq VQ)) (psub y (pS l)) ->
  apply_lc f (psub y (pS l)) = Ok b -> peq b (psubst (but l f) y).
Proof.
  intros Hs E. destruct (apply_lc_ok f (but l f) (psub y (pS l))) as (r & Er & Pr).
  - intros m c v Hin Hv. apply supp_rawnorm in Hs. destruct (Hs m c Hin) as (x & qm & (Hx & e & He) & HP & HQ). apply (Permutation_in _ HP) in Hv. destruct Hv as [<-|Hv].
    + exists e. split; [exact He|]. rewrite (but_other l f x e) by auto. reflexivity.
    + rewrite Forall_forall in HQ. rewrite <- (HQ v Hv). eexists. split; reflexivity.
  - assert (r = b) by congruence. subst r. rewrite Pr. unfold psub. rewrite psubst_padd, psubst_pscale. unfold pS at 1. rewrite psubst_pvar.
    change (but l f (VS (SP l))) with (but l f (vS l)). rewrite but_self. rewrite pscale_pmul. ring.
Qed.

Theorem giam_small N : forall l f f' E E', (muM (n + 1 + k) l < N)%nat -> Vs l -> (muM (n + k) l < f)%nat -> (muM (n + 1 + k) l < f')%nat ->
  giambelli_rec_inner f pis k l = Ok E -> giambelli_rec_inner f' pib k l = Ok E' -> peq E (psubst sg E').
Proof.
  induction N as [|N IH]; intros l f f' E E' HN Hl Hf Hf' HE HE'; [lia|].
  destruct f as [|f]; [lia|]. destruct f' as [|f']; [lia|].
  destruct l as [|p l0].
  { cbn in HE, HE'. injection HE as <-. injection HE' as <-. rewrite psubst_pone. reflexivity. }
  assert (Hn : 0 <= k <= n + 1) by lia. pose proof (small_big _ Hl) as Hlb.
  destruct (RingC.kstrict_cons _ _ _ _ _ Hl) as (Hp & H0). pose proof (small_big _ H0) as H0b.
  assert (Hh : forall a, Vs a -> 0 <= size a /\ 0 <= part a 0 <= n + k).
  { intros a ((A1 & _ & A3) & _). split; [apply size_nonneg; auto|]. pose proof (is_partition_nonneg a 0 A1). lia. }
  assert (Hhb : forall a, Vb a -> 0 <= size a /\ 0 <= part a 0 <= n + 1 + k).
  { intros a ((A1 & _ & A3) & _). split; [apply size_nonneg; auto|]. pose proof (is_partition_nonneg a 0 A1). lia. }
  pose proof (Hh _ Hl) as (L1 & L2). pose proof (Hh _ H0) as (T1 & T2).
  set (l := p :: l0) in *. assert (Es : size l = p + size l0) by reflexivity. assert (Pl : part l 0 = p) by reflexivity.
  assert (M0 : (muM (n + k) l0 < muM (n + k) l)%nat) by (apply muM_size; auto; lia).
  assert (M0' : (muM (n + 1 + k) l0 < muM (n + 1 + k) l)%nat) by (apply muM_size; auto; lia).
  destruct (pieri_step p l0 Hl) as (ys & yb & Wb & Ey & Eb & Hb & HWb & Pys).
  rewrite gri_unfold in HE, HE' by discriminate. unfold l in HE, HE'. rewrite gsel_part in HE, HE' by apply Hl. fold l in HE, HE'. cbn [bind] in HE, HE'.
  rewrite Ey in HE. rewrite Eb in HE'. cbn [bind] in HE, HE'.
  rewrite (symbol_ok l) in HE, HE' by (apply part_nonneg; apply Hl). cbn [bind] in HE, HE'.
  destruct (giam_f n l0 f Hk H0 qq ltac:(lia)) as (a & Ea). destruct (giam_f (n + 1) l0 f' Hn H0b false ltac:(lia)) as (a' & Ea').
  rewrite Ea in HE. rewrite Ea' in HE'. cbn [bind] in HE, HE'.
  destruct (apply_lc (on_part (giambelli_rec_inner f pis k)) (psub ys (pS l))) as [b|] eqn:EB; [|discriminate].
  destruct (apply_lc (on_part (giambelli_rec_inner f' pib k)) (psub yb (pS l))) as [b'|] eqn:EB'; [|discriminate].
  cbn [bind] in HE, HE'. assert (En : num2spec p = [p]) by (unfold num2spec; destruct (Z.ltb_spec 0 p); [reflexivity|lia]).
  rewrite En, (symbol_ok [p]) in HE, HE' by (repeat constructor; lia). cbn [bind] in HE, HE'. injection HE as <-. injection HE' as <-.
  unfold psub. rewrite psubst_padd, psubst_pscale, psubst_pmul, row_sg by lia.
  assert (IHa : peq a (psubst sg a')) by (apply (IH l0 f f' a a'); auto; lia).
  rewrite <- IHa. apply padd_proper; [reflexivity|]. apply pscale_proper.
  (* the supports *)
  assert (Sys := recC k n Hk qq l Hl ltac:(discriminate)). destruct Sys as (p1 & l1 & Eg & _ & _ & Sup).
  unfold l in Eg. rewrite gsel_part in Eg by apply Hl. injection Eg as <- <-. unfold P in Sup. rewrite Ey in Sup.
  assert (Sysb := recC k (n + 1) Hn false l Hlb ltac:(discriminate)). destruct Sysb as (p1 & l1 & Eg & _ & _ & Supb).
  unfold l in Eg. rewrite gsel_part in Eg by apply Hl. injection Eg as <- <-. unfold P in Supb. rewrite Eb in Supb.
  assert (Pb : peq b (psubst (but l (on_part (giambelli_rec_inner f pis k))) ys)).
  { apply rest_ok; auto. eapply supp_impl; [|exact Sup]. intros m (x & qm & (Hx & Hmx) & HP & HQ). exists x, qm. split; [|auto]. split; [intros ->; lia|].
    cbn [on_part]. apply (giam_f n x f Hk Hx qq). lia. }
  assert (Pb' : peq b' (psubst (but l (on_part (giambelli_rec_inner f' pib k))) yb)).
  { apply rest_ok; auto. eapply supp_impl; [|exact Supb]. intros m (x & qm & (Hx & Hmx) & HP & HQ). exists x, qm. split; [|auto]. split; [intros ->; lia|].
    cbn [on_part]. apply (giam_f (n + 1) x f' Hn Hx false). lia. }
  rewrite Pb, Pb', (psubst_proper _ _ _ Pys), psubst_padd, psubst_pmul.
  set (S1 := but l (on_part (giambelli_rec_inner f pis k))) in *. set (S2 := but l (on_part (giambelli_rec_inner f' pib k))) in *.
  assert (Hqs : peq (psubst S1 hq) hq).
  { unfold hq. destruct qq; [|reflexivity]. unfold half_q. rewrite psubst_pscale, psubst_pvar. reflexivity. }
  rewrite Hqs, !psubst_comp. symmetry.
  apply (subst_split _ _ _ hq yb Wb Hb). intros x Hx. pose proof (coef_IG_supp _ _ _ _ _ _ _ (HWb x) Hx) as HT.
  rewrite keepv_S, starv_S. destruct (big_terms p l0 x Hl HT) as [[Lx Vx]|(r & -> & Vr)].
  - assert (Ek : part x 0 <=? n + k = true) by lia. rewrite Ek. unfold pS at 1. rewrite psubst_pvar.
    assert (Est : part_star x t = None).
    { unfold part_star. destruct x as [|u x]; [reflexivity|]. unfold part in Lx. cbn in Lx. destruct (Z.eqb_spec u t); [lia|reflexivity]. }
    rewrite Est. change (psubst S1 pzero) with pzero. destruct (l_dec l x) as [<-|Nx].
    + change (VS (SP l)) with (vS l). unfold S1, S2. rewrite !but_self. change (psubst sg pzero) with pzero. ring.
    + destruct HT as (A1 & A2 & A3). destruct (arrow_head k 0 p l0 x) as [B1 B2]; auto; try lia; try apply H0; try apply A1.
      assert (B3 : part x 0 <> p) by (intros Ep; apply Nx; symmetry; apply B2; auto). destruct (Hh x Vx) as (X1 & X2).
      assert (Mx : (muM (n + k) x < muM (n + k) l)%nat) by (apply muM_head; lia).
      assert (Mx' : (muM (n + 1 + k) x < muM (n + 1 + k) l)%nat) by (apply muM_head; lia).
      destruct (giam_f n x f Hk Vx qq ltac:(lia)) as (e & Ee). destruct (giam_f (n + 1) x f' Hn (small_big x Vx) false ltac:(lia)) as (e' & Ee').
      change (VS (SP x)) with (vS x). unfold S1, S2. rewrite (but_other l (on_part (giambelli_rec_inner f pis k)) x e), (but_other l (on_part (giambelli_rec_inner f' pib k)) x e') by auto.
      rewrite (IH x f f' e e') by (auto; lia). ring.
  - assert (Ek : part (t :: r) 0 <=? n + k = false) by (unfold part; cbn; lia). rewrite Ek. change (psubst S1 pzero) with pzero.
    assert (Est : part_star (t :: r) t = Some r) by (unfold part_star; rewrite Z.eqb_refl; reflexivity). rewrite Est. unfold pS at 1. rewrite psubst_pvar.
    destruct HT as (A1 & A2 & A3). destruct (Hh r Vr) as (X1 & X2). pose proof (Hhb _ A1) as (Y1 & Y2). assert (Zt : size (t :: r) = t + size r) by reflexivity. assert (Pt : part (t :: r) 0 = t) by reflexivity.
    assert (Nr : l <> r) by (intros <-; lia). assert (Nt : l <> t :: r) by (unfold l; intros [= -> _]; lia).
    assert (Mr : (muM (n + k) r < muM (n + k) l)%nat) by (apply muM_size; lia).
    assert (Mt : (muM (n + 1 + k) (t :: r) < muM (n + 1 + k) l)%nat) by (apply muM_head; try lia).
    assert (Mrt : (muM (n + 1 + k) r < muM (n + 1 + k) (t :: r))%nat) by (apply muM_size; lia).
    destruct f' as [|f']; [lia|].
    destruct (giam_f n r f Hk Vr qq ltac:(lia)) as (e & Ee). destruct (giam_f (n + 1) (t :: r) (S f') Hn A1 false ltac:(lia)) as (e' & Ee').
    destruct (giam_top r f' e' Vr Ee' ltac:(lia)) as (d & Ed & Pd).
    change (VS (SP r)) with (vS r). unfold S1, S2. rewrite (but_other l (on_part (giambelli_rec_inner f pis k)) r e), (but_other l (on_part (giambelli_rec_inner (S f') pib k)) (t :: r) e') by auto.
    rewrite (psubst_proper _ _ _ Pd), psubst_pmul, top_sg. rewrite <- (IH r f f' e d) by (auto; lia). ring.
Qed.
End Q.
