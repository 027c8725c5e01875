(** Giambelli's formula in type A: [giambelli] and [qgiambelli] of a class are
    its Jacobi-Trudi determinant in the special classes. *)

From Coq Require Import ZArith List Lia Bool Permutation QArith Qcanon Setoid Morphisms.
From Verif Require Import Py OrderFacts PyFacts ModelPart ModelQcalc ModelPoly ModelStr ModelGr Spec SpecDet
  PolyFacts SuppFacts OpTheory Enum FillFacts PartFacts PieriA QPieriA CylA WSum Sys Sys2 RingA FactsA
  Transfer CoefSys CommD2 Schub ConjFacts RimFacts DualSys LRCore LRSum LRMult LRQuant DetFacts.
Import ListNotations.
Open Scope Z_scope.

(** ** the two forms of the determinant *)
Lemma det_ext n : forall M M', (forall i j, (i < n)%nat -> (j < n)%nat -> peq (M i j) (M' i j)) -> peq (det n M) (det n M').
Proof.
  induction n as [|n IH]; intros M M' H; [reflexivity|]. cbn [det]. apply psumf_ext. intros i Hi. apply in_seq in Hi.
  rewrite (H i n) by lia. rewrite (IH (fun r c => M (without i r) c) (fun r c => M' (without i r) c)); [reflexivity|].
  intros r c Hr Hc. apply H; [|lia]. unfold without. destruct (r <? i)%nat eqn:E; [apply Nat.ltb_lt in E|]; lia.
Qed.
Definition del {A} (i : nat) (g : list A) : list A := firstn i g ++ skipn (S i) g.
Lemma nth_del {A} (g : list A) d : forall i r, (i < length g)%nat -> nth (without i r) g d = nth r (del i g) d.
Proof.
  unfold without, del. induction g as [|x g IH]; intros i r Hi; [simpl in Hi; lia|].
  destruct i as [|i]; [reflexivity|]. destruct r as [|r]; [reflexivity|]. cbn [firstn skipn app nth].
  rewrite <- IH by (simpl in Hi; lia). replace (S r <? S i)%nat with (r <? i)%nat by reflexivity. destruct (r <? i)%nat; reflexivity.
Qed.
Lemma W_seq {A} (d : A) c g : forall F, peq (W c F g)
  (psumf (fun i => pmul (pm (i + (length g - 1))) (pmul (c (nth i g d)) (F (del i g)))) (seq 0 (length g))).
Proof.
  induction g as [|x g IH]; intros F; [reflexivity|]. cbn [W length seq]. rewrite psumf_cons, IH, <- seq_shift, psumf_map.
  replace (0 + (S (length g) - 1))%nat with (length g) by lia. apply padd_proper; [reflexivity|].
  apply psumf_ext. intros i Hi. apply in_seq in Hi. replace (S i + (S (length g) - 1))%nat with (S (S (i + (length g - 1)))) by lia.
  rewrite !pm_S. change (nth (S i) (x :: g) d) with (nth i g d). change (del (S i) (x :: g)) with (x :: del i g). ring.
Qed.
Lemma det_dd {A} (d : A) n : forall E g, length g = n -> peq (det n (fun r c => E c (nth r g d))) (dd n E g).
Proof.
  induction n as [|n IH]; intros E g Hl; [reflexivity|]. cbn [dd]. rewrite (W_seq d). cbn [det]. rewrite Hl.
  apply psumf_ext. intros i Hi. apply in_seq in Hi. rewrite pscale_pmul. replace (S n - 1)%nat with n by lia.
  unfold pm. rewrite <- IH.
  - apply pmul_proper; [reflexivity|]. apply pmul_proper; [reflexivity|]. apply det_ext. intros r c _ _. rewrite nth_del by lia. reflexivity.
  - unfold del. rewrite app_length, firstn_length, skipn_length. lia.
Qed.

(** ** a family of polynomials that satisfies the Pieri rule is the one giambelli computes *)
Definition dv (D : list Z -> poly) (v : var) : poly :=
  match v with VS (SP x) => D x | VS _ => pzero | _ => pvar v end.
Section U.
Context {t : gtype} {pi : Z -> list Z -> res poly} {V : list Z -> Prop} {I : Z -> Prop}
  {k : Z} {mu : list Z -> nat} {fuel : nat}.
Hypothesis H : pieri_sys t pi V I k mu fuel.
Variable D : list Z -> poly.
Hypothesis D_nil : peq (D []) pone.
Hypothesis D_rec : forall l p l0, V l -> l <> [] -> gsel k l = Ok (p, l0) -> I p -> V l0 ->
  peq (psubst (dv D) (P pi p l0)) (pmul (pvar (sv p)) (D l0)).

Lemma giam_unique_f f : forall l, V l -> (mu l < f)%nat -> exists E, giambelli_rec_inner f pi k l = Ok E /\ peq E (D l).
Proof.
  induction f as [|f IH]; intros l Hl Hf; [lia|].
  destruct (list_eq_dec Z.eq_dec l []) as [->|Hne].
  { exists pone. split; auto. symmetry. exact D_nil. }
  rewrite gri_unfold; auto.
  destruct (ps_rec _ _ _ _ _ _ _ H l Hl Hne) as (p & l0 & Es & Hp & [Hl0 Hmu] & Hst). pose proof (D_rec l p l0 Hl Hne Es Hp Hl0) as HD. rewrite Es. simpl.
  rewrite (ps_ok _ _ _ _ _ _ _ H); auto. simpl. unfold symbol at 1. rewrite (ps_nonneg _ _ _ _ _ _ _ H); auto. simpl.
  destruct (IH l0) as (a & -> & Ha); auto; [lia|]. simpl.
  change (pvar (VS (SP l))) with (pS l). set (stuff := psub (P pi p l0) (pS l)) in *.
  destruct (apply_lc_ok (on_part (giambelli_rec_inner f pi k)) (dv D) stuff) as (b & -> & Hb).
  { intros m c v Hin Hv. apply supp_rawnorm in Hst. specialize (Hst _ _ Hin).
    destruct Hst as (x & qm & [Hx1 Hx2] & HP & HQ).
    apply (Permutation_in _ HP) in Hv. destruct Hv as [<-|Hv].
    - destruct (IH x) as (E & E1 & E2); auto; [lia|]. exists E. split; auto.
    - rewrite Forall_forall in HQ. apply HQ in Hv. subst v.
      exists (pvar VQ). split; reflexivity. }
  simpl. unfold symbol. rewrite (ps_specnonneg _ _ _ _ _ _ _ H); auto. simpl.
  eexists. split; [reflexivity|]. change (pvar (VS (SP (num2spec p)))) with (pvar (sv p)).
  rewrite Ha, Hb. unfold stuff. rewrite psubst_psub, HD. unfold pS. rewrite psubst_pvar. simpl. ring.
Qed.
Lemma giam_unique l : V l -> exists E, giambelli_rec_inner fuel pi k l = Ok E /\ peq E (D l).
Proof. intros Hl. apply giam_unique_f; auto. apply (ps_fuel _ _ _ _ _ _ _ H); auto. Qed.
End U.

(** ** type A *)
Section A.
Variables m k : Z.
Hypothesis Hm : 1 <= m.
Hypothesis Hk : 0 <= k.
Notation Mn := (Z.to_nat m).
Notation VB := (in_box m k).
Definition eta (z : Z) : poly := hclass k (z - (m - 1)).
Definition DJ (g : list Z) : poly := dd Mn (fun j x => eta (x + Z.of_nat j)) g.
Definition Dl (l : list Z) : poly := DJ (vadd (rho Mn) (padm m l)).
Definition Gm (mo : mono) (g : list Z) : Qc := coef (DJ g) mo.

Lemma hclass_neg i : i < 0 -> hclass k i = pzero.
Proof. intros. unfold hclass. destruct (Z.eqb_spec i 0); [lia|]. destruct (Z.ltb_spec 0 i); [lia|]. reflexivity. Qed.
Lemma hclass_big i : k < i -> hclass k i = pzero.
Proof. intros. unfold hclass. destruct (Z.eqb_spec i 0); [lia|]. destruct (Z.leb_spec i k); [lia|]. rewrite andb_false_r. reflexivity. Qed.

Lemma Gm_good mo : good m k (Gm mo).
Proof.
  split.
  - intros n u a b v _ Hl. unfold Gm, DJ. rewrite (dd_alt Mn (fun j x => eta (x + Z.of_nat j)) u a b v Hl mo). unfold popp. rewrite coef_pscale. ring.
  - intros g x Hg Hx Hb. unfold Gm. rewrite <- (coef_nil mo). apply (dd_row0 Mn _ g x); auto. intros j Hj. unfold eta. rewrite hclass_big by lia. reflexivity.
Qed.

Lemma psubst_ev i l mo : IA k i -> VB l -> coef (psubst (dv Dl) (P (piA m k false) i l)) mo = ev m (Gm mo) (P (piA m k false) i l).
Proof.
  intros Hi Hl. pose proof (P_enum m k Hm Hk false i l Hl (IA_dom k false i Hi)) as E.
  rewrite (psubst_proper _ _ _ E mo), (ev_peq m _ _ _ E), coef_psubst. unfold ev. rewrite !phi_msum. rewrite !map_fold.
  apply (qsum_ext (A := nat * list Z)). intros [d ka] Hx. pose proof (EA_wbox m k Hm Hk false i (padm m l) _ (in_box_wbox _ _ _ Hl) Hx) as Wx. cbn [snd] in Wx.
  apply EA_in in Hx; auto using in_box_wbox.
  destruct Hx as [(-> & _)|(? & _)]; [|discriminate]. unfold qterm, qS. cbn [fst snd repeat]. unfold wval, vS, val, Gm. cbn [msubst dv].
  unfold Dl. assert (E1 : forall p, peq (pmul p pone) p) by (intros; ring). apply E1.
Qed.

Lemma hclass_sv p : IA k p -> hclass k p = pvar (sv p).
Proof.
  intros [H1 H2]. unfold hclass, sv, num2spec. destruct (Z.eqb_spec p 0); [lia|]. destruct (Z.ltb_spec 0 p); [|lia].
  destruct (Z.leb_spec p k); [|lia]. reflexivity.
Qed.
Lemma vadd_last n : forall l, length l = S n -> exists u, length u = n /\ vadd (rho (S n)) (l) = u ++ [nth n l 0].
Proof.
  induction n as [|n IH]; intros l Hl.
  - destruct l as [|x [|y l]]; try discriminate. exists []. split; auto.
  - destruct l as [|x l]; [discriminate|]. destruct (IH l) as (u & Hu & E); [simpl in Hl; lia|].
    exists (Z.of_nat (S n) + x :: u). split; [simpl; lia|]. change (rho (S (S n))) with (Z.of_nat (S n) :: rho (S n)). cbn [vadd]. rewrite E. reflexivity.
Qed.
Lemma D_pieri p l : IA k p -> VB l -> zlen l < m ->
  peq (psubst (dv Dl) (P (piA m k false) p l)) (pmul (pvar (sv p)) (Dl l)).
Proof.
  intros Hp Hl Hlen mo. rewrite psubst_ev, (ev_P m k Hm Hk) by auto using Gm_good.
  unfold val. assert (E0 : length (padm m l) = Mn) by (apply (padm_len m k); auto; lia).
  set (n := (Mn - 1)%nat). assert (En : Mn = S n) by lia.
  assert (EL : length (vadd (rho Mn) (padm m l)) = Mn) by (rewrite vadd_len; rewrite rho_len; auto).
  transitivity (coef (hs p DJ p (vadd (rho Mn) (padm m l))) mo).
  - pose proof (coef_hs p DJ mo (vadd (rho Mn) (padm m l)) [] p) as HC. cbn [app] in HC.
    change (fun r => DJ r) with DJ in HC. rewrite HC. unfold FL, hsum. rewrite EL. reflexivity.
  - unfold Dl, DJ. destruct (vadd_last n (padm m l)) as (u & Hu & EU); [lia|]. rewrite En, EU.
    assert (EZ : nth n (padm m l) 0 = 0).
    { change (part (padm m l) n = 0). rewrite part_padm. unfold part. apply nth_overflow. unfold zlen in Hlen. lia. }
    rewrite EZ.
    assert (HN : forall z, z < Z.of_nat n -> peq (eta z) pzero) by (intros z Hz; unfold eta; rewrite hclass_neg by lia; reflexivity).
    assert (H1 : peq (eta (Z.of_nat n)) pone) by (unfold eta; replace (Z.of_nat n - (m - 1)) with 0 by lia; reflexivity).
    assert (Hp' : 0 <= p <= p) by (unfold IA in Hp; lia).
    rewrite (hs_last p eta n p u Hu Hp' HN H1).
    unfold eta at 1. replace (Z.of_nat n + p - (m - 1)) with p by lia. rewrite hclass_sv by auto. reflexivity.
Qed.

Lemma P_short p l : IA k p -> VB l -> zlen l < m -> peq (P (piA m k true) p l) (P (piA m k false) p l).
Proof.
  intros Hp Hl Hlen. rewrite (P_enum m k Hm Hk true p l Hl (IA_dom k true p Hp)), (P_enum m k Hm Hk false p l Hl (IA_dom k false p Hp)).
  rewrite EA_true. replace (QE m k p (padm m l)) with (@nil (list Z)); [rewrite app_nil_r; reflexivity|].
  destruct (QE m k p (padm m l)) as [|mu r] eqn:E; auto. exfalso.
  assert (Hmu : In mu (QE m k p (padm m l))) by (rewrite E; left; auto).
  apply (QE_in m k Hm Hk) in Hmu; [|apply in_box_wbox; auto]. destruct Hmu as [Hmu _]. rewrite (clip_padm m k) in Hmu by auto. lia.
Qed.

(** the determinant of size m is the one of the size of the partition *)
Definition jt (l : list Z) (i j : nat) : poly := hclass k (part l i + Z.of_nat j - Z.of_nat i).
Lemma Dl_det l : VB l -> peq (Dl l) (det Mn (jt l)).
Proof.
  intros Hl. unfold Dl, DJ. rewrite <- (det_dd 0) by (apply (rho_padm_len m k); auto; lia).
  apply det_ext. intros i j Hi Hj. assert (E0 : length (padm m l) = Mn) by (apply (padm_len m k); auto; lia).
  rewrite nth_vadd by (rewrite rho_len; auto). rewrite rho_nth by auto. fold (part (padm m l) i). rewrite part_padm.
  unfold eta, jt. replace (Z.of_nat Mn - 1 - Z.of_nat i + part l i + Z.of_nat j - (m - 1)) with (part l i + Z.of_nat j - Z.of_nat i) by lia. reflexivity.
Qed.
Lemma det_shrink l n : (length l <= n)%nat -> peq (det (S n) (jt l)) (det n (jt l)).
Proof.
  intros Hn. assert (HE : forall n, peq (det n (jt l)) (dd n (fun c i => jt l i c) (seq 0 n))).
  { intros n'. rewrite <- (det_dd 0%nat) by apply seq_length. apply det_ext. intros i j Hi _. rewrite seq_nth by auto. reflexivity. }
  assert (HP : part l n = 0) by (unfold part; apply nth_overflow; auto).
  rewrite !HE, seq_S. cbn [dd]. rewrite (W_last _ _ (seq 0 n) (0 + n)%nat n (seq_length n 0)).
  - unfold jt at 1. cbn [Nat.add]. replace (part l n + Z.of_nat n - Z.of_nat n) with 0 by lia. change (hclass k 0) with pone. ring.
  - intros r Hr Hi. apply (dd_row0 n _ r (0 + n)%nat Hr Hi). intros j Hj. unfold jt. cbn [Nat.add]. rewrite hclass_neg by lia. reflexivity.
Qed.
Lemma Dl_jt l : VB l -> peq (Dl l) (jacobi_trudi k l).
Proof.
  intros Hl. rewrite Dl_det by auto. destruct Hl as (_ & Hl & _). change (jacobi_trudi k l) with (det (length l) (jt l)).
  assert (Hn : (length l <= Mn)%nat) by lia. induction Hn as [|n Hn IH]; [reflexivity|]. rewrite det_shrink by auto. exact IH.
Qed.

Lemma giam_jt qq l : VB l -> exists E, giambelli_rec_inner (giam_fuel (gA m k)) (piA m k qq) k l = Ok E /\ peq E (jacobi_trudi k l).
Proof.
  intros Hl. destruct (giam_unique (sysA m k Hm Hk qq) Dl) with (l := l) as (E & E1 & E2); auto.
  - rewrite Dl_jt; [reflexivity|]. apply (ps_nil _ _ _ _ _ _ _ (sysA m k Hm Hk qq)).
  - intros [|p0 l'] p l0 HV Hne Hs Hp HV0; [congruence|]. rewrite (gsel_A m k) in Hs by auto. injection Hs as <- <-.
    assert (Hlen : zlen l' < m) by (destruct HV as (_ & H & _); unfold zlen; simpl length in H; lia).
    destruct qq; [rewrite (P_short p0 l') by auto|]; apply D_pieri; auto.
  - exists E. split; auto. rewrite E2. apply Dl_jt. auto.
Qed.
End A.

Lemma c62 m n g lam : Grassmannian m n = Ok g -> 1 <= m -> in_box m (n - m) lam ->
  (exists e, giambelli g (pS lam) = Ok e /\ peq e (jacobi_trudi (n - m) lam)) /\
  (exists e, qgiambelli g (pS lam) = Ok e /\ peq e (jacobi_trudi (n - m) lam)).
Proof.
  intros Hg Hm Hl. apply gr_inv in Hg. destruct Hg as (_ & Hk & ->).
  assert (HG : forall qq, exists e, apply_lc (on_part (giambelli_rec_inner (giam_fuel (gA m (n - m))) (piA m (n - m) qq) (n - m))) (pS lam) = Ok e /\ peq e (jacobi_trudi (n - m) lam)).
  { intros qq. destruct (giam_jt m (n - m) Hm Hk qq lam Hl) as (E & E1 & E2).
    destruct (on_class (giambelli_rec_inner (giam_fuel (gA m (n - m))) (piA m (n - m) qq) (n - m)) lam E E1) as (e & Ee & Pe).
    exists e. split; auto. rewrite Pe. exact E2. }
  split; [apply (HG false)|apply (HG true)].
Qed.
