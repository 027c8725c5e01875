(** The lemmas behind C89 in PropsQG.v. *)

From Coq Require Import ZArith List Lia Bool Permutation QArith Qcanon Setoid Morphisms.
From Verif Require Import Py OrderFacts PyFacts ModelPart ModelQcalc ModelPoly ModelStr ModelGr Spec SpecPieri SpecRing SpecAct SpecWeight SpecQG
  PolyFacts SuppFacts ExprFacts OpTheory GrInv WSum Sys Sys2 SysRing PartFacts CommC RingC RingData ApiRing Conv ApiWeight QGiamC.
Import ListNotations.
Open Scope Z_scope.

Lemma gC_eq k n : mkGr TC k n = gC k n.
Proof. reflexivity. Qed.

Lemma c89 (qq : bool) m N g g' a : IsotropicGrassmannian m N = Ok g -> IsotropicGrassmannian (m + 1) (N + 2) = Ok g' -> poly_in (class_IG m N) a ->
  exists e e', (if qq then qgiambelli g a else giambelli g a) = Ok e /\ giambelli g' a = Ok e' /\ peq e (put (row_becomes (N + 1 - m) (if qq then half_q else pzero)) e').
Proof.
  intros Hg Hg' Ha. apply ig_inv in Hg. destruct Hg as (n & EN & En & Hm & ->). apply ig_inv in Hg'. destruct Hg' as (n' & EN' & En' & Hm' & ->).
  assert (X : n' = n + 1) by lia. clear EN' En'. rewrite X in *. clear X n'. set (k := n - m). replace (n + 1 - (m + 1)) with k by (unfold k; lia).
  assert (Hk : 0 <= k <= n) by (unfold k; lia). assert (Hn : 0 <= k <= n + 1) by lia.
  assert (EV : class_IG m N = kstrict_in k (n - k) (n + k)) by (change (class_IG m N) with (kstrict_in (N / 2 - m) m (N - m)); unfold k; rewrite En; f_equal; lia).
  rewrite EV in Ha. apply poly_in_iff in Ha. replace (N + 1 - m) with (n + k + 1) by (unfold k; lia).
  assert (Hl : forall l, kstrict_in k (n - k) (n + k) l -> exists E E', giambelli_rec_inner (giam_fuel (gC k n)) (piC k n qq) k l = Ok E /\
     giambelli_rec_inner (giam_fuel (gC k (n + 1))) (piC k (n + 1) false) k l = Ok E' /\ peq E (psubst (sg k n qq) E')).
  { intros l Hl. pose proof (fuelBC k n Hk TC l Hl) as F1. pose proof (fuelBC k (n + 1) Hn TC l (small_big k n l Hl)) as F2.
    destruct (giam_f k n l (giam_fuel (gC k n)) Hk Hl qq F1) as (E & HE). destruct (giam_f k (n + 1) l (giam_fuel (gC k (n + 1))) Hn (small_big k n l Hl) false F2) as (E' & HE').
    exists E, E'. split; auto. split; auto. apply (giam_small k n qq Hk (S (muM (n + 1 + k) l)) l (giam_fuel (gC k n)) (giam_fuel (gC k (n + 1))) E E'); auto. }
  set (f1 := on_part (giambelli_rec_inner (giam_fuel (gC k n)) (piC k n qq) k)). set (f2 := on_part (giambelli_rec_inner (giam_fuel (gC k (n + 1))) (piC k (n + 1) false) k)).
  pose proof Ha as Ha'. apply supp_rawnorm in Ha'.
  assert (HH : forall f mo c v, (f = f1 \/ f = f2) -> In (mo, c) (pnorm a) -> In v mo -> exists x, image f v = Ok x /\ peq x (val f v)).
  { intros f mo c v Hf Hin Hv. specialize (Ha' mo c Hin). rewrite Forall_forall in Ha'. destruct (Ha' v Hv) as [->|(l & HVl & ->)].
    - eexists. split; reflexivity.
    - destruct (Hl l HVl) as (E & E' & H1 & H2 & _). unfold val, vS. cbn [image]. destruct Hf as [->| ->]; cbn [f1 f2 on_part]; [rewrite H1|rewrite H2]; eexists; split; reflexivity. }
  destruct (apply_lc_ok f1 (val f1) a) as (e & Ee & Pe); [intros; eapply HH; eauto|].
  destruct (apply_lc_ok f2 (val f2) a) as (e' & Ee' & Pe'); [intros; eapply HH; eauto|].
  exists e, e'. split; [destruct qq; exact Ee|]. split; [exact Ee'|]. rewrite put_eq. change (row_becomes (n + k + 1) (if qq then half_q else pzero)) with (sg k n qq).
  rewrite Pe, (psubst_proper _ _ _ Pe'), psubst_comp.
  transitivity (psubst (val f1) (pnorm a)); [apply psubst_proper; symmetry; apply pnorm_peq|].
  transitivity (psubst (fun v => psubst (sg k n qq) (val f2 v)) (pnorm a)); [|apply psubst_proper; apply pnorm_peq].
  apply psubst_ext. intros mo c v Hin Hv. specialize (Ha' mo c Hin). rewrite Forall_forall in Ha'. destruct (Ha' v Hv) as [->|(l & HVl & ->)].
  - unfold val. cbn [image]. rewrite psubst_pvar. reflexivity.
  - destruct (Hl l HVl) as (E & E' & H1 & H2 & H3). unfold val, vS. cbn [image f1 f2 on_part]. rewrite H1, H2. exact H3.
Qed.
Theorem c89_quantum m N g g' a : IsotropicGrassmannian m N = Ok g -> IsotropicGrassmannian (m + 1) (N + 2) = Ok g' -> poly_in (class_IG m N) a ->
  exists e e', qgiambelli g a = Ok e /\ giambelli g' a = Ok e' /\ peq e (put (row_becomes (N + 1 - m) half_q) e').
Proof. exact (c89 true m N g g' a). Qed.
Theorem c89_classical m N g g' a : IsotropicGrassmannian m N = Ok g -> IsotropicGrassmannian (m + 1) (N + 2) = Ok g' -> poly_in (class_IG m N) a ->
  exists e e', giambelli g a = Ok e /\ giambelli g' a = Ok e' /\ peq e (put (row_becomes (N + 1 - m) pzero) e').
Proof. exact (c89 false m N g g' a). Qed.

(** ** classes of small degree *)
Lemma put_id t h d dq M e : 0 <= dq -> weighted dq d e -> d < t -> poly_in (special_upto M) e -> peq (put (row_becomes t h) e) e.
Proof.
  intros Hq Hw Hd Hs. rewrite put_eq. transitivity (psubst (row_becomes t h) (pnorm e)); [apply psubst_proper; symmetry; apply pnorm_peq|].
  transitivity (psubst pvar (pnorm e)); [|rewrite psubst_pvar_id; apply pnorm_peq].
  apply psubst_ext. intros m c v Hin Hv.
  assert (Hc : coef e m <> 0%Qc).
  { rewrite <- coef_pnorm. rewrite (nf_coef_in _ _ _ (pnorm_nf e) Hin). destruct (pnorm_nf e) as (_ & Hz). rewrite Forall_forall in Hz. apply (Hz _ Hin). }
  specialize (Hw m Hc). specialize (Hs m Hc).
  assert (H0 : forall w, In w m -> 0 <= var_degree dq w).
  { intros w Hw'. rewrite Forall_forall in Hs. destruct (Hs w Hw') as [->|(l & (i & Hi & ->) & ->)]; cbn; lia. }
  assert (Hle : forall m w, (forall w, In w m -> 0 <= var_degree dq w) -> In w m -> var_degree dq w <= mono_degree dq m).
  { clear. induction m as [|u m IH]; intros w H Hw; [destruct Hw|]. cbn [mono_degree].
    assert (N : 0 <= mono_degree dq m). { assert (Hx : forall x, In x m -> 0 <= var_degree dq x) by (intros; apply H; right; auto). clear -Hx. induction m as [|y m IH]; cbn; [lia|]. pose proof (Hx y (or_introl eq_refl)). assert (0 <= mono_degree dq m) by (apply IH; intros; apply Hx; right; auto). lia. }
    pose proof (H u (or_introl eq_refl)). destruct Hw as [->|Hw]; [lia|]. pose proof (IH w (fun x Hx => H x (or_intror Hx)) Hw). lia. }
  pose proof (Hle m v H0 Hv) as L. rewrite Forall_forall in Hs. destruct (Hs v Hv) as [->|(l & (i & Hi & ->) & ->)]; [reflexivity|].
  unfold row_becomes, vS. destruct (Z.eqb_spec i t) as [->|]; [|reflexivity]. exfalso. cbn in L. lia.
Qed.
Theorem c89_small m N g lam : IsotropicGrassmannian m N = Ok g -> class_IG m N lam -> size lam < degree_q g ->
  exists e e', qgiambelli g (pS lam) = Ok e /\ giambelli g (pS lam) = Ok e' /\ peq e e'.
Proof.
  intros Hg Hl Hs. pose proof Hg as Hg0. apply ig_inv in Hg0. destruct Hg0 as (n & EN & En & Hm & Eg).
  assert (Hg' : exists g', IsotropicGrassmannian (m + 1) (N + 2) = Ok g').
  { unfold IsotropicGrassmannian. replace ((m + 1 <? 0) || (N + 2 <? 0)) with false by lia.
    assert (E2 : (N + 2) mod 2 = 0) by (rewrite EN; replace (2 * n + 2) with ((n + 1) * 2) by lia; apply Z.mod_mul; lia). rewrite E2. cbn [Z.eqb].
    assert (E3 : (N + 2) / 2 = n + 1) by (rewrite EN; replace (2 * n + 2) with ((n + 1) * 2) by lia; apply Z.div_mul; lia). rewrite E3.
    replace (n + 1 <? m + 1) with false by lia. eauto. }
  destruct Hg' as (g' & Hg').
  assert (Ha : poly_in (class_IG m N) (pS lam)).
  { apply poly_in_iff. intros mo Hmo. rewrite coef_pS in Hmo. unfold wval in Hmo. destruct mo as [|[[x|u w]| | |] [|v mo]]; try congruence. destruct (l_dec lam x) as [<-|]; [|congruence].
    constructor; [right; exists lam; auto|constructor]. }
  destruct (c89_quantum m N g g' (pS lam) Hg Hg' Ha) as (e & e1 & E1 & E2 & P1). destruct (c89_classical m N g g' (pS lam) Hg Hg' Ha) as (f & e2 & E3 & E4 & P2).
  assert (e2 = e1) by congruence. subst e2. exists e, f. split; auto. split; auto.
  assert (Hl' : class_IG (m + 1) (N + 2) lam).
  { unfold class_IG in *. rewrite EN in *. replace ((2 * n + 2) / 2) with (n + 1) by (replace (2 * n + 2) with ((n + 1) * 2) by lia; rewrite Z.div_mul; lia).
    replace (2 * n / 2) with n in Hl by (rewrite Z.mul_comm, Z.div_mul; lia). replace (n + 1 - (m + 1)) with (n - m) by lia.
    destruct Hl as ((A & B & C) & D). split; auto. split; auto. lia. }
  destruct (c83_IG (m + 1) (N + 2) g' Hg' ltac:(lia)) as [C83 _]. destruct (C83 lam Hl') as (e3 & E5 & W & _). assert (e3 = e1) by congruence. subst e3.
  destruct (c27_giam_IG (m + 1) (N + 2) g' Hg') as [C27 _]. destruct (C27 lam Hl') as (e3 & r & E6 & S & _). assert (e3 = e1) by congruence. subst e3.
  assert (Hd : degree_q g = N + 1 - m) by (rewrite Eg; unfold degree_q; cbn; lia).
  assert (Hd' : 0 <= degree_q g') by (apply ig_inv in Hg'; destruct Hg' as (n' & A1 & A2 & A3 & ->); unfold degree_q; cbn; lia).
  rewrite P1, P2. rewrite !(put_id (N + 1 - m) _ (size lam) (degree_q g') (N + 2 - (m + 1)) e1) by (auto; lia). reflexivity.
Qed.
