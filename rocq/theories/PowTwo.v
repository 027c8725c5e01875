(** The rings of IG(m,2n) and OG(m,2n+1) agree up to powers of 2. *)

From Coq Require Import ZArith List Lia Bool Permutation QArith Qcanon Setoid Morphisms.
From Verif Require Import Py OrderFacts PyFacts ModelPart ModelQcalc ModelPoly ModelStr ModelGr Spec SpecPieri SpecRing
  PolyFacts SuppFacts OpTheory Enum FillFacts PartFacts ConjFacts PairFacts WSum PieriCoef
  Sys Sys2 SysApi SysMap SysRing Word Transfer Extract CoefSys CommC RecBCD RingC CommB RingB GrInv RingData ApiRing SwapRing.
Import ListNotations.
Open Scope Z_scope.

(** the rows of length greater than k are the letters R *)
Lemma count_map_succ l m v : is_partition l -> zlen l <= m -> 1 <= v ->
  count_ge (map (fun j => part l (Z.to_nat j) + 1) (zrange 0 m)) (v + 1) = count_ge l v.
Proof.
  intros Hl Hm Hv. pose proof (zlen_nonneg l) as Hz.
  assert (H : is_partition (map (fun j => part l (Z.to_nat j) + 1) (zrange 0 m))).
  { apply partition_intro; intros j Hj; rewrite ?part_map_succ by (auto; lia).
    - assert (Hl' : zlen (map (fun j => part l (Z.to_nat j) + 1) (zrange 0 m)) = m) by (rewrite zlen_map, zlen_zrange; lia).
      destruct (Z.ltb_spec j m); [|lia]. pose proof (is_partition_nonneg l (Z.to_nat j) Hl). lia.
    - pose proof (part_dec_z l j Hl Hj). pose proof (part_nn_z l j Hl). destruct (Z.ltb_spec (j + 1) m), (Z.ltb_spec j m); lia. }
  assert (G : forall a b, 0 <= a -> 0 <= b -> (forall j, Z.of_nat j < a <-> Z.of_nat j < b) -> a = b).
  { intros a b Ha Hb He. destruct (Z.lt_trichotomy a b) as [L|[L|L]]; auto; exfalso;
    [specialize (He (Z.to_nat a))|specialize (He (Z.to_nat b))]; rewrite Z2Nat.id in He; lia. }
  apply G; try apply count_ge_nonneg. intros j. rewrite !count_iff by (auto; lia).
  replace j with (Z.to_nat (Z.of_nat j)) by lia. rewrite part_map_succ by (auto; lia). destruct (Z.ltb_spec (Z.of_nat j) m); [lia|].
  rewrite part_over_z by lia. lia.
Qed.
Lemma long_rows w : count_ge (wp 0 w) (cE w + 1) = cR w.
Proof.
  induction w as [|x w IH]; [reflexivity|]. pose proof (wp_kstrict 0 (or_introl eq_refl) w (zlen_nonneg w)) as ((Hp & Hr & _) & _).
  pose proof (cE_range w). pose proof (zlen_nonneg w). destruct x; cbn [wp cE isE cR isR].
  - replace (1 + cE w + 1) with (cE w + 1 + 1) by lia. rewrite count_map_succ; auto; unfold zlen in *; lia.
  - cbv zeta. destruct (Z.eqb_spec (zlen w + 1 - 0 + cE w) 0); [lia|]. rewrite count_ge_cons, !Z.add_0_l, IH.
    destruct (Z.leb_spec (cE w + 1) (zlen w + 1 - 0 + cE w)); lia.
  - rewrite !Z.add_0_l. exact IH.
Qed.
(** the letters R along a walk *)
Definition chR (a : st) : Z := match a with S1 | S3 => 1 | _ => 0 end.
Lemma walk_R m : forall a w v g x b, walk m a w v = Some (g, x, b) -> length w = m -> length v = m -> chR b + cR w = chR a + cR v.
Proof.
  induction m as [|m IH]; intros a w v g x b E Hw Hv.
  - destruct w, v; try discriminate. cbn [walk] in E. injection E as <- <- <-. cbn [cR]. lia.
  - destruct w as [|y w]; [discriminate|]. destruct v as [|z v]; [discriminate|]. injection Hw as Hw. injection Hv as Hv. cbn [walk] in E.
    destruct (nxt a y z) as [a'|] eqn:En; [|discriminate]. destruct (walk m a' w v) as [[[g' x'] b']|] eqn:Ew; [|discriminate]. injection E as <- <- <-.
    specialize (IH _ _ _ _ _ _ Ew Hw Hv). cbn [cR]. destruct a, y, z; try discriminate; injection En as <-; cbn [chR isR] in *; lia.
Qed.

Lemma two_to_add a b : 0 <= a -> 0 <= b -> two_to (a + b) = (two_to a * two_to b)%Qc.
Proof.
  intros Ha Hb. rewrite <- (Z2Nat.id a), <- (Z2Nat.id b), <- Nat2Z.inj_add, !two_to_nat by lia.
  induction (Z.to_nat a) as [|x IH]; cbn [Nat.add Qcpower]; [ring|]. rewrite IH. ring.
Qed.

Section K.
Variables k n : Z.
Hypothesis Hk : 0 <= k <= n.
Hypothesis Hm : 1 <= n - k.
Notation V := (kstrict_in k (n - k) (n + k)).
Notation ws := (wset k n).
Definition long (l : list Z) : Z := count_ge l (k + 1).
Definition Ftwo (l : list Z) : poly := pscale (two_to (long l)) (pS l).
Definition stwo (i : Z) : poly := pscale (if i <=? k then 1%Qc else two_to 1) (pS [i]).
Notation w := (psubst (gmap Ftwo)).
Let Hok : okB false k n. split; [|split]; lia. Qed.

Lemma gmap_coef p : supp (linm V (eq VQ)) p -> forall d nu, coef (w p) (qS d nu) = (two_to (long nu) * coef p (qS d nu))%Qc.
Proof.
  revert p. apply (lin_ind V (eq VQ) (fun p => forall d nu, coef (w p) (qS d nu) = (two_to (long nu) * coef p (qS d nu))%Qc)).
  - intros p r E Hp d nu. rewrite <- (E (qS d nu)), <- (Hp d nu). symmetry. assert (H : peq (w p) (w r)) by (rewrite E; reflexivity). apply H.
  - intros. change (w pzero) with pzero. change (coef pzero (qS d nu)) with 0%Qc. ring.
  - intros qm l c p Hl Hq Hp IH d nu.
    assert (E : peq (w (padd (pscale c (pmul (pmono qm) (pS l))) p)) (padd (pscale (c * two_to (long l)) (pmul (pmono qm) (pS l))) (w p))).
    { rewrite psubst_padd, psubst_pscale, psubst_pmul, gw_qm, gw_pS by auto. unfold Ftwo. rewrite pmul_pscale_r, <- pscale_mul. reflexivity. }
    rewrite (E (qS d nu)), !coef_padd, !coef_pscale, (IH d nu).
    change (pS l) with (pmono [vS l]). rewrite <- !(pmono_app qm [vS _] _). cbn [coef pmono].
    assert (HP : forall x, Permutation (qm ++ [vS x]) (qS (length qm) x)).
    { intros x. unfold qS. rewrite (allQ qm) at 1 by auto. symmetry. apply Permutation_cons_append. }
    rewrite (mono_eqb_proper _ _ _ _ (HP l) (Permutation_refl _)).
    destruct (mono_eqb (qS (length qm) l) (qS d nu)) eqn:E1; [|ring].
    apply mono_eqb_perm, Sys.qS_inj in E1. destruct E1 as [_ <-]. ring.
Qed.
Lemma long_nn l : 0 <= long l.
Proof. apply count_ge_nonneg. Qed.
Lemma long_wp u : In u ws -> long (wp 0 u) = cR u.
Proof. intros H. apply in_wset in H. destruct H as (_ & E). unfold long. rewrite <- E. apply long_rows. Qed.
Lemma step_co u v p : In u ws -> In v ws ->
  (two_to (cR v) * co (wterm fC 1 0 (walk (Z.to_nat n) S0 u v)) p = two_to (cR u) * co (wterm fB 1 0 (walk (Z.to_nat n) S0 u v)) p)%Qc.
Proof.
  intros Hu Hv. rewrite !co_wterm. destruct (walk (Z.to_nat n) S0 u v) as [[[g x] b]|] eqn:E; [|ring].
  destruct (proj2 (wset_arrow k n Hk u v Hu Hv) _ _ _ E) as (Hb & _). apply in_wset in Hu, Hv.
  pose proof (walk_R _ _ _ _ _ _ _ E (proj1 Hu) (proj1 Hv)) as HR. destruct (0 + g =? p)%nat; [|ring].
  assert (HR0 : 0 <= cR u) by (rewrite <- long_rows; apply count_ge_nonneg).
  destruct Hb as [-> | ->]; cbn [chR fB fC] in *.
  - replace (cR v) with (cR u) by lia. ring.
  - replace (cR v) with (1 + cR u) by lia. rewrite two_to_add by lia. change (two_to 1) with two. ring.
Qed.
Lemma kap_cB i : ((if i <=? k then 1 else two_to 1) * cB k i)%Qc = 1%Qc.
Proof. unfold cB. destruct (i <=? k); [ring|]. change (two_to 1) with two. apply Qcmult_inv_r. discriminate. Qed.
Lemma F_lq l : V l -> supp (linm V (eq VQ)) (Ftwo l).
Proof. intros H. apply supp_pscale, sys_lq_pS; auto. Qed.
Lemma two_P i l : IC k n i -> V l -> peq (w (P (piC k n false) i l)) (pscale ((if i <=? k then 1 else two_to 1) * two_to (long l)) (P (piB k n false) i l)).
Proof.
  intros Hi Hl. pose proof (sysC k n Hk false) as H. pose proof (sysB k n false Hok) as H'. unfold IC in Hi.
  assert (L1 : supp (linm V (eq VQ)) (P (piC k n false) i l)) by (apply (ps_lin _ _ _ _ _ _ _ H); auto).
  apply (lin_peq V).
  - apply (gw_lq (V1 := V) (V2 := V)); auto using F_lq.
  - apply supp_pscale. apply (ps_lin _ _ _ _ _ _ _ H'); auto.
  - intros d nu Hn. rewrite gmap_coef, coef_pscale by auto.
    destruct (proj1 (wset_V k n Hk l) Hl) as (u & Hu & <-). destruct (proj1 (wset_V k n Hk nu) Hn) as (v & Hv & <-).
    rewrite (proj1 (piC_wcoefs k n false i u Hk Hu ltac:(lia)) d v Hv), (proj1 (piB_wcoefs k n false i u Hok Hu ltac:(lia)) d v Hv), !long_wp by auto.
    destruct d as [|d].
    + unfold kerB. pose proof Hu as Hu'. pose proof Hv as Hv'. apply in_wset in Hu', Hv'.
      rewrite kerT_0; [|apply (tabB_0 false k)|lia|lia]. replace (S (Nat.pred (Z.to_nat n))) with (Z.to_nat n) by lia.
      cbn [kerC]. rewrite step_co by auto. generalize (co (wterm fB 1 0 (walk (Z.to_nat n) S0 u v)) (Z.to_nat i)). intros z. rewrite <- (Qcmult_1_l (two_to (cR u) * z)). rewrite <- (kap_cB i) at 1. ring.
    + assert (E1 : kerC false n (S d) u v = []) by (destruct d; reflexivity).
      assert (E2 : kerB false k n (S d) u v = []) by (unfold kerB, kerT, tabB, bcl; destruct u, v; reflexivity).
      rewrite E1, E2. change (co [] (Z.to_nat i)) with 0%Qc. ring.
Qed.
Lemma two_ring a b : supp (linm V (eq VQ)) a -> supp (linm V (eq VQ)) b ->
  peq (w (M TC (piC k n false) k (giam_fuel (gC k n)) a b)) (M TB (piB k n false) k (giam_fuel (gB k n)) (w a) (w b)).
Proof.
  intros Ha Hb. pose proof (sysC k n Hk false) as H. pose proof (sysB k n false Hok) as H'.
  assert (V1 : forall i, IC k n i -> V [i]) by (intros i Hi; unfold IC in Hi; apply kstrict_row1; lia).
  apply (sys_gmap H H' Ftwo stwo); auto using F_lq.
  - unfold Ftwo. change (long []) with 0. apply pscale_1.
  - intros i Hi. apply supp_pscale, sys_lq_pS; auto.
  - intros i l Hi Hl. rewrite two_P by auto. symmetry. unfold stwo, Ftwo.
    assert (L : supp (linm V (eq VQ)) (pS l)) by (apply sys_lq_pS; auto).
    assert (L' : supp (linm V (eq VQ)) (pS [i])) by (apply sys_lq_pS; auto).
    rewrite (sys_scale_l H') by (auto using (@sys_lq_vp V), (@supp_pscale (linm V (eq VQ)))).
    rewrite sys_scale_r. rewrite (sys_pieri H' i); auto; [|apply (specialB k n); auto; lia].
    rewrite ext_pS, <- pscale_mul. reflexivity.
Qed.
Lemma two_coef lam mu nu : V lam -> V mu ->
  (two_to (long nu) * coef (M TC (piC k n false) k (giam_fuel (gC k n)) (pS lam) (pS mu)) (qS 0 nu) =
   two_to (long lam + long mu) * coef (M TB (piB k n false) k (giam_fuel (gB k n)) (pS lam) (pS mu)) (qS 0 nu))%Qc.
Proof.
  intros Hl Hm'. pose proof (sysC k n Hk false) as H. pose proof (sysB k n false Hok) as H'.
  assert (L : supp (linm V (eq VQ)) (pS lam)) by (apply sys_lq_pS; auto). assert (L' : supp (linm V (eq VQ)) (pS mu)) by (apply sys_lq_pS; auto).
  rewrite <- gmap_coef by (apply (sys_lin H); auto; apply sys_lq_vp; auto). rewrite (two_ring _ _ L L' (qS 0 nu)).
  pose proof long_nn. rewrite two_to_add, <- Qcmult_assoc by auto. rewrite <- !coef_pscale. apply (fun E : peq _ _ => E (qS 0 nu)).
  rewrite (M_peq _ _ _ _ _ _ _ _ (gw_pS Ftwo lam) (gw_pS Ftwo mu)). unfold Ftwo.
  rewrite (sys_scale_l H') by (auto using (@sys_lq_vp V), (@supp_pscale (linm V (eq VQ)))). rewrite sys_scale_r. reflexivity.
Qed.
End K.

Lemma c60 m n g h : 1 <= m -> IsotropicGrassmannian m (2 * n) = Ok g -> OrthogonalGrassmannian m (2 * n + 1) = Ok h ->
  (forall l, class_IG m (2 * n) l <-> class_OG m (2 * n + 1) l) /\
  forall lam mu, class_IG m (2 * n) lam -> class_IG m (2 * n) mu ->
    exists r s, mult g (pS lam) (pS mu) = Ok r /\ mult h (pS lam) (pS mu) = Ok s /\
    forall nu, (coef r [vS nu] * two_to (count_ge nu (n - m + 1)) = two_to (count_ge lam (n - m + 1) + count_ge mu (n - m + 1)) * coef s [vS nu])%Qc.
Proof.
  intros Hm Hg Hh. pose proof Hg as Hg'. apply ig_inv in Hg'. destruct Hg' as (n0 & EN & En & Hmn & Eg). assert (Enn : n0 = n) by lia. rewrite Enn in *. clear EN Enn n0.
  assert (En1 : (2 * n + 1) / 2 = n) by (symmetry; apply (Z.div_unique _ 2 n 1); lia).
  assert (Eo : Z.odd (2 * n + 1) = true) by (rewrite Z.odd_add, Z.odd_mul; reflexivity).
  assert (Ev : Z.even (2 * n + 1) = false) by (rewrite <- Z.negb_odd, Eo; reflexivity).
  assert (Eh : h = mkGr TB (n - m) n).
  { destruct (og_inv _ _ _ Hh ltac:(lia)) as [(n0 & EN & En' & Ev' & Hm' & ->)|(n0 & EN & En' & Ev' & Hm' & ->)]; [f_equal; lia|congruence]. }
  assert (E1 : forall l, class_IG m (2 * n) l <-> kstrict_in (n - m) (n - (n - m)) (n + (n - m)) l).
  { intros l. unfold class_IG. rewrite En. replace (n - (n - m)) with m by lia. replace (n + (n - m)) with (2 * n - m) by lia. reflexivity. }
  assert (E2 : forall l, class_OG m (2 * n + 1) l <-> kstrict_in (n - m) (n - (n - m)) (n + (n - m)) l).
  { intros l. unfold class_OG. rewrite Ev, En1. replace (n - (n - m)) with m by lia. replace (n + (n - m)) with (2 * n + 1 - 1 - m) by lia. reflexivity. }
  split; [intros l; rewrite E1, E2; reflexivity|]. intros lam mu Hl Hmu. rewrite E1 in Hl, Hmu. set (k := n - m) in *.
  assert (Hk : 0 <= k <= n) by lia. assert (Hok : okB false k n) by (split; [|split]; lia).
  assert (LC : forall x, kstrict_in k (n - k) (n + k) x -> lin_comb (kstrict_in k (n - k) (n + k)) (pS x)) by (intros x Hx; apply lin_comb_iff, sys_lq_pS; auto).
  destruct (api_prod (sysC k n Hk false) (pS lam) (pS mu) (lin_comb_poly_in _ (LC _ Hl)) (LC _ Hmu)) as (r & E & Pr & _).
  destruct (api_prod (sysB k n false Hok) (pS lam) (pS mu) (lin_comb_poly_in _ (LC _ Hl)) (LC _ Hmu)) as (s & E' & Ps & _).
  exists r, s. split; [rewrite Eg; exact E|]. split; [rewrite Eh; exact E'|]. intros nu. rewrite (Pr [vS nu]), (Ps [vS nu]).
  pose proof (two_coef k n Hk ltac:(lia) lam mu nu Hl Hmu) as G. unfold long in G. change (qS 0 nu) with [vS nu] in G. rewrite <- G. apply Qcmult_comm.
Qed.
