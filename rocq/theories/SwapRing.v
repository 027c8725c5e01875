(** Exchanging the two types of classes is an automorphism of the rings of
    OG(m,N), N even. *)

From Coq Require Import ZArith List Lia Bool Permutation QArith Qcanon Setoid Morphisms.
From Verif Require Import Py OrderFacts PyFacts ModelPart ModelQcalc ModelPoly ModelStr ModelGr Spec SpecPieri SpecRing
  PolyFacts SuppFacts OpTheory Enum FillFacts PartFacts ConjFacts PairFacts CompsFacts CompsBound WSum PieriCoef PieriD QPieriD
  Sys Sys2 SysApi SysMap SysRing Word Transfer Extract CoefSys CommC RecBCD RingC CommB RingB ApiPieriQ WordD CoefD CommD CommD2
  GrInv RingData ApiRing RingD RingD0 ApiRingD Conv ApiPair.
Import ListNotations.
Open Scope Z_scope.

(** the index of the special class of the other type *)
Definition swi (k i : Z) : Z := if Z.abs i =? k then - i else i.

Lemma lin_peq (V : list Z -> Prop) p r : supp (linm V (eq VQ)) p -> supp (linm V (eq VQ)) r ->
  (forall d nu, V nu -> coef p (qS d nu) = coef r (qS d nu)) -> peq p r.
Proof.
  intros Hp Hr H m.
  assert (G : forall s, supp (linm V (eq VQ)) s -> coef s m <> 0%Qc -> exists d nu, V nu /\ Permutation m (qS d nu)).
  { intros s Hs Hm. destruct (Hs _ Hm) as (nu & qm & Hn & HP & Hq). rewrite (allQ qm Hq) in HP. exists (length qm), nu. split; auto. }
  destruct (Qc_eq_dec (coef p m) 0%Qc) as [E|E].
  - destruct (Qc_eq_dec (coef r m) 0%Qc) as [E'|E']; [congruence|]. destruct (G r Hr E') as (d & nu & Hn & HP).
    rewrite (coef_perm p _ _ HP), (coef_perm r _ _ HP). auto.
  - destruct (G p Hp E) as (d & nu & Hn & HP). rewrite (coef_perm p _ _ HP), (coef_perm r _ _ HP). auto.
Qed.

Section RD.
Variables (k n : Z) (qq : bool).
Hypothesis Hok : okD qq k n.
Notation V := (typed_in k (n + 1 - k) (n + k)).
Notation ws := (wset k (n + 1)).
Notation f := (fun l => type_swap_inner l k).

Lemma kD_swl tab dtab i e w v : In w ws -> In v ws ->
  kD tab dtab k n (swi k i) e (swl w) v = kD tab dtab k n i e w (swl v).
Proof.
  intros Hw Hv. destruct Hok as (Hk & _). destruct (ws_len k n Hk w Hw) as (L1 & _). destruct (ws_len k n Hk v Hv) as (M1 & _).
  unfold kD. set (m := Nat.pred (Z.to_nat n)). assert (Em : Z.to_nat n = S m) by (unfold m; lia). rewrite Em in *.
  assert (Es : swe e v = swl (swe e (swl v))).
  { unfold swe. destruct (Nat.odd e); rewrite !swl_swl; reflexivity. }
  rewrite Es. rewrite kT_swl, kS_swl by (rewrite ?swe_len, ?swl_len; auto).
  assert (Ea : Z.abs (swi k i) = Z.abs i) by (unfold swi; destruct (Z.abs i =? k); lia).
  assert (Ed : dD k (swi k i) = (- dD k i)%Qc).
  { unfold dD. rewrite Ea. unfold swi. destruct (Z.eqb_spec (Z.abs i) k) as [E|E]; [|ring].
    destruct (Z.ltb_spec i 0), (Z.ltb_spec (- i) 0); try lia; ring. }
  unfold cD. rewrite Ea, Ed. ring.
Qed.

Lemma swi_ID i : ID k n i -> ID k n (swi k i).
Proof. destruct Hok as (Hk & _). unfold ID, swi. intros H. destruct (Z.eqb_spec (Z.abs i) k); [|auto]. destruct (Z.le_gt_cases 0 i); lia. Qed.
Lemma f_V l : V l -> V (f l).
Proof. intros H. apply (type_swap_spec k (n + 1 - k) (n + k)); auto. Qed.
Lemma f_inv l : V l -> f (f l) = l.
Proof. intros H. apply (type_swap_inv k (n + 1 - k) (n + k)); auto. Qed.
Lemma swap_PD i l : ID k n i -> V l -> peq (psubst (fmap f) (P (piD k n qq) i l)) (P (piD k n qq) (swi k i) (f l)).
Proof.
  intros Hi Hl. pose proof Hok as (Hk & _). pose proof (sysD k n qq Hok) as H.
  apply (lin_peq V).
  - apply (w_lq (V1 := V) (V2 := V)); [apply f_V|]. apply (ps_lin _ _ _ _ _ _ _ H); auto.
  - apply (ps_lin _ _ _ _ _ _ _ H); [apply swi_ID; auto|apply f_V; auto].
  - intros d nu Hn. rewrite (fmap_coef V V f f) by (auto using f_V, f_inv; apply (ps_lin _ _ _ _ _ _ _ H); auto).
    rewrite !(swap_type_ok k (n + 1 - k) (n + k)) by auto.
    destruct (encD_ex k n Hk l Hl) as (w & Hw & <-). destruct (encD_ex k n Hk nu Hn) as (v & Hv & <-).
    rewrite !(swap_encD k n Hk) by auto. pose proof (swl_ws k n w Hw) as Hw'. pose proof (swl_ws k n v Hv) as Hv'.
    rewrite (proj1 (piD_wcoefs k n qq Hok i w Hw)) by auto. rewrite (proj1 (piD_wcoefs k n qq Hok (swi k i) (swl w) Hw')) by auto.
    symmetry. apply kD_swl; auto.
Qed.
End RD.

Lemma swap0 rows cols l : typed_in 0 rows cols l -> type_swap_inner l 0 = l.
Proof.
  intros H. destruct (type_swap_spec 0 rows cols l H) as (_ & B & _). apply B. intros Hin.
  destruct H as [H|(_ & _ & H & _)]; [|lia]. assert (Hp : is_partition l) by apply H. destruct (In_nth _ _ 0 Hin) as (j & Hj & E). pose proof (proj1 Hp j Hj). unfold part in *. lia.
Qed.
Lemma fmap_id (V : list Z -> Prop) f p : (forall l, V l -> f l = l) -> supp (linm V (eq VQ)) p -> peq (psubst (fmap f) p) p.
Proof.
  intros Hf. revert p. apply (lin_ind V (eq VQ)).
  - intros p r E Hp. rewrite <- E. exact Hp.
  - reflexivity.
  - intros qm l c p Hl Hq Hp IH. rewrite psubst_padd, psubst_pscale, psubst_pmul, IH, w_qm, w_pS, Hf by auto. reflexivity.
Qed.

Section Even.
Variables (m N : Z) (g : gr).
Hypothesis Hg : OrthogonalGrassmannian m N = Ok g.
Hypothesis HN : Z.even N = true.
Hypothesis H4 : 4 <= N.
Hypothesis Hm : 1 <= m <= N / 2.
Notation V := (class_OG m N).
Notation I := (index_even m N).
Notation k := (N / 2 - m).
Notation f := (fun l => type_swap_inner l k).

Lemma og_k : g_type g = TD /\ g_k g = k.
Proof. destruct (og_inv m N g Hg ltac:(lia)) as [(n & _ & _ & Ev' & _)|(n & EN & En & Ev & Hmn & ->)]; [congruence|]. cbn. split; auto. lia. Qed.
Lemma V_typed l : V l <-> typed_in k m (N - 1 - m) l.
Proof. unfold class_OG. rewrite HN. reflexivity. Qed.
Lemma fV l : V l -> V (f l).
Proof. rewrite !V_typed. intros H. apply (type_swap_spec k m (N - 1 - m)); auto. Qed.
Lemma ff l : V l -> f (f l) = l.
Proof. rewrite !V_typed. intros H. apply (type_swap_inv k m (N - 1 - m)); auto. Qed.
Lemma swi_I i : I i -> I (swi k i).
Proof.
  unfold index_even, swi. pose proof (Z.div_mod N 2 ltac:(lia)). pose proof (Z.mod_pos_bound N 2 ltac:(lia)).
  destruct (Z.eqb_spec (Z.abs i) k); lia.
Qed.
Lemma swap_P qq i l : (qq = true -> m <> N / 2 - 1) -> I i -> V l ->
  peq (psubst (fmap f) (P (if qq then qpieri_fun g else pieri_fun g) i l)) (P (if qq then qpieri_fun g else pieri_fun g) (swi k i) (f l)).
Proof.
  intros Hq Hi Hl. destruct (half_even m N g Hg HN H4 Hm) as (mu & D). pose proof (hf_sys _ _ _ _ _ (D qq Hq)) as H.
  destruct (Z.eq_dec k 0) as [Ek|Ek].
  - assert (HV : forall x, V x -> f x = x) by (intros x; rewrite V_typed, Ek; apply swap0).
    rewrite HV by auto. replace (swi k i) with i by (unfold swi, index_even in *; rewrite Ek; destruct (Z.eqb_spec (Z.abs i) 0); lia).
    apply (fmap_id V); auto. apply (ps_lin _ _ _ _ _ _ _ H); auto.
  - clear H D mu. destruct (og_inv m N g Hg ltac:(lia)) as [(n & _ & _ & Ev' & _)|(n & EN & En & Ev & Hmn & Eg)]; [congruence|].
    unfold index_even in *. rewrite (class_even m N n Ev En EN) in *. replace (N / 2 - m) with (n + 1 - m) in * by lia. set (k := n + 1 - m) in *.
    replace (N - 1 - m) with (n + k) in * by (unfold k; lia). subst g. fold (gD k n) in *. fold (piD k n qq) in *.
    apply (swap_PD k n qq); auto.
    + split; [unfold k in *; lia|]. intros Eq; specialize (Hq Eq); unfold k in *; lia.
    + unfold ID, k in *. lia.
Qed.
Lemma swap_ring mu (qq : bool) (D : half_data g (if qq then qpieri_fun g else pieri_fun g) V I mu) : (qq = true -> m <> N / 2 - 1) -> forall a b, lin_comb V a -> lin_comb V b ->
  peq (psubst (fmap f) (M (g_type g) (if qq then qpieri_fun g else pieri_fun g) (g_k g) (giam_fuel g) a b))
      (M (g_type g) (if qq then qpieri_fun g else pieri_fun g) (g_k g) (giam_fuel g) (psubst (fmap f) a) (psubst (fmap f) b)).
Proof.
  intros Hq a b Ha Hb. apply lin_comb_iff in Ha, Hb. pose proof (hf_sys _ _ _ _ _ D) as H.
  apply (sys_map H H f (fun i => pS (num2spec (swi k i)))); auto.
  - apply fV.
  - intros i Hi. apply sys_lq_pS. apply (hf_V _ _ _ _ _ D). apply swi_I; auto.
  - intros i l Hi Hl. pose proof (swi_I i Hi) as Hi'. rewrite swap_P by auto. symmetry.
    rewrite (sys_pieri H (swi k i)); auto; [|apply (hf_V _ _ _ _ _ D); auto|apply (hf_sp _ _ _ _ _ D); auto|apply sys_lq_pS, fV; auto].
    apply ext_pS.
Qed.

Lemma swap_ok p : lin_comb V p -> exists r, type_swap g p = Ok r /\ peq r (psubst (fmap f) p) /\ lin_comb V r.
Proof.
  intros Hp. destruct og_k as (Et & Ek). unfold type_swap. rewrite Et, Ek.
  assert (HE : expr_in (on_list V) p).
  { apply expr_in_iff. apply lin_comb_iff in Hp. intros mo Hmo. destruct (Hp _ Hmo) as (l & qm & Hl & HP & Hq).
    apply (evm_inv (on_list V) _ _ (Permutation_sym HP)). constructor; [exact Hl|]. eapply Forall_impl; [|exact Hq]. intros v <-. exact Logic.I. }
  destruct (conv_ok (on_part (fun lam => ret_schur (SP (f lam)))) (hl f) (on_list V) (on_list V) p) as (r & E & Pr & _); auto.
  { apply on_part_conv_pure; [apply fV|]. intros l Hl. rewrite V_typed in Hl. eapply typed_nonneg; exact Hl. }
  assert (Er : peq r (psubst (fmap f) p)).
  { rewrite Pr. transitivity (psubst (ren (hl f)) (pnorm p)); [rewrite pnorm_peq; reflexivity|].
    transitivity (psubst (fmap f) (pnorm p)); [|rewrite pnorm_peq; reflexivity].
    apply psubst_ext. intros mo c v Hin Hv. apply expr_in_iff, supp_rawnorm in HE. specialize (HE mo c Hin).
    unfold evm in HE. rewrite Forall_forall in HE. specialize (HE v Hv). destruct v as [[l|]| | |]; try reflexivity. }
  exists r. split; auto. split; auto. apply lin_comb_iff in Hp. apply lin_comb_iff. eapply supp_peq; [symmetry; exact Er|].
  apply (w_lq (V1 := V) (V2 := V)); auto. apply fV.
Qed.

(** ** the API *)
Lemma swap_pieri mu (qq : bool) (D : half_data g (if qq then qpieri_fun g else pieri_fun g) V I mu) : (qq = true -> m <> N / 2 - 1) ->
  forall i a, I i -> lin_comb V a -> exists r x a' y,
    apply_lc (on_part ((if qq then qpieri_fun g else pieri_fun g) i)) a = Ok r /\ type_swap g r = Ok x /\
    type_swap g a = Ok a' /\ apply_lc (on_part ((if qq then qpieri_fun g else pieri_fun g) (swi k i))) a' = Ok y /\ peq x y.
Proof.
  intros Hq i a Hi Ha. pose proof (hf_sys _ _ _ _ _ D) as H. pose proof (swi_I i Hi) as Hi'.
  destruct (swap_ok a Ha) as (a' & Ea & Pa & La). apply lin_comb_iff in Ha, La.
  destruct (sys_pi_lc H i a Hi Ha) as (r & Er & Pr). destruct (sys_pi_lc H (swi k i) a' Hi' La) as (y & Ey & Py).
  assert (Lr : lin_comb V r) by (apply lin_comb_iff; eapply supp_peq; [symmetry; exact Pr|apply (sys_ext_lin H); auto]).
  destruct (swap_ok r Lr) as (x & Ex & Px & _). exists r, x, a', y. split; [exact Er|]. split; [exact Ex|]. split; [exact Ea|]. split; [exact Ey|].
  rewrite Px, Pr, Py, (ext_proper _ _ _ _ Pa).
  rewrite (w_ext (V1 := V) (I1 := I) H f (fun i => pS (num2spec (swi k i)))); auto.
  - rewrite (sys_pieri H (swi k i)); auto; [reflexivity|apply (hf_V _ _ _ _ _ D); auto|apply (hf_sp _ _ _ _ _ D); auto|].
    apply (w_lq (V1 := V) (V2 := V)); auto. apply fV.
  - apply fV.
  - intros j Hj. apply sys_lq_pS. apply (hf_V _ _ _ _ _ D). apply swi_I; auto.
  - intros j l Hj Hl. pose proof (swi_I j Hj) as Hj'. rewrite swap_P by auto. symmetry.
    rewrite (sys_pieri H (swi k j)); auto; [|apply (hf_V _ _ _ _ _ D); auto|apply (hf_sp _ _ _ _ _ D); auto|apply sys_lq_pS, fV; auto].
    apply ext_pS.
Qed.
Lemma swap_prod mu (qq : bool) (D : half_data g (if qq then qpieri_fun g else pieri_fun g) V I mu) : (qq = true -> m <> N / 2 - 1) ->
  respects_product V (if qq then qmult g else mult g) (type_swap g).
Proof.
  intros Hq a b Ha Hb. pose proof (hf_sys _ _ _ _ _ D) as H.
  assert (AP : forall a b, lin_comb V a -> lin_comb V b -> exists r, (if qq then qmult g else mult g) a b = Ok r /\
     peq r (M (g_type g) (if qq then qpieri_fun g else pieri_fun g) (g_k g) (giam_fuel g) a b) /\ lin_comb V r).
  { intros a0 b0 Ha0 Hb0. destruct (api_prod H a0 b0 (lin_comb_poly_in _ Ha0) Hb0) as (r & E & X). exists r. split; auto. destruct qq; exact E. }
  destruct (AP a b Ha Hb) as (r & Er & Pr & Lr). destruct (swap_ok a Ha) as (a' & Ea & Pa & La). destruct (swap_ok b Hb) as (b' & Eb & Pb & Lb).
  destruct (swap_ok r Lr) as (x & Ex & Px & _). destruct (AP a' b' La Lb) as (y & Ey & Py & _).
  exists r, x, a', b', y. split; auto. split; auto. split; auto. split; auto. split; auto.
  rewrite Px, Pr, Py. rewrite (swap_ring mu qq D Hq a b Ha Hb). symmetry. apply M_peq; auto.
Qed.
Lemma c58 : respects_product V (mult g) (type_swap g) /\ (m <> N / 2 - 1 -> respects_product V (qmult g) (type_swap g)).
Proof.
  destruct (half_even m N g Hg HN H4 Hm) as (mu & D). split; [|intros Hq].
  - apply (swap_prod mu false (D false ltac:(discriminate))). discriminate.
  - apply (swap_prod mu true (D true (fun _ => Hq))). auto.
Qed.
Lemma c58_pieri i a : I i -> lin_comb V a ->
  (exists r x a' y, pieri g i a = Ok r /\ type_swap g r = Ok x /\ type_swap g a = Ok a' /\ pieri g (if Z.abs i =? k then - i else i) a' = Ok y /\ peq x y) /\
  (m <> N / 2 - 1 ->
   exists r x a' y, qpieri g i a = Ok r /\ type_swap g r = Ok x /\ type_swap g a = Ok a' /\ qpieri g (if Z.abs i =? k then - i else i) a' = Ok y /\ peq x y).
Proof.
  intros Hi Ha. destruct (half_even m N g Hg HN H4 Hm) as (mu & D). split; [|intros Hq].
  - apply (swap_pieri mu false (D false ltac:(discriminate)) ltac:(discriminate) i a Hi Ha).
  - apply (swap_pieri mu true (D true (fun _ => Hq)) ltac:(auto) i a Hi Ha).
Qed.
End Even.

(** ** OG(n,2n+1) and OG(n+1,2n+2) *)
Section Same.
Variables (n : Z) (g g' : gr).
Hypothesis Hn : 1 <= n.
Hypothesis Hg : OrthogonalGrassmannian n (2 * n + 1) = Ok g.
Hypothesis Hg' : OrthogonalGrassmannian (n + 1) (2 * n + 2) = Ok g'.
Notation V := (class_OG n (2 * n + 1)).
Notation V' := (class_OG (n + 1) (2 * n + 2)).

Lemma odd_div : (2 * n + 1) / 2 = n.
Proof. symmetry. apply (Z.div_unique _ 2 n 1); lia. Qed.
Lemma even_div : (2 * n + 2) / 2 = n + 1.
Proof. symmetry. apply (Z.div_unique _ 2 (n + 1) 0); lia. Qed.
Lemma N_odd : Z.odd (2 * n + 1) = true.
Proof. rewrite Z.odd_add, Z.odd_mul. reflexivity. Qed.
Lemma N_even : Z.even (2 * n + 2) = true.
Proof. rewrite Z.even_add, Z.even_mul. reflexivity. Qed.
Lemma same_classes l : V l <-> V' l.
Proof.
  unfold class_OG. rewrite <- Z.negb_odd, N_odd, N_even, odd_div, even_div. cbn [negb].
  replace (n - n) with 0 by lia. replace (n + 1 - (n + 1)) with 0 by lia. replace (2 * n + 2 - 1 - (n + 1)) with n by lia. replace (2 * n + 1 - 1 - n) with n by lia.
  pose proof (typed0 n ltac:(lia) l) as H. rewrite Z.sub_0_r, Z.add_0_r in H. symmetry. exact H.
Qed.
Lemma same_g : g = mkGr TB 0 n /\ g' = mkGr TD 0 n.
Proof.
  pose proof odd_div. pose proof even_div. pose proof N_even. pose proof N_odd. split.
  - destruct (og_inv _ _ _ Hg ltac:(lia)) as [(n0 & EN & En & Ev & Hm' & ->)|(n0 & EN & En & Ev & Hm' & ->)]; [f_equal; lia|lia].
  - destruct (og_inv _ _ _ Hg' ltac:(lia)) as [(n0 & EN & En & Ev & Hm' & ->)|(n0 & EN & En & Ev & Hm' & ->)]; [lia|f_equal; lia].
Qed.
Lemma same_ring (qq : bool) mu mu' :
  pieri_sys TB (piB 0 n qq) V (fun i => 1 <= i <= n) 0 mu (giam_fuel g) ->
  half_data g' (piD 0 n qq) V' (index_even (n + 1) (2 * n + 2)) mu' ->
  forall a b, lin_comb V a -> lin_comb V b ->
    peq (M TB (piB 0 n qq) 0 (giam_fuel g) a b) (M TD (piD 0 n qq) 0 (giam_fuel g') a b).
Proof.
  intros H D a b Ha Hb. destruct same_g as (Eg & Eg'). pose proof (hf_sys _ _ _ _ _ D) as H'.
  assert (Et : g_type g' = TD) by (rewrite Eg'; reflexivity). assert (Ek : g_k g' = 0) by (rewrite Eg'; reflexivity). rewrite Et, Ek in H'. clear Eg Eg' Et Ek.
  apply lin_comb_iff in Ha, Hb.
  assert (Hi : forall i, 1 <= i <= n -> index_even (n + 1) (2 * n + 2) i) by (intros; left; lia).
  assert (G : peq (psubst (fmap (fun l => l)) (M TB (piB 0 n qq) 0 (giam_fuel g) a b))
                  (M TD (piD 0 n qq) 0 (giam_fuel g') (psubst (fmap (fun l => l)) a) (psubst (fmap (fun l => l)) b))).
  { apply (sys_map H H' (fun l => l) (fun i => pS (num2spec i))); auto.
    - intros l. apply same_classes.
    - intros i Hi0. apply sys_lq_pS. apply (hf_V _ _ _ _ _ D). auto.
    - intros i l Hi0 Hl. rewrite (fmap_id V) by (auto; apply (ps_lin _ _ _ _ _ _ _ H); auto).
      pose proof (proj1 (same_classes l) Hl) as Hl'.
      symmetry. rewrite (sys_pieri H' i); auto; [|apply (hf_V _ _ _ _ _ D); auto|apply (hf_sp _ _ _ _ _ D); auto|apply sys_lq_pS; auto].
      rewrite ext_pS. symmetry. apply piD0_agree; auto; try lia.
      unfold class_OG in Hl'. rewrite N_even, even_div in Hl'. replace (n + 1 - (n + 1)) with 0 in Hl' by lia. replace (2 * n + 2 - 1 - (n + 1)) with n in Hl' by lia. exact Hl'. }
  rewrite (fmap_id V) in G; auto; [|apply (sys_lin H); auto; apply sys_lq_vp; auto].
  rewrite G. apply M_peq; apply (fmap_id V); auto.
Qed.

Lemma c59_gen (qq : bool) a b : lin_comb V a -> lin_comb V b ->
  exists r r', (if qq then qmult g else mult g) a b = Ok r /\ (if qq then qmult g' else mult g') a b = Ok r' /\ peq r r'.
Proof.
  intros Ha Hb. destruct same_g as (Eg & Eg').
  destruct (rd_OGodd n (2 * n + 1) g Hg N_odd ltac:(pose proof odd_div; lia)) as (mu & R).
  destruct (half_even (n + 1) (2 * n + 2) g' Hg' N_even ltac:(lia) ltac:(pose proof even_div; lia)) as (mu' & D).
  specialize (D qq ltac:(pose proof even_div; lia)).
  assert (ES : pieri_sys TB (piB 0 n qq) V (fun i => 1 <= i <= n) 0 mu (giam_fuel g)).
  { pose proof (rd_cl _ _ _ _ R) as H0. pose proof (rd_qu _ _ _ _ R) as H1. replace (2 * n + 1 - 1 - n) with n in H0, H1 by lia.
    assert (Et : g_type g = TB) by (rewrite Eg; reflexivity). assert (Ek : g_k g = 0) by (rewrite Eg; reflexivity). rewrite Et, Ek in H0, H1.
    unfold piB, gB. rewrite <- Eg. destruct qq; assumption. }
  assert (ED : half_data g' (piD 0 n qq) V' (index_even (n + 1) (2 * n + 2)) mu').
  { unfold piD, gD. rewrite <- Eg'. exact D. }
  pose proof (same_ring qq mu mu' ES ED a b Ha Hb) as HM.
  assert (Ha' : lin_comb V' a) by (apply lin_comb_iff in Ha; apply lin_comb_iff; eapply supp_impl; [|exact Ha]; intros mo (x & qm & A & B); exists x, qm; split; auto; apply same_classes; auto).
  assert (Hb' : lin_comb V' b) by (apply lin_comb_iff in Hb; apply lin_comb_iff; eapply supp_impl; [|exact Hb]; intros mo (x & qm & A & B); exists x, qm; split; auto; apply same_classes; auto).
  destruct (api_prod ES a b (lin_comb_poly_in _ Ha) Hb) as (r & E & Pr & _).
  destruct (api_prod (hf_sys _ _ _ _ _ ED) a b (lin_comb_poly_in _ Ha') Hb') as (r' & E' & Pr' & _).
  exists r, r'. split; [|split].
  - clear - E Eg. subst g. destruct qq; exact E.
  - clear - E' Eg'. subst g'. destruct qq; exact E'.
  - rewrite Pr, HM, Pr'. clear - Eg'. subst g'. reflexivity.
Qed.
Lemma c59 : (forall l, V l <-> V' l) /\ forall a b, lin_comb V a -> lin_comb V b ->
  (exists r r', mult g a b = Ok r /\ mult g' a b = Ok r' /\ peq r r') /\
  (exists r r', qmult g a b = Ok r /\ qmult g' a b = Ok r' /\ peq r r').
Proof. split; [exact same_classes|]. intros a b Ha Hb. split; [apply (c59_gen false)|apply (c59_gen true)]; auto. Qed.
End Same.
