(** C102: the expansions for LG(n,2n), OG(n,2n+1) and OG(n+1,2n+2). *)

From Coq Require Import ZArith List Lia Bool QArith Qcanon Setoid Morphisms Permutation.
From Coq Require Sorting.Sorted.
From Verif Require SeidelP.
From Verif Require Import ApiGr.
From Verif Require Import WSum.
From Verif Require Import Py PyFacts OrderFacts ModelPart ModelQcalc ModelPoly ModelStr ModelGr Spec PolyFacts SuppFacts OpTheory Sys Sys2 SysApi
  FillFacts Enum PartFacts FactsA GrInv SpecRing SpecPieri SpecDet DetFacts SpecPfaff Word Transfer Extract CoefSys CommC CommB PowTwo DualSys RingC RingB SwapRing PfaffWords PfaffWords2 Pfaff Pfaff2.
Import ListNotations.
Open Scope Z_scope.

Lemma ker_ext f g s x y : f true = g true -> f false = g false -> ker f s x y = ker g s x y.
Proof.
  intros E1 E2. revert s y. induction x as [|a x IH]; intros s [|b y]; cbn [ker]; try reflexivity; [destruct s; auto|].
  destruct s, a, b; try reflexivity; rewrite IH; reflexivity.
Qed.
Lemma F_deg s x y : bwords x y -> F s x y <> 0%Qc -> 0 <= sz y + (if s then zlen x else 0) - sz x <= zlen x.
Proof. apply ker_deg. Qed.
Lemma V_bw n : 0 <= n -> forall l, kstrict_in 0 (n - 0) (n + 0) l <-> exists x, In x (bw (Z.to_nat n)) /\ wp 0 x = l.
Proof. intros Hn l. rewrite (wset_V 0 n ltac:(lia)). split; intros (x & Hx & E); exists x; (split; [apply in_bw_wset; auto|auto]). Qed.
Lemma zero_sum {A} (c : A -> Qc) f l : (forall x, In x l -> c x = 0%Qc) -> peq (psumf (fun x => pscale (c x) (f x)) l) pzero.
Proof. intros Hc mo. rewrite coef_ps. apply qsum_zero. intros x Hx. rewrite Hc by auto. ring. Qed.

Section C.
Variable n : Z.
Variable qq : bool.
Hypothesis Hn : 1 <= n.
Let Hk : 0 <= 0 <= n. Proof. lia. Qed.
Notation N := (Z.to_nat n).
Notation pi := (piC 0 n qq).
Notation V := (kstrict_in 0 (n - 0) (n + 0)).
Notation lq := (supp (linm V (eq VQ))).
Let H := sysC 0 n Hk qq.
Definition YC (p : Z) (c : poly) : poly :=
  if p =? 0 then c else if (1 <=? p) && (p <=? n) then ext pi p c else if qq && (p =? n + 1) then pscale (/ two) (pmul (pmono [VQ]) c) else pzero.
Definition fqC (x y : word) : Qc := if qq then (/ two * F true x y)%Qc else 0%Qc.
Lemma YC_cases p : (p = 0 /\ forall c, YC p c = c) \/ (1 <= p <= n /\ forall c, YC p c = ext pi p c) \/
  (p = n + 1 /\ qq = true /\ forall c, YC p c = pscale (/ two) (pmul (pmono [VQ]) c)) \/
  ((p < 0 \/ n + 1 < p \/ (p = n + 1 /\ qq = false)) /\ forall c, YC p c = pzero).
Proof.
  unfold YC. destruct (Z.eqb_spec p 0); [left; auto|]. destruct (Z.leb_spec 1 p), (Z.leb_spec p n); cbn [andb]; [right; left; auto| | |];
  (destruct qq; cbn [andb]; [destruct (Z.eqb_spec p (n + 1)); [right; right; left; auto|]|]; right; right; right; split; auto; lia).
Qed.
Ltac ycase p := let E := fresh "E" in let R := fresh "R" in
  destruct (YC_cases p) as [(R & E)|[(R & E)|[(R & R2 & E)|(R & E)]]]; rewrite ?E.
Lemma eb1 x : peq (eb 1 x) (pS (wp 0 x)).
Proof. unfold eb. intros mo. rewrite coef_pscale. assert (G : forall m, (1 ^ m = 1)%Qc) by (induction m as [|m IH]; cbn [Qcpower]; [reflexivity|rewrite IH; ring]). rewrite G. ring. Qed.
Lemma YC_e p x : In x (bw N) -> peq (YC p (eb 1 x))
  (padd (psumf (fun y => pscale (if sz y =? sz x + p then F false x y else 0%Qc) (eb 1 y)) (bw N))
        (psumf (fun y => pscale (if sz y + (n + 1) =? sz x + p then fqC x y else 0%Qc) (pmul (pmono [VQ]) (eb 1 y))) (bw N))).
Proof.
  intros Hx. pose proof (bw_zlen N x Hx) as Lx.
  assert (A0 : (p < 0 \/ n < p) -> peq (psumf (fun y => pscale (if sz y =? sz x + p then F false x y else 0%Qc) (eb 1 y)) (bw N)) pzero).
  { intros Hp. apply zero_sum. intros y Hy. destruct (Z.eqb_spec (sz y) (sz x + p)); auto. destruct (Qc_eq_dec (F false x y) 0) as [|Z]; auto.
    apply F_deg in Z; [cbv iota in Z; lia|]. apply (bw_bwords N); auto. }
  assert (A1 : (p <= 0 \/ n + 1 < p \/ (p = n + 1 /\ qq = false)) -> peq (psumf (fun y => pscale (if sz y + (n + 1) =? sz x + p then fqC x y else 0%Qc) (pmul (pmono [VQ]) (eb 1 y))) (bw N)) pzero).
  { intros Hp. apply zero_sum. intros y Hy. destruct (Z.eqb_spec (sz y + (n + 1)) (sz x + p)); auto. unfold fqC. destruct qq; auto. destruct (Qc_eq_dec (F true x y) 0) as [->|Z]; [ring|].
    apply F_deg in Z; [cbv iota in Z; destruct Hp as [|[|[_ ?]]]; try lia; discriminate|]. apply (bw_bwords N); auto. }
  ycase p.
  - rewrite A1 by lia. rewrite <- (delta_eb N 1 x Hx) at 1. 
    transitivity (psumf (fun y => pscale (if sz y =? sz x + p then F false x y else 0%Qc) (eb 1 y)) (bw N)); [|ring].
    apply psumf_ext. intros y Hy. replace (sz x + p) with (sz x) by lia. destruct (Z.eqb_spec (sz y) (sz x)) as [Es|Es]; [|reflexivity].
    destruct (ker_eqsz x y (bw_bwords N x y Hx Hy) Es) as [-> _]. reflexivity.
  - assert (Hxw : In x (wset 0 n)) by (apply in_bw_wset; auto).
    transitivity (P pi p (wp 0 x)). { rewrite <- ext_pS. apply psubst_proper. apply eb1. }
    rewrite (wcoefs_sum n 2 _ _ V (V_bw n ltac:(lia)) (sys_P_lq H p (wp 0 x) ltac:(unfold IC; lia) ltac:(apply (V_bw n ltac:(lia)); eauto)) (piC_wcoefs 0 n qq p x Hk Hxw ltac:(lia))).
    + apply padd_proper; apply psumf_ext; intros y Hy; pose proof (bw_bwords N x y Hx Hy) as B; assert (Lx' : length x = N) by (apply in_bw in Hx; tauto).
      * cbn [kerC]. rewrite eb1. pose proof (co_ker fC 1 0 false x y p B ltac:(lia)) as C. cbv iota in C. rewrite Lx' in C. rewrite C. replace (sz y + 0 + Z.of_nat 0) with (sz y) by lia.
        destruct (sz y =? sz x + p); [|reflexivity]. unfold F. rewrite (ker_ext _ (fun _ => 1%Qc)) by reflexivity. intros mo. rewrite !coef_pscale. ring.
      * cbn [kerC]. rewrite eb1. unfold fqC. destruct qq; [|rewrite co_nil; destruct (_ =? _); reflexivity].
        pose proof (co_ker fC (/ two) 1 true x y p B ltac:(lia)) as C. cbv iota in C. rewrite Lx' in C. rewrite C. replace (sz y + zlen x + Z.of_nat 1) with (sz y + (n + 1)) by lia.
        destruct (sz y + (n + 1) =? sz x + p); [|reflexivity]. unfold F. rewrite (ker_ext _ (fun _ => 1%Qc)) by reflexivity. reflexivity.
    + intros d v Hd _. destruct d as [|[|d]]; try lia. reflexivity.
  - rewrite A0 by lia. transitivity (psumf (fun y => pscale (if sz y + (n + 1) =? sz x + p then fqC x y else 0%Qc) (pmul (pmono [VQ]) (eb 1 y))) (bw N)); [|ring].
    assert (Ed : peq (pmul (pmono [VQ]) (eb 1 x)) (psumf (fun y => pmul (pmono [VQ]) (pscale (if sz y =? sz x then weq x y else 0%Qc) (eb 1 y))) (bw N))).
    { rewrite (psumf_mul (pmono [VQ]) (fun y => pscale (if sz y =? sz x then weq x y else 0%Qc) (eb 1 y))). rewrite (delta_eb N 1 x Hx). reflexivity. }
    rewrite Ed. intros mo. rewrite coef_pscale, coef_ps, coef_psumf, <- qsum_mul. apply qsum_ext. intros y Hy.
    replace (sz y + (n + 1) =? sz x + p) with (sz y =? sz x) by (destruct (Z.eqb_spec (sz y) (sz x)), (Z.eqb_spec (sz y + (n + 1)) (sz x + p)); lia || reflexivity).
    assert (Em : forall c, peq (pmul (pmono [VQ]) (pscale c (eb 1 y))) (pscale c (pmul (pmono [VQ]) (eb 1 y)))) by (intros c; rewrite pmul_comm, pmul_pscale_l, pmul_comm; reflexivity).
    rewrite (Em _ mo), coef_pscale. unfold fqC. rewrite R2. destruct (Z.eqb_spec (sz y) (sz x)) as [Es|Es]; [|ring]. destruct (ker_eqsz x y (bw_bwords N x y Hx Hy) Es) as [_ ->]. ring.
  - rewrite A0 by lia. rewrite A1 by (destruct R as [?|[?|?]]; auto; left; lia). ring.
Qed.
Lemma row_C (prod : poly -> poly -> res poly) :
  (forall a b, V a -> V b -> exists s, prod (pS a) (pS b) = Ok s /\ peq s (M TC pi 0 (giam_fuel (gC 0 n)) (pS a) (pS b))) -> row_expansions V prod.
Proof.
  apply (row_exp H n Hn (V_bw n ltac:(lia)) 1 YC (n + 1) fqC).
  - intros p a b E0. ycase p; auto; [apply psubst_proper; auto|rewrite E0; reflexivity|reflexivity].
  - intros p a b. ycase p; [reflexivity|apply ext_padd| |ring]. intros mo. rewrite coef_padd, !coef_pscale, (pmul_comm _ (padd a b) mo), (pmul_comm _ a mo), (pmul_comm _ b mo), (pmul_add_l a b _ mo), coef_padd. ring.
  - intros p c a. ycase p; [reflexivity|apply ext_pscale| |intros mo; rewrite coef_pscale; change (coef pzero mo) with 0%Qc; ring].
    intros mo. rewrite !coef_pscale. rewrite (pmul_comm _ (pscale c a) mo), (pmul_pscale_l c a _ mo), coef_pscale, (pmul_comm a _ mo). ring.
  - intros p a Ha. ycase p; auto; [apply (sys_ext_lin H); auto; unfold IC; lia| |apply supp_zero]. apply supp_pscale. apply (lin_qmul V (eq VQ)); auto.
  - intros p a b Ha Hb. ycase p; [reflexivity|apply (sys_ext H); auto; unfold IC; lia| |reflexivity].
    rewrite (sys_scale_l H) by (auto; apply (sys_lq_vp (V := V)); apply (lin_qmul V (eq VQ)); auto). rewrite (sys_q_l H) by auto. reflexivity.
  - intros p x Hx. apply YC_e; auto.
  - intros x y Hx Hy Hs. unfold fqC. destruct qq; [|apply qsum_zero; intros; ring].
    rewrite (qsum_ext _ (fun r => (/ two * (fst (fst r) * F true (snd r) y))%Qc)) by (intros [[c z] v] _; cbn [fst snd]; ring). rewrite qsum_mul. change (qsum (fun r => (fst (fst r) * F true (snd r) y)%Qc) (rems x)) with (PfaffWords.Hs true x y).
    rewrite sum_Tq; [ring|apply (bw_bwords N); auto|]. rewrite (bw_zlen N x Hx). lia.
  - intros x y a Hx Hy Ha Hlt Hs. unfold fqC. destruct qq; [|apply qsum_zero; intros; ring].
    rewrite (qsum_ext _ (fun v => (/ two * (Gm false v x * F true v y))%Qc)) by (intros; ring). rewrite qsum_mul. pose proof (bw_bwords N x y Hx Hy) as B.
    destruct (main_K x y B N ltac:(apply in_bw in Hx; tauto)) as (_ & K2 & _). unfold K in K2. rewrite K2. destruct (Qc_eq_dec (weq x y) 0) as [->|W]; [ring|]. apply weq_neq in W. subst y. lia.
  - discriminate.
Qed.
End C.

(** ** OG(n,2n+1) *)
Lemma ker_B (s : bool) x y : bwords x y -> (two ^ length (wp 0 x) * ker (fun s => fB (if s then S3 else S0)) s x y = two ^ length (wp 0 y) * (if s then two else 1) * F s x y)%Qc.
Proof.
  intros B. revert s. induction B as [|a b x y Ha Hb B IH]; intros s; [destruct s; unfold F; cbn; unfold two; ring|].
  destruct (bwords_cE _ _ B) as (_ & Ex & Ey). pose proof (IH true) as I1. pose proof (IH false) as I0. cbv iota in I0, I1. unfold F in *.
  destruct s; letters a b; cbn [ker]; rewrite ?wp0_L, ?SeidelP.wp0_R by auto; cbn [length Qcpower]; try ring.
  - transitivity (two * (two ^ length (wp 0 x) * ker (fun s => fB (if s then S3 else S0)) true x y))%Qc; [ring|]. rewrite I1. ring.
  - transitivity (two * two * (two ^ length (wp 0 x) * ker (fun s => fB (if s then S3 else S0)) false x y))%Qc; [ring|]. rewrite I0. ring.
  - exact I1.
  - transitivity (two * (two ^ length (wp 0 x) * ker (fun s => fB (if s then S3 else S0)) false x y))%Qc; [ring|]. rewrite I0. ring.
  - rewrite I1. ring.
  - exact I0.
Qed.

Section B.
Variable n : Z.
Variable qq : bool.
Hypothesis Hn : 1 <= n.
Let Hok : okB qq 0 n. Proof. unfold okB. lia. Qed.
Notation N := (Z.to_nat n).
Notation pi := (piB 0 n qq).
Notation V := (kstrict_in 0 (n - 0) (n + 0)).
Notation lq := (supp (linm V (eq VQ))).
Let H := sysB 0 n qq Hok.
Definition YB (p : Z) (c : poly) : poly := if p =? 0 then c else if (1 <=? p) && (p <=? n) then pscale two (ext pi p c) else pzero.
Definition fqB (x y : word) : Qc := match x, y with LR :: x', LL :: y' => if qq then (two * two * F true x' y')%Qc else 0%Qc | _, _ => 0%Qc end.
Lemma YB_cases p : (p = 0 /\ forall c, YB p c = c) \/ (1 <= p <= n /\ forall c, YB p c = pscale two (ext pi p c)) \/ ((p < 0 \/ n < p) /\ forall c, YB p c = pzero).
Proof.
  unfold YB. destruct (Z.eqb_spec p 0); [left; auto|]. destruct (Z.leb_spec 1 p), (Z.leb_spec p n); cbn [andb]; [right; left; auto| | |]; right; right; split; auto; lia.
Qed.
Ltac ycase p := let E := fresh "E" in let R := fresh "R" in
  destruct (YB_cases p) as [(R & E)|[(R & E)|(R & E)]]; rewrite ?E.
Lemma YB_e p x : In x (bw N) -> peq (YB p (eb two x))
  (padd (psumf (fun y => pscale (if sz y =? sz x + p then F false x y else 0%Qc) (eb two y)) (bw N))
        (psumf (fun y => pscale (if sz y + 2 * n =? sz x + p then fqB x y else 0%Qc) (pmul (pmono [VQ]) (eb two y))) (bw N))).
Proof.
  intros Hx. pose proof (bw_zlen N x Hx) as Lx.
  assert (A0 : (p < 0 \/ n < p) -> peq (psumf (fun y => pscale (if sz y =? sz x + p then F false x y else 0%Qc) (eb two y)) (bw N)) pzero).
  { intros Hp. apply zero_sum. intros y Hy. destruct (Z.eqb_spec (sz y) (sz x + p)); auto. destruct (Qc_eq_dec (F false x y) 0) as [|Z]; auto.
    apply F_deg in Z; [cbv iota in Z; lia|]. apply (bw_bwords N); auto. }
  assert (A1 : (p <= 0 \/ n < p) -> peq (psumf (fun y => pscale (if sz y + 2 * n =? sz x + p then fqB x y else 0%Qc) (pmul (pmono [VQ]) (eb two y))) (bw N)) pzero).
  { intros Hp. apply zero_sum. intros y Hy. destruct (Z.eqb_spec (sz y + 2 * n) (sz x + p)) as [Es|]; auto. pose proof (bw_bwords N x y Hx Hy) as B. unfold fqB. destruct B as [|a b x' y' Ha' Hb' B]; auto. destruct a, b; auto; destruct qq; auto.
    destruct (Qc_eq_dec (F true x' y') 0) as [->|Z]; [ring|]. apply F_deg in Z; auto. pose proof (bwords_len _ _ B). rewrite zlen_c in Lx. cbn [sz] in Es. lia. }
  ycase p.
  - rewrite A1 by lia. rewrite <- (delta_eb N two x Hx) at 1. 
    transitivity (psumf (fun y => pscale (if sz y =? sz x + p then F false x y else 0%Qc) (eb two y)) (bw N)); [|ring].
    apply psumf_ext. intros y Hy. replace (sz x + p) with (sz x) by lia. destruct (Z.eqb_spec (sz y) (sz x)) as [Es|Es]; [|reflexivity].
    destruct (ker_eqsz x y (bw_bwords N x y Hx Hy) Es) as [-> _]. reflexivity.
  - assert (Hxw : In x (wset 0 n)) by (apply in_bw_wset; auto).
    transitivity (pscale (two * two ^ length (wp 0 x)) (P pi p (wp 0 x))). { unfold eb. rewrite ext_pscale, ext_pS. intros mo. rewrite !coef_pscale. ring. }
    rewrite (wcoefs_sum n 3 _ _ V (V_bw n ltac:(lia)) (sys_P_lq H p (wp 0 x) ltac:(unfold IC; lia) ltac:(apply (V_bw n ltac:(lia)); eauto)) (piB_wcoefs 0 n qq p x Hok Hxw ltac:(lia))).
    + set (m := Nat.pred N). assert (EN : N = S m) by (unfold m; lia).
      assert (Hc : (two * cB 0 p = 1)%Qc) by (unfold cB; destruct (Z.leb_spec p 0); [lia|]; unfold two; field; discriminate).
      intros mo. rewrite coef_pscale, !coef_padd, !coef_ps, Qcmult_plus_distr_r, <- !qsum_mul. f_equal; apply qsum_ext; intros y Hy; pose proof (bw_bwords N x y Hx Hy) as B; assert (Lx' : length x = N) by (apply in_bw in Hx; tauto); assert (Ly' : length y = N) by (apply in_bw in Hy; tauto).
      * unfold kerB. fold m. rewrite (kerT_0 (tabB qq 0) m x y (tabB_0 qq 0)) by congruence. pose proof (co_ker fB 1 0 false x y p B ltac:(lia)) as C. cbv iota in C. rewrite Lx', EN in C. rewrite C. replace (sz y + 0 + Z.of_nat 0) with (sz y) by lia.
        unfold eb. rewrite coef_pscale. destruct (sz y =? sz x + p); [|ring]. pose proof (ker_B false x y B) as KB. cbv iota in KB.
        transitivity ((two * cB 0 p) * (two ^ length (wp 0 x) * ker (fun s => fB (if s then S3 else S0)) false x y) * coef (pS (wp 0 y)) mo)%Qc; [ring|]. rewrite Hc, KB. ring.
      * assert (Em : coef (pmul (pmono [VQ]) (eb two y)) mo = (two ^ length (wp 0 y) * coef (pmul (pmono [VQ]) (pS (wp 0 y))) mo)%Qc) by (unfold eb; rewrite (pmul_pscale_r _ _ _ mo), coef_pscale; reflexivity). rewrite Em. clear Em.
        unfold kerB. fold m. unfold tabB. rewrite Z.eqb_refl. destruct B as [|a b x' y' Ha' Hb' B]; [cbn in Lx'; lia|]. assert (Lx2 : length x' = m) by (cbn [length] in Lx'; lia). clear Lx'. rename Lx2 into Lx'. cbn [kerT fqB].
        destruct (bwords_cE _ _ B) as (_ & Ex & Ey). pose proof (bwords_len _ _ B) as Lz. rewrite zlen_c in Lx.
        destruct qq; [|cbn [bcl]; rewrite co_nil; destruct a, b; try (destruct (_ =? _)); ring].
        destruct a, b; try congruence; cbn [bB0]; rewrite ?co_nil; try (destruct (_ =? _); ring).
        pose proof (co_ker fB 1 1 true x' y' p B ltac:(lia)) as C. cbv iota in C. rewrite Lx' in C. rewrite C. cbn [sz].
        replace (sz y' + zlen x' + Z.of_nat 1 =? sz x' + p) with (sz y' + 2 * n =? zlen x' + 1 + sz x' + p) by (destruct (Z.eqb_spec (sz y' + 2 * n) (zlen x' + 1 + sz x' + p)), (Z.eqb_spec (sz y' + zlen x' + Z.of_nat 1) (sz x' + p)); lia || reflexivity).
        destruct (sz y' + 2 * n =? zlen x' + 1 + sz x' + p); [|ring]. rewrite wp0_L, SeidelP.wp0_R by auto. cbn [length Qcpower]. pose proof (ker_B true x' y' B) as KB. cbv iota in KB.
        transitivity ((two * cB 0 p) * two * (two ^ length (wp 0 x') * ker (fun s => fB (if s then S3 else S0)) true x' y') * coef (pmul (pmono [VQ]) (pS (wp 0 y'))) mo)%Qc; [ring|]. rewrite Hc, KB. ring.
    + intros d v Hd Hv. unfold kerB, tabB. rewrite Z.eqb_refl. destruct d as [|[|d]]; try lia. destruct x as [|a x'], v as [|b v']; cbn [kerT]; rewrite ?co_nil; try ring. destruct qq; cbn [bB0 bcl]; rewrite co_nil; ring.
  - rewrite A0, A1 by lia. ring.
Qed.
Lemma row_B (prod : poly -> poly -> res poly) :
  (forall a b, V a -> V b -> exists s, prod (pS a) (pS b) = Ok s /\ peq s (M TB pi 0 (giam_fuel (gB 0 n)) (pS a) (pS b))) -> row_expansions V prod.
Proof.
  apply (row_exp H n Hn (V_bw n ltac:(lia)) two YB (2 * n) fqB).
  - intros p a b E0. ycase p; auto; [|reflexivity]. intros mo. rewrite !coef_pscale. f_equal. apply (psubst_proper _ _ _ E0).
  - intros p a b. ycase p; [reflexivity| |ring]. intros mo. rewrite coef_padd, !coef_pscale, (ext_padd pi p a b mo), coef_padd. ring.
  - intros p c a. ycase p; [reflexivity| |intros mo; rewrite coef_pscale; change (coef pzero mo) with 0%Qc; ring]. intros mo. rewrite !coef_pscale, (ext_pscale pi p c a mo), coef_pscale. ring.
  - intros p a Ha. ycase p; auto; [|apply supp_zero]. apply supp_pscale. apply (sys_ext_lin H); auto; unfold IC; lia.
  - intros p a b Ha Hb. ycase p; [reflexivity| |reflexivity]. assert (Hi : IC 0 n p) by (unfold IC; lia).
    rewrite (sys_scale_l H) by (auto; apply (sys_lq_vp (V := V)); apply (sys_ext_lin H); auto). rewrite (sys_ext H) by auto. reflexivity.
  - intros p x Hx. apply YB_e; auto.
  - intros x y Hx Hy Hs. pose proof (bw_bwords N x y Hx Hy) as B. pose proof (bw_zlen N x Hx) as Lx. unfold fqB. destruct B as [|a b x' y' Ha' Hb' B]; [reflexivity|]. pose proof (bwords_len _ _ B) as Lz. rewrite zlen_c in Lx.
    destruct a; try congruence; cbn [rems].
    + rewrite qsum_cons, qsum_map. cbn [fst snd]. destruct b; try congruence; [rewrite qsum_zero by (intros; ring); ring|]. destruct qq; [|rewrite qsum_zero by (intros; ring); ring].
      rewrite (qsum_ext _ (fun r => (- (two * two) * (fst (fst r) * F true (snd r) y'))%Qc)) by (intros [[c z] v] _; cbn [fst snd]; ring). rewrite qsum_mul.
      change (qsum (fun r => (fst (fst r) * F true (snd r) y')%Qc) (rems x')) with (PfaffWords.Hs true x' y'). rewrite sum_Tq; [ring|auto|]. cbn [sz] in Hs. lia.
    + rewrite qsum_map. apply qsum_zero. intros; cbn [fst snd]; ring.
  - intros x y a Hx Hy Ha Hlt Hs. apply qsum_zero. intros v Hv. pose proof (bw_bwords N x v Hx Hv) as B. pose proof (bw_zlen N x Hx) as Lx. destruct B as [|b c x' v' Hb' Hc' B]; [unfold fqB; ring|]. rewrite zlen_c in Lx. destruct (bwords_cE _ _ B) as (_ & Ex & _).
    unfold fqB. destruct c; try ring. destruct b; try congruence; [|cbn [Gm]; ring]. exfalso. rewrite SeidelP.wp0_R in Hlt by auto. specialize (Hlt _ ltac:(left; reflexivity)). lia.
  - discriminate.
Qed.
End B.

(** ** the calls *)
Lemma expands_peq (prod prod' : poly -> poly -> res poly) (V : list Z -> Prop) first l r :
  (forall q, In q (take_row l) -> V (first (snd (fst q))) /\ V (snd q)) ->
  (forall a b, V a -> V b -> exists s s', prod (pS a) (pS b) = Ok s /\ prod' (pS a) (pS b) = Ok s' /\ peq s s') -> expands prod first l r -> expands prod' first l r.
Proof.
  intros HV HP (rs & F & E). unfold expands. revert r E. induction F as [|q s L rs Hq F IH]; intros r E; [exists []; split; [constructor|exact E]|].
  destruct (HV q ltac:(left; auto)) as [V1 V2]. destruct (HP _ _ V1 V2) as (s1 & s' & E1 & E2 & E3). cbn [combine fold_right fst snd] in E.
  destruct (IH ltac:(intros; apply HV; right; auto) _ (reflexivity _)) as (rs' & F' & E'). exists (s' :: rs'). split; [constructor; auto|]. cbn [combine fold_right fst snd].
  rewrite E, E'. assert (s = s1) by congruence. subst s1. rewrite E3. reflexivity.
Qed.
Section Api.
Variables (n : Z) (g : gr).
Hypothesis Hn : 1 <= n.
Lemma c102_LG : IsotropicGrassmannian n (2 * n) = Ok g -> row_expansions (class_IG n (2 * n)) (mult g) /\ row_expansions (class_IG n (2 * n)) (qmult g).
Proof.
  intros Hg. destruct (ig_inv _ _ _ Hg) as (n0 & EN & En & Hmn & Eg). assert (E0 : n0 = n) by lia. rewrite Eg, E0. replace (n - n) with 0 by lia.
  assert (EV : class_IG n (2 * n) = kstrict_in 0 (n - 0) (n + 0)) by (change (class_IG n (2 * n)) with (kstrict_in (2 * n / 2 - n) n (2 * n - n)); rewrite En; f_equal; lia). rewrite EV.
  assert (G : forall qq : bool, row_expansions (kstrict_in 0 (n - 0) (n + 0)) (if qq then qmult (mkGr TC 0 n) else mult (mkGr TC 0 n))).
  { intros qq. apply (row_C n qq Hn). intros a b Ha Hb. assert (Hk : 0 <= 0 <= n) by lia. pose proof (sysC 0 n Hk qq) as HS.
    assert (La : lin_comb (kstrict_in 0 (n - 0) (n + 0)) (pS a)) by (apply lin_comb_iff, sys_lq_pS; auto).
    assert (Lb : lin_comb (kstrict_in 0 (n - 0) (n + 0)) (pS b)) by (apply lin_comb_iff, sys_lq_pS; auto).
    destruct (api_prod HS (pS a) (pS b) (lin_comb_poly_in _ La) Lb) as (r & E & Pr & _).
    exists r. split; [destruct qq; exact E|exact Pr]. }
  split; [apply (G false)|apply (G true)].
Qed.
Lemma OG_V : class_OG n (2 * n + 1) = kstrict_in 0 (n - 0) (n + 0).
Proof.
  unfold class_OG. rewrite <- Z.negb_odd, (N_odd n), (odd_div n). cbn [negb]. replace (n - n) with 0 by lia. replace (2 * n + 1 - 1 - n) with (n + 0) by lia. replace (n - 0) with n by lia. reflexivity.
Qed.
Lemma c102_OG : OrthogonalGrassmannian n (2 * n + 1) = Ok g -> forall qq : bool, row_expansions (class_OG n (2 * n + 1)) (if qq then qmult g else mult g).
Proof.
  intros Hg qq. pose proof (odd_div n). destruct (og_inv _ _ _ Hg ltac:(lia)) as [(n0 & EN & En & Ev & Hm & Eg)|(n0 & EN & En & Ev & Hm & Eg)]; [|lia].
  assert (E0 : n0 = n) by lia. rewrite Eg, E0. replace (n - n) with 0 by lia. rewrite OG_V.
  apply (row_B n qq Hn). intros a b Ha Hb. assert (Hok : okB qq 0 n) by (unfold okB; lia). pose proof (sysB 0 n qq Hok) as HS.
  assert (La : lin_comb (kstrict_in 0 (n - 0) (n + 0)) (pS a)) by (apply lin_comb_iff, sys_lq_pS; auto).
  assert (Lb : lin_comb (kstrict_in 0 (n - 0) (n + 0)) (pS b)) by (apply lin_comb_iff, sys_lq_pS; auto).
  destruct (api_prod HS (pS a) (pS b) (lin_comb_poly_in _ La) Lb) as (r & E & Pr & _).
  exists r. split; [destruct qq; exact E|exact Pr].
Qed.
End Api.
Lemma c102_odd n g : 1 <= n -> OrthogonalGrassmannian n (2 * n + 1) = Ok g -> row_expansions (class_OG n (2 * n + 1)) (mult g) /\ row_expansions (class_OG n (2 * n + 1)) (qmult g).
Proof. intros Hn Hg. split; [apply (c102_OG n g Hn Hg false)|apply (c102_OG n g Hn Hg true)]. Qed.
Lemma c102_even n g' : 1 <= n -> OrthogonalGrassmannian (n + 1) (2 * n + 2) = Ok g' ->
  row_expansions (class_OG (n + 1) (2 * n + 2)) (mult g') /\ row_expansions (class_OG (n + 1) (2 * n + 2)) (qmult g').
Proof.
  intros Hn Hg'. destruct (proj2 (c32_OG n (2 * n + 1)) ltac:(lia)) as (g & Hg).
  assert (G : forall qq : bool, row_expansions (class_OG (n + 1) (2 * n + 2)) (if qq then qmult g' else mult g')).
  { intros qq. pose proof (same_classes n Hn) as SC.
    assert (HP : forall a b, class_OG n (2 * n + 1) a -> class_OG n (2 * n + 1) b -> exists s s', (if qq then qmult g else mult g) (pS a) (pS b) = Ok s /\ (if qq then qmult g' else mult g') (pS a) (pS b) = Ok s' /\ peq s s').
    { intros a b Ha Hb. apply (c59_gen n g g' Hn Hg Hg' qq); apply lin_comb_iff, sys_lq_pS; auto. }
    destruct (c102_OG n g Hn Hg qq) as (X1 & X2 & X3).
    assert (HV : forall l, class_OG n (2 * n + 1) l -> forall q, In q (take_row l) -> class_OG n (2 * n + 1) [snd (fst q)] /\ class_OG n (2 * n + 1) (snd q)).
    { intros l Hl q Hq. rewrite OG_V in *. apply (V_bw n) in Hl; [|lia]. destruct Hl as (x & Hx & <-).
      destruct (rows_V n (V_bw n ltac:(lia)) x Hx q Hq) as [R1 R2]. split; auto. pose proof (bw_zlen _ x Hx). apply SeidelP.wp0_range in R1; [|apply in_bw in Hx; tauto].
      apply (V_sorted n Hn (V_bw n ltac:(lia))); [repeat constructor|intros j [<-|[]]; lia]. }
    assert (HV2 : forall a l, class_OG n (2 * n + 1) (a :: l) -> (class_OG n (2 * n + 1) [a] /\ class_OG n (2 * n + 1) l) /\ forall q, In q (take_row l) -> class_OG n (2 * n + 1) [a; snd (fst q)] /\ class_OG n (2 * n + 1) (snd q)).
    { intros a l Hal. rewrite OG_V in *. destruct (V_inv n Hn (V_bw n ltac:(lia)) _ Hal) as [S R]. apply Sorting.Sorted.StronglySorted_inv in S. destruct S as [S1 S2]. rewrite Forall_forall in S2.
      assert (Hl : kstrict_in 0 (n - 0) (n + 0) l) by (apply (V_sorted n Hn (V_bw n ltac:(lia))); auto; intros j Hj; apply R; right; auto).
      assert (Ra := R a ltac:(left; auto)). split; [split; auto; apply (V_sorted n Hn (V_bw n ltac:(lia))); [repeat constructor|intros j [<-|[]]; lia]|].
      intros q Hq. split; [|apply (HV l Hl q Hq)]. destruct (take_row_in _ _ Hq) as [_ Hi]. pose proof (S2 _ Hi). pose proof (R _ (or_intror Hi)).
      apply (V_sorted n Hn (V_bw n ltac:(lia))); [repeat constructor; lia|intros j [<-|[<-|[]]]; lia]. }
    split; [|split].
    - intros l Hl Ho. apply SC in Hl. apply (expands_peq _ _ (class_OG n (2 * n + 1)) (fun b => [b]) l _ (HV l Hl) HP). auto.
    - intros a l Hl Ho. apply SC in Hl. destruct (HV2 a l Hl) as [_ H2]. apply (expands_peq _ _ (class_OG n (2 * n + 1)) (fun b => [a; b]) l _ H2 HP). auto.
    - intros a l Hl Ho. apply SC in Hl. destruct (HV2 a l Hl) as [[H1 H1'] H2]. destruct (X3 a l Hl Ho) as (s & Es & Xs). destruct (HP [a] l H1 H1') as (s0 & s' & E0 & E' & Ps). exists s'. split; auto.
      apply (expands_peq _ _ (class_OG n (2 * n + 1)) (fun b => [a; b]) l _ H2 HP). assert (s0 = s) by congruence. subst s0.
      destruct Xs as (rs & F1 & F2). exists rs. split; auto. rewrite <- F2, Ps. reflexivity. }
  split; [apply (G false)|apply (G true)].
Qed.
