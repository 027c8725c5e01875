(** The relations of the presentation of the (quantum) cohomology ring of Gr(m,n):
    the determinants of the columns 1^d. *)

From Coq Require Import ZArith List Lia Bool Permutation QArith Qcanon Setoid Morphisms.
From Verif Require Import Py OrderFacts PyFacts ModelPart ModelQcalc ModelPoly ModelStr ModelGr Spec SpecDet
  PolyFacts SuppFacts OpTheory Enum FillFacts PartFacts PieriA QPieriA CylA WSum Sys Sys2 RingA FactsA
  SysApi ApiA Transfer CoefSys CommD2 Schub ConjFacts RimFacts DualSys LRCore LRSum LRMult LRQuant DetFacts GiamDet ExprFacts.
Import ListNotations.
Open Scope Z_scope.

(** ** the expansion of the determinant of a column *)
Lemma det_last n M : (forall j, (j < n)%nat -> peq (M n j) pzero) -> peq (M n n) pone -> peq (det (S n) M) (det n M).
Proof.
  intros H0 H1. assert (HE : forall n, peq (det n M) (dd n (fun c i => M i c) (seq 0 n))).
  { intros n'. rewrite <- (det_dd 0%nat) by apply seq_length. apply det_ext. intros i j Hi _. rewrite seq_nth by auto. reflexivity. }
  rewrite !HE, seq_S. cbn [dd]. rewrite (W_last _ _ (seq 0 n) (0 + n)%nat n (seq_length n 0)).
  - cbn [Nat.add]. rewrite H1. ring.
  - intros r Hr Hi. apply (dd_row0 n _ r (0 + n)%nat Hr Hi). intros j Hj. apply H0. exact Hj.
Qed.

Section E.
Variable k : Z.
Notation h := (hclass k).
Definition colm (r c : nat) : poly := h (1 + Z.of_nat c - Z.of_nat r).
Definition EE (d : nat) : poly := det d colm.
Lemma part_ones d j : (j < d)%nat -> part (repeat 1 d) j = 1.
Proof. revert j. induction d as [|d IH]; intros [|j] Hj; try lia; auto. apply IH. lia. Qed.
Lemma part_ones0 d j : (d <= j)%nat -> part (repeat 1 d) j = 0.
Proof. intros. unfold part. apply nth_overflow. rewrite repeat_length. auto. Qed.
Lemma EE_jt d : peq (jacobi_trudi k (repeat 1 d)) (EE d).
Proof.
  unfold jacobi_trudi, EE. rewrite repeat_length. apply det_ext. intros i j Hi Hj. rewrite part_ones by auto. reflexivity.
Qed.
Lemma minor i n : (i <= n)%nat -> peq (det n (fun r c => colm (without i r) c)) (EE i).
Proof.
  intros Hn. induction Hn as [|n Hn IH].
  - apply det_ext. intros r c Hr _. unfold without. apply Nat.ltb_lt in Hr. rewrite Hr. reflexivity.
  - rewrite det_last; [exact IH| |]; unfold without, colm.
    + intros j Hj. destruct (Nat.ltb_spec n i); [lia|]. rewrite hclass_neg by lia. reflexivity.
    + destruct (Nat.ltb_spec n i); [lia|]. replace (1 + Z.of_nat n - Z.of_nat (S n)) with 0 by lia. reflexivity.
Qed.
Lemma EE_S n : peq (EE (S n)) (psumf (fun i => pscale (sign (i + n)) (pmul (h (Z.of_nat (S n) - Z.of_nat i)) (EE i))) (seq 0 (S n))).
Proof.
  unfold EE at 1. cbn [det]. apply psumf_ext. intros i Hi. apply in_seq in Hi. rewrite minor by lia.
  unfold colm. replace (1 + Z.of_nat n - Z.of_nat i) with (Z.of_nat (S n) - Z.of_nat i) by lia. reflexivity.
Qed.
End E.

(** ** sums of classes *)
Lemma is_sum_add p r R R' : is_sum_of p R -> is_sum_of r R' -> (forall d mu, R d mu -> R' d mu -> False) ->
  is_sum_of (padd p r) (fun d mu => R d mu \/ R' d mu).
Proof.
  intros [H1 H2] [H1' H2'] HD. split.
  - intros d mu [HR|HR]; rewrite coef_padd.
    + rewrite H1 by auto. destruct (Qc_eq_dec (coef r (qS d mu)) 0%Qc) as [->|E]; [ring|].
      destruct (H2' _ E) as (d' & mu' & HR' & HP). apply Sys.qS_inj in HP. destruct HP; subst. exfalso. eauto.
    + rewrite H1' by auto. destruct (Qc_eq_dec (coef p (qS d mu)) 0%Qc) as [->|E]; [ring|].
      destruct (H2 _ E) as (d' & mu' & HR' & HP). apply Sys.qS_inj in HP. destruct HP; subst. exfalso. eauto.
  - intros mo Hmo. rewrite coef_padd in Hmo. destruct (Qc_eq_dec (coef p mo) 0%Qc) as [E|E].
    + destruct (H2' mo) as (d & mu & HR & HP); [intros E'; apply Hmo; rewrite E, E'; ring|]. exists d, mu. auto.
    + destruct (H2 mo E) as (d & mu & HR & HP). exists d, mu. auto.
Qed.
Lemma is_sum_zero (R : nat -> list Z -> Prop) : (forall d mu, ~ R d mu) -> is_sum_of pzero R.
Proof. intros HR. split; [intros d mu H; exfalso; eapply HR; eauto|]. intros mo Hmo. exfalso. apply Hmo. reflexivity. Qed.
Lemma is_sum_q l : is_sum_of (pmul (pvar VQ) (pS l)) (fun d mu => d = 1%nat /\ mu = l).
Proof.
  assert (E : peq (pmono (qS 1 l)) (pmul (pvar VQ) (pS l))).
  { unfold qS. cbn [repeat]. rewrite (pmono_perm [vS l; VQ] ([VQ] ++ [vS l])) by apply perm_swap. rewrite pmono_app. reflexivity. }
  eapply is_sum_peq; [exact E|]. split.
  - intros d mu [-> ->]. unfold pmono. simpl. rewrite (proj2 (mono_eqb_perm _ _)) by apply Permutation_refl. ring.
  - intros mo Hmo. exists 1%nat, l. split; auto. unfold pmono in Hmo. simpl in Hmo.
    destruct (mono_eqb (qS 1 l) mo) eqn:EB; [|exfalso; apply Hmo; ring]. apply mono_eqb_perm in EB. apply Permutation_sym. exact EB.
Qed.

Section S.
Variables m k : Z.
Hypothesis Hm : 1 <= m.
Hypothesis Hk : 1 <= k.
Variable qq : bool.
Let Hk0 : 0 <= k. Proof. lia. Qed.
Notation VB := (in_box m k).
Notation SYS := (sysA m k Hm Hk0 qq).
Notation MM := (MA m k qq).
Notation lq := (supp (linm VB (eq VQ))).
Notation vp := (supp (polym VB)).
Notation h := (hclass k).

Lemma ones_box d : Z.of_nat d <= m -> VB (repeat 1 d).
Proof.
  intros Hd. split; [split|split].
  - intros j Hj. rewrite repeat_length in Hj. rewrite part_ones by auto. lia.
  - intros j. destruct (le_lt_dec d (S j)) as [Hj|Hj]; [rewrite (part_ones0 d (S j)) by auto|rewrite !part_ones by lia; lia].
    destruct (le_lt_dec d j); [rewrite part_ones0 by auto; lia|rewrite part_ones by auto; lia].
  - rewrite repeat_length. lia.
  - destruct d; [cbn; lia|rewrite part_ones by lia; lia].
Qed.
Lemma hook_box i d : 1 <= i <= k -> Z.of_nat d < m -> VB (i :: repeat 1 d).
Proof.
  intros Hi Hd. destruct (ones_box d ltac:(lia)) as ([H1 H2] & H3 & H4). split; [split|split].
  - intros [|j] Hj; [unfold part; cbn; lia|]. apply (H1 j). cbn [length] in Hj. lia.
  - intros [|j]; [|apply H2]. change (part (repeat 1 d) 0 <= i). destruct d; [cbn; lia|rewrite part_ones by lia; lia].
  - cbn [length]. rewrite repeat_length. lia.
  - unfold part. cbn. lia.
Qed.
Lemma size_ones d : size (repeat 1 d) = Z.of_nat d.
Proof. unfold size. induction d as [|d IH]; [reflexivity|]. cbn [repeat fold_right] in *. lia. Qed.
Lemma size_cons x l : size (x :: l) = x + size l.
Proof. reflexivity. Qed.

(** the hooks S[i, 1^j] *)
Definition hook (i : Z) (j : nat) : poly := if (i <=? k) && (Z.of_nat j <? m) then pS (i :: repeat 1 j) else pzero.
Definition hook' (i : Z) (j : nat) : poly := match j with O => pzero | S j' => hook (i + 1) j' end.
Definition qt (i : Z) (j : nat) : poly := if qq && (i =? k) && (Z.of_nat j =? m) then pmul (pvar VQ) (pS []) else pzero.

Lemma is_hook i j : is_sum_of (hook i j) (fun d mu => i <= k /\ Z.of_nat j < m /\ d = 0%nat /\ mu = i :: repeat 1 j).
Proof.
  unfold hook. destruct (Z.leb_spec i k); [destruct (Z.ltb_spec (Z.of_nat j) m)|]; cbn [andb].
  - eapply is_sum_iff; [|apply is_sum_pS]. cbv beta. tauto.
  - apply is_sum_zero. lia.
  - apply is_sum_zero. lia.
Qed.
Lemma is_hook' i j : is_sum_of (hook' i j) (fun d mu => i + 1 <= k /\ Z.of_nat j <= m /\ (1 <= j)%nat /\ d = 0%nat /\ mu = i + 1 :: repeat 1 (j - 1)).
Proof.
  destruct j as [|j]; cbn [hook'].
  - apply is_sum_zero. lia.
  - eapply is_sum_iff; [|apply is_hook]. intros d mu. cbv beta. replace (S j - 1)%nat with j by lia.
    split; intros HH; decompose [and] HH; repeat split; auto; lia.
Qed.
Lemma is_qt i j : is_sum_of (qt i j) (fun d mu => qq = true /\ i = k /\ Z.of_nat j = m /\ d = 1%nat /\ mu = []).
Proof.
  unfold qt. destruct qq; cbn [andb]; [|apply is_sum_zero; intros d mu [? _]; discriminate].
  destruct (Z.eqb_spec i k); [destruct (Z.eqb_spec (Z.of_nat j) m)|]; cbn [andb].
  - eapply is_sum_iff; [|apply is_sum_q]. cbv beta. tauto.
  - apply is_sum_zero. tauto.
  - apply is_sum_zero. tauto.
Qed.

(** adding a horizontal strip to a column *)
Lemma strip_col i j mu : 1 <= i -> Z.of_nat j <= m ->
  (VB mu /\ adds_horizontal_strip (repeat 1 j) mu /\ size mu = size (repeat 1 j) + i) <->
  ((i <= k /\ Z.of_nat j < m /\ mu = i :: repeat 1 j) \/
   (i + 1 <= k /\ Z.of_nat j <= m /\ (1 <= j)%nat /\ mu = i + 1 :: repeat 1 (j - 1))).
Proof.
  intros Hi Hj. rewrite size_ones. split.
  - intros (((P1 & P2) & L & B) & HS & E). destruct mu as [|x t]; [unfold size in E; cbn in E; lia|].
    assert (Ht : t = repeat 1 (length t)).
    { assert (HF : forall s, (s < length t)%nat -> part t s = 1).
      { intros s Hs. pose proof (P1 (S s) ltac:(cbn [length]; lia)) as A1. destruct (HS s) as [A2 _].
        change (part (x :: t) (S s)) with (part t s) in *.
        destruct (le_lt_dec j s); [rewrite part_ones0 in A2 by auto; lia|rewrite part_ones in A2 by auto; lia]. }
      apply (nth_ext _ _ 0 0); [rewrite repeat_length; auto|]. intros s Hs.
      change (part t s = part (repeat 1 (length t)) s). rewrite HF, part_ones; auto. }
    assert (L1 : (length t <= j)%nat).
    { destruct (le_lt_dec (length t) j); auto. exfalso. destruct (HS j) as [A _].
      change (part (x :: t) (S j)) with (part t j) in A. rewrite part_ones0 in A by auto. rewrite Ht, part_ones in A by auto. lia. }
    assert (L2 : (j <= S (length t))%nat).
    { destruct (le_lt_dec j (S (length t))); auto. exfalso. destruct (HS (S (length t))) as [_ A]. rewrite part_ones in A by auto.
      change (part (x :: t) (S (length t))) with (part t (length t)) in A. rewrite Ht, part_ones0 in A by (rewrite repeat_length; auto). lia. }
    assert (E2 : x + Z.of_nat (length t) = Z.of_nat j + i) by (rewrite <- (size_ones (length t)), <- Ht; exact E). change (part (x :: t) 0) with x in B. cbn [length] in L. rewrite Ht.
    destruct (Nat.eq_dec (length t) j) as [He|Hne]; [left; rewrite He in *|right].
    + assert (x = i) by lia. subst x. split; [lia|]. split; [lia|]. reflexivity.
    + split; [lia|]. split; [lia|]. split; [lia|]. replace (length t) with (j - 1)%nat by lia. f_equal. lia.
  - intros [(H1 & H2 & ->)|(H1 & H2 & H3 & ->)].
    + split; [apply hook_box; lia|]. split; [|rewrite size_cons, size_ones; lia].
      intros s. change (part (i :: repeat 1 j) (S s)) with (part (repeat 1 j) s). split; [lia|].
      destruct s as [|s]; [change (part (repeat 1 j) 0 <= i); destruct j; [cbn; lia|rewrite part_ones; lia]|].
      change (part (i :: repeat 1 j) (S s)) with (part (repeat 1 j) s). apply (ones_box j Hj).
    + split; [apply hook_box; lia|]. split; [|rewrite size_cons, size_ones; lia].
      destruct j as [|j]; [lia|]. replace (S j - 1)%nat with j by lia.
      intros s. change (part (i + 1 :: repeat 1 j) (S s)) with (part (repeat 1 j) s).
      destruct s as [|s].
      * change (part (repeat 1 (S j)) 0) with 1. change (part (i + 1 :: repeat 1 j) 0) with (i + 1). destruct j; [rewrite part_ones0 by lia; lia|rewrite part_ones by lia; lia].
      * change (part (i + 1 :: repeat 1 j) (S s)) with (part (repeat 1 j) s). change (part (repeat 1 (S j)) (S s)) with (part (repeat 1 j) s).
        split; [apply (ones_box j); lia|lia].
Qed.
Lemma bertram_col i j mu : 1 <= i <= k -> Z.of_nat j <= m ->
  (VB mu /\ bertram m (repeat 1 j) mu /\ size mu + (m + k) = size (repeat 1 j) + i) <-> (i = k /\ Z.of_nat j = m /\ mu = []).
Proof.
  intros Hi Hj. rewrite size_ones. split.
  - intros (((P1 & _) & _) & [B _] & E).
    assert (mu = []).
    { destruct mu as [|x t]; auto. exfalso. specialize (P1 0%nat ltac:(cbn [length]; lia)). specialize (B 0%nat ltac:(lia)).
      destruct j; [rewrite part_ones0 in B by lia; lia|]. rewrite part_ones in B by lia. lia. }
    subst mu. unfold size in E. cbn in E. repeat split; auto; lia.
  - intros (-> & Ej & ->). split; [apply in_box_nil; lia|]. split; [|unfold size; cbn; lia]. split; intros s Hs.
    + rewrite part_ones by lia. unfold part. destruct s; cbn; lia.
    + rewrite part_ones by lia. unfold part. destruct s; cbn; lia.
Qed.

Lemma P_col i j : 1 <= i <= k -> Z.of_nat j <= m ->
  peq (P (piA m k qq) i (repeat 1 j)) (padd (padd (hook i j) (hook' i j)) (qt i j)).
Proof.
  intros Hi Hj. assert (Hl := ones_box j Hj).
  assert (HA : is_sum_of (padd (padd (hook i j) (hook' i j)) (qt i j)) (fun d mu =>
    ((i <= k /\ Z.of_nat j < m /\ d = 0%nat /\ mu = i :: repeat 1 j) \/
     (i + 1 <= k /\ Z.of_nat j <= m /\ (1 <= j)%nat /\ d = 0%nat /\ mu = i + 1 :: repeat 1 (j - 1))) \/
    (qq = true /\ i = k /\ Z.of_nat j = m /\ d = 1%nat /\ mu = []))).
  { apply is_sum_add; [apply is_sum_add|apply is_qt|].
    - apply is_hook.
    - apply is_hook'.
    - intros d mu (_ & _ & _ & ->) (_ & _ & _ & _ & E). injection E as E _. lia.
    - intros d mu [(_ & _ & -> & _)|(_ & _ & _ & -> & _)] (_ & _ & _ & ? & _); discriminate. }
  apply (is_sum_unique _ _ _) with (2 := HA). clear HA.
  destruct (on_class (piA m k qq i) (repeat 1 j) (P (piA m k qq) i (repeat 1 j))) as (p & Ep & Pp).
  { destruct (piA_enum m k Hm Hk0 qq i _ Hl (IA_dom k qq i Hi)) as (x & Ex & _). unfold P. rewrite Ex. auto. }
  pose proof (fun mu => strip_col i j mu ltac:(lia) Hj) as HS. pose proof (fun mu => bertram_col i j mu Hi Hj) as HB.
  eapply is_sum_peq; [exact Pp|]. destruct qq.
  - destruct (qpieriA_sum m k Hm Hk0 i _ Hl Hi) as (p' & E' & S').
    change (qpieri (gA m k) i (pS (repeat 1 j))) with (apply_lc (on_part (piA m k true i)) (pS (repeat 1 j))) in E'.
    rewrite Ep in E'. inversion E'; subst p'. eapply is_sum_iff; [|exact S'].
    intros d mu. cbv beta. specialize (HS mu). specialize (HB mu). split.
    + intros (Hmu & [(-> & H1 & H2)|(-> & H1 & H2)]).
      * destruct (proj1 HS) as [?|?]; [auto| |]; left; tauto.
      * right. tauto.
    + intros [[HH|HH]|(_ & H1 & H2 & -> & H3)].
      * destruct HS as [_ HS]. destruct HS as (A & B & C); [tauto|]. tauto.
      * destruct HS as [_ HS]. destruct HS as (A & B & C); [tauto|]. tauto.
      * destruct HB as [_ HB]. destruct HB as (A & B & C); [tauto|]. tauto.
  - destruct (pieriA_sum m k Hm Hk0 i _ Hl ltac:(lia)) as (p' & E' & S').
    change (pieri (gA m k) i (pS (repeat 1 j))) with (apply_lc (on_part (piA m k false i)) (pS (repeat 1 j))) in E'.
    rewrite Ep in E'. inversion E'; subst p'. eapply is_sum_iff; [|exact S'].
    intros d mu. cbv beta. specialize (HS mu). clear HB. split.
    + intros (-> & HH). destruct (proj1 HS HH) as [?|?]; left; tauto.
    + intros [[HH|HH]|(? & _)]; [| |discriminate].
      * destruct HS as [_ HS]. destruct HS as (A & B & C); [tauto|]. tauto.
      * destruct HS as [_ HS]. destruct HS as (A & B & C); [tauto|]. tauto.
Qed.

(** ** the products of the special classes and the columns *)
Lemma h_vp i : vp (h i).
Proof.
  unfold hclass. destruct (i =? 0); [apply supp_pone; [apply polym_inv|constructor]|].
  destruct (Z.ltb_spec 0 i); [destruct (Z.leb_spec i k)|]; cbn [andb]; try (intros mo Hmo; exfalso; apply Hmo; reflexivity).
  apply sys_lq_vp. apply sys_lq_pS. apply (hook_box i 0); lia.
Qed.
Lemma MM_zero_l c : peq (MM pzero c) pzero.
Proof. unfold MA, M. reflexivity. Qed.
Lemma h_col i j : 1 <= i -> Z.of_nat j <= m -> peq (MM (h i) (pS (repeat 1 j))) (padd (padd (hook i j) (hook' i j)) (qt i j)).
Proof.
  intros Hi Hj. assert (Hl : lq (pS (repeat 1 j))) by (apply sys_lq_pS; apply ones_box; auto).
  destruct (Z.le_gt_cases i k) as [Hik|Hik].
  - rewrite <- P_col, <- ext_pS by (auto; lia). unfold hclass. destruct (Z.eqb_spec i 0); [lia|].
    destruct (Z.ltb_spec 0 i); [|lia]. destruct (Z.leb_spec i k); [|lia]. cbn [andb].
    apply (sys_pieri SYS); auto; [split; auto; lia|apply (hook_box i 0); lia|apply special_P; auto; lia].
  - rewrite hclass_big by lia. rewrite (MM_zero_l _ : peq (MM pzero (pS (repeat 1 j))) pzero). unfold hook, hook', qt, hook.
    destruct (Z.leb_spec i k); [lia|]. destruct (Z.eqb_spec i k); [lia|]. rewrite andb_false_r. cbn [andb].
    destruct j as [|j]; [ring|]. destruct (Z.leb_spec (i + 1) k); [lia|]. cbn [andb]. ring.
Qed.

(** the telescoping sum *)
Lemma tele N n s : peq (psumf (fun i => pscale (sign (i + n)) (padd (hook (N - Z.of_nat i) i) (hook' (N - Z.of_nat i) i))) (seq 0 (S s)))
  (pscale (sign (s + n)) (hook (N - Z.of_nat s) s)).
Proof.
  induction s as [|s IH].
  - cbn [seq psumf fold_right hook']. rewrite !pscale_pmul. ring.
  - rewrite seq_S, psumf_app, IH, psumf_cons. cbn [Nat.add hook']. replace (N - Z.of_nat (S s) + 1) with (N - Z.of_nat s) by lia.
    rewrite sign_S. change (psumf _ []) with pzero. rewrite !pscale_pmul, pconst_opp. ring.
Qed.

Lemma EE_vp d : vp (EE k d).
Proof.
  assert (HD : forall d M, (forall r c, vp (M r c)) -> vp (det d M)); [|apply HD; intros; apply h_vp].
  clear d. induction d as [|d IH]; intros M HM.
  - apply supp_pone; [apply polym_inv|constructor].
  - cbn [det]. generalize (seq 0 (S d)). intros l. induction l as [|x l IHl].
    + intros mo Hmo. exfalso. apply Hmo. reflexivity.
    + rewrite psumf_cons. apply supp_padd; auto. apply supp_pscale. eapply vpoly_pmul; [apply HM|apply IH; intros; apply HM].
Qed.
Definition XX (d : nat) : poly := MM (EE k d) (pS []).
Lemma nil_lq : lq (pS []).
Proof. apply (sys_lq_one SYS). Qed.
Lemma XX_lq d : lq (XX d).
Proof. apply (sys_lin SYS); auto using nil_lq, EE_vp. Qed.
Lemma XX_0 : peq (XX 0) (pS []).
Proof.
  unfold XX, MA, M. etransitivity.
  - apply (OpN_peq TA (piA m k qq) _ pone _ (pS [])); [|reflexivity]. exact (psubst_pmono _ []).
  - pose proof nil_lq. destruct SYS. eapply (OpN_pone TA (piA m k qq) VB (IA k) (eq VQ) eqVQ_isqv); eassumption.
Qed.
Lemma MM_zero a : peq (MM a pzero) pzero.
Proof. etransitivity; [apply (sys_scale_r (k := k) a pzero 0%Qc)|]. intros mo. rewrite coef_pscale. cbn. ring. Qed.
Lemma MM_sum (f : nat -> poly) l c : (forall x, vp (f x)) -> lq c -> peq (MM (psumf f l) c) (psumf (fun x => MM (f x) c) l).
Proof.
  intros Hf Hc. assert (Hs : forall l, vp (psumf f l)).
  { intros l'. induction l' as [|x l' IH]; [intros mo Hmo; exfalso; apply Hmo; reflexivity|]. rewrite psumf_cons. apply supp_padd; auto. }
  induction l as [|x l IH]; [apply MM_zero_l|]. rewrite !psumf_cons. etransitivity; [apply (sys_add_l SYS); auto|]. rewrite <- IH. reflexivity.
Qed.
Lemma XX_S n : peq (XX (S n)) (psumf (fun i => pscale (sign (i + n)) (MM (h (Z.of_nat (S n) - Z.of_nat i)) (XX i))) (seq 0 (S n))).
Proof.
  unfold XX at 1. etransitivity; [apply (sys_peq (k := k)); [apply EE_S|reflexivity]|].
  change (M TA (piA m k qq) k (giam_fuel (gA m k))) with MM. rewrite MM_sum; auto using nil_lq.
  - apply psumf_ext. intros i _. etransitivity.
    + apply (sys_scale_l SYS); auto using nil_lq. eapply vpoly_pmul; [apply h_vp|apply EE_vp].
    + apply pscale_proper; auto. apply (sys_pmul SYS); auto using nil_lq, h_vp, EE_vp.
  - intros x. apply supp_pscale. eapply vpoly_pmul; [apply h_vp|apply EE_vp].
Qed.

Definition Xval (d : nat) : poly :=
  if Z.of_nat d <=? m then pS (repeat 1 d)
  else if qq && (Z.of_nat d =? m + k) then pscale (sign (Z.to_nat (k - 1))) (pmul (pvar VQ) (pS [])) else pzero.

Lemma X_val d : Z.of_nat d <= m + k -> peq (XX d) (Xval d).
Proof.
  induction d as [d IH] using (well_founded_induction lt_wf). intros Hd. destruct d as [|n].
  - rewrite XX_0. unfold Xval. destruct (Z.leb_spec (Z.of_nat 0) m); [reflexivity|lia].
  - rewrite XX_S. set (N := Z.of_nat (S n)).
    set (s := Nat.min n (Z.to_nat m)).
    assert (ES : seq 0 (S n) = seq 0 (S s) ++ seq (S s) (n - s)) by (etransitivity; [|exact (seq_app (S s) (n - s) 0)]; f_equal; lia).
    rewrite ES, psumf_app.
    rewrite (psumf_zero _ (seq (S s) (n - s))).
    2:{ intros x Hx. apply in_seq in Hx. assert (Hx1 : m < Z.of_nat x) by lia. assert (E : peq (XX x) pzero).
        { rewrite IH by lia. unfold Xval. destruct (Z.leb_spec (Z.of_nat x) m); [lia|]. destruct (Z.eqb_spec (Z.of_nat x) (m + k)); [lia|].
          rewrite andb_false_r. reflexivity. }
        rewrite E. rewrite MM_zero. rewrite pscale_pmul. ring. }
    assert (E1 : peq (psumf (fun i => pscale (sign (i + n)) (MM (h (N - Z.of_nat i)) (XX i))) (seq 0 (S s)))
      (padd (psumf (fun i => pscale (sign (i + n)) (padd (hook (N - Z.of_nat i) i) (hook' (N - Z.of_nat i) i))) (seq 0 (S s)))
            (psumf (fun i => pscale (sign (i + n)) (qt (N - Z.of_nat i) i)) (seq 0 (S s))))).
    { rewrite <- psumf_add. apply psumf_ext. intros i Hi. apply in_seq in Hi. rewrite IH by lia. unfold Xval.
      destruct (Z.leb_spec (Z.of_nat i) m); [|lia]. rewrite h_col by lia. rewrite !pscale_pmul. ring. }
    rewrite E1, tele. clear E1 ES IH.
    rewrite seq_S, psumf_app. rewrite (psumf_zero _ (seq 0 s)).
    2:{ intros i Hi. apply in_seq in Hi. unfold qt. destruct (Z.eqb_spec (Z.of_nat i) m); [lia|]. rewrite andb_false_r, pscale_pmul. ring. }
    cbn [psumf fold_right Nat.add]. unfold Xval.
    destruct (Z.leb_spec (Z.of_nat (S n)) m) as [HL|HL].
    + replace s with n by lia. unfold hook, qt. replace (N - Z.of_nat n) with 1 by lia.
      destruct (Z.leb_spec 1 k); [|lia]. destruct (Z.ltb_spec (Z.of_nat n) m); [|lia]. destruct (Z.eqb_spec (Z.of_nat n) m); [lia|].
      rewrite andb_false_r. cbn [andb]. assert (Es : sign (n + n) = 1%Qc).
      { unfold sign. replace (n + n)%nat with (2 * n)%nat by lia. rewrite Nat.even_mul. reflexivity. }
      rewrite Es, !pscale_pmul. change (1 :: repeat 1 n) with (repeat 1 (S n)). change (pconst 1%Qc) with pone. ring.
    + assert (Es : Z.of_nat s = m) by lia. unfold hook, qt. destruct (Z.ltb_spec (Z.of_nat s) m); [lia|]. rewrite andb_false_r.
      destruct (Z.eqb_spec (Z.of_nat s) m); [|lia]. rewrite andb_true_r.
      replace (N - Z.of_nat s =? k) with (Z.of_nat (S n) =? m + k) by (destruct (Z.eqb_spec (Z.of_nat (S n)) (m + k)), (Z.eqb_spec (N - Z.of_nat s) k); lia).
      destruct (Z.eqb_spec (Z.of_nat (S n)) (m + k)); [|rewrite andb_false_r, !pscale_pmul; ring].
      rewrite andb_true_r. destruct qq; [|rewrite !pscale_pmul; ring].
      replace (sign (s + n)) with (sign (Z.to_nat (k - 1))).
      * rewrite !pscale_pmul. ring.
      * unfold sign. replace (s + n)%nat with (Z.to_nat (k - 1) + 2 * s)%nat by lia. rewrite Nat.even_add_mul_2. reflexivity.
Qed.
End S.

Lemma c63 m n g d : Grassmannian m n = Ok g -> 1 <= m < n -> Z.of_nat d <= n ->
  exists r s, toS g (jacobi_trudi (n - m) (repeat 1 d)) = Ok r /\ qtoS g (jacobi_trudi (n - m) (repeat 1 d)) = Ok s /\
    (Z.of_nat d <= m -> peq r (pS (repeat 1 d)) /\ peq s (pS (repeat 1 d))) /\
    (m < Z.of_nat d -> peq r pzero) /\
    (m < Z.of_nat d < n -> peq s pzero) /\
    (Z.of_nat d = n -> peq s (pscale (sign (Z.to_nat (n - m - 1))) (pmul (pvar VQ) (pS [])))).
Proof.
  intros Hg Hm Hd. apply gr_inv in Hg. destruct Hg as (_ & Hk & ->). assert (Hm1 : 1 <= m) by lia. assert (Hk1 : 1 <= n - m) by lia.
  assert (HP : forall qq, exists r, prod TA (piA m (n - m) qq) (n - m) (giam_fuel (gA m (n - m))) (jacobi_trudi (n - m) (repeat 1 d)) (pS []) = Ok r /\
    peq r (Xval m (n - m) qq d)).
  { intros qq. destruct (api_prod (sysA m (n - m) Hm1 Hk qq) (jacobi_trudi (n - m) (repeat 1 d)) (pS [])) as (r & E & Pr & _).
    - apply poly_in_iff. eapply supp_peq; [symmetry; apply EE_jt|]. apply EE_vp; auto.
    - apply lin_comb_pS, in_box_nil; lia.
    - exists r. split; auto. rewrite Pr, EE_jt. apply (X_val m (n - m) Hm1 Hk1 qq d). lia. }
  destruct (HP false) as (r & Er & Pr). destruct (HP true) as (s & Es & Ps). exists r, s. split; [exact Er|]. split; [exact Es|].
  unfold Xval in *. cbn [andb] in *. destruct (Z.leb_spec (Z.of_nat d) m) as [HL|HL].
  - repeat split; auto; lia.
  - split; [lia|]. split; [auto|]. destruct (Z.eqb_spec (Z.of_nat d) (m + (n - m))); split; auto; lia.
Qed.
