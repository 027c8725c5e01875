(** The quadratic relations of the (quantum) cohomology rings of IG(n-k,2n) and
    OG(n-k,2n+1). *)

From Coq Require Import ZArith List Lia Bool Permutation QArith Qcanon Setoid Morphisms.
From Verif Require Import Py OrderFacts PyFacts ModelPart ModelQcalc ModelPoly ModelStr ModelGr Spec SpecDet SpecRel
  SpecPieri PolyFacts SuppFacts OpTheory Enum FillFacts PartFacts PieriCoef GrInv WSum Sys Sys2 SysApi Transfer
  CoefSys CommC CommB RingC RingB RingData ApiRing CompsBound DetFacts ConjFacts ExprFacts TwoRows.
Import ListNotations.
Open Scope Z_scope.

(** ** sums *)
Definition qsumf {A} (f : A -> Qc) (l : list A) : Qc := fold_right (fun x s => (f x + s)%Qc) 0%Qc l.
Lemma qsumf_cons {A} (f : A -> Qc) x l : qsumf f (x :: l) = (f x + qsumf f l)%Qc.
Proof. reflexivity. Qed.
Lemma qsumf_nil {A} (f : A -> Qc) : qsumf f [] = 0%Qc.
Proof. reflexivity. Qed.
Lemma qsumf_app {A} (f : A -> Qc) l l' : qsumf f (l ++ l') = (qsumf f l + qsumf f l')%Qc.
Proof. induction l as [|x l IH]; cbn [app]; [rewrite qsumf_nil; ring|]. rewrite !qsumf_cons, IH. ring. Qed.
Lemma qsumf_ext {A} (f g : A -> Qc) l : (forall x, In x l -> f x = g x) -> qsumf f l = qsumf g l.
Proof. intros H. induction l as [|x l IH]; [reflexivity|]. rewrite !qsumf_cons, (H x) by (left; auto). rewrite IH by (intros; apply H; right; auto). reflexivity. Qed.
Lemma qsumf_zero {A} (f : A -> Qc) l : (forall x, In x l -> f x = 0%Qc) -> qsumf f l = 0%Qc.
Proof. intros H. induction l as [|x l IH]; [reflexivity|]. rewrite !qsumf_cons, (H x) by (left; auto). rewrite IH by (intros; apply H; right; auto). ring. Qed.
Lemma qsumf_S f N : qsumf f (seq 0 (S (S N))) = (qsumf f (seq 0 (S N)) + f (S N))%Qc.
Proof. rewrite (seq_S (S N)), qsumf_app, qsumf_cons, qsumf_nil. change (0 + S N)%nat with (S N). ring. Qed.

Lemma qcoefs_psumf {A} (w : A -> Qc) (f : A -> poly) (W : A -> nat -> list Z -> Qc) l : (forall x, In x l -> qcoefs (f x) (W x)) ->
  qcoefs (psumf (fun x => pscale (w x) (f x)) l) (fun d mu => qsumf (fun x => (w x * W x d mu)%Qc) l).
Proof.
  induction l as [|x l IH]; intros H.
  - split; [reflexivity|]. intros mo Hmo. exfalso. apply Hmo. reflexivity.
  - rewrite psumf_cons. apply (qcoefs_padd _ _ (fun d mu => (w x * W x d mu)%Qc)); [|apply IH; intros; apply H; right; auto].
    destruct (H x (or_introl eq_refl)) as [H1 H2]. split; [intros; rewrite coef_pscale, H1; reflexivity|].
    intros mo Hmo. apply H2. intros E. apply Hmo. rewrite coef_pscale, E. ring.
Qed.
Definition eqbl (l l' : list Z) : bool := if list_eq_dec Z.eq_dec l l' then true else false.
Lemma eqbl_iff l l' : eqbl l l' = true <-> l = l'.
Proof. unfold eqbl. destruct (list_eq_dec Z.eq_dec l l'); split; congruence. Qed.
Lemma qcoefs_single e l c p : peq p (pscale c (pmono (qS e l))) -> qcoefs p (fun d mu => if (d =? e)%nat && eqbl mu l then c else 0%Qc).
Proof.
  intros E. eapply qcoefs_peq; [symmetry; exact E|]. assert (HC : forall mo, coef (pmono (qS e l)) mo = if mono_eqb (qS e l) mo then 1%Qc else 0%Qc).
  { intros mo. unfold pmono. simpl. destruct (mono_eqb (qS e l) mo); ring. }
  split.
  - intros d mu. rewrite coef_pscale, HC. destruct (mono_eqb (qS e l) (qS d mu)) eqn:EB.
    + apply mono_eqb_perm in EB. apply Sys.qS_inj in EB. destruct EB as [-> ->]. rewrite Nat.eqb_refl, (proj2 (eqbl_iff mu mu) eq_refl). cbn [andb]. ring.
    + destruct (Nat.eqb_spec d e) as [->|]; cbn [andb]; [|ring]. destruct (eqbl mu l) eqn:EL; [|ring]. apply eqbl_iff in EL. subst.
      rewrite (proj2 (mono_eqb_perm _ _)) in EB by apply Permutation_refl. discriminate.
  - intros mo Hmo. rewrite coef_pscale, HC in Hmo. exists e, l. destruct (mono_eqb (qS e l) mo) eqn:EB; [|exfalso; apply Hmo; ring].
    apply mono_eqb_perm in EB. apply Permutation_sym. exact EB.
Qed.
Lemma qcoefs_zero W : (forall d mu, W d mu = 0%Qc) -> qcoefs pzero W.
Proof. intros H. split; [intros; rewrite H; reflexivity|]. intros mo Hmo. exfalso. apply Hmo. reflexivity. Qed.
Lemma pmono_q1 l : peq (pmul (pvar VQ) (pS l)) (pscale 1%Qc (pmono (qS 1 l))).
Proof.
  unfold qS. cbn [repeat]. rewrite (pmono_perm [vS l; VQ] ([VQ] ++ [vS l])) by apply perm_swap. rewrite pmono_app, pscale_pmul.
  change (pmono [VQ]) with (pvar VQ). change (pmono [vS l]) with (pS l). change (pconst 1%Qc) with pone. ring.
Qed.
Lemma pmono_q2 l : peq (pmul (pvar VQ) (pmul (pvar VQ) (pS l))) (pscale 1%Qc (pmono (qS 2 l))).
Proof.
  unfold qS. cbn [repeat]. rewrite (pmono_perm [vS l; VQ; VQ] ([VQ] ++ [VQ] ++ [vS l])).
  - rewrite !pmono_app, pscale_pmul. change (pmono [VQ]) with (pvar VQ). change (pmono [vS l]) with (pS l). change (pconst 1%Qc) with pone. ring.
  - cbn [app]. etransitivity; [apply perm_swap|]. apply perm_skip. apply perm_swap.
Qed.
Lemma sign_S' n : sign (S n) = (- sign n)%Qc.
Proof. unfold sign. rewrite Nat.even_succ, <- Nat.negb_even. destruct (Nat.even n); cbn [negb]; ring. Qed.

(** the multiplicity of the j-th shape in the i-th product *)
Definition KC (i j : nat) : Qc := if (i <? j)%nat then (1 + 1)%Qc else if (i =? j)%nat then 1%Qc else 0%Qc.
Definition KB (d : Z) (i j : nat) : Qc :=
  if (i <? j)%nat then (if (Z.of_nat i <? d) && (d <=? Z.of_nat j) then 1%Qc else (1 + 1)%Qc) else if (i =? j)%nat then 1%Qc else 0%Qc.
Lemma sum_weight_IG N : qsumf weight_IG (seq 0 (S N)) = sign N.
Proof. induction N as [|N IH]; [unfold qsumf, sign; cbn; ring|]. rewrite qsumf_S, IH. unfold weight_IG. cbn [Nat.eqb]. rewrite sign_S'. ring. Qed.
Lemma sum_KC j N : (1 <= j)%nat -> qsumf (fun i => (weight_IG i * KC i j)%Qc) (seq 0 (S N)) = if (N <? j)%nat then ((1 + 1) * sign N)%Qc else 0%Qc.
Proof.
  intros Hj. induction N as [|N IH].
  - cbn [seq]. rewrite qsumf_cons, qsumf_nil. unfold weight_IG, KC, sign. destruct (Nat.ltb_spec 0 j); [|lia]. cbn [Nat.eqb Nat.even]. ring.
  - rewrite qsumf_S, IH. unfold weight_IG, KC. change (S N =? 0)%nat with false. cbv iota. rewrite sign_S'.
    destruct (Nat.ltb_spec N j), (Nat.ltb_spec (S N) j), (Nat.eqb_spec (S N) j); try lia; ring.
Qed.
Lemma sum_KB k r j N : k < r -> (1 <= j)%nat ->
  qsumf (fun i => (weight_OG k r i * KB (r - k) i j)%Qc) (seq 0 (S N)) =
  if (N <? j)%nat then (if r - k <=? Z.of_nat j then sign N else ((1 + 1) * sign N)%Qc) else 0%Qc.
Proof.
  intros Hr Hj. induction N as [|N IH].
  - cbn [seq]. rewrite qsumf_cons, qsumf_nil. unfold weight_OG, KB, sign. destruct (Nat.ltb_spec 0 j); [|lia]. cbn [Nat.eqb orb Nat.even].
    destruct (Z.ltb_spec (Z.of_nat 0) (r - k)); [|lia]. cbn [andb]. destruct (Z.leb_spec (r - k) (Z.of_nat j)); ring.
  - rewrite qsumf_S, IH. unfold weight_OG, KB. change (S N =? 0)%nat with false. cbn [orb]. rewrite sign_S'.
    destruct (Z.leb_spec (r - k) (Z.of_nat (S N))), (Z.leb_spec (r - k) (Z.of_nat j)), (Z.ltb_spec (Z.of_nat (S N)) (r - k)),
      (Nat.ltb_spec N j), (Nat.ltb_spec (S N) j), (Nat.eqb_spec (S N) j); cbn [andb]; try lia; ring.
Qed.

(** ** the value of a quadratic expression *)
Section Q.
Context {t : gtype} {pi : Z -> list Z -> res poly} {V : list Z -> Prop} {I : Z -> Prop} {k : Z} {mu : list Z -> nat} {fuel : nat}.
Hypothesis SYS : pieri_sys t pi V I k mu fuel.
Variable c : Z.
Hypothesis HI : forall i, 1 <= i <= c -> I i /\ V [i] /\ peq (pS [i]) (P pi i []).
Notation MM := (M t pi k fuel).
Notation lq := (supp (linm V (eq VQ))).
Notation vp := (supp (polym V)).
Notation h := (hclass c).
Lemma hq_vp i : vp (h i).
Proof.
  unfold hclass. destruct (i =? 0); [apply supp_pone; [apply polym_inv|constructor]|].
  destruct (Z.ltb_spec 0 i); [destruct (Z.leb_spec i c)|]; cbn [andb]; try (intros mo Hmo; exfalso; apply Hmo; reflexivity).
  apply sys_lq_vp. apply sys_lq_pS. apply HI. lia.
Qed.
Lemma hq_at i : 1 <= i <= c -> h i = pS [i].
Proof. intros Hi. unfold hclass. destruct (Z.eqb_spec i 0); [lia|]. destruct (Z.ltb_spec 0 i); [|lia]. destruct (Z.leb_spec i c); [reflexivity|lia]. Qed.
Definition XQ (a b : Z) : poly := if b <? 0 then pzero else if b =? 0 then pS [a] else P pi b [a].
Lemma pair_val a b : 1 <= a <= c -> b <= c -> peq (MM (pmul (h a) (h b)) (pS [])) (XQ a b).
Proof.
  intros Ha Hb. destruct (HI a Ha) as (_ & HVa & _). assert (Hla : lq (pS [a])) by (apply sys_lq_pS; auto).
  assert (H1 : peq (MM (h a) (pS [])) (pS [a])) by (rewrite hq_at by auto; apply (sys_one SYS); auto).
  unfold XQ. destruct (Z.ltb_spec b 0) as [L|L].
  - unfold hclass at 2. destruct (Z.eqb_spec b 0); [lia|]. destruct (Z.ltb_spec 0 b); [lia|]. cbn [andb].
    etransitivity; [apply (sys_peq (k := k) _ pzero _ (pS [])); [ring|reflexivity]|]. unfold M. reflexivity.
  - destruct (Z.eqb_spec b 0) as [->|N0].
    + rewrite <- H1. apply (sys_peq (k := k)); [|reflexivity]. change (h 0) with pone. ring.
    + destruct (HI b ltac:(lia)) as (HIb & HVb & Eb).
      etransitivity; [apply (sys_peq (k := k) _ (pmul (h b) (h a)) _ (pS [])); [ring|reflexivity]|].
      rewrite (sys_pmul SYS) by (try apply hq_vp; apply (sys_lq_one SYS)).
      etransitivity; [apply (sys_peq (k := k)); [reflexivity|exact H1]|]. rewrite hq_at by lia.
      rewrite (sys_pieri SYS b [b] (pS [a])) by auto. apply ext_pS.
Qed.
Lemma MMs_sum (f : nat -> poly) l d : (forall x, vp (f x)) -> lq d -> peq (MM (psumf f l) d) (psumf (fun x => MM (f x) d) l).
Proof.
  intros Hf Hc. assert (Hs : forall l, vp (psumf f l)).
  { intros l'. induction l' as [|x l' IH]; [intros mo Hmo; exfalso; apply Hmo; reflexivity|]. rewrite psumf_cons. apply supp_padd; auto. }
  induction l as [|x l IH]; [unfold M; reflexivity|]. rewrite !psumf_cons. etransitivity; [apply (sys_add_l SYS); auto|]. rewrite <- IH. reflexivity.
Qed.
Lemma quad_vp r w : vp (quadratic c r w).
Proof.
  unfold quadratic. generalize (seq 0 (S (Z.to_nat (c - r)))). intros l. induction l as [|x l IH]; [intros mo Hmo; exfalso; apply Hmo; reflexivity|].
  rewrite psumf_cons. apply supp_padd; auto. apply supp_pscale. eapply vpoly_pmul; apply hq_vp.
Qed.
Lemma quad_val r w : 1 <= r <= c ->
  peq (MM (quadratic c r w) (pS [])) (psumf (fun i => pscale (w i) (XQ (r + Z.of_nat i) (r - Z.of_nat i))) (seq 0 (S (Z.to_nat (c - r))))).
Proof.
  intros Hr. unfold quadratic. rewrite MMs_sum.
  - apply psumf_ext. intros i Hi. apply in_seq in Hi. etransitivity.
    + apply (sys_scale_l SYS); [eapply vpoly_pmul; apply hq_vp|apply (sys_lq_one SYS)].
    + apply pscale_proper; auto. apply pair_val; lia.
  - intros i. apply supp_pscale. eapply vpoly_pmul; apply hq_vp.
  - apply (sys_lq_one SYS).
Qed.
End Q.

(** ** shapes *)
Section Good.
Variables cap rows r : Z.
Definition goodb (mu : list Z) : bool :=
  eqbl mu (row2 (part mu 0) (2 * r - part mu 0)) && (r <? part mu 0) && (part mu 0 <=? cap) && (part mu 0 <=? 2 * r) &&
  ((part mu 0 =? 2 * r) || (2 <=? rows)).
Lemma goodb_iff mu : goodb mu = true <->
  mu = row2 (part mu 0) (2 * r - part mu 0) /\ r < part mu 0 <= cap /\ part mu 0 <= 2 * r /\ (part mu 0 = 2 * r \/ 2 <= rows).
Proof. unfold goodb. rewrite !andb_true_iff, orb_true_iff, eqbl_iff, Z.ltb_lt, !Z.leb_le, Z.eqb_eq. tauto. Qed.
Lemma good_kstrict k mu : 0 <= k -> 1 <= r -> 1 <= rows -> goodb mu = true -> kstrict_in k rows cap mu /\ size mu = 2 * r.
Proof.
  intros Hk Hr Hw H. apply goodb_iff in H. destruct H as (E & H1 & H2 & H3). set (x := part mu 0) in *. rewrite E. clearbody x. subst mu.
  split; [|rewrite size_row2; lia]. split; [split; [apply row2_partition; lia|]|].
  - rewrite length_row2, part_row2_0. destruct (Z.eqb_spec (2 * r - x) 0); lia.
  - intros [|[|j]] Hj; rewrite ?part_row2_0, ?part_row2_1, ?part_row2_2 in *; lia.
Qed.
Lemma good_last mu : goodb mu = true -> part mu 0 = 2 * r -> mu = [2 * r].
Proof. intros G E. apply goodb_iff in G. destruct G as [G _]. rewrite E in G. unfold row2 in G. destruct (Z.eqb_spec (2 * r - 2 * r) 0); [auto|lia]. Qed.
Lemma good_one : 1 <= r -> 2 * r <= cap -> goodb [2 * r] = true.
Proof.
  intros Hr Hc. apply goodb_iff. change (part [2 * r] 0) with (2 * r). split; [|lia]. unfold row2. destruct (Z.eqb_spec (2 * r - 2 * r) 0); [auto|lia].
Qed.
End Good.

Section Terms.
Variables k n r : Z.
Hypothesis Hk : 0 <= k.
Hypothesis Hn : 1 <= n - k.
Variable i : nat.
Hypothesis Hr : k < r.
Hypothesis Hb : 0 <= r - Z.of_nat i.
Notation a := (r + Z.of_nat i).
Notation b := (r - Z.of_nat i).
Lemma term_good mu : pieri_term k n b [a] mu -> goodb (n + k) (n - k) r mu = true /\ a <= part mu 0.
Proof.
  intros (((Hp & Hl & Hc) & Hs) & Hsz & Ha). assert (Hka : k < a) by lia. assert (Ha0 : 0 < a) by lia.
  destruct (arrow_row_inv k a mu Hka Ha0 Hp Ha) as (E & A1 & A2). split; [|exact A1]. apply goodb_iff.
  assert (Esz : part mu 0 + part mu 1 = 2 * r) by (rewrite <- (size_row2 (part mu 0) (part mu 1)), <- E, Hsz; unfold size; cbn [fold_right]; lia).
  specialize (Hs 0%nat ltac:(lia)). replace (2 * r - part mu 0) with (part mu 1) by lia. split; [exact E|].
  rewrite E in Hl at 1. rewrite length_row2 in Hl. destruct (Z.eqb_spec (part mu 1) 0); lia.
Qed.
Lemma good_term mu : goodb (n + k) (n - k) r mu = true -> a <= part mu 0 -> pieri_term k n b [a] mu.
Proof.
  intros H Ha. destruct (good_kstrict (n + k) (n - k) r k mu Hk ltac:(lia) Hn H) as [H1 H2]. split; auto. split; [rewrite H2; unfold size; cbn [fold_right]; lia|].
  apply goodb_iff in H. destruct H as (E & H3 & H4 & H5). rewrite E. apply arrow_two; lia.
Qed.
Lemma term_C mu c : coef_IG k n b 0 [a] mu c -> c = if goodb (n + k) (n - k) r mu then KC i (Z.to_nat (part mu 0 - r)) else 0%Qc.
Proof.
  intros [(HT & N & HN & _ & ->)|(HT & ->)].
  - destruct (term_good mu HT) as [G A]. rewrite G. apply goodb_iff in G. destruct G as (E & G1 & G2 & G3).
    set (x := part mu 0) in *. clearbody x. subst mu.
    pose proof (comp_two_C k a x (2 * r - x) Hk ltac:(lia) ltac:(lia) ltac:(lia) ltac:(lia) ltac:(lia)) as HC.
    rewrite (component_count_unique _ _ _ _ HN HC). unfold KC.
    destruct (Z.ltb_spec a x), (Nat.ltb_spec i (Z.to_nat (x - r))), (Nat.eqb_spec i (Z.to_nat (x - r))); try lia; apply Qc_is_canon; reflexivity.
  - destruct (goodb (n + k) (n - k) r mu) eqn:G; auto. assert (A : part mu 0 < a).
    { apply Z.nle_gt. intros A. apply HT. apply good_term; auto. }
    apply goodb_iff in G. unfold KC. destruct (Nat.ltb_spec i (Z.to_nat (part mu 0 - r))), (Nat.eqb_spec i (Z.to_nat (part mu 0 - r))); try lia. reflexivity.
Qed.
Lemma term_Cq mu c : r <= n + k -> coef_IG k (n + 1) b 1 [a] (n + k + 1 :: mu) c -> a <= n + k ->
  c = if (n + k + 1 <=? 2 * r) && eqbl mu (row (2 * r - (n + k + 1))) then 1%Qc else 0%Qc.
Proof.
  intros Hrn HC Ha.
  assert (HG : (n + k + 1 <=? 2 * r) && eqbl mu (row (2 * r - (n + k + 1))) = goodb (n + 1 + k) (n + 1 - k) r (n + k + 1 :: mu)).
  { apply eq_true_iff_eq. rewrite goodb_iff, andb_true_iff, eqbl_iff, Z.leb_le. change (part (n + k + 1 :: mu) 0) with (n + k + 1).
    unfold row2, row. split.
    - intros [H1 ->]. destruct (2 * r - (n + k + 1) =? 0); split; auto; lia.
    - intros (H1 & H2 & H3 & H4). split; auto. destruct (2 * r - (n + k + 1) =? 0); congruence. }
  rewrite HG. clear HG. assert (Hn' : 1 <= n + 1 - k) by lia.
  destruct HC as [(HT & N & HN & _ & ->)|(HT & ->)].
  - assert (G : goodb (n + 1 + k) (n + 1 - k) r (n + k + 1 :: mu) = true).
    { clear HN N. destruct HT as (((Hp & Hl & Hc) & Hs) & Hsz & Har). assert (Hka : k < a) by lia. assert (Ha0 : 0 < a) by lia.
      destruct (arrow_row_inv k a _ Hka Ha0 Hp Har) as (E & A1 & A2). change (part (n + k + 1 :: mu) 0) with (n + k + 1) in *. apply goodb_iff.
      set (y := part (n + k + 1 :: mu) 1) in *.
      assert (Esz : n + k + 1 + y = 2 * r) by (rewrite <- (size_row2 (n + k + 1) y), <- E, Hsz; unfold size; cbn [fold_right]; lia).
      change (part (n + k + 1 :: mu) 0) with (n + k + 1). replace (2 * r - (n + k + 1)) with y by lia. split; [exact E|]. lia. }
    rewrite G. apply goodb_iff in G. change (part (n + k + 1 :: mu) 0) with (n + k + 1) in G. destruct G as (E & G1 & G2 & G3). rewrite E in HN.
    pose proof (comp_two_C k a (n + k + 1) (2 * r - (n + k + 1)) Hk ltac:(lia) ltac:(lia) ltac:(lia) ltac:(lia) ltac:(lia)) as HC.
    rewrite (component_count_unique _ _ _ _ HN HC). destruct (Z.ltb_spec a (n + k + 1)); [|lia]. apply Qc_is_canon. reflexivity.
  - destruct (goodb (n + 1 + k) (n + 1 - k) r (n + k + 1 :: mu)) eqn:G; auto. exfalso. apply HT.
    destruct (good_kstrict (n + 1 + k) (n + 1 - k) r k _ Hk ltac:(lia) Hn' G) as [H1 H2]. split; auto. split; [rewrite H2; unfold size; cbn [fold_right]; lia|].
    apply goodb_iff in G. change (part (n + k + 1 :: mu) 0) with (n + k + 1) in G. destruct G as (E & H3 & H4 & H5). rewrite E. apply arrow_two; lia.
Qed.
Lemma term_B mu c : coef_OG k n b [a] mu c -> c = if goodb (n + k) (n - k) r mu then KB (r - k) i (Z.to_nat (part mu 0 - r)) else 0%Qc.
Proof.
  intros [(HT & N & HN & HsN & ->)|(HT & ->)].
  - destruct (term_good mu HT) as [G A]. rewrite G. apply goodb_iff in G. destruct G as (E & G1 & G2 & G3).
    set (x := part mu 0) in *. clearbody x. subst mu.
    pose proof (comp_two_B k a x (2 * r - x) Hk ltac:(lia) ltac:(lia) ltac:(lia) ltac:(lia) ltac:(lia)) as HC.
    pose proof (component_count_unique _ _ _ _ HN HC) as EN. subst N. unfold KB.
    destruct (Z.ltb_spec a x), (Z.ltb_spec k (2 * r - x)), (Z.leb_spec b k), (Nat.ltb_spec i (Z.to_nat (x - r))), (Nat.eqb_spec i (Z.to_nat (x - r))),
      (Z.ltb_spec (Z.of_nat i) (r - k)), (Z.leb_spec (r - k) (Z.of_nat (Z.to_nat (x - r)))); cbn [andb]; try lia; apply Qc_is_canon; reflexivity.
  - destruct (goodb (n + k) (n - k) r mu) eqn:G; auto. assert (A : part mu 0 < a).
    { apply Z.nle_gt. intros A. apply HT. apply good_term; auto. }
    apply goodb_iff in G. unfold KB. destruct (Nat.ltb_spec i (Z.to_nat (part mu 0 - r))), (Nat.eqb_spec i (Z.to_nat (part mu 0 - r))); try lia. reflexivity.
Qed.
End Terms.

(** ** IG(n-k,2n) *)
Section IG.
Variables k n r : Z.
Hypothesis Hk : 0 <= k <= n.
Hypothesis Hn : 1 <= n - k.
Hypothesis Hr : k < r <= n + k.
Variable qq : bool.
Definition WC (i d : nat) (mu : list Z) : Qc := match d with
  | O => if goodb (n + k) (n - k) r mu then KC i (Z.to_nat (part mu 0 - r)) else 0%Qc
  | S O => if qq && ((n + k + 1 <=? 2 * r) && eqbl mu (row (2 * r - (n + k + 1)))) then 1%Qc else 0%Qc
  | _ => 0%Qc end.
Lemma XQ_C i : r + Z.of_nat i <= n + k -> qcoefs (XQ (pi := piC k n qq) (r + Z.of_nat i) (r - Z.of_nat i)) (WC i).
Proof.
  intros Hi. unfold XQ. destruct (Z.ltb_spec (r - Z.of_nat i) 0) as [L|L].
  - apply qcoefs_zero. intros [|[|d]] mu; cbn [WC]; auto.
    + destruct (goodb (n + k) (n - k) r mu) eqn:G; auto. apply goodb_iff in G. unfold KC.
      destruct (Nat.ltb_spec i (Z.to_nat (part mu 0 - r))), (Nat.eqb_spec i (Z.to_nat (part mu 0 - r))); try lia. reflexivity.
    + destruct (Z.leb_spec (n + k + 1) (2 * r)); [lia|]. rewrite andb_false_r. reflexivity.
  - destruct (Z.eqb_spec (r - Z.of_nat i) 0) as [E0|N0].
    + replace (r + Z.of_nat i) with (2 * r) by lia. eapply qcoefs_ext; [|apply (qcoefs_single 0 [2 * r] 1%Qc)].
      2:{ unfold qS. cbn [repeat]. rewrite pscale_pmul. change (pmono [vS [2 * r]]) with (pS [2 * r]). change (pconst 1%Qc) with pone. ring. }
      intros [|[|d]] mu; cbn [Nat.eqb andb WC]; auto.
      * destruct (goodb (n + k) (n - k) r mu) eqn:G.
        -- destruct (Z.eq_dec (part mu 0) (2 * r)) as [E|E].
           ++ rewrite (good_last _ _ _ _ G E) at 1. rewrite (proj2 (eqbl_iff _ _) eq_refl). unfold KC.
              destruct (Nat.ltb_spec i (Z.to_nat (part mu 0 - r))), (Nat.eqb_spec i (Z.to_nat (part mu 0 - r))); try lia. reflexivity.
           ++ destruct (eqbl mu [2 * r]) eqn:EL; [apply eqbl_iff in EL; subst mu; cbn in E; lia|]. apply goodb_iff in G. unfold KC.
              destruct (Nat.ltb_spec i (Z.to_nat (part mu 0 - r))), (Nat.eqb_spec i (Z.to_nat (part mu 0 - r))); try lia. reflexivity.
        -- destruct (eqbl mu [2 * r]) eqn:EL; auto. apply eqbl_iff in EL. subst mu. rewrite good_one in G by lia. discriminate.
      * destruct (Z.leb_spec (n + k + 1) (2 * r)); [lia|]. rewrite andb_false_r. reflexivity.
    + destruct (piC_coefs k n qq (r - Z.of_nat i) [r + Z.of_nat i] Hk) as (p & W & E & HQ & H0 & H1 & H2); [apply kstrict_row1; lia|lia|].
      unfold P. rewrite E. eapply qcoefs_ext; [|exact HQ]. intros [|[|d]] mu; cbn [WC].
      * apply (term_C k n r); auto; lia.
      * specialize (H1 mu). destruct qq; cbn [andb]; auto. apply (term_Cq k n r) with (i := i); auto; lia.
      * apply H2. lia.
Qed.
Definition rhsC : poly :=
  if qq && (n + k + 1 <=? 2 * r) then pscale (sign (Z.to_nat (n + k - r))) (pmul (pvar VQ) (pS (row (2 * r - (n + k + 1))))) else pzero.
Lemma sum_C : peq (psumf (fun i => pscale (weight_IG i) (XQ (pi := piC k n qq) (r + Z.of_nat i) (r - Z.of_nat i))) (seq 0 (S (Z.to_nat (n + k - r))))) rhsC.
Proof.
  set (N := Z.to_nat (n + k - r)).
  assert (HW : qcoefs (psumf (fun i => pscale (weight_IG i) (XQ (pi := piC k n qq) (r + Z.of_nat i) (r - Z.of_nat i))) (seq 0 (S N)))
    (fun d mu => if (d =? 1)%nat && (qq && ((n + k + 1 <=? 2 * r) && eqbl mu (row (2 * r - (n + k + 1))))) then sign N else 0%Qc)).
  { eapply qcoefs_ext; [|apply (qcoefs_psumf weight_IG _ WC); intros i Hi; apply in_seq in Hi; apply XQ_C; lia].
    intros [|[|d]] mu; cbn [Nat.eqb andb WC].
    - destruct (goodb (n + k) (n - k) r mu) eqn:G; [|apply qsumf_zero; intros; ring]. apply goodb_iff in G.
      rewrite sum_KC by lia. destruct (Nat.ltb_spec N (Z.to_nat (part mu 0 - r))); [lia|reflexivity].
    - destruct (qq && ((n + k + 1 <=? 2 * r) && eqbl mu (row (2 * r - (n + k + 1))))); [|apply qsumf_zero; intros; ring].
      rewrite <- sum_weight_IG. apply qsumf_ext. intros; ring.
    - apply qsumf_zero; intros; ring. }
  apply (qcoefs_eq _ _ _ HW). unfold rhsC. destruct qq; cbn [andb].
  2:{ apply qcoefs_zero. intros d mu. rewrite andb_false_r. reflexivity. }
  destruct (n + k + 1 <=? 2 * r); cbn [andb]; [|apply qcoefs_zero; intros d mu; rewrite andb_false_r; reflexivity].
  fold N. apply qcoefs_single. rewrite pmono_q1, !pscale_pmul. change (pconst 1%Qc) with pone. ring.
Qed.
Lemma rel_C : peq (M TC (piC k n qq) k (giam_fuel (mkGr TC k n)) (quadratic (n + k) r weight_IG) (pS [])) rhsC.
Proof.
  rewrite <- sum_C. apply (quad_val (sysC k n Hk qq)); [|lia]. intros i Hi. split; [exact Hi|]. split; [apply kstrict_row1; lia|]. apply specialC; auto.
Qed.
Lemma quadC_vp : supp (polym (kstrict_in k (n - k) (n + k))) (quadratic (n + k) r weight_IG).
Proof.
  apply (quad_vp (pi := piC k n qq) (I := IC k n)). intros i Hi. split; [exact Hi|]. split; [apply kstrict_row1; lia|]. apply specialC; auto.
Qed.
End IG.

Lemma c67_IG m N g r : IsotropicGrassmannian m N = Ok g -> 1 <= m -> N / 2 - m < r <= N - m ->
  exists x y, toS g (quadratic (N - m) r weight_IG) = Ok x /\ peq x pzero /\
    qtoS g (quadratic (N - m) r weight_IG) = Ok y /\
    (2 * r <= N - m -> peq y pzero) /\
    (N - m < 2 * r -> peq y (pscale (sign (Z.to_nat (N - m - r))) (pmul (pvar VQ) (pS (row (2 * r - (N - m + 1))))))).
Proof.
  intros Hg Hm Hr. apply ig_inv in Hg. destruct Hg as (n & EN & En & Hmn & ->). rewrite En in Hr. assert (Ek : exists k, k = n - m) by eauto. destruct Ek as [k Ek]. rewrite <- Ek in *.
  assert (Hk : 0 <= k <= n) by lia. assert (EM : N - m = n + k) by lia. rewrite EM in *. clear EM.
  assert (HP : forall qq, exists x, prod TC (piC k n qq) k (giam_fuel (mkGr TC k n)) (quadratic (n + k) r weight_IG) (pS []) = Ok x /\ peq x (rhsC k n r qq)).
  { intros qq. destruct (api_prod (sysC k n Hk qq) (quadratic (n + k) r weight_IG) (pS [])) as (x & E & Px & _).
    - apply poly_in_iff. apply (quadC_vp k n r Hk ltac:(lia) qq).
    - apply lin_comb_pS, kstrict_nil; lia.
    - exists x. split; auto. rewrite Px. apply (rel_C k n r Hk ltac:(lia) ltac:(lia) qq). }
  destruct (HP false) as (x & Ex & Px). destruct (HP true) as (y & Ey & Py). exists x, y. split; [exact Ex|]. split; [exact Px|]. split; [exact Ey|].
  unfold rhsC in Py. cbn [andb] in Py. destruct (Z.leb_spec (n + k + 1) (2 * r)); split; auto; lia.
Qed.

(** ** OG(n-k,2n+1) *)
Section OG.
Variables k n r : Z.
Hypothesis Hk : 0 <= k <= n.
Hypothesis Hn : 1 <= n - k.
Hypothesis Hr : k < r <= n + k.
Variable qq : bool.
Let Hok : okB qq k n. Proof. split; [lia|]. split; lia. Qed.
Definition topB : list Z -> Qc := fun mu => if qq && (r =? n + k) && eqbl mu [] then 1%Qc else 0%Qc.
Definition colB (i : nat) (mu : list Z) : Qc :=
  if qq && (n - k =? 1) && (Z.of_nat (length mu) <=? 1) && goodb (n + 1 + k) 2 r (with_row_and_ones (2 * k) 2 mu)
  then KB (r - k) i (Z.to_nat (part (with_row_and_ones (2 * k) 2 mu) 0 - r)) else 0%Qc.
Definition WB (i d : nat) (mu : list Z) : Qc := match d with
  | O => if goodb (n + k) (n - k) r mu then KB (r - k) i (Z.to_nat (part mu 0 - r)) else 0%Qc
  | S O => if k =? 0 then topB mu else colB i mu
  | S (S O) => if k =? 0 then 0%Qc else topB mu
  | _ => 0%Qc end.
Lemma KB_0 i j : (j < i)%nat -> KB (r - k) i j = 0%Qc.
Proof. intros H. unfold KB. destruct (Nat.ltb_spec i j), (Nat.eqb_spec i j); try lia. reflexivity. Qed.
Lemma KB_1 i : KB (r - k) i i = 1%Qc.
Proof. unfold KB. rewrite Nat.ltb_irrefl, Nat.eqb_refl. reflexivity. Qed.
Lemma term_top i mu c : r + Z.of_nat i <= n + k ->
  (if part [r + Z.of_nat i] 0 =? n + k then coef_OG k n (r - Z.of_nat i) (tl [r + Z.of_nat i]) (n + k :: mu) c else c = 0%Qc) ->
  c = if (r =? n + k) && eqbl mu [] then 1%Qc else 0%Qc.
Proof.
  intros Hi. change (part [r + Z.of_nat i] 0) with (r + Z.of_nat i). cbn [tl]. destruct (Z.eqb_spec (r + Z.of_nat i) (n + k)) as [E|E].
  - intros HC. destruct (Z.eqb_spec r (n + k)) as [Er|Er]; cbn [andb].
    + assert (i = 0%nat) by lia. subst i. replace (r - Z.of_nat 0) with (n + k) in HC by lia. destruct (eqbl mu []) eqn:EL.
      * apply eqbl_iff in EL. subst mu. apply (coef_OG_tl k n (n + k) []); auto. apply kstrict_row1; lia.
      * destruct HC as [(((((HP & _) & _) & _) & Hs & _) & _)|(_ & ->)]; auto. exfalso. destruct mu as [|x t]; [rewrite (proj2 (eqbl_iff _ _) eq_refl) in EL; discriminate|].
        pose proof (HP 1%nat ltac:(cbn; lia)) as H1. change (part (n + k :: x :: t) 1) with x in H1.
        assert (Ht : 0 <= size t).
        { clear - HP. assert (HP' : forall j, (j < length t)%nat -> 0 < part t j) by (intros j Hj; apply (HP (S (S j))); cbn; lia).
          clear HP. unfold size. induction t as [|z t IH]; cbn [fold_right]; [lia|]. pose proof (HP' 0%nat ltac:(cbn; lia)) as H0. change (part (z :: t) 0) with z in H0.
          specialize (IH (fun j Hj => HP' (S j) ltac:(cbn; lia))). lia. }
        unfold size in *. cbn [fold_right] in Hs. lia.
    + destruct HC as [((((HP & _) & _) & Hs & _) & _)|(_ & ->)]; auto. exfalso.
      assert (Ht : 0 <= size mu).
      { clear - HP. destruct HP as [HP _]. assert (HP' : forall j, (j < length mu)%nat -> 0 < part mu j) by (intros j Hj; apply (HP (S j)); cbn; lia).
        clear HP. unfold size. induction mu as [|z t IH]; cbn [fold_right]; [lia|]. pose proof (HP' 0%nat ltac:(cbn; lia)) as H0. change (part (z :: t) 0) with z in H0.
        specialize (IH (fun j Hj => HP' (S j) ltac:(cbn; lia))). lia. }
      unfold size in *. cbn [fold_right] in Hs. lia.
  - intros ->. destruct (Z.eqb_spec r (n + k)); [lia|]. reflexivity.
Qed.
Lemma XQ_B i : r + Z.of_nat i <= n + k -> qcoefs (XQ (pi := piB k n qq) (r + Z.of_nat i) (r - Z.of_nat i)) (WB i).
Proof.
  intros Hi. unfold XQ. destruct (Z.ltb_spec (r - Z.of_nat i) 0) as [L|L].
  - assert (ET : forall mu, topB mu = 0%Qc) by (intros mu; unfold topB; destruct (Z.eqb_spec r (n + k)); [lia|]; rewrite andb_false_r; reflexivity).
    apply qcoefs_zero. intros [|[|[|d]]] mu; cbn [WB]; auto.
    + destruct (goodb (n + k) (n - k) r mu) eqn:G; auto. apply goodb_iff in G. apply KB_0. lia.
    + rewrite ET. destruct (k =? 0); auto. unfold colB. destruct (goodb (n + 1 + k) 2 r (with_row_and_ones (2 * k) 2 mu)) eqn:G; [|rewrite andb_false_r; reflexivity].
      apply goodb_iff in G. rewrite KB_0 by lia. destruct (_ && _); reflexivity.
    + rewrite ET. destruct (k =? 0); auto.
  - destruct (Z.eqb_spec (r - Z.of_nat i) 0) as [E0|N0].
    + assert (ET : forall mu, topB mu = 0%Qc) by (intros mu; unfold topB; destruct (Z.eqb_spec r (n + k)); [lia|]; rewrite andb_false_r; reflexivity).
      replace (r + Z.of_nat i) with (2 * r) by lia. eapply qcoefs_ext; [|apply (qcoefs_single 0 [2 * r] 1%Qc)].
      2:{ unfold qS. cbn [repeat]. rewrite pscale_pmul. change (pmono [vS [2 * r]]) with (pS [2 * r]). change (pconst 1%Qc) with pone. ring. }
      intros [|[|[|d]]] mu; cbn [Nat.eqb andb WB]; auto.
      * destruct (goodb (n + k) (n - k) r mu) eqn:G.
        -- destruct (Z.eq_dec (part mu 0) (2 * r)) as [E|E].
           ++ rewrite (good_last _ _ _ _ G E) at 1. rewrite (proj2 (eqbl_iff _ _) eq_refl).
              replace (Z.to_nat (part mu 0 - r)) with i by lia. rewrite KB_1. reflexivity.
           ++ destruct (eqbl mu [2 * r]) eqn:EL; [apply eqbl_iff in EL; subst mu; cbn in E; lia|]. apply goodb_iff in G. rewrite KB_0 by lia. reflexivity.
        -- destruct (eqbl mu [2 * r]) eqn:EL; auto. apply eqbl_iff in EL. subst mu. rewrite good_one in G by lia. discriminate.
      * rewrite ET. destruct (k =? 0); auto. unfold colB. destruct (Z.eqb_spec (n - k) 1); [lia|]. rewrite andb_false_r. reflexivity.
      * rewrite ET. destruct (k =? 0); auto.
    + destruct (piB_coefs k n qq (r - Z.of_nat i) [r + Z.of_nat i] Hok) as (p & W & E & HQ & H0 & H1 & H2); [apply kstrict_row1; lia|].
      unfold P. rewrite E. eapply qcoefs_ext; [|exact HQ]. intros [|[|[|d]]] mu; cbn [WB].
      * apply (term_B k n r); auto; lia.
      * specialize (H1 mu). unfold topB, colB. destruct qq; cbn [andb]; [|destruct H1 as [-> _]; destruct (k =? 0); auto].
        destruct (k =? 0); [apply (term_top i); auto; apply H1|]. destruct H1 as [H1 _]. cbn [length] in H1. change (Z.of_nat 1) with 1 in H1.
        rewrite (Z.eqb_sym 1 (n - k)) in H1. destruct (Z.eqb_spec (n - k) 1) as [E1|E1]; cbn [andb] in *; auto. rewrite E1 in H1.
        destruct (Z.of_nat (length mu) <=? 1); cbn [andb] in *; auto. apply (term_B k (n + 1) r) in H1; try lia.
        rewrite H1. replace (n + 1 - k) with 2 by lia. reflexivity.
      * specialize (H1 mu). unfold topB. destruct qq; cbn [andb]; [|destruct H1 as [_ ->]; destruct (k =? 0); auto].
        destruct (k =? 0); [apply H1|]. apply (term_top i); auto. apply H1.
      * apply H2. lia.
Qed.
Definition rhsB : poly :=
  if qq && (r =? n + k) then (if k =? 0 then pmul (pvar VQ) (pS []) else pmul (pvar VQ) (pmul (pvar VQ) (pS []))) else pzero.
Lemma sum_B : peq (psumf (fun i => pscale (weight_OG k r i) (XQ (pi := piB k n qq) (r + Z.of_nat i) (r - Z.of_nat i))) (seq 0 (S (Z.to_nat (n + k - r))))) rhsB.
Proof.
  set (N := Z.to_nat (n + k - r)).
  assert (HW : qcoefs (psumf (fun i => pscale (weight_OG k r i) (XQ (pi := piB k n qq) (r + Z.of_nat i) (r - Z.of_nat i))) (seq 0 (S N)))
    (fun d mu => if (d =? (if (k =? 0)%Z then 1 else 2))%nat && eqbl mu [] then (if qq && (r =? n + k) then 1%Qc else 0%Qc) else 0%Qc)).
  { eapply qcoefs_ext; [|apply (qcoefs_psumf (weight_OG k r) _ WB); intros i Hi; apply in_seq in Hi; apply XQ_B; lia].
    assert (HT : forall mu, qsumf (fun x => (weight_OG k r x * topB mu)%Qc) (seq 0 (S N)) = if eqbl mu [] then (if qq && (r =? n + k) then 1%Qc else 0%Qc) else 0%Qc).
    { intros mu. unfold topB. destruct (Z.eqb_spec r (n + k)) as [Er|Er].
      - replace N with 0%nat by lia. cbn [seq]. rewrite qsumf_cons, qsumf_nil. unfold weight_OG. cbn [Nat.eqb orb]. unfold sign. cbn [Nat.even].
        rewrite andb_true_r. destruct qq; cbn [andb]; destruct (eqbl mu []); ring.
      - rewrite andb_false_r. cbn [andb]. rewrite qsumf_zero by (intros; ring). destruct (eqbl mu []); reflexivity. }
    assert (HC : forall mu, qsumf (fun x => (weight_OG k r x * colB x mu)%Qc) (seq 0 (S N)) = 0%Qc).
    { intros mu. unfold colB. destruct (Z.leb_spec (Z.of_nat (length mu)) 1); [|apply qsumf_zero; intros; rewrite !andb_false_r; cbn [andb]; ring].
      destruct (Z.eqb_spec (n - k) 1); [|apply qsumf_zero; intros; rewrite !andb_false_r; cbn [andb]; ring].
      destruct qq; cbn [andb]; [|apply qsumf_zero; intros; ring].
      destruct (goodb (n + 1 + k) 2 r (with_row_and_ones (2 * k) 2 mu)) eqn:G; [|apply qsumf_zero; intros; ring]. apply goodb_iff in G.
      rewrite sum_KB by lia. change (part (with_row_and_ones (2 * k) 2 mu) 0) with (2 * k + Z.of_nat (length mu)) in *.
      destruct (Nat.ltb_spec N (Z.to_nat (2 * k + Z.of_nat (length mu) - r))); [lia|reflexivity]. }
    intros [|[|[|d]]] mu; cbn [WB].
    - replace (0 =? (if (k =? 0)%Z then 1 else 2))%nat with false by (destruct (k =? 0); reflexivity). cbn [andb].
      destruct (goodb (n + k) (n - k) r mu) eqn:G; [|apply qsumf_zero; intros; ring]. apply goodb_iff in G.
      rewrite sum_KB by lia. destruct (Nat.ltb_spec N (Z.to_nat (part mu 0 - r))); [lia|reflexivity].
    - destruct (k =? 0); cbn [Nat.eqb andb]; [apply HT|apply HC].
    - destruct (k =? 0); cbn [Nat.eqb andb]; [apply qsumf_zero; intros; ring|apply HT].
    - destruct (k =? 0); cbn [Nat.eqb andb]; apply qsumf_zero; intros; ring. }
  apply (qcoefs_eq _ _ _ HW). unfold rhsB.
  destruct (qq && (r =? n + k)); [|apply qcoefs_zero; intros d mu; destruct (_ && _); reflexivity].
  destruct (k =? 0); apply qcoefs_single; [apply pmono_q1|apply pmono_q2].
Qed.
Lemma rel_B : peq (M TB (piB k n qq) k (giam_fuel (mkGr TB k n)) (quadratic (n + k) r (weight_OG k r)) (pS [])) rhsB.
Proof.
  rewrite <- sum_B. apply (quad_val (sysB k n qq Hok)); [|lia]. intros i Hi. split; [exact Hi|]. split; [apply kstrict_row1; lia|]. apply specialB; auto; lia.
Qed.
Lemma quadB_vp : supp (polym (kstrict_in k (n - k) (n + k))) (quadratic (n + k) r (weight_OG k r)).
Proof.
  apply (quad_vp (pi := piB k n qq) (I := IC k n)). intros i Hi. split; [exact Hi|]. split; [apply kstrict_row1; lia|]. apply specialB; auto; lia.
Qed.
End OG.

Lemma c67_OG m N g r : OrthogonalGrassmannian m N = Ok g -> Z.odd N = true -> 1 <= m <= N / 2 -> N / 2 - m < r <= N - 1 - m ->
  exists x y, toS g (quadratic (N - 1 - m) r (weight_OG (N / 2 - m) r)) = Ok x /\ peq x pzero /\
    qtoS g (quadratic (N - 1 - m) r (weight_OG (N / 2 - m) r)) = Ok y /\
    (r < N - 1 - m -> peq y pzero) /\
    (r = N - 1 - m -> peq y (if m =? N / 2 then pmul (pvar VQ) (pS []) else pmul (pvar VQ) (pmul (pvar VQ) (pS [])))).
Proof.
  intros Hg HN Hm Hr. assert (Ev : Z.even N = false) by (rewrite <- Z.negb_odd, HN; reflexivity).
  destruct (og_inv m N g Hg ltac:(lia)) as [(n & EN & En & _ & Hmn & ->)|(n & _ & _ & Ev' & _)]; [|congruence]. clear Hg.
  rewrite En in *. assert (Ek : exists k, k = n - m) by eauto. destruct Ek as [k Ek]. rewrite <- Ek in *.
  assert (Hk : 0 <= k <= n) by lia. assert (EM : N - 1 - m = n + k) by lia. rewrite EM in *. clear EM.
  assert (Hok : forall qq, okB qq k n) by (intros; split; [lia|]; split; lia).
  assert (HP : forall qq, exists x, prod TB (piB k n qq) k (giam_fuel (mkGr TB k n)) (quadratic (n + k) r (weight_OG k r)) (pS []) = Ok x /\ peq x (rhsB k n r qq)).
  { intros qq. destruct (api_prod (sysB k n qq (Hok qq)) (quadratic (n + k) r (weight_OG k r)) (pS [])) as (x & E & Px & _).
    - apply poly_in_iff. apply (quadB_vp k n r Hk ltac:(lia) qq).
    - apply lin_comb_pS, kstrict_nil; lia.
    - exists x. split; auto. rewrite Px. apply (rel_B k n r Hk ltac:(lia) ltac:(lia) qq). }
  destruct (HP false) as (x & Ex & Px). destruct (HP true) as (y & Ey & Py). exists x, y. split; [exact Ex|]. split; [exact Px|]. split; [exact Ey|].
  unfold rhsB in Py. cbn [andb] in Py. replace (m =? n) with (k =? 0) by lia.
  destruct (Z.eqb_spec r (n + k)); split; auto; lia.
Qed.
