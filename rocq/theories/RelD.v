(** The quadratic relations of OG(m,2n+2): the lemmas behind PropsRelD.v. *)

From Coq Require Import ZArith List Lia Bool Permutation QArith Qcanon Setoid Morphisms.
From Verif Require Import Py OrderFacts PyFacts ModelPart ModelQcalc ModelPoly ModelStr ModelGr Spec SpecPieri SpecDet SpecRel SpecTwo SpecTwoD SpecRelD
  PolyFacts SuppFacts OpTheory WSum Sys Sys2 RingC RingB ApiRing CoefSys CommC CommB GrInv DetFacts GiamDet ConjFacts FactsA PieriCoef PieriD QPieriD Transfer SysApi RingData CompsBound ExprFacts
  TwoRows TwoRows2 RelBC GiamTwo TwoRowsD GiamTwoD RingD RingD0 ApiRingD.
Import ListNotations.
Open Scope Z_scope.

Lemma psumf_trim f A B : (A <= B)%nat -> (forall i, (A < i)%nat -> peq (f i) pzero) -> peq (psumf f (seq 0 (S B))) (psumf f (seq 0 (S A))).
Proof.
  intros H Hf. replace (S B) with (S A + (B - A))%nat by lia. rewrite seq_app, psumf_app.
  rewrite (psumf_zero _ (seq (0 + S A) _)); [ring|]. intros i Hi. apply in_seq in Hi. apply Hf. lia.
Qed.
Lemma all_zero_dec {A} (v : A -> Qc) l : (forall i, In i l -> v i = 0%Qc) \/ (exists i, In i l /\ v i <> 0%Qc).
Proof.
  induction l as [|x l IH]; [left; intros i []|]. destruct (Qc_eq_dec (v x) 0%Qc) as [E|E].
  - destruct IH as [IH|(i & Hi & Ni)]; [left; intros i [<-|Hi]; auto|right; exists i; split; [right|]; auto].
  - right. exists x. split; [left|]; auto.
Qed.

(** ** one coefficient *)
Section Val.
Variables k n : Z.
Hypothesis Hk : 1 <= k <= n.
Notation V := (typed_in k (n + 1 - k) (n + k)).
Lemma coef_val a b p mu v : 1 <= b <= a -> Z.abs p = b -> coef_D k n p [a] mu v ->
  (forall x y, V mu -> shape mu = row2 x y -> x + y = a + b -> 0 <= y <= x -> v = if a <=? x then KD k a b p [a] (type_of k mu) x y else 0%Qc) /\
  (v <> 0%Qc -> exists x y, V mu /\ shape mu = row2 x y /\ x + y = a + b /\ 0 <= y <= x).
Proof.
  intros Hb Hp HC. assert (Hsh : shape [a] = [a]) by (unfold shape; cbn [filter]; replace (0 <? a) with true by lia; reflexivity).
  assert (HS : size [a] = a) by (unfold size; cbn [fold_right]; lia).
  split.
  - intros x y HV Es Hxy Hy. destruct HC as [((H1 & H2 & H3 & H4) & N & HN & _ & ->)|(HT & ->)].
    + pose proof (typed_shape _ _ _ _ H1) as (((HP & _) & _) & _). rewrite Hsh in *. rewrite HS, Hp in H2. rewrite <- (size_shape _ _ _ _ H1) in H2.
      destruct (arrow_row_inv_D k a ltac:(lia) (shape mu) HP ltac:(lia) H3) as (_ & A & _). rewrite Es, part_row2_0 in A.
      destruct (Z.leb_spec a x); [|lia]. rewrite Es in HN.
      pose proof (comp_D k a ltac:(lia) ltac:(lia) x y ltac:(lia) ltac:(lia) ltac:(lia) ltac:(lia)) as HC. pose proof (component_count_unique _ _ _ _ HN HC) as EN. subst N.
      unfold mult_D, KD. rewrite Hp. destruct (Z.eqb_spec (type_of k [a] + type_of k mu) 3); [lia|]. destruct (Z.ltb_spec b k); auto.
      destruct (Z.ltb_spec 0 (compsD k a x y)) as [L|L]; auto.
      assert (y <= k) by (unfold compsD in L; destruct (k <? a), ((a <? x) && (2 * k <? x + y)), ((a <? k) && (k <? x)), (Z.ltb_spec k y); lia).
      rewrite Es, Hsh, not_gaining_two by lia. reflexivity.
    + destruct (Z.leb_spec a x); auto. unfold KD. destruct (Z.eqb_spec (type_of k [a] + type_of k mu) 3); auto. exfalso. apply HT. split; auto.
      split; [rewrite HS, Hp, <- (size_shape _ _ _ _ HV), Es, size_row2; lia|]. split; auto. rewrite Hsh, Es. apply arrow_two_D; lia.
  - intros Hv. destruct (coef_D_supp _ _ _ _ _ _ HC Hv) as (H1 & H2 & H3 & H4).
    pose proof (typed_shape _ _ _ _ H1) as (((HP & _) & _) & _). rewrite Hsh in *. rewrite HS, Hp in H2. rewrite <- (size_shape _ _ _ _ H1) in H2.
    destruct (arrow_row_inv_D k a ltac:(lia) (shape mu) HP ltac:(lia) H3) as (E & A & B). exists (part (shape mu) 0), (part (shape mu) 1).
    split; auto. split; auto. split; [rewrite <- (size_row2 (part (shape mu) 0) (part (shape mu) 1)), <- E; lia|lia].
Qed.
Lemma type_hit mu x y : V mu -> shape mu = row2 x y -> (type_of k mu = 0 /\ hit k x y = false) \/ ((type_of k mu = 1 \/ type_of k mu = 2) /\ hit k x y = true).
Proof.
  intros HV Es. destruct (type_of_cases _ _ _ _ HV) as [(Et & Hin & El)|[(Et & Hin & El)|(Et & Hin & El)]]; rewrite Es, (in_row2 k n 0 Hk) in Hin.
  - left. split; auto. destruct (hit k x y); congruence.
  - right. auto.
  - right. auto.
Qed.
Lemma strict2 mu x y : V mu -> shape mu = row2 x y -> k < y -> y < x.
Proof.
  intros HV Es Hy. pose proof (typed_shape _ _ _ _ HV) as ((((HP & _) & _) & Hs) & _). specialize (Hs 0%nat). rewrite Es, part_row2_0, part_row2_1 in Hs.
  assert (~ x <= y); [|lia]. intros L. assert (k < x \/ x <= k) by lia. 
  assert (y <= x); [|lia]. destruct (typed_shape _ _ _ _ HV) as ((((_ & HD) & _) & _) & _). specialize (HD 0%nat). rewrite Es, part_row2_0, part_row2_1 in HD. lia.
Qed.
Lemma type_row' a : k < a -> type_of k [a] = 0.
Proof. intros Ha. unfold type_of. cbn [existsb last]. replace (k =? a) with false by lia. reflexivity. Qed.

(** the product with the sum of the special classes of degree b *)
Definition coefB (a b : Z) (mu : list Z) (v : Qc) : Prop :=
  if b =? k then exists v1 v2, coef_D k n k [a] mu v1 /\ coef_D k n (- k) [a] mu v2 /\ v = (v1 + v2)%Qc else coef_D k n b [a] mu v.
Section B.
Variable r : Z.
Hypothesis Hr : k < r.
Definition okv (nu : list Z) (i : nat) (v : Qc) : Prop :=
  (forall x y, V nu -> shape nu = row2 x y -> x + y = 2 * r -> 0 <= y <= x -> v = KB (r - k) i (Z.to_nat (x - r))) /\
  (v <> 0%Qc -> exists x y, V nu /\ shape nu = row2 x y /\ x + y = 2 * r /\ 0 <= y <= x).
Lemma KB_eq i j : KB (r - k) i j = if (i <? j)%nat then (if (k <? r - Z.of_nat i) && (r - Z.of_nat j <=? k) then 1%Qc else (1 + 1)%Qc) else if (i =? j)%nat then 1%Qc else 0%Qc.
Proof.
  unfold KB. destruct (i <? j)%nat; auto. destruct (Z.ltb_spec (Z.of_nat i) (r - k)), (Z.ltb_spec k (r - Z.of_nat i)), (Z.leb_spec (r - k) (Z.of_nat j)), (Z.leb_spec (r - Z.of_nat j) k); try lia; reflexivity.
Qed.
Lemma okv_B i nu v : 0 < r - Z.of_nat i -> coefB (r + Z.of_nat i) (r - Z.of_nat i) nu v -> okv nu i v.
Proof.
  intros Hb HC. set (a := r + Z.of_nat i) in *. set (b := r - Z.of_nat i) in *. assert (Ha : k < a) by lia. assert (Hab : a + b = 2 * r) by lia.
  unfold coefB in HC. destruct (Z.eqb_spec b k) as [Eb|Nb].
  - destruct HC as (v1 & v2 & H1 & H2 & ->). destruct (coef_val a b k nu v1 ltac:(lia) ltac:(lia) H1) as (A1 & B1). destruct (coef_val a b (- k) nu v2 ltac:(lia) ltac:(lia) H2) as (A2 & B2). split.
    + intros x y HV Es Hxy Hy. rewrite (A1 x y HV Es ltac:(lia) Hy), (A2 x y HV Es ltac:(lia) Hy). pose proof (type_hit nu x y HV Es) as HT. pose proof (strict2 nu x y HV Es) as HS.
      rewrite KB_eq. fold b. replace (r - Z.of_nat (Z.to_nat (x - r))) with y by lia. unfold KD. rewrite type_row' by auto. rewrite Eb.
      unfold hit in HT. rewrite orb_true_iff, orb_false_iff, !Z.eqb_eq, !Z.eqb_neq in HT. unfold compsD. rewrite Z.ltb_irrefl.
      replace (k <? 0) with false by lia. replace (- k <? 0) with true by lia. destruct (Z.ltb_spec k a); [|lia]. destruct (Z.ltb_spec (2 * k) (x + y)); [|lia]. cbn [andb].
      destruct (Nat.ltb_spec i (Z.to_nat (x - r))), (Nat.eqb_spec i (Z.to_nat (x - r))); try lia.
      * destruct (Z.leb_spec a x); [|lia]. destruct (Z.ltb_spec a x); [|lia]. cbn [andb]. destruct (Z.ltb_spec k y); [lia|]. destruct (Z.eqb_spec (0 + type_of k nu) 3); [lia|]. apply Qc_is_canon; reflexivity.
      * destruct (Z.leb_spec a x); [|lia]. destruct (Z.ltb_spec a x); [lia|]. cbn [andb]. destruct (Z.ltb_spec k y); [lia|]. destruct (Z.eqb_spec (0 + type_of k nu) 3); [lia|].
        assert (y = k) by lia. subst y. rewrite Z.sub_diag. destruct HT as [HT|([E1|E1] & _)]; [lia| |]; rewrite E1; apply Qc_is_canon; reflexivity.
      * destruct (Z.leb_spec a x); [lia|]. ring.
    + intros Hv. replace (2 * r) with (a + b). destruct (Qc_eq_dec v1 0%Qc) as [E1|E1]; [|apply B1; auto]. apply B2. intros E2. apply Hv. rewrite E1, E2. ring.
  - destruct (coef_val a b b nu v ltac:(lia) ltac:(lia) HC) as (A1 & B1). rewrite Hab in *. split; auto. 
    intros x y HV Es Hxy Hy. rewrite (A1 x y HV Es Hxy Hy). pose proof (type_hit nu x y HV Es) as HT. pose proof (strict2 nu x y HV Es) as HS.
    rewrite KB_eq. fold b. replace (r - Z.of_nat (Z.to_nat (x - r))) with y by lia. unfold KD. rewrite type_row' by auto.
    unfold hit in HT. rewrite orb_true_iff, orb_false_iff, !Z.eqb_eq, !Z.eqb_neq in HT. unfold compsD.
    replace (b <? 0) with false by lia. destruct (Z.ltb_spec k a); [|lia]. destruct (Z.ltb_spec (2 * k) (x + y)); [|lia]. rewrite andb_true_r.
    destruct (Nat.ltb_spec i (Z.to_nat (x - r))), (Nat.eqb_spec i (Z.to_nat (x - r))); try lia.
    + destruct (Z.leb_spec a x); [|lia]. destruct (Z.ltb_spec a x); [|lia]. destruct (Z.eqb_spec (0 + type_of k nu) 3); [lia|].
      destruct (Z.ltb_spec k y), (Z.ltb_spec b k), (Z.ltb_spec k b), (Z.leb_spec y k); try lia; cbn [andb]; apply Qc_is_canon; reflexivity.
    + destruct (Z.leb_spec a x); [|lia]. destruct (Z.ltb_spec a x); [lia|]. destruct (Z.eqb_spec (0 + type_of k nu) 3); [lia|].
      assert (y = b) by lia. destruct (Z.ltb_spec k y), (Z.ltb_spec b k); try lia; apply Qc_is_canon; reflexivity.
    + destruct (Z.leb_spec a x); [lia|]. reflexivity.
Qed.
Lemma rel_sum (v : nat -> Qc) nu : (forall i, (i <= Z.to_nat r)%nat -> okv nu i (v i)) ->
  qsumf (fun i => (weight_OG k r i * v i)%Qc) (seq 0 (S (Z.to_nat r))) = 0%Qc.
Proof.
  intros H. destruct (all_zero_dec v (seq 0 (S (Z.to_nat r)))) as [E|(i & Hi & Ni)].
  - apply qsumf_zero. intros i Hi. rewrite (E i Hi). ring.
  - apply in_seq in Hi. destruct (H i ltac:(lia)) as (_ & G). destruct (G Ni) as (x & y & HV & Es & Hxy & Hy).
    assert (Hx : r < x) by (destruct (Z.le_gt_cases x r); [|lia]; pose proof (strict2 nu x y HV Es ltac:(lia)); lia).
    rewrite (qsumf_ext _ (fun i => (weight_OG k r i * KB (r - k) i (Z.to_nat (x - r)))%Qc)).
    + rewrite sum_KB by lia. destruct (Nat.ltb_spec (Z.to_nat r) (Z.to_nat (x - r))); [lia|reflexivity].
    + intros j Hj. apply in_seq in Hj. destruct (H j ltac:(lia)) as (G' & _). rewrite (G' x y HV Es Hxy Hy). reflexivity.
Qed.
End B.

(** *** the relation of degree k *)
Definition okk (nu : list Z) (i : nat) (v : Qc) : Prop :=
  (forall x y, V nu -> shape nu = row2 x y -> x + y = 2 * k -> 0 <= y <= x ->
     v = if (i =? 0)%nat then (if Z.odd (x - k) then 1 else 0)%Qc else if (i <=? Z.to_nat (x - k))%nat then 1%Qc else 0%Qc) /\
  (v <> 0%Qc -> exists x y, V nu /\ shape nu = row2 x y /\ x + y = 2 * k /\ 0 <= y <= x).
Lemma okk_0 nu v : coef_D k n (- k) [k] nu v -> okk nu 0 v.
Proof.
  intros HC. destruct (coef_val k k (- k) nu v ltac:(lia) ltac:(lia) HC) as (A1 & B1). replace (k + k) with (2 * k) in * by lia. split; auto.
  intros x y HV Es Hxy Hy. rewrite (A1 x y HV Es Hxy Hy). pose proof (type_hit nu x y HV Es) as HT.
  unfold hit in HT. rewrite orb_true_iff, orb_false_iff, !Z.eqb_eq, !Z.eqb_neq in HT. change (0 =? 0)%nat with true. cbv iota.
  destruct (Z.leb_spec k x); [|lia]. unfold KD, compsD. rewrite !Z.ltb_irrefl. cbn [andb]. destruct (Z.ltb_spec k y); [lia|]. change (0 <? 0 + 0) with false. cbv iota.
  assert (Et : type_of k [k] = 1) by (unfold type_of; cbn [existsb last]; rewrite Z.eqb_refl; cbn [orb]; destruct (Z.eqb_spec k 0); [lia|reflexivity]). rewrite Et.
  replace (- k <? 0) with true by lia. replace (k - y) with (x - k) by lia. destruct HT as [(E1 & _)|([E1|E1] & HT)]; rewrite E1.
  - change (1 + 0 =? 3) with false. cbv iota. change (Z.max 1 0) with 1. replace (x - k + 1 + 1) with (x - k + 2 * 1) by lia. rewrite Z.odd_add_mul_2. reflexivity.
  - assert (x = k) by lia. subst x. rewrite Z.sub_diag. reflexivity.
  - assert (x = k) by lia. subst x. rewrite Z.sub_diag. reflexivity.
Qed.
Lemma okk_S i nu v : (1 <= i)%nat -> 0 < k - Z.of_nat i -> coef_D k n (k - Z.of_nat i) [k + Z.of_nat i] nu v -> okk nu i v.
Proof.
  intros Hi Hb HC. destruct (coef_val (k + Z.of_nat i) (k - Z.of_nat i) (k - Z.of_nat i) nu v ltac:(lia) ltac:(lia) HC) as (A1 & B1). replace (k + Z.of_nat i + (k - Z.of_nat i)) with (2 * k) in * by lia. split; auto.
  intros x y HV Es Hxy Hy. rewrite (A1 x y HV Es Hxy Hy). pose proof (type_hit nu x y HV Es) as HT. destruct (Nat.eqb_spec i 0); [lia|].
  unfold KD. rewrite type_row' by lia. unfold compsD. rewrite Hxy, Z.ltb_irrefl, andb_false_r. destruct (Z.ltb_spec k (k + Z.of_nat i)); [|lia].
  destruct (Z.ltb_spec (k - Z.of_nat i) k); [|lia]. destruct (Z.ltb_spec k y); [lia|]. destruct (Z.eqb_spec (0 + type_of k nu) 3); [lia|].
  destruct (Z.leb_spec (k + Z.of_nat i) x), (Nat.leb_spec i (Z.to_nat (x - k))); try lia; apply Qc_is_canon; reflexivity.
Qed.
Lemma alt_part J N : qsumf (fun i => (sign i * (if (i <=? J)%nat then 1 else 0))%Qc) (seq 1 N) = if Nat.odd (Nat.min N J) then (-(1))%Qc else 0%Qc.
Proof.
  induction N as [|N IH]; [reflexivity|]. rewrite seq_S, qsumf_app, IH, qsumf_cons, qsumf_nil. change (1 + N)%nat with (S N). rewrite sign_S'. destruct (Nat.leb_spec (S N) J).
  - rewrite !Nat.min_l by lia. rewrite Nat.odd_succ, <- Nat.negb_odd. unfold sign. rewrite <- Nat.negb_odd. destruct (Nat.odd N); cbn [negb]; ring.
  - rewrite !Nat.min_r by lia. ring.
Qed.
Lemma rel_sum_k (v : nat -> Qc) nu : (forall i, (i <= Z.to_nat k)%nat -> okk nu i (v i)) ->
  (v 0%nat + qsumf (fun i => (sign i * v i)%Qc) (seq 1 (Z.to_nat k)))%Qc = 0%Qc.
Proof.
  intros H. destruct (all_zero_dec v (seq 0 (S (Z.to_nat k)))) as [E|(i & Hi & Ni)].
  - rewrite (E 0%nat) by (apply in_seq; lia). rewrite qsumf_zero; [ring|]. intros i Hi. apply in_seq in Hi. rewrite (E i) by (apply in_seq; lia). ring.
  - apply in_seq in Hi. destruct (H i ltac:(lia)) as (_ & G). destruct (G Ni) as (x & y & HV & Es & Hxy & Hy).
    rewrite (proj1 (H 0%nat ltac:(lia)) x y HV Es Hxy Hy). change (0 =? 0)%nat with true. cbv iota.
    rewrite (qsumf_ext _ (fun i => (sign i * (if (i <=? Z.to_nat (x - k))%nat then 1 else 0))%Qc)).
    + rewrite alt_part, Nat.min_r by lia. assert (EO : Nat.odd (Z.to_nat (x - k)) = Z.odd (x - k)).
      { rewrite <- (Z2Nat.id (x - k)) at 2 by lia. set (j := Z.to_nat (x - k)). clearbody j. induction j as [|j IH]; [reflexivity|].
        rewrite Nat2Z.inj_succ, Z.odd_succ, Nat.odd_succ, <- Nat.negb_odd, IH, <- Z.negb_odd. reflexivity. }
      rewrite EO. destruct (Z.odd (x - k)); ring.
    + intros j Hj. apply in_seq in Hj. rewrite (proj1 (H j ltac:(lia)) x y HV Es Hxy Hy). destruct (Nat.eqb_spec j 0); [lia|]. reflexivity.
Qed.
End Val.

(** ** the products of special classes *)
Section Rel.
Variables (k n : Z) (qq : bool).
Hypothesis Hok : okD qq k n.
Notation c := (n + k).
Notation V := (typed_in k (n + 1 - k) (n + k)).
Notation PP := (P (piD k n qq)).
Let Hk : 1 <= k <= n. Proof. exact (proj1 Hok). Qed.
Lemma Vrow a : 1 <= a <= c -> V [a].
Proof. intros Ha. left. apply kstrict_row1'; lia. Qed.
Lemma Vk0 : V [k; 0].
Proof. right. exists [k]. split; [reflexivity|]. split; [lia|]. split; [left; reflexivity|]. apply kstrict_row1'; lia. Qed.
Definition qsup (p : poly) : Prop := forall mo, coef p mo <> 0%Qc -> exists d mu, Permutation mo (qS d mu).
Lemma P_spec p a : 1 <= a <= c -> exists W, (forall d mu, W d mu = coef (PP p [a]) (qS d mu)) /\ qsup (PP p [a]) /\
  (if qq then quantum_D k n p [a] W else (forall nu, coef_D k n p [a] nu (W 0%nat nu)) /\ (forall d nu, (1 <= d)%nat -> W d nu = 0%Qc)).
Proof.
  intros Ha. destruct (piD_coefs k n qq Hok p [a] (Vrow a Ha)) as (r & W & E & (HQ & HQ') & HW). exists W. unfold P. rewrite E. split; [intros; symmetry; apply HQ|]. split; auto.
Qed.
Definition XD (a b : Z) : poly := if c <? a then pzero else if b =? 0 then pS [a] else if b =? k then padd (PP k [a]) (PP (- k) [a]) else PP b [a].
Lemma qsup_pS l : qsup (pS l).
Proof.
  intros mo Hmo. exists 0%nat, l. unfold qS. cbn [repeat]. unfold pS, pvar, pmono in Hmo. cbn in Hmo. destruct (mono_eqb [vS l] mo) eqn:E; [|exfalso; apply Hmo; ring].
  apply mono_eqb_perm in E. apply Permutation_sym. exact E.
Qed.
Lemma qsup_padd p r : qsup p -> qsup r -> qsup (padd p r).
Proof.
  intros H1 H2 mo Hmo. rewrite coef_padd in Hmo. destruct (Qc_eq_dec (coef p mo) 0%Qc) as [E|E]; [|apply H1; auto]. apply H2. intros E'. apply Hmo. rewrite E, E'. ring.
Qed.
Lemma XD_supp a b : 1 <= a -> qsup (XD a b).
Proof.
  intros Ha. unfold XD. destruct (Z.ltb_spec c a); [intros mo Hmo; exfalso; apply Hmo; reflexivity|]. destruct (b =? 0); [apply qsup_pS|].
  assert (HP : forall p, qsup (PP p [a])) by (intros p; destruct (P_spec p a ltac:(lia)) as (W & _ & H' & _); exact H').
  destruct (b =? k); [apply qsup_padd|]; apply HP.
Qed.
Lemma XD_0 a b mu : 1 <= b -> 1 <= a <= c -> coefB k n a b mu (coef (XD a b) (qS 0 mu)).
Proof.
  intros Hb Ha. unfold XD. destruct (Z.ltb_spec c a); [lia|]. destruct (Z.eqb_spec b 0); [lia|].
  assert (HP : forall p, coef_D k n p [a] mu (coef (PP p [a]) (qS 0 mu))).
  { intros p. destruct (P_spec p a ltac:(lia)) as (W & HW & _ & H'). rewrite <- HW. apply (piD_0 k n qq Hok p [a] W H'). }
  unfold coefB. destruct (b =? k); [|apply HP]. exists (coef (PP k [a]) (qS 0 mu)), (coef (PP (- k) [a]) (qS 0 mu)). split; [apply HP|]. split; [apply HP|]. apply coef_padd.
Qed.
Definition nuof (mu : list Z) : list Z := with_row_and_ones_D (2 * k - 1) (n + 2 - k) (swap_type k mu).
Lemma shape_1 a : 1 <= a -> length (shape [a]) = 1%nat.
Proof. intros Ha. unfold shape. cbn [filter]. replace (0 <? a) with true by lia. reflexivity. Qed.
Lemma P_1 p a mu : 1 <= a <= c -> (coef (PP p [a]) (qS 1 mu) = 0%Qc) \/ (V mu /\ qq = true /\ n = k).
Proof.
  intros Ha. destruct (P_spec p a Ha) as (W & HW & _ & H'). rewrite <- HW. destruct (Qc_eq_dec (W 1%nat mu) 0%Qc) as [|Ne]; [left; auto|].
  destruct (piD_supp k n qq Hok p [a] W H' _ _ Ne) as (_ & HV & [Hq|Hq] & _); [discriminate|]. rewrite Hq in H'. destruct H' as (_ & H1 & _). specialize (H1 mu HV).
  rewrite shape_1 in H1 by lia. destruct (Z.eqb_spec (Z.of_nat 1) (n + 1 - k)); [right|left; auto]. split; auto. split; auto. lia.
Qed.
Lemma P_1' p a mu : 1 <= a <= c -> V mu -> qq = true -> n = k -> coef_D k (n + 1) p [a] (nuof mu) (coef (PP p [a]) (qS 1 mu)).
Proof.
  intros Ha HV Hq En. destruct (P_spec p a Ha) as (W & HW & _ & H'). rewrite <- HW. rewrite Hq in H'. destruct H' as (_ & H1 & _). specialize (H1 mu HV).
  rewrite shape_1 in H1 by lia. destruct (Z.eqb_spec (Z.of_nat 1) (n + 1 - k)); [exact H1|lia].
Qed.
Lemma XD_1 a b mu : 1 <= b -> 1 <= a <= c -> V mu -> qq = true -> n = k -> coefB k (n + 1) a b (nuof mu) (coef (XD a b) (qS 1 mu)).
Proof.
  intros Hb Ha HV Hq En. unfold XD. destruct (Z.ltb_spec c a); [lia|]. destruct (Z.eqb_spec b 0); [lia|].
  assert (HP := fun p => P_1' p a mu Ha HV Hq En).
  unfold coefB. destruct (b =? k); [|apply HP]. exists (coef (PP k [a]) (qS 1 mu)), (coef (PP (- k) [a]) (qS 1 mu)). split; [apply HP|]. split; [apply HP|]. apply coef_padd.
Qed.
Lemma coef_pS0 l d mu : coef (pS l) (qS d mu) = if (d =? 0)%nat && eqbl mu l then 1%Qc else 0%Qc.
Proof.
  assert (H : qcoefs (pS l) (fun d mu => if (d =? 0)%nat && eqbl mu l then 1%Qc else 0%Qc)).
  { apply qcoefs_single. unfold qS. cbn [repeat]. rewrite pscale_pmul. change (pmono [vS l]) with (pS l). change (pconst 1%Qc) with pone. ring. }
  apply H.
Qed.
Lemma XD_1z a b mu : 1 <= a -> ~ (V mu /\ qq = true /\ n = k) -> coef (XD a b) (qS 1 mu) = 0%Qc.
Proof.
  intros Ha HN. unfold XD. destruct (Z.ltb_spec c a); [reflexivity|]. destruct (b =? 0); [rewrite coef_pS0; reflexivity|].
  assert (HP : forall p, coef (PP p [a]) (qS 1 mu) = 0%Qc) by (intros p; destruct (P_1 p a mu ltac:(lia)) as [H'|H']; [exact H'|tauto]).
  destruct (b =? k); rewrite ?coef_padd, !HP; ring.
Qed.
Lemma typed_size0 mu : V mu -> size mu <= 0 -> mu = [].
Proof.
  intros HV Hs. rewrite <- (size_shape _ _ _ _ HV) in Hs. pose proof (typed_shape _ _ _ _ HV) as ((((HP & HD) & HL & HC) & _) & Hc).
  assert (Es : shape mu = []).
  { destruct (shape mu) as [|z t]; auto. exfalso. pose proof (HP 0%nat ltac:(cbn; lia)) as H0. change (part (z :: t) 0) with z in H0.
    assert (0 <= size t) by (apply size_nonneg'; intros j Hj; apply (HP (S j)); cbn; lia). unfold size in *. cbn [fold_right] in Hs. lia. }
  rewrite Es in Hc. destruct Hc as [->|(_ & _ & Hin)]; [reflexivity|]. destruct Hin.
Qed.
Lemma typed_size mu : V mu -> 0 <= size mu.
Proof. intros HV. rewrite <- (size_shape _ _ _ _ HV). pose proof (typed_shape _ _ _ _ HV) as ((((HP & _) & _) & _) & _). apply size_nonneg'; auto. Qed.
Lemma P_2 p a d mu : 1 <= a <= c -> p <> - c -> Z.abs p <= a -> (2 <= d)%nat ->
  coef (PP p [a]) (qS d mu) = if qq && (d =? 2)%nat && (a =? c) && (Z.abs p =? c) && eqbl mu [] then 1%Qc else 0%Qc.
Proof.
  intros Ha Hpc Hp Hd. destruct (P_spec p a Ha) as (W & HW & _ & H'). rewrite <- HW.
  assert (HS : size [a] = a) by (unfold size; cbn [fold_right]; lia).
  destruct (qq && (d =? 2)%nat && (a =? c) && (Z.abs p =? c) && eqbl mu []) eqn:EB.
  - rewrite !andb_true_iff, !Z.eqb_eq, eqbl_iff, Nat.eqb_eq in EB. destruct EB as ((((Hq & ->) & Ea) & Eb) & ->). rewrite Hq in H'. destruct H' as (_ & _ & H2 & _). specialize (H2 []).
    change (part [a] 0) with a in H2. rewrite Ea, Z.eqb_refl in H2. cbn [tl] in H2.
    assert (Ec : p = c) by lia. subst p.
    assert (HI : ID k n c) by (left; lia). pose proof (head_special k n qq Hok c HI) as HH. unfold num2spec in HH. destruct (Z.ltb_spec 0 c); [|lia].
    apply (coef_D_head k n qq Hok [c] c [] [c] _ (Vrow c ltac:(lia)) ltac:(left; apply kstrict_nil; lia) HH H2). reflexivity.
  - destruct (Qc_eq_dec (W d mu) 0%Qc) as [|Ne]; auto. exfalso.
    destruct (piD_supp k n qq Hok p [a] W H' _ _ Ne) as (Hd3 & HV & [Hq|Hq] & Hsz); [lia|]. pose proof (typed_size mu HV). assert (d = 2%nat) by lia. subst d. rewrite HS in Hsz.
    assert (a = c) by lia. assert (Z.abs p = c) by lia. assert (mu = []) by (apply typed_size0; auto; lia). subst mu.
    rewrite Hq in EB. replace (a =? c) with true in EB by lia. replace (Z.abs p =? c) with true in EB by lia. rewrite (proj2 (eqbl_iff [] []) eq_refl) in EB. discriminate EB.
Qed.
Lemma XD_2 a b d mu : 1 <= a -> 0 <= b <= a -> k < a -> (2 <= d)%nat -> coef (XD a b) (qS d mu) = if qq && (d =? 2)%nat && (a =? c) && (b =? c) && eqbl mu [] then 1%Qc else 0%Qc.
Proof.
  intros Ha Hb Hka Hd. unfold XD. destruct (Z.ltb_spec c a).
  - destruct (Z.eqb_spec a c); [lia|]. rewrite andb_false_r. reflexivity.
  - destruct (Z.eqb_spec b 0).
    + rewrite coef_pS0. destruct (Nat.eqb_spec d 0); [lia|]. destruct (Z.eqb_spec b c); [lia|]. rewrite andb_false_r. reflexivity.
    + destruct (Z.eqb_spec b k).
      * rewrite coef_padd, !P_2 by lia. replace (Z.abs k =? c) with false by lia. replace (Z.abs (- k) =? c) with false by lia. replace (b =? c) with false by lia. rewrite !andb_false_r. cbn [andb]. ring.
      * rewrite P_2 by lia. replace (Z.abs b) with b by lia. reflexivity.
Qed.
Lemma nu_shape mu : n = k -> V mu -> exists x y, shape (nuof mu) = [x; y] /\ 1 <= y /\ x <= 2 * k.
Proof.
  intros En HV. unfold nuof. replace (n + 2 - k) with 2 by lia. pose proof (typed_shape _ _ _ _ HV) as ((((HP & _) & HL & HC) & _) & Hc). replace (n + 1 - k) with 1 in HL by lia.
  assert (Hs2 : forall x y, 0 < x -> 0 < y -> shape [x; y] = [x; y] /\ shape [x; y; 0] = [x; y]).
  { intros x y Hx Hy. unfold shape. cbn [filter]. replace (0 <? x) with true by lia. replace (0 <? y) with true by lia. auto. }
  destruct (shape mu) as [|z [|z' t]] eqn:Es; [| |cbn [length] in HL; lia].
  - destruct Hc as [->|(_ & _ & [])]. change (swap_type k []) with (@nil Z). exists (2 * k - 1 + 0), 1.
    change (with_row_and_ones_D (2 * k - 1) 2 []) with [2 * k - 1 + 0; 1]. split; [apply Hs2; lia|lia].
  - pose proof (HP 0%nat ltac:(cbn; lia)) as Hz. change (part [z] 0) with z in Hz. exists (2 * k - 1 + 1), z. split; [|lia].
    assert (H1 : with_row_and_ones_D (2 * k - 1) 2 [z] = [2 * k - 1 + 1; z]) by (unfold with_row_and_ones_D; cbn [last]; replace (z =? 0) with false by lia; reflexivity).
    assert (H2 : with_row_and_ones_D (2 * k - 1) 2 [z; 0] = [2 * k - 1 + 1; z; 0]) by reflexivity.
    destruct Hc as [->|(-> & _ & Hin)].
    + unfold swap_type. cbn [existsb last]. replace (z =? 0) with false by lia. destruct (Z.eqb_spec k z); cbn [orb app]; rewrite ?H1, ?H2; apply Hs2; lia.
    + destruct Hin as [->|[]]. unfold swap_type. cbn [app existsb last removelast]. rewrite Z.eqb_refl. cbn [orb]. change (0 =? 0) with true. cbv iota. rewrite H1. apply Hs2; lia.
Qed.
Lemma row2_2 x y x' y' : 1 <= y -> [x; y] = row2 x' y' -> x' = x /\ y' = y.
Proof. unfold row2. intros Hy. destruct (Z.eqb_spec y' 0); intros E; [discriminate|]. injection E as <- <-. auto. Qed.

Section R.
Variable r : Z.
Hypothesis Hr : k < r <= c.
Notation XX i := (XD (r + Z.of_nat i) (r - Z.of_nat i)).
Lemma KB_z i j : (j < i)%nat -> KB (r - k) i j = 0%Qc.
Proof. intros H. unfold KB. destruct (Nat.ltb_spec i j), (Nat.eqb_spec i j); try lia. reflexivity. Qed.
Lemma okv_0 mu i : (i <= Z.to_nat r)%nat -> okv k n r mu i (coef (XX i) (qS 0 mu)).
Proof.
  intros Hi. destruct (Z.ltb_spec c (r + Z.of_nat i)) as [L|L].
  - unfold XD. destruct (Z.ltb_spec c (r + Z.of_nat i)); [|lia]. split; [|intros E; exfalso; apply E; reflexivity].
    intros x y HV Es Hxy Hy. pose proof (typed_shape _ _ _ _ HV) as (((_ & _ & HC) & _) & _). rewrite Es, part_row2_0 in HC. rewrite KB_z by lia. reflexivity.
  - destruct (Z.eq_dec (r - Z.of_nat i) 0) as [E0|N0].
    + unfold XD. destruct (Z.ltb_spec c (r + Z.of_nat i)); [lia|]. rewrite E0. change (0 =? 0) with true. cbv iota. rewrite coef_pS0. change (0 =? 0)%nat with true. cbn [andb].
      replace (r + Z.of_nat i) with (2 * r) in * by lia. split.
      * intros x y HV Es Hxy Hy. destruct (Z.eq_dec y 0) as [->|Ny].
        -- assert (x = 2 * r) by lia. subst x. unfold row2 in Es. change (0 =? 0) with true in Es. cbv iota in Es. pose proof (typed_shape _ _ _ _ HV) as (_ & Hc). rewrite Es in Hc.
           destruct Hc as [->|(_ & _ & [Hin|[]])]; [|lia]. rewrite (proj2 (eqbl_iff _ _) eq_refl). replace (Z.to_nat (2 * r - r)) with i by lia.
           unfold KB. rewrite Nat.ltb_irrefl, Nat.eqb_refl. reflexivity.
        -- rewrite KB_z by lia. destruct (eqbl mu [2 * r]) eqn:EL; auto. apply eqbl_iff in EL. subst mu. exfalso. unfold shape in Es. cbn [filter] in Es.
           replace (0 <? 2 * r) with true in Es by lia. unfold row2 in Es. destruct (Z.eqb_spec y 0); [lia|discriminate Es].
      * intros Hv. destruct (eqbl mu [2 * r]) eqn:EL; [|exfalso; apply Hv; reflexivity]. apply eqbl_iff in EL. subst mu. exists (2 * r), 0. split; [apply Vrow; lia|]. split; [|lia].
        unfold shape. cbn [filter]. replace (0 <? 2 * r) with true by lia. reflexivity.
    + apply okv_B; [exact Hk|lia|lia|]. apply XD_0; lia.
Qed.
Lemma okv_1 mu i : V mu -> qq = true -> n = k -> (i <= Z.to_nat r)%nat -> okv k (n + 1) r (nuof mu) i (coef (XX i) (qS 1 mu)).
Proof.
  intros HV Hq En Hi. destruct (nu_shape mu En HV) as (x0 & y0 & Es0 & Hy0 & Hx0).
  destruct (Z.ltb_spec c (r + Z.of_nat i)) as [L|L].
  - unfold XD. destruct (Z.ltb_spec c (r + Z.of_nat i)); [|lia]. split; [|intros E; exfalso; apply E; reflexivity].
    intros x y HVn Es Hxy Hy. rewrite Es0 in Es. apply row2_2 in Es; [|lia]. rewrite KB_z by lia. reflexivity.
  - destruct (Z.eq_dec (r - Z.of_nat i) 0) as [E0|N0].
    + unfold XD. destruct (Z.ltb_spec c (r + Z.of_nat i)); [lia|]. rewrite E0. change (0 =? 0) with true. cbv iota. rewrite coef_pS0. change (1 =? 0)%nat with false. cbn [andb].
      split; [|intros E; exfalso; apply E; reflexivity].
      intros x y HVn Es Hxy Hy. rewrite Es0 in Es. apply row2_2 in Es; [|lia]. rewrite KB_z by lia. reflexivity.
    + apply okv_B; [lia|lia|lia|]. apply XD_1; auto; lia.
Qed.
Definition rhsD : poly := if qq && (r =? c) then pmul (pvar VQ) (pmul (pvar VQ) (pS [])) else pzero.
Lemma sum_D : peq (psumf (fun i => pscale (weight_OG k r i) (XX i)) (seq 0 (S (Z.to_nat r)))) rhsD.
Proof.
  assert (HW : qcoefs (psumf (fun i => pscale (weight_OG k r i) (XX i)) (seq 0 (S (Z.to_nat r))))
    (fun d mu => if qq && (r =? c) && ((d =? 2)%nat && eqbl mu []) then 1%Qc else 0%Qc)).
  { eapply qcoefs_ext; [|apply (qcoefs_psumf (weight_OG k r) _ (fun i d mu => coef (XX i) (qS d mu)))].
    2:{ intros i Hi. apply in_seq in Hi. split; [reflexivity|]. apply XD_supp. lia. }
    intros d mu. cbv beta. destruct d as [|[|d]].
    - change (0 =? 2)%nat with false. cbn [andb]. rewrite andb_false_r. apply (rel_sum k n Hk r (proj1 Hr) _ mu). intros i Hi. apply okv_0; auto.
    - change (1 =? 2)%nat with false. cbn [andb]. rewrite andb_false_r.
      destruct (all_zero_dec (fun i => coef (XX i) (qS 1 mu)) (seq 0 (S (Z.to_nat r)))) as [E|(i & Hi & Ni)]; [apply qsumf_zero; intros i Hi; rewrite (E i Hi); ring|].
      assert (HH : V mu /\ qq = true /\ n = k).
      { apply in_seq in Hi. unfold XD in Ni. destruct (Z.ltb_spec c (r + Z.of_nat i)); [exfalso; apply Ni; reflexivity|].
        destruct (r - Z.of_nat i =? 0); [exfalso; apply Ni; rewrite coef_pS0; reflexivity|].
        assert (HP : forall p, coef (PP p [r + Z.of_nat i]) (qS 1 mu) = 0%Qc \/ (V mu /\ qq = true /\ n = k)) by (intros p; apply P_1; lia).
        destruct (r - Z.of_nat i =? k).
        - rewrite coef_padd in Ni. destruct (HP k) as [E1|]; auto. destruct (HP (- k)) as [E2|]; auto. exfalso. apply Ni. rewrite E1, E2. ring.
        - destruct (HP (r - Z.of_nat i)) as [E1|]; auto. congruence. }
      destruct HH as (HV & Hq & En). apply (rel_sum k (n + 1) ltac:(lia) r (proj1 Hr) _ (nuof mu)). intros j Hj. apply okv_1; auto.
    - rewrite (qsumf_ext _ (fun i => (weight_OG k r i * (if qq && (S (S d) =? 2)%nat && (r + Z.of_nat i =? c) && (r - Z.of_nat i =? c) && eqbl mu [] then 1 else 0))%Qc)).
      2:{ intros i Hi. apply in_seq in Hi. rewrite XD_2 by lia. reflexivity. }
      cbn [seq]. rewrite qsumf_cons, qsumf_zero.
      + change (Z.of_nat 0) with 0. rewrite Z.add_0_r, Z.sub_0_r. unfold weight_OG. cbn [Nat.eqb orb]. unfold sign. cbn [Nat.even].
        destruct qq, (r =? c), (d =? 0)%nat, (eqbl mu []); cbn [andb]; ring.
      + intros i Hi. apply in_seq in Hi. destruct (Z.eqb_spec (r - Z.of_nat i) c); [lia|]. rewrite andb_false_r. cbn [andb]. ring. }
  apply (qcoefs_eq _ _ _ HW). unfold rhsD. destruct (qq && (r =? c)); cbn [andb]; [|apply qcoefs_zero; reflexivity]. apply qcoefs_single. apply pmono_q2.
Qed.
End R.

(** the relation of degree k *)
Definition XK (i : nat) : poly := if (i =? 0)%nat then PP (- k) [k] else XD (k + Z.of_nat i) (k - Z.of_nat i).
Lemma XK_S i : (1 <= i)%nat -> k + Z.of_nat i <= c -> 0 < k - Z.of_nat i -> XK i = PP (k - Z.of_nat i) [k + Z.of_nat i].
Proof.
  intros Hi Hc Hb. unfold XK, XD. destruct (Nat.eqb_spec i 0); [lia|]. destruct (Z.ltb_spec c (k + Z.of_nat i)); [lia|]. destruct (Z.eqb_spec (k - Z.of_nat i) 0); [lia|].
  destruct (Z.eqb_spec (k - Z.of_nat i) k); [lia|]. reflexivity.
Qed.
Lemma XK_supp i : qsup (XK i).
Proof. unfold XK. destruct (Nat.eqb_spec i 0); [|apply XD_supp; lia]. destruct (P_spec (- k) k ltac:(lia)) as (W & _ & H & _). exact H. Qed.
Lemma okk_0' mu i : (i <= Z.to_nat k)%nat -> okk k n mu i (coef (XK i) (qS 0 mu)).
Proof.
  intros Hi. assert (HP : forall p a, 1 <= a <= c -> coef_D k n p [a] mu (coef (PP p [a]) (qS 0 mu))).
  { intros p a Ha. destruct (P_spec p a Ha) as (W & HW & _ & H'). rewrite <- HW. apply (piD_0 k n qq Hok p [a] W H'). }
  destruct (Nat.eqb_spec i 0) as [->|Ni]; [apply okk_0; auto; apply HP; lia|].
  destruct (Z.eq_dec (k - Z.of_nat i) 0) as [E0|N0].
  - unfold XK, XD. destruct (Nat.eqb_spec i 0); [lia|]. destruct (Z.ltb_spec c (k + Z.of_nat i)); [lia|]. rewrite E0. change (0 =? 0) with true. cbv iota. rewrite coef_pS0. change (0 =? 0)%nat with true. cbn [andb].
    replace (k + Z.of_nat i) with (2 * k) in * by lia. split.
    + intros x y HV Es Hxy Hy. destruct (Nat.eqb_spec i 0); [lia|]. destruct (Z.eq_dec y 0) as [->|Ny].
      * assert (x = 2 * k) by lia. subst x. unfold row2 in Es. change (0 =? 0) with true in Es. cbv iota in Es. pose proof (typed_shape _ _ _ _ HV) as (_ & Hc). rewrite Es in Hc.
        destruct Hc as [->|(_ & _ & [Hin|[]])]; [|lia]. rewrite (proj2 (eqbl_iff _ _) eq_refl). destruct (Nat.leb_spec i (Z.to_nat (2 * k - k))); [reflexivity|lia].
      * destruct (Nat.leb_spec i (Z.to_nat (x - k))); [lia|]. destruct (eqbl mu [2 * k]) eqn:EL; auto. apply eqbl_iff in EL. subst mu. exfalso. unfold shape in Es. cbn [filter] in Es.
        replace (0 <? 2 * k) with true in Es by lia. unfold row2 in Es. destruct (Z.eqb_spec y 0); [lia|discriminate Es].
    + intros Hv. destruct (eqbl mu [2 * k]) eqn:EL; [|exfalso; apply Hv; reflexivity]. apply eqbl_iff in EL. subst mu. exists (2 * k), 0. split; [apply Vrow; lia|]. split; [|lia].
      unfold shape. cbn [filter]. replace (0 <? 2 * k) with true by lia. reflexivity.
  - rewrite XK_S by lia. apply okk_S; [auto|lia|lia|]. apply HP. lia.
Qed.
Lemma okk_1' mu i : V mu -> qq = true -> n = k -> (i <= Z.to_nat k)%nat -> okk k (n + 1) (nuof mu) i (coef (XK i) (qS 1 mu)).
Proof.
  intros HV Hq En Hi. assert (HP : forall p a, 1 <= a <= c -> coef_D k (n + 1) p [a] (nuof mu) (coef (PP p [a]) (qS 1 mu))) by (intros p a Ha; apply P_1'; auto).
  destruct (Nat.eqb_spec i 0) as [->|Ni]; [apply okk_0; [lia|]; apply HP; lia|].
  destruct (Z.eq_dec (k - Z.of_nat i) 0) as [E0|N0].
  - destruct (nu_shape mu En HV) as (x0 & y0 & Es0 & Hy0 & Hx0).
    unfold XK, XD. destruct (Nat.eqb_spec i 0); [lia|]. destruct (Z.ltb_spec c (k + Z.of_nat i)); [lia|]. rewrite E0. change (0 =? 0) with true. cbv iota. rewrite coef_pS0. change (1 =? 0)%nat with false. cbn [andb].
    split; [|intros E; exfalso; apply E; reflexivity].
    intros x y HVn Es Hxy Hy. rewrite Es0 in Es. apply row2_2 in Es; [|lia]. destruct (Nat.eqb_spec i 0); [lia|]. destruct (Nat.leb_spec i (Z.to_nat (x - k))); [lia|reflexivity].
  - rewrite XK_S by lia. apply okk_S; [lia|lia|lia|]. apply HP. lia.
Qed.
Lemma XK_1z mu i : (i <= Z.to_nat k)%nat -> coef (XK i) (qS 1 mu) <> 0%Qc -> V mu /\ qq = true /\ n = k.
Proof.
  intros Hi Ni. assert (HP : forall p a, 1 <= a <= c -> coef (PP p [a]) (qS 1 mu) = 0%Qc \/ (V mu /\ qq = true /\ n = k)) by (intros p a Ha; apply P_1; lia).
  destruct (Nat.eqb_spec i 0) as [->|N0]; [destruct (HP (- k) k ltac:(lia)); auto; tauto|].
  destruct (Z.eq_dec (k - Z.of_nat i) 0) as [E0|Nz].
  - exfalso. apply Ni. unfold XK, XD. destruct (Nat.eqb_spec i 0); [lia|]. destruct (Z.ltb_spec c (k + Z.of_nat i)); [lia|]. rewrite E0. change (0 =? 0) with true. cbv iota. apply coef_pS0.
  - rewrite XK_S in Ni by lia. destruct (HP (k - Z.of_nat i) (k + Z.of_nat i) ltac:(lia)); auto; tauto.
Qed.
Lemma XK_2 mu i d : (i <= Z.to_nat k)%nat -> (2 <= d)%nat -> coef (XK i) (qS d mu) = 0%Qc.
Proof.
  intros Hi Hd. destruct (Nat.eqb_spec i 0) as [->|N0].
  - unfold XK. change (0 =? 0)%nat with true. cbv iota. rewrite P_2 by lia. replace (k =? c) with false by lia. rewrite andb_false_r. reflexivity.
  - unfold XK. destruct (Nat.eqb_spec i 0); [lia|]. rewrite XD_2 by lia. destruct (Z.eqb_spec (k - Z.of_nat i) c); [lia|]. rewrite andb_false_r. reflexivity.
Qed.
Lemma sum_K : peq (padd (XK 0) (psumf (fun i => pscale (sign i) (XK i)) (seq 1 (Z.to_nat k)))) pzero.
Proof.
  assert (HW : qcoefs (padd (XK 0) (psumf (fun i => pscale (sign i) (XK i)) (seq 1 (Z.to_nat k)))) (fun _ _ => 0%Qc)).
  { eapply qcoefs_ext; [|apply (qcoefs_padd _ _ (fun d mu => coef (XK 0) (qS d mu))); [split; [reflexivity|apply XK_supp]|
      apply (qcoefs_psumf sign _ (fun i d mu => coef (XK i) (qS d mu))); intros i _; split; [reflexivity|apply XK_supp]]].
    intros d mu. cbv beta. destruct d as [|[|d]].
    - apply (rel_sum_k k n Hk (fun i => coef (XK i) (qS 0 mu)) mu). intros i Hi. apply okk_0'; auto.
    - destruct (all_zero_dec (fun i => coef (XK i) (qS 1 mu)) (seq 0 (S (Z.to_nat k)))) as [E|(i & Hi & Ni)].
      + rewrite (E 0%nat) by (apply in_seq; lia). rewrite qsumf_zero; [ring|]. intros i Hi. apply in_seq in Hi. rewrite (E i) by (apply in_seq; lia). ring.
      + apply in_seq in Hi. destruct (XK_1z mu i ltac:(lia) Ni) as (HV & Hq & En). apply (rel_sum_k k (n + 1) ltac:(lia) (fun i => coef (XK i) (qS 1 mu)) (nuof mu)). intros j Hj. apply okk_1'; auto.
    - rewrite XK_2 by lia. rewrite qsumf_zero; [ring|]. intros i Hi. apply in_seq in Hi. rewrite XK_2 by lia. ring. }
  apply (qcoefs_eq _ _ _ HW). apply qcoefs_zero. reflexivity.
Qed.

(** *** in the ring *)
Notation MM := (M TD (piD k n qq) k (giam_fuel (mkGr TD k n))).
Notation lq := (supp (linm V (eq VQ))).
Notation vp := (supp (polym V)).
Let SYS := sysD k n qq Hok.
Lemma vp_pS l : V l -> vp (pS l).
Proof. intros Hl. apply sys_lq_vp. apply sys_lq_pS. exact Hl. Qed.
Lemma vp_zero : vp pzero.
Proof. intros mo Hmo. exfalso. apply Hmo. reflexivity. Qed.
Lemma vp_hc i : vp (hclass c i).
Proof.
  unfold hclass. destruct (i =? 0); [apply supp_pone; [apply polym_inv|constructor]|].
  destruct (Z.ltb_spec 0 i); [destruct (Z.leb_spec i c)|]; cbn [andb]; try apply vp_zero. apply vp_pS, Vrow. lia.
Qed.
Lemma vp_both i : vp (both_class c k i).
Proof. unfold both_class. destruct (_ && _); [|apply vp_hc]. apply supp_padd; apply vp_pS; [apply Vrow; lia|apply Vk0]. Qed.
Lemma vp_sum (f : nat -> poly) l : (forall x, vp (f x)) -> vp (psumf f l).
Proof. intros H. induction l as [|x l IH]; [apply vp_zero|]. rewrite psumf_cons. apply supp_padd; auto. Qed.
Lemma M_P i a : ID k n i -> 1 <= a <= c -> peq (MM (pS (num2spec i)) (pS [a])) (PP i [a]).
Proof.
  intros Hi Ha. rewrite (sys_pieri SYS i (num2spec i) (pS [a])); [apply ext_pS|exact Hi|apply (num2spec_D k n qq Hok i Hi)|apply (specialD k n qq Hok i Hi)|]. apply sys_lq_pS, Vrow. exact Ha.
Qed.
Lemma M_pair h a : vp h -> 1 <= a <= c -> peq (MM (pmul (pS [a]) h) (pS [])) (MM h (pS [a])).
Proof.
  intros Hh Ha. etransitivity; [apply (sys_peq (k := k) _ (pmul h (pS [a])) _ (pS [])); [ring|reflexivity]|].
  rewrite (sys_pmul SYS); [|exact Hh|apply vp_pS, Vrow; exact Ha|apply (sys_lq_one SYS)].
  apply (sys_peq (k := k)); [reflexivity|]. apply (sys_one SYS). apply sys_lq_pS, Vrow. exact Ha.
Qed.
Lemma num2spec_pos i : 0 < i -> num2spec i = [i].
Proof. intros Hi. unfold num2spec. destruct (Z.ltb_spec 0 i); [reflexivity|lia]. Qed.
Lemma hc_at i : 1 <= i <= c -> hclass c i = pS [i].
Proof. intros Hi. unfold hclass. destruct (Z.eqb_spec i 0); [lia|]. destruct (Z.ltb_spec 0 i); [|lia]. destruct (Z.leb_spec i c); [reflexivity|lia]. Qed.
Lemma pair_D a b : k < a -> 0 <= b <= a -> peq (MM (pmul (both_class c k a) (both_class c k b)) (pS [])) (XD a b).
Proof.
  intros Ha Hb. rewrite (both_not c k a) by lia. unfold XD. destruct (Z.ltb_spec c a) as [L|L].
  - etransitivity; [apply (sys_peq (k := k) _ pzero _ (pS [])); [|reflexivity]|unfold M; reflexivity].
    unfold hclass at 1. destruct (Z.eqb_spec a 0); [lia|]. destruct (Z.ltb_spec 0 a); [|lia]. destruct (Z.leb_spec a c); [lia|]. cbn [andb]. ring.
  - rewrite hc_at by lia. rewrite M_pair by (try apply vp_both; lia). destruct (Z.eqb_spec b 0) as [->|N0].
    + rewrite both_not by lia. change (hclass c 0) with pone. etransitivity; [|apply (sys_one SYS (pS [a])); apply sys_lq_pS, Vrow; lia].
      etransitivity; [symmetry; apply (M_pair pone a); [apply supp_pone; [apply polym_inv|constructor]|lia]|]. apply (sys_peq (k := k)); [ring|reflexivity].
    + destruct (Z.eqb_spec b k) as [->|Nk].
      * rewrite both_k by lia. etransitivity; [apply (sys_add_l SYS); [apply vp_pS, Vrow; lia|apply vp_pS, Vk0|apply sys_lq_pS, Vrow; lia]|].
        assert (E1 : num2spec k = [k]) by (apply num2spec_pos; lia). assert (E2 : num2spec (- k) = [k; 0]) by (unfold num2spec; destruct (Z.ltb_spec 0 (- k)); [lia|]; rewrite Z.opp_involutive; reflexivity).
        pose proof (M_P k a ltac:(left; lia) ltac:(lia)) as H1. pose proof (M_P (- k) a ltac:(right; reflexivity) ltac:(lia)) as H2. rewrite E1 in H1. rewrite E2 in H2. rewrite H1, H2. reflexivity.
      * rewrite both_not, hc_at by lia. pose proof (M_P b a ltac:(left; lia) ltac:(lia)) as H1. rewrite num2spec_pos in H1 by lia. exact H1.
Qed.
Lemma MM_sum (f : nat -> poly) l : (forall x, vp (f x)) -> peq (MM (psumf f l) (pS [])) (psumf (fun x => MM (f x) (pS [])) l).
Proof.
  intros Hf. induction l as [|x l IH]; [unfold M; reflexivity|]. rewrite !psumf_cons. etransitivity; [apply (sys_add_l SYS); [apply Hf|apply vp_sum; exact Hf|apply (sys_lq_one SYS)]|]. rewrite <- IH. reflexivity.
Qed.
Lemma vp_products r w : vp (products (both_class c k) r r w).
Proof. apply vp_sum. intros i. apply supp_pscale. eapply vpoly_pmul; apply vp_both. Qed.
Lemma rel_D r : k < r <= c -> peq (MM (products (both_class c k) r r (weight_OG k r)) (pS [])) (rhsD r).
Proof.
  intros Hr. rewrite <- (sum_D r Hr). unfold products. rewrite MM_sum by (intros i; apply supp_pscale; eapply vpoly_pmul; apply vp_both).
  apply psumf_ext. intros i Hi. apply in_seq in Hi. etransitivity; [apply (sys_scale_l SYS); [eapply vpoly_pmul; apply vp_both|apply (sys_lq_one SYS)]|].
  apply pscale_proper; auto. apply pair_D; lia.
Qed.
Lemma vp_rel_k : vp (relation_k c k).
Proof.
  unfold relation_k. apply supp_padd; [eapply vpoly_pmul; apply vp_pS; [apply Vrow; lia|apply Vk0]|]. apply vp_sum. intros i. apply supp_pscale. eapply vpoly_pmul; apply vp_hc.
Qed.
Lemma rel_K : peq (MM (relation_k c k) (pS [])) pzero.
Proof.
  rewrite <- sum_K. unfold relation_k. etransitivity; [apply (sys_add_l SYS); [eapply vpoly_pmul; apply vp_pS; [apply Vrow; lia|apply Vk0]| |apply (sys_lq_one SYS)]|].
  - apply vp_sum. intros i. apply supp_pscale. eapply vpoly_pmul; apply vp_hc.
  - apply padd_proper.
    + rewrite M_pair by (try apply vp_pS, Vk0; lia). pose proof (M_P (- k) k ltac:(right; reflexivity) ltac:(lia)) as H2.
      assert (E2 : num2spec (- k) = [k; 0]) by (unfold num2spec; destruct (Z.ltb_spec 0 (- k)); [lia|]; rewrite Z.opp_involutive; reflexivity). rewrite E2 in H2. exact H2.
    + rewrite MM_sum by (intros i; apply supp_pscale; eapply vpoly_pmul; apply vp_hc).
      apply psumf_ext. intros i Hi. apply in_seq in Hi. etransitivity; [apply (sys_scale_l SYS); [eapply vpoly_pmul; apply vp_hc|apply (sys_lq_one SYS)]|].
      apply pscale_proper; auto. unfold XK. destruct (Nat.eqb_spec i 0); [lia|]. rewrite <- pair_D by lia. rewrite !both_not by lia. reflexivity.
Qed.
End Rel.

(** ** OG(n+1,2n+2) *)
Lemma products_quadratic c r w : 1 <= r <= c -> peq (products (hclass c) r r w) (quadratic c r w).
Proof.
  intros Hr. unfold products, quadratic. set (f := fun i : nat => pscale (w i) (pmul (hclass c (r + Z.of_nat i)) (hclass c (r - Z.of_nat i)))).
  assert (Hz : forall i, (Z.of_nat i > r \/ Z.of_nat i > c - r) -> peq (f i) pzero).
  { intros i Hi. unfold f. rewrite pscale_pmul. destruct (Z.ltb_spec r (Z.of_nat i)) as [L|L].
    - unfold hclass at 2. destruct (Z.eqb_spec (r - Z.of_nat i) 0); [lia|]. destruct (Z.ltb_spec 0 (r - Z.of_nat i)); [lia|]. cbn [andb]. ring.
    - unfold hclass at 1. destruct (Z.eqb_spec (r + Z.of_nat i) 0); [lia|]. destruct (Z.leb_spec (r + Z.of_nat i) c); [lia|]. rewrite andb_false_r. ring. }
  destruct (Nat.le_gt_cases (Z.to_nat r) (Z.to_nat (c - r))).
  - symmetry. apply psumf_trim; auto. intros i Hi. apply Hz. lia.
  - apply psumf_trim; [lia|]. intros i Hi. apply Hz. lia.
Qed.
Section K0.
Variables (n : Z) (qq : bool).
Hypothesis Hn : 1 <= n.
Lemma HI0 i : 1 <= i <= n + 0 -> 1 <= i <= n + 0 /\ kstrict_in 0 (n - 0) (n + 0) [i] /\ peq (pS [i]) (P (piD 0 n qq) i []).
Proof.
  intros Hi. split; auto. split; [apply kstrict_row1; lia|].
  rewrite <- (proj2 (piD0_agree n qq i [] ltac:(lia) ltac:(lia) ltac:(left; apply kstrict_nil; lia))). apply (specialB 0 n ltac:(lia) ltac:(lia) qq). lia.
Qed.
Lemma rel_D0 r : 1 <= r <= n -> peq (M TD (piD 0 n qq) 0 (giam_fuel (mkGr TD 0 n)) (products (both_class (n + 0) 0) r r (weight_OG 0 r)) (pS [])) (rhsB 0 n r qq).
Proof.
  intros Hr. etransitivity; [apply (sys_peq (k := 0)); [apply (products_quadratic (n + 0) r); lia|reflexivity]|].
  rewrite (quad_val (sysD0 n qq ltac:(lia)) (n + 0) HI0) by lia. rewrite <- (RelBC.sum_B 0 n r ltac:(lia) ltac:(lia) ltac:(lia) qq).
  apply psumf_ext. intros i Hi. apply in_seq in Hi. apply pscale_proper; auto. unfold XQ. destruct (Z.ltb_spec (r - Z.of_nat i) 0); [reflexivity|].
  destruct (Z.eqb_spec (r - Z.of_nat i) 0); [reflexivity|]. symmetry. apply (piD0_agree n qq); [lia|lia|]. left. apply kstrict_row1'; lia.
Qed.
Lemma vp_0 r w : 1 <= r <= n -> supp (polym (kstrict_in 0 (n - 0) (n + 0))) (products (both_class (n + 0) 0) r r w).
Proof.
  intros Hr. eapply supp_peq; [symmetry; apply (products_quadratic (n + 0) r); lia|]. apply (quad_vp (pi := piD 0 n qq) (I := fun i => 1 <= i <= n + 0)). intros i Hi. apply HI0. exact Hi.
Qed.
End K0.

Lemma c67_OG_even m N g r : OrthogonalGrassmannian m N = Ok g -> Z.even N = true -> 1 <= m <= N / 2 -> N / 2 - m < r <= N - 1 - m ->
  (exists x, toS g (products (both_class (N - 1 - m) (N / 2 - m)) r r (weight_OG (N / 2 - m) r)) = Ok x /\ peq x pzero) /\
  (m <> N / 2 - 1 -> exists y, qtoS g (products (both_class (N - 1 - m) (N / 2 - m)) r r (weight_OG (N / 2 - m) r)) = Ok y /\
    (r < N - 1 - m -> peq y pzero) /\
    (r = N - 1 - m -> peq y (if m =? N / 2 then pmul (pvar VQ) (pS []) else pmul (pvar VQ) (pmul (pvar VQ) (pS []))))).
Proof.
  intros Hg Ev Hm Hr. destruct (og_inv m N g Hg ltac:(lia)) as [(n & _ & _ & Ev' & _)|(n & EN & En & _ & Hmn & ->)]; [congruence|]. clear Hg.
  rewrite En in *. assert (Ek : exists k, k = n + 1 - m) by eauto. destruct Ek as [k Ek]. rewrite <- Ek in *.
  assert (EM : N - 1 - m = n + k) by lia. rewrite EM in *. clear EM.
  assert (HP : forall qq, (qq = true -> k <> 1) -> exists x, prod TD (piD k n qq) k (giam_fuel (mkGr TD k n)) (products (both_class (n + k) k) r r (weight_OG k r)) (pS []) = Ok x /\
    peq x (if k =? 0 then rhsB 0 n r qq else rhsD k n qq r)).
  { intros qq Hq. destruct (Z.eqb_spec k 0) as [K0|K0].
    - rewrite K0 in *. assert (Hn : 1 <= n) by lia. destruct (api_prod (sysD0 n qq ltac:(lia)) (products (both_class (n + 0) 0) r r (weight_OG 0 r)) (pS [])) as (x & E & Px & _).
      + apply poly_in_iff. apply (vp_0 n qq Hn). lia.
      + apply lin_comb_pS, kstrict_nil; lia.
      + exists x. split; auto. rewrite Px. apply (rel_D0 n qq Hn). lia.
    - assert (Hok : okD qq k n) by (split; [lia|]; intros Hqq; specialize (Hq Hqq); lia).
      destruct (api_prod (sysD k n qq Hok) (products (both_class (n + k) k) r r (weight_OG k r)) (pS [])) as (x & E & Px & _).
      + apply poly_in_iff. apply (vp_products k n qq Hok).
      + apply lin_comb_pS. left. apply kstrict_nil; lia.
      + exists x. split; auto. rewrite Px. apply (rel_D k n qq Hok). lia. }
  split.
  - destruct (HP false ltac:(discriminate)) as (x & Ex & Px). exists x. split; [exact Ex|]. rewrite Px. unfold rhsB, rhsD. cbn [andb]. destruct (k =? 0); reflexivity.
  - intros Hm1. destruct (HP true ltac:(lia)) as (y & Ey & Py). exists y. split; [exact Ey|]. unfold rhsB, rhsD in Py. cbn [andb] in Py. replace (m =? n + 1) with (k =? 0) by lia.
    destruct (Z.eqb_spec k 0) as [K0|K0]; [rewrite K0 in *; change (0 =? 0) with true in Py; cbv iota in Py|]; destruct (Z.eqb_spec r (n + k)) as [E|E]; try rewrite K0 in *.
    + rewrite (proj2 (Z.eqb_eq r (n + 0)) E) in Py. split; [lia|]. auto.
    + rewrite (proj2 (Z.eqb_neq r (n + 0)) E) in Py. split; [auto|lia].
    + split; [lia|auto].
    + split; [auto|lia].
Qed.
Lemma c67_OG_even_k m N g : OrthogonalGrassmannian m N = Ok g -> Z.even N = true -> 1 <= m < N / 2 ->
  (exists x, toS g (relation_k (N - 1 - m) (N / 2 - m)) = Ok x /\ peq x pzero) /\
  (m <> N / 2 - 1 -> exists y, qtoS g (relation_k (N - 1 - m) (N / 2 - m)) = Ok y /\ peq y pzero).
Proof.
  intros Hg Ev Hm. destruct (og_inv m N g Hg ltac:(lia)) as [(n & _ & _ & Ev' & _)|(n & EN & En & _ & Hmn & ->)]; [congruence|]. clear Hg.
  rewrite En in *. assert (Ek : exists k, k = n + 1 - m) by eauto. destruct Ek as [k Ek]. rewrite <- Ek in *.
  assert (EM : N - 1 - m = n + k) by lia. rewrite EM in *. clear EM.
  assert (HP : forall qq, (qq = true -> k <> 1) -> exists x, prod TD (piD k n qq) k (giam_fuel (mkGr TD k n)) (relation_k (n + k) k) (pS []) = Ok x /\ peq x pzero).
  { intros qq Hq. assert (Hok : okD qq k n) by (split; [lia|]; intros Hqq; specialize (Hq Hqq); lia).
    destruct (api_prod (sysD k n qq Hok) (relation_k (n + k) k) (pS [])) as (x & E & Px & _).
    - apply poly_in_iff. apply (vp_rel_k k n qq Hok).
    - apply lin_comb_pS. left. apply kstrict_nil; lia.
    - exists x. split; auto. rewrite Px. apply (rel_K k n qq Hok). }
  split; [apply (HP false); discriminate|]. intros Hm1. apply (HP true). lia.
Qed.
