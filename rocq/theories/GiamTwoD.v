(** [giambelli] and [qgiambelli] of the classes with two rows of OG(m,2n+2). *)

From Coq Require Import ZArith List Lia Bool Permutation QArith Qcanon Setoid Morphisms.
From Verif Require Import Py OrderFacts PyFacts ModelPart ModelQcalc ModelPoly ModelStr ModelGr Spec SpecPieri SpecDet SpecRel SpecTwo SpecTwoD
  PolyFacts SuppFacts OpTheory WSum Sys Sys2 RingC RingB ApiRing CoefSys CommC CommB GrInv DetFacts GiamDet ConjFacts FactsA PieriCoef PieriD QPieriD Transfer SysApi RingData CompsBound
  TwoRows TwoRows2 RelBC GiamTwo TwoRowsD RingD RingD0 ApiRingD.
Import ListNotations.
Open Scope Z_scope.

(** ** products in general *)
Section Alg.
Variable c : Z.
Variable h : Z -> poly.
Hypothesis Hh : forall i, c < i -> peq (h i) pzero.
Variable e : Z -> Qc.
Hypothesis He : forall z, e z <> 0%Qc.
Variables kap w : nat -> Qc.
Hypothesis Hconv : conv kap w.
Lemma prod_conv a b : 0 <= b ->
  peq (psumf (fun j => pscale (kt e kap a b j) (products h (a + Z.of_nat j) (b - Z.of_nat j) (wt e w (a + Z.of_nat j) (b - Z.of_nat j)))) (seq 0 (S (Z.to_nat b))))
      (pmul (h a) (h b)).
Proof.
  intros Hb. set (F := fun y : nat => pscale (e (a + b - Z.of_nat y) * e (Z.of_nat y) / (e a * e b))%Qc (pmul (h (a + b - Z.of_nat y)) (h (Z.of_nat y)))).
  pose proof (Hconv F (Z.to_nat b)) as HF. unfold F at 2 in HF. rewrite Z2Nat.id in HF by auto. replace (a + b - b) with a in HF by lia.
  assert (E1 : (e a * e b / (e a * e b) = 1)%Qc) by (field; split; apply He).
  rewrite E1, pscale_pmul in HF. change (pconst 1%Qc) with pone in HF. transitivity (pmul pone (pmul (h a) (h b))); [|ring]. rewrite <- HF. clear HF E1.
  apply psumf_ext. intros j Hj. apply in_seq in Hj. intros mo. rewrite !coef_pscale. unfold products. rewrite !coef_psumf', <- !qsumf_mul.
  replace (Z.to_nat (b - Z.of_nat j)) with (Z.to_nat b - j)%nat by lia. apply qsumf_ext. intros i Hi. apply in_seq in Hi. unfold F. rewrite !coef_pscale.
  replace (a + b - Z.of_nat (Z.to_nat b - j - i)) with (a + Z.of_nat j + Z.of_nat i) by lia. replace (Z.of_nat (Z.to_nat b - j - i)) with (b - Z.of_nat j - Z.of_nat i) by lia.
  unfold kt, wt. field. repeat split; apply He.
Qed.
Lemma products_big a b v : c < a -> peq (products h a b v) pzero.
Proof.
  intros Ha. apply psumf_zero. intros i _. rewrite (Hh (a + Z.of_nat i)) by lia. rewrite pscale_pmul. ring.
Qed.
Lemma prod_conv' a b N : 0 <= b -> (N <= Z.to_nat b)%nat -> (N = Z.to_nat b \/ c <= a + Z.of_nat N) ->
  peq (psumf (fun j => pscale (kt e kap a b j) (products h (a + Z.of_nat j) (b - Z.of_nat j) (wt e w (a + Z.of_nat j) (b - Z.of_nat j)))) (seq 0 (S N)))
      (pmul (h a) (h b)).
Proof.
  intros Hb HN HC. rewrite <- prod_conv by auto. replace (S (Z.to_nat b)) with (S N + (Z.to_nat b - N))%nat by lia. rewrite seq_app, psumf_app.
  rewrite (psumf_zero _ (seq (0 + S N) _)); [ring|]. intros j Hj. apply in_seq in Hj. rewrite products_big by lia. rewrite pscale_pmul. ring.
Qed.
End Alg.
Lemma products_ext h h' a b w w' :
  (forall i, (i <= Z.to_nat b)%nat -> peq (pscale (w i) (pmul (h (a + Z.of_nat i)) (h (b - Z.of_nat i)))) (pscale (w' i) (pmul (h' (a + Z.of_nat i)) (h' (b - Z.of_nat i))))) ->
  peq (products h a b w) (products h' a b w').
Proof. intros E. apply psumf_ext. intros i Hi. apply in_seq in Hi. apply E. lia. Qed.

(** ** the coefficients *)
Definition hit (k x y : Z) : bool := (x =? k) || (y =? k).
Definition marked (mu : list Z) : bool := eqbl mu (removelast mu ++ [0]).
Section Coef.
Variables k n a b p : Z.
Variable lam : list Z.
Hypothesis Hk : 1 <= k <= n.
Hypothesis Hn : 1 <= n - k.
Hypothesis Hb : 1 <= b <= a.
Hypothesis Hac : a <= n + k.
Hypothesis Hst : k < a -> b < a.
Hypothesis Hp : Z.abs p = b.
Hypothesis Hlam : typed_in k (n + 1 - k) (n + k) lam.
Hypothesis Hsh : shape lam = [a].
Notation V := (typed_in k (n + 1 - k) (n + k)).
Notation tl := (type_of k lam).
Definition KD (tm x y : Z) : Qc :=
  if tl + tm =? 3 then 0%Qc else if b <? k then two_to (compsD k a x y) else if 0 <? compsD k a x y then two_to (compsD k a x y - 1)
  else if Z.odd (k - y + Z.max tl tm + (if p <? 0 then 1 else 0)) then 1%Qc else 0%Qc.
Definition K1 (j : nat) : Qc := KD (if hit k (a + Z.of_nat j) (b - Z.of_nat j) then 1 else 0) (a + Z.of_nat j) (b - Z.of_nat j).
Definition K2 (j : nat) : Qc := if hit k (a + Z.of_nat j) (b - Z.of_nat j) then KD 2 (a + Z.of_nat j) (b - Z.of_nat j) else 0%Qc.
Lemma in_row2 x y : In k (row2 x y) <-> hit k x y = true.
Proof.
  unfold hit, row2. rewrite orb_true_iff, !Z.eqb_eq. destruct (Z.eqb_spec y 0); cbn [In]; lia.
Qed.
Lemma inb_D mu : kstrict_in k (n + 1 - k) (n + k) mu -> size mu = a + b -> pieri_arrow k 1 [a] mu -> inb (n + k) a b mu = true.
Proof.
  intros ((Hpa & Hl & Hc) & Hs) Hsz Har. destruct (arrow_row_inv_D k a ltac:(lia) mu Hpa ltac:(lia) Har) as (E & A1 & A2). apply inb_iff.
  assert (Esz : part mu 0 + part mu 1 = a + b) by (rewrite <- (size_row2 (part mu 0) (part mu 1)), <- E, Hsz; reflexivity).
  replace (a + b - part mu 0) with (part mu 1) by lia. split; [exact E|lia].
Qed.
Lemma D_inb mu : inb (n + k) a b mu = true -> kstrict_in k (n + 1 - k) (n + k) mu /\ size mu = a + b /\ pieri_arrow k 1 [a] mu.
Proof.
  intros G. apply inb_iff in G. destruct G as (E & A1 & A2). rewrite E. set (x := part mu 0) in *. clearbody x. clear E mu.
  split; [apply (row2_kstrict (n + k) a b Hb k (n + 1 - k)); lia|]. split; [rewrite size_row2; lia|]. apply arrow_two_D; lia.
Qed.
Lemma size_lam : size lam = a.
Proof. rewrite <- (size_shape _ _ _ _ Hlam), Hsh. apply size_one. Qed.
Lemma inb_unmarked mu : inb (n + k) a b mu = true -> marked mu = false.
Proof.
  intros G. destruct (D_inb mu G) as ((((H & _) & _) & _) & _). unfold marked. destruct (eqbl mu _) eqn:E; auto. apply eqbl_iff in E. exfalso.
  set (nu := removelast mu) in *. clearbody nu. subst mu. specialize (H (length nu)). rewrite app_length in H. cbn [length] in H. specialize (H ltac:(lia)).
  unfold part in H. rewrite app_nth2, Nat.sub_diag in H by lia. cbn in H. lia.
Qed.
Lemma marked_app l : marked (l ++ [0]) = true.
Proof. unfold marked. apply eqbl_iff. rewrite removelast_last. reflexivity. Qed.
Lemma mult_val mu x y N : V mu -> shape mu = row2 x y -> a <= x <= n + k -> y = a + b - x -> 0 <= y ->
  component_count (free_box k 1 (shape lam) (shape mu)) (fun _ => True) N -> tl + type_of k mu <> 3 ->
  mult_D k p lam mu N = KD (type_of k mu) x y.
Proof.
  intros HV Es Hx Ey Hy HN H3. rewrite Es, Hsh in HN.
  pose proof (comp_D k a ltac:(lia) ltac:(lia) x y ltac:(lia) ltac:(lia) ltac:(lia) ltac:(lia)) as HC. pose proof (component_count_unique _ _ _ _ HN HC) as EN. subst N.
  unfold mult_D, KD. rewrite Hp. destruct (Z.eqb_spec (tl + type_of k mu) 3); [lia|]. destruct (Z.ltb_spec b k); auto.
  destruct (Z.ltb_spec 0 (compsD k a x y)) as [L|L]; auto.
  assert (y <= k) by (unfold compsD in L; destruct (k <? a), ((a <? x) && (2 * k <? x + y)), ((a <? k) && (k <? x)), (Z.ltb_spec k y); lia).
  rewrite Es, Hsh, not_gaining_two by lia. reflexivity.
Qed.
Lemma termD mu v : coef_D k n p lam mu v ->
  v = ((if inb (n + k) a b mu then K1 (Z.to_nat (part mu 0 - a)) else 0) +
       (if marked mu && inb (n + k) a b (removelast mu) then K2 (Z.to_nat (part mu 0 - a)) else 0))%Qc.
Proof.
  intros [((H1 & H2 & H3 & H4) & N & HN & _ & ->)|(HT & ->)].
  - rewrite size_lam, Hp in H2. rewrite Hsh in H3. pose proof (typed_shape _ _ _ _ H1) as (Hks & _).
    rewrite <- (size_shape _ _ _ _ H1) in H2. pose proof (inb_D _ Hks H2 H3) as G.
    pose proof G as G'. apply inb_iff in G'. destruct G' as (E & A1 & A2).
    rewrite (mult_val mu _ _ N H1 E ltac:(lia) eq_refl ltac:(lia) HN H4).
    rewrite (typed_part _ _ _ _ 0 H1) in *. set (x := part mu 0) in *. 
    unfold K1, K2. rewrite Z2Nat.id by lia. replace (a + (x - a)) with x by lia. replace (b - (x - a)) with (a + b - x) by lia.
    destruct (type_of_cases _ _ _ _ H1) as [(Et & Hin & El)|[(Et & Hin & El)|(Et & Hin & El)]]; rewrite E, in_row2 in Hin; rewrite Et.
    + rewrite El at 1. rewrite G. rewrite (inb_unmarked mu) by (rewrite El; exact G). cbn [andb]. destruct (hit k x (a + b - x)); [congruence|]. ring.
    + rewrite El at 1. rewrite G. rewrite (inb_unmarked mu) by (rewrite El; exact G). cbn [andb]. rewrite Hin. ring.
    + assert (Em : marked mu = true) by (rewrite El; apply marked_app). assert (Er : removelast mu = shape mu) by (rewrite El at 1; apply removelast_last).
      destruct (inb (n + k) a b mu) eqn:G2; [apply inb_unmarked in G2; congruence|]. rewrite Em, Er, G. cbn [andb]. rewrite Hin. ring.
  - destruct (inb (n + k) a b mu) eqn:G1.
    + rewrite (inb_unmarked mu G1). cbn [andb]. destruct (D_inb mu G1) as (B1 & B2 & B3).
      assert (HV : V mu) by (left; auto). assert (Es : shape mu = mu) by (apply shape_partition; apply B1).
      assert (H3 : tl + type_of k mu = 3).
      { destruct (Z.eq_dec (tl + type_of k mu) 3) as [|Ne]; auto. exfalso. apply HT. split; auto. split; [rewrite size_lam, Hp; auto|]. split; auto. rewrite Hsh, Es. auto. }
      apply inb_iff in G1. destruct G1 as (E & A1 & A2). unfold K1. set (x := part mu 0) in *. rewrite Z2Nat.id by lia. replace (a + (x - a)) with x by lia. replace (b - (x - a)) with (a + b - x) by lia.
      assert (Et : type_of k mu = if hit k x (a + b - x) then 1 else 0).
      { destruct (type_of_cases _ _ _ _ HV) as [(Et & Hin & El)|[(Et & Hin & El)|(Et & Hin & El)]]; rewrite Es in *; rewrite E, in_row2 in Hin.
        - destruct (hit k x (a + b - x)); congruence.
        - rewrite Hin. auto.
        - exfalso. assert (HL : length mu = length (mu ++ [0])) by congruence. rewrite app_length in HL. cbn [length] in HL. lia. }
      unfold KD. rewrite <- Et, H3. cbn [Z.eqb Pos.eqb]. ring.
    + destruct (marked mu && inb (n + k) a b (removelast mu)) eqn:G2; [|ring]. apply andb_true_iff in G2. destruct G2 as [Em G2]. apply eqbl_iff in Em.
      set (nu := removelast mu) in *. destruct (D_inb nu G2) as (B1 & B2 & B3). unfold K2.
      assert (Ep : part mu 0 = part nu 0) by (rewrite Em; unfold part; destruct nu; reflexivity). rewrite Ep. apply inb_iff in G2. destruct G2 as (E & A1 & A2). set (x := part nu 0) in *.
      rewrite Z2Nat.id by lia. replace (a + (x - a)) with x by lia. replace (b - (x - a)) with (a + b - x) by lia. destruct (hit k x (a + b - x)) eqn:Eh; [|ring].
      assert (Hin : In k nu) by (rewrite E; apply in_row2; auto). assert (HV : V mu) by (right; exists nu; repeat split; auto; try lia; apply B1).
      assert (Es : shape mu = nu) by (rewrite Em, shape_app0; apply shape_partition; apply B1).
      assert (Et : type_of k mu = 2) by (rewrite Em; apply type_of_app0; auto; lia).
      assert (H3 : tl + 2 = 3).
      { destruct (Z.eq_dec (tl + 2) 3) as [|Ne]; auto. exfalso. apply HT. split; auto. split; [rewrite size_lam, Hp; rewrite <- (size_shape _ _ _ _ HV), Es; auto|]. rewrite Hsh, Es, Et. auto. }
      unfold KD. rewrite H3. cbn [Z.eqb Pos.eqb]. ring.
Qed.
End Coef.

Section Sum2m.
Variables c a b : Z.
Hypothesis Hb : 1 <= b <= a.
Hypothesis Hac : a <= c.
Definition psum2m (K : nat -> Qc) : poly := psumf (fun j => pscale (K j) (pS (row2 (a + Z.of_nat j) (b - Z.of_nat j) ++ [0]))) (seq 0 (S (Nt c a b))).
Lemma qcoefs_psum2m K : qcoefs (psum2m K) (fun d mu => if (d =? 0)%nat && (marked mu && inb c a b (removelast mu)) then K (Z.to_nat (part mu 0 - a)) else 0%Qc).
Proof.
  eapply qcoefs_ext; [|apply (qcoefs_psumf K _ (fun j d mu => if (d =? 0)%nat && eqbl mu (row2 (a + Z.of_nat j) (b - Z.of_nat j) ++ [0]) then 1%Qc else 0%Qc))].
  - intros d mu. cbv beta. destruct (d =? 0)%nat; cbn [andb].
    + assert (EQ : forall j : nat, eqbl mu (row2 (a + Z.of_nat j) (b - Z.of_nat j) ++ [0]) = marked mu && eqbl (removelast mu) (row2 (a + Z.of_nat j) (b - Z.of_nat j))).
      { intros j. apply eq_true_iff_eq. unfold marked. rewrite andb_true_iff, !eqbl_iff. split.
        - intros ->. rewrite removelast_last. auto.
        - intros [E1 E2]. congruence. }
      rewrite (qsumf_ext _ (fun j => (K j * (if marked mu && eqbl (removelast mu) (row2 (a + Z.of_nat j) (b - Z.of_nat j)) then 1 else 0))%Qc)) by (intros; rewrite EQ; reflexivity).
      destruct (marked mu) eqn:Em; cbn [andb].
      * rewrite inb_sum by auto. destruct (inb c a b (removelast mu)) eqn:G; auto. apply eqbl_iff in Em. f_equal. f_equal. f_equal.
        apply inb_iff in G. destruct G as (G & _). clear EQ. set (nu := removelast mu) in *. clearbody nu. subst mu. unfold part. destruct nu as [|z nu]; [|reflexivity].
        exfalso. unfold row2 in G. destruct (_ =? _) in G; discriminate.
      * first [apply qsumf_zero|symmetry; apply qsumf_zero]. intros; ring.
    + first [apply qsumf_zero|symmetry; apply qsumf_zero]. intros; ring.
  - intros j _. apply qcoefs_single. unfold qS. cbn [repeat]. rewrite pscale_pmul.
    match goal with |- context [pmono [vS ?l]] => change (pmono [vS l]) with (pS l) end.
    change (pconst 1%Qc) with pone. ring.
Qed.
End Sum2m.

Section PD.
Variables (k n : Z) (qq : bool).
Hypothesis Hok : okD qq k n.
Hypothesis Hn : 1 <= n - k.
Notation V := (typed_in k (n + 1 - k) (n + k)).
Lemma P_D a b p lam : 1 <= b <= a -> a <= n + k -> (k < a -> b < a) -> Z.abs p = b -> V lam -> shape lam = [a] ->
  peq (P (piD k n qq) p lam) (padd (psum2 (n + k) a b (K1 k a b p lam)) (psum2m (n + k) a b (K2 k a b p lam))).
Proof.
  intros Hb Ha Hst Hp HV Hsh. pose proof Hok as (Hk & Hq2). destruct (piD_coefs k n qq Hok p lam HV) as (r & W & E & HQ & HW).
  unfold P. rewrite E. apply (qcoefs_eq _ _ _ HQ).
  eapply qcoefs_ext; [|apply qcoefs_padd; [apply qcoefs_psum2; lia|apply qcoefs_psum2m; lia]].
  pose proof (piD_0 k n qq Hok p lam W HW) as H0.
  intros d mu. cbv beta. destruct d as [|d]; cbn [Nat.eqb andb].
  - symmetry. apply (termD k n a b p lam); auto; lia.
  - enough (E1 : W (S d) mu = 0%Qc) by (rewrite E1; ring).
    destruct (Qc_eq_dec (W (S d) mu) 0%Qc) as [|Ne]; auto. exfalso.
    destruct (piD_supp k n qq Hok p lam W HW _ _ Ne) as (Hd & HVm & [Hq|Hq] & Hsz); [discriminate|]. destruct qq; [|discriminate].
    destruct HW as (_ & W1 & W2 & _). destruct d as [|[|d]]; [| |lia].
    + specialize (W1 mu HVm). rewrite Hsh in W1. cbn [length] in W1. destruct (Z.eqb_spec (Z.of_nat 1) (n + 1 - k)); [lia|]. auto.
    + rewrite <- (size_shape _ _ _ _ HVm), <- (size_shape _ _ _ _ HV), Hsh, size_one in Hsz.
      pose proof (typed_shape _ _ _ _ HVm) as ((((HPm & _) & _) & _) & _). pose proof (size_nonneg' _ HPm). lia.
Qed.

(** *** the values of the coefficients *)
Definition kapD (a b : Z) (j : nat) : Qc := if 2 * k <? a + b then kap_full j else 1%Qc.
Definition wD (a b : Z) (j : nat) : Qc := if 2 * k <? a + b then weight_IG j else weight_short j.
Lemma conv_D a b : conv (kapD a b) (wD a b).
Proof. unfold kapD, wD. destruct (2 * k <? a + b); [apply conv_full|apply conv_short]. Qed.
Lemma type_row a : 1 <= a -> type_of k [a] = if a =? k then 1 else 0.
Proof. intros Ha. unfold type_of. cbn [existsb last]. replace (a =? 0) with false by lia. rewrite orb_false_r, Z.eqb_sym. reflexivity. Qed.
Lemma KD_A a b p j : 1 <= b <= a -> (k < a -> b < a) -> a <> k -> b <> k -> p = b -> (j <= Z.to_nat b)%nat ->
  K1 k a b p [a] j = kt (twice k) (kapD a b) a b j /\
  K2 k a b p [a] j = if hit k (a + Z.of_nat j) (b - Z.of_nat j) then kt (twice k) (kapD a b) a b j else 0%Qc.
Proof.
  intros Hb Hst Na Nb -> Hj. pose proof Hok as (Hk & _). unfold K1, K2, KD. rewrite type_row by lia. replace (a =? k) with false by lia.
  assert (Ex : exists x, x = a + Z.of_nat j) by eauto. destruct Ex as [x Ex]. assert (Ey : exists y, y = b - Z.of_nat j) by eauto. destruct Ey as [y Ey].
  unfold kt, kapD, kap_full, twice. rewrite <- Ex, <- Ey. assert (x + y = a + b) by lia. assert (Ej : (j =? 0)%nat = (x =? a)) by (destruct (Nat.eqb_spec j 0), (Z.eqb_spec x a); lia). rewrite Ej.
  assert (0 <= y <= b) by lia. assert (a <= x) by lia. clear Ex Ey Ej Hj.
  assert (HN : forall tm, (tm = 0 /\ hit k x y = false) \/ ((tm = 1 \/ tm = 2) /\ hit k x y = true) ->
    (if 0 + tm =? 3 then 0%Qc else if b <? k then two_to (compsD k a x y) else if 0 <? compsD k a x y then two_to (compsD k a x y - 1)
     else if Z.odd (k - y + Z.max 0 tm + (if b <? 0 then 1 else 0)) then 1%Qc else 0%Qc) =
    ((if 2 * k <? a + b then if (x =? a)%Z then 1%Qc else (1 + 1)%Qc else 1%Qc) * ((if k <? x then 1 + 1 else 1) * (if k <? y then 1 + 1 else 1)) / ((if k <? a then 1 + 1 else 1) * (if k <? b then 1 + 1 else 1)))%Qc).
  { intros tm Ht. destruct (Z.eqb_spec (0 + tm) 3); [lia|]. unfold hit in Ht. rewrite orb_false_iff, orb_true_iff in Ht. rewrite !Z.eqb_eq, !Z.eqb_neq in Ht.
    unfold compsD. replace (x + y) with (a + b) by lia.
    destruct (Z.ltb_spec b k), (Z.ltb_spec k a), (Z.ltb_spec a x), (Z.ltb_spec k x), (Z.ltb_spec (2 * k) (a + b)), (Z.ltb_spec k y), (Z.eqb_spec x a), (Z.ltb_spec k b), (Z.ltb_spec a k); cbn [andb]; try lia; apply Qc_is_canon; reflexivity. }
  split.
  - destruct (hit k x y) eqn:Eh; apply HN; auto.
  - destruct (hit k x y) eqn:Eh; auto.
Qed.

Definition spc (s : bool) : Z := if s then - k else k.
Lemma type_mark s : type_of k (mark s [k]) = if s then 2 else 1.
Proof. pose proof Hok as (Hk & _). unfold type_of, mark. destruct s; cbn [app existsb last]; rewrite Z.eqb_refl; cbn [orb]; [reflexivity|]. destruct (Z.eqb_spec k 0); [lia|reflexivity]. Qed.
Lemma KD_B1 b s j : 1 <= b < k -> (j <= Z.to_nat b)%nat ->
  K1 k k b b (mark s [k]) j = (if (j =? 0)%nat then if s then 0 else 1 else 1)%Qc /\ K2 k k b b (mark s [k]) j = (if (j =? 0)%nat then if s then 1 else 0 else 0)%Qc.
Proof.
  intros Hb Hj. unfold K1, K2, KD. rewrite type_mark. pose proof Hok as (Hk & _).
  assert (Ex : exists x, x = k + Z.of_nat j) by eauto. destruct Ex as [x Ex]. assert (Ey : exists y, y = b - Z.of_nat j) by eauto. destruct Ey as [y Ey]. rewrite <- Ex, <- Ey.
  assert (Ej : (j =? 0)%nat = (x =? k)) by (destruct (Nat.eqb_spec j 0), (Z.eqb_spec x k); lia). rewrite Ej. assert (k <= x) by lia. assert (0 <= y <= b) by lia. clear Ex Ey Ej Hj.
  unfold hit, compsD. destruct (Z.ltb_spec b k); [|lia]. destruct (Z.ltb_spec k k); [lia|]. cbn [andb]. destruct (Z.eqb_spec y k); [lia|]. destruct (Z.ltb_spec k y); [lia|].
  destruct (Z.eqb_spec x k); cbn [orb]; destruct s; split; apply Qc_is_canon; reflexivity.
Qed.
Lemma KD_B2 a s j : k < a -> (j <= Z.to_nat k)%nat ->
  K1 k a k (spc s) [a] j = (if (j =? 0)%nat then if s then 0 else 1 else 1)%Qc /\ K2 k a k (spc s) [a] j = (if (j =? 0)%nat then if s then 1 else 0 else 0)%Qc.
Proof.
  intros Ha Hj. pose proof Hok as (Hk & _). unfold K1, K2, KD. rewrite type_row by lia. replace (a =? k) with false by lia.
  assert (Ex : exists x, x = a + Z.of_nat j) by eauto. destruct Ex as [x Ex]. assert (Ey : exists y, y = k - Z.of_nat j) by eauto. destruct Ey as [y Ey]. rewrite <- Ex, <- Ey.
  assert (Ej : (j =? 0)%nat = (y =? k)) by (destruct (Nat.eqb_spec j 0), (Z.eqb_spec y k); lia). rewrite Ej. assert (x + y = a + k) by lia. assert (0 <= y <= k) by lia. clear Ex Ey Ej Hj.
  unfold hit, compsD, spc. replace (x + y) with (a + k) by lia. destruct (Z.ltb_spec k k); [lia|]. destruct (Z.ltb_spec k a); [|lia]. destruct (Z.eqb_spec x k); [lia|]. destruct (Z.ltb_spec k y); [lia|]. destruct (Z.ltb_spec (2 * k) (a + k)); [|lia].
  replace (k <? 0) with false by lia. replace (- k <? 0) with true by lia.
  destruct (Z.eqb_spec y k) as [->|]; cbn [orb].
  - destruct (Z.ltb_spec a x); [lia|]. rewrite Z.sub_diag. cbn [andb]. destruct s; split; try reflexivity.
    + replace (- k <? 0) with true by lia. reflexivity.
    + replace (- k <? 0) with true by lia. reflexivity.
    + replace (k <? 0) with false by lia. reflexivity.
    + replace (k <? 0) with false by lia. reflexivity.
  - destruct (Z.ltb_spec a x); [|lia]. cbn [andb]. split; apply Qc_is_canon; reflexivity.
Qed.
Lemma KD_C s s' j : (j <= Z.to_nat k)%nat ->
  K1 k k k (spc s') (mark s [k]) j = (if (j =? 0)%nat then if s || s' then 0 else 1 else if Bool.eqb s s' then (if Nat.even j then 1 else 0) else (if Nat.even j then 0 else 1))%Qc /\
  K2 k k k (spc s') (mark s [k]) j = (if (j =? 0)%nat then if s && s' then 1 else 0 else 0)%Qc.
Proof.
  intros Hj. pose proof Hok as (Hk & _). unfold K1, K2, KD. rewrite type_mark.
  replace (k - (k - Z.of_nat j)) with (Z.of_nat j) by lia. unfold hit. unfold compsD. destruct (Z.ltb_spec k k); [lia|]. destruct (Z.ltb_spec k (k - Z.of_nat j)); [lia|]. cbn [andb].
  change (0 + 0) with 0. change (0 <? 0) with false. cbv iota.
  assert (Hp : (spc s' <? 0) = s') by (unfold spc; destruct s'; lia). rewrite Hp.
  destruct (Nat.eqb_spec j 0) as [->|Nj].
  - rewrite Z.add_0_r, Z.sub_0_r, Z.eqb_refl. cbn [orb]. destruct s, s'; split; reflexivity.
  - destruct (Z.eqb_spec (k + Z.of_nat j) k); [lia|]. destruct (Z.eqb_spec (k - Z.of_nat j) k); [lia|]. cbn [orb].
    assert (Ho : Z.odd (Z.of_nat j) = negb (Nat.even j)).
    { rewrite <- Z.negb_even. f_equal. apply eq_true_iff_eq. rewrite Z.even_spec, Nat.even_spec. split; [intros [z Ez]; exists (Z.to_nat z); lia|intros [z Ez]; exists (Z.of_nat z); lia]. }
    rewrite !Z.odd_add, Ho. destruct s, s', (Nat.even j); split; reflexivity.
Qed.
End PD.

(** ** the family of polynomials *)
Section Fam.
Variables c k : Z.
Hypothesis Hk : 1 <= k <= c.
Lemma both_k : both_class c k k = padd (pS [k]) (pS [k; 0]).
Proof. unfold both_class. rewrite Z.eqb_refl. replace (0 <? k) with true by lia. reflexivity. Qed.
Lemma both_not i : i <> k -> both_class c k i = hclass c i.
Proof. intros H. unfold both_class. replace (i =? k) with false by lia. rewrite andb_false_r. reflexivity. Qed.
Lemma one_k s : one_class c k s k = pS (mark s [k]).
Proof. unfold one_class. rewrite Z.eqb_refl. replace (0 <? k) with true by lia. reflexivity. Qed.
Lemma one_not s i : i <> k -> one_class c k s i = hclass c i.
Proof. intros H. unfold one_class. replace (i =? k) with false by lia. rewrite andb_false_r. reflexivity. Qed.
Lemma both_big i : c < i -> peq (both_class c k i) pzero.
Proof. intros H. rewrite both_not by lia. rewrite hclass_big by lia. reflexivity. Qed.
Lemma hclass_0 : hclass c 0 = pone.
Proof. reflexivity. Qed.
Notation Tb x y := (products (both_class c k) x y (weight_two_D k x y)).
Notation TD := (two_row_D c k).
Definition DD (l : list Z) : poly :=
  match l with [] => pone | [x] => hclass c x | [x; y] => if y =? 0 then pS [k; 0] else TD false x y | [x; y; _] => TD true x y | _ => pzero end.
Lemma products_0 h x w : w 0%nat = 1%Qc -> h 0 = pone -> peq (products h x 0 w) (h x).
Proof.
  intros E E0. unfold products. change (Z.to_nat 0) with 0%nat. cbn [seq]. rewrite psumf_cons, E. unfold psumf. cbn [fold_right]. change (0 - Z.of_nat 0) with 0.
  replace (x + Z.of_nat 0) with x by lia. rewrite E0, pscale_pmul. change (pconst 1%Qc) with pone. ring.
Qed.
Lemma twice_ne x : twice k x <> 0%Qc.
Proof. unfold twice. destruct (_ <? _); intros E; discriminate E. Qed.
Lemma wD_0 x y : weight_two_D k x y 0 = 1%Qc.
Proof.
  unfold weight_two_D. replace (x + Z.of_nat 0) with x by lia. replace (y - Z.of_nat 0) with y by lia.
  replace (if 2 * k <? x + y then weight_IG 0 else weight_short 0) with 1%Qc by (destruct (_ <? _); reflexivity). field. split; apply twice_ne.
Qed.
Lemma w1_0 x y : weight_one_k k x y 0 = 1%Qc.
Proof. unfold weight_one_k. destruct (_ <? _); reflexivity. Qed.
Lemma TD_hit s x y : hit k x y = true -> (x = k -> y <> k) -> TD s x y = products (one_class c k s) x y (weight_one_k k x y).
Proof. unfold hit, two_row_D. intros H H'. destruct (Z.eqb_spec x k), (Z.eqb_spec y k); try reflexivity; [lia|discriminate]. Qed.
Lemma TD_not s x y : hit k x y = false -> TD s x y = Tb x y.
Proof. unfold hit, two_row_D. intros H. destruct (Z.eqb_spec x k), (Z.eqb_spec y k); try reflexivity; discriminate. Qed.
Lemma TD_kk s : TD s k k = products (one_class c k s) k k weight_two_k.
Proof. unfold two_row_D. rewrite Z.eqb_refl. reflexivity. Qed.
Lemma TD_0 s x : peq (TD s x 0) (one_class c k s x).
Proof.
  unfold two_row_D. replace (0 =? k) with false by lia. destruct (Z.eqb_spec x k) as [->|N].
  - apply products_0; [apply w1_0|apply one_not; lia].
  - rewrite one_not by auto. rewrite <- (both_not x N). apply products_0; [apply wD_0|apply both_not; lia].
Qed.
Lemma DD_row2 x y : 1 <= x -> 0 <= y -> peq (DD (row2 x y)) (TD false x y).
Proof.
  intros Hx Hy. unfold row2. destruct (Z.eqb_spec y 0) as [->|N].
  - cbn [DD]. rewrite TD_0. destruct (Z.eq_dec x k) as [->|Nk]; [|rewrite one_not by auto; reflexivity]. rewrite one_k. cbn [mark].
    unfold hclass. destruct (Z.eqb_spec k 0); [lia|]. destruct (Z.leb_spec k c); [|lia]. destruct (Z.ltb_spec 0 k); [|lia]. reflexivity.
  - cbn [DD]. replace (y =? 0) with false by lia. reflexivity.
Qed.
Lemma DD_row2m x y : 1 <= x -> 0 <= y -> hit k x y = true -> peq (DD (row2 x y ++ [0])) (TD true x y).
Proof.
  intros Hx Hy Hh. unfold row2. destruct (Z.eqb_spec y 0) as [->|N]; [|reflexivity].
  cbn [DD app]. cbn [Z.eqb]. rewrite TD_0. unfold hit in Hh. replace (0 =? k) with false in Hh by lia. rewrite orb_false_r in Hh. apply Z.eqb_eq in Hh. subst x. rewrite one_k. reflexivity.
Qed.
Lemma hit_sum x y : 0 <= y <= x -> hit k x y = true -> (x = k -> y <> k) -> peq (padd (TD false x y) (TD true x y)) (Tb x y).
Proof.
  intros Hxy Hh Hne. rewrite !TD_hit by auto. unfold products. rewrite <- psumf_add. apply psumf_ext. intros i Hi. apply in_seq in Hi.
  unfold hit in Hh. apply orb_true_iff in Hh. rewrite !Z.eqb_eq in Hh. destruct i as [|i].
  - rewrite w1_0, wD_0. rewrite !Z.add_0_r, !Z.sub_0_r. rewrite !pscale_pmul. change (pconst 1%Qc) with pone. destruct Hh as [->| ->].
    + rewrite !one_k, both_k, !one_not, both_not by lia. cbn [mark app]. ring.
    + rewrite !one_k, both_k, !one_not, both_not by lia. cbn [mark app]. ring.
  - rewrite !one_not, !both_not by lia. intros mo. rewrite coef_padd, !coef_pscale. set (X := coef _ mo). 
    enough (E : (weight_one_k k x y (S i) + weight_one_k k x y (S i) = weight_two_D k x y (S i))%Qc) by (rewrite <- E; ring).
    unfold weight_one_k, weight_two_D, twice. destruct Hh as [->| ->].
    + destruct (Z.ltb_spec (2 * k) (k + y)); [lia|]. destruct (Z.ltb_spec k (k + Z.of_nat (S i))); [|lia]. destruct (Z.ltb_spec k (y - Z.of_nat (S i))); [lia|]. destruct (Z.ltb_spec k k); [lia|].
      destruct (Z.ltb_spec k y); [lia|]. destruct i; apply Qc_is_canon; reflexivity.
    + destruct (Z.ltb_spec (2 * k) (x + k)); [|lia]. destruct (Z.ltb_spec k (x + Z.of_nat (S i))); [|lia]. destruct (Z.ltb_spec k (k - Z.of_nat (S i))); [lia|]. destruct (Z.ltb_spec k k); [lia|].
      destruct (Z.ltb_spec k x); [|lia]. unfold weight_IG. cbn [Nat.eqb]. unfold sign. destruct (Nat.even (S i)); apply Qc_is_canon; reflexivity.
Qed.
Lemma wD_wt a b j : peq (products (both_class c k) (a + Z.of_nat j) (b - Z.of_nat j) (wt (twice k) (wD k a b) (a + Z.of_nat j) (b - Z.of_nat j))) (Tb (a + Z.of_nat j) (b - Z.of_nat j)).
Proof.
  apply products_ext. intros i _. unfold wt, wD, weight_two_D. replace (a + Z.of_nat j + (b - Z.of_nat j)) with (a + b) by lia. reflexivity.
Qed.
Lemma ident_A a b : 1 <= b <= a -> a <= c -> a <> k -> b <> k ->
  peq (psumf (fun j => pscale (kt (twice k) (kapD k a b) a b j) (Tb (a + Z.of_nat j) (b - Z.of_nat j))) (seq 0 (S (Nt c a b)))) (pmul (hclass c a) (hclass c b)).
Proof.
  intros Hb Ha Na Nb. rewrite <- (both_not a Na), <- (both_not b Nb).
  rewrite <- (prod_conv' c (both_class c k) both_big (twice k) twice_ne (kapD k a b) (wD k a b) (conv_D k a b) a b (Nt c a b)) by (unfold Nt; lia).
  apply psumf_ext. intros j _. rewrite !pscale_pmul, wD_wt. reflexivity.
Qed.
(** exactly one of the rows has length k *)
Definition dbl (s : bool) (i : Z) : poly := if i =? k then pscale (1 + 1)%Qc (pS (mark s [k])) else hclass c i.
Lemma dbl_big s i : c < i -> peq (dbl s i) pzero.
Proof. intros H. unfold dbl. replace (i =? k) with false by lia. rewrite hclass_big by lia. reflexivity. Qed.
Lemma ident_B s a b : 1 <= b <= a -> a <= c -> hit k a b = true -> (a = k -> b <> k) ->
  peq (psumf (fun j => if (j =? 0)%nat then TD s a b else Tb (a + Z.of_nat j) (b - Z.of_nat j)) (seq 0 (S (Nt c a b)))) (pmul (one_class c k s a) (one_class c k s b)).
Proof.
  intros Hb Ha Hh Hne. pose proof (prod_conv' c (dbl s) (dbl_big s) (twice k) twice_ne (kapD k a b) (wD k a b) (conv_D k a b) a b (Nt c a b) ltac:(lia) ltac:(unfold Nt; lia) ltac:(unfold Nt; lia)) as E.
  assert (ER : peq (pmul (dbl s a) (dbl s b)) (pscale (1 + 1)%Qc (pmul (one_class c k s a) (one_class c k s b)))).
  { pose proof Hh as Hh'. unfold hit in Hh'. apply orb_true_iff in Hh'. rewrite !Z.eqb_eq in Hh'. unfold dbl. destruct Hh' as [->| ->].
    - rewrite Z.eqb_refl, one_k, one_not by lia. replace (b =? k) with false by lia. rewrite !pscale_pmul. ring.
    - rewrite Z.eqb_refl, one_k, one_not by lia. replace (a =? k) with false by lia. rewrite !pscale_pmul. ring. }
  rewrite ER in E. clear ER.
  assert (EL : peq (psumf (fun j => pscale (kt (twice k) (kapD k a b) a b j) (products (dbl s) (a + Z.of_nat j) (b - Z.of_nat j) (wt (twice k) (wD k a b) (a + Z.of_nat j) (b - Z.of_nat j)))) (seq 0 (S (Nt c a b))))
    (pscale (1 + 1)%Qc (psumf (fun j => if (j =? 0)%nat then TD s a b else Tb (a + Z.of_nat j) (b - Z.of_nat j)) (seq 0 (S (Nt c a b)))))).
  { transitivity (psumf (fun j => pscale (1 + 1)%Qc (if (j =? 0)%nat then TD s a b else Tb (a + Z.of_nat j) (b - Z.of_nat j))) (seq 0 (S (Nt c a b)))).
    2:{ intros mo. rewrite coef_pscale, !coef_psumf', <- qsumf_mul. apply qsumf_ext. intros j _. rewrite coef_pscale. reflexivity. }
    pose proof Hh as Hh'. unfold hit in Hh'. apply orb_true_iff in Hh'. rewrite !Z.eqb_eq in Hh'.
    apply psumf_ext. intros j Hj. apply in_seq in Hj. unfold Nt in Hj. destruct j as [|j].
    - cbn [Nat.eqb]. rewrite TD_hit by auto. unfold kt. rewrite !Z.add_0_r, !Z.sub_0_r.
      replace (kapD k a b 0) with 1%Qc by (unfold kapD; destruct (_ <? _); reflexivity). replace (1 * (twice k a * twice k b) / (twice k a * twice k b))%Qc with 1%Qc by (field; split; apply twice_ne).
      rewrite pscale_pmul. change (pconst 1%Qc) with pone. transitivity (products (dbl s) a b (wt (twice k) (wD k a b) a b)); [ring|].
      intros mo. unfold products. rewrite coef_pscale, !coef_psumf', <- qsumf_mul. apply qsumf_ext. intros i Hi. apply in_seq in Hi. rewrite !coef_pscale.
      destruct i as [|i].
      + rewrite w1_0. unfold wt. rewrite !Z.add_0_r, !Z.sub_0_r. replace (wD k a b 0) with 1%Qc by (unfold wD; destruct (_ <? _); reflexivity).
        replace (1 * (twice k a * twice k b) / (twice k a * twice k b))%Qc with 1%Qc by (field; split; apply twice_ne).
        unfold dbl. destruct Hh' as [->| ->].
        * rewrite Z.eqb_refl, one_k, one_not by lia. replace (b =? k) with false by lia. transitivity (coef (pmul (pscale (1 + 1)%Qc (pS (mark s [k]))) (hclass c b)) mo); [ring|].
          transitivity (coef (pscale (1 + 1)%Qc (pmul (pS (mark s [k])) (hclass c b))) mo); [|rewrite coef_pscale; ring]. match goal with |- coef ?A _ = coef ?B _ => enough (EE : peq A B) by apply EE end. rewrite !pscale_pmul. ring.
        * rewrite Z.eqb_refl, one_k, one_not by lia. replace (a =? k) with false by lia. transitivity (coef (pmul (hclass c a) (pscale (1 + 1)%Qc (pS (mark s [k])))) mo); [ring|].
          transitivity (coef (pscale (1 + 1)%Qc (pmul (hclass c a) (pS (mark s [k])))) mo); [|rewrite coef_pscale; ring]. match goal with |- coef ?A _ = coef ?B _ => enough (EE : peq A B) by apply EE end. rewrite !pscale_pmul. ring.
      + unfold dbl. rewrite (proj2 (Z.eqb_neq (a + Z.of_nat (S i)) k)) by lia. rewrite (proj2 (Z.eqb_neq (b - Z.of_nat (S i)) k)) by lia. rewrite !one_not by lia.
        set (X := coef _ mo). enough (Ew : wt (twice k) (wD k a b) a b (S i) = ((1 + 1) * weight_one_k k a b (S i))%Qc) by (rewrite Ew; ring).
        unfold wt, wD, weight_one_k, twice. destruct Hh' as [->| ->].
        * destruct (Z.ltb_spec (2 * k) (k + b)); [lia|]. destruct (Z.ltb_spec k (k + Z.of_nat (S i))); [|lia]. destruct (Z.ltb_spec k (b - Z.of_nat (S i))); [lia|]. destruct (Z.ltb_spec k k); [lia|].
          destruct (Z.ltb_spec k b); [lia|]. destruct i; apply Qc_is_canon; reflexivity.
        * destruct (Z.ltb_spec (2 * k) (a + k)); [|lia]. destruct (Z.ltb_spec k (a + Z.of_nat (S i))); [|lia]. destruct (Z.ltb_spec k (k - Z.of_nat (S i))); [lia|]. destruct (Z.ltb_spec k k); [lia|].
          destruct (Z.ltb_spec k a); [|lia]. unfold weight_IG. cbn [Nat.eqb]. unfold sign. destruct (Nat.even (S i)); apply Qc_is_canon; reflexivity.
    - cbn [Nat.eqb]. rewrite <- wD_wt.
      assert (Ek : kt (twice k) (kapD k a b) a b (S j) = (1 + 1)%Qc).
      { unfold kt, kapD, kap_full, twice. cbn [Nat.eqb]. destruct Hh' as [->| ->].
        * destruct (Z.ltb_spec (2 * k) (k + b)); [lia|]. destruct (Z.ltb_spec k (k + Z.of_nat (S j))); [|lia]. destruct (Z.ltb_spec k (b - Z.of_nat (S j))); [lia|]. destruct (Z.ltb_spec k k); [lia|].
          destruct (Z.ltb_spec k b); [lia|]. apply Qc_is_canon; reflexivity.
        * destruct (Z.ltb_spec (2 * k) (a + k)); [|lia]. destruct (Z.ltb_spec k (a + Z.of_nat (S j))); [|lia]. destruct (Z.ltb_spec k (k - Z.of_nat (S j))); [lia|]. destruct (Z.ltb_spec k k); [lia|].
          destruct (Z.ltb_spec k a); [|lia]. apply Qc_is_canon; reflexivity. }
      rewrite Ek. apply pscale_proper. apply products_ext. intros i Hi. unfold dbl.
      rewrite (proj2 (Z.eqb_neq (a + Z.of_nat (S j) + Z.of_nat i) k)) by lia. rewrite (proj2 (Z.eqb_neq (b - Z.of_nat (S j) - Z.of_nat i) k)) by lia. rewrite !both_not by lia. reflexivity. }
  rewrite EL in E. intros mo. specialize (E mo). rewrite !coef_pscale in E.
  set (X := coef _ mo) in *. set (Y := coef _ mo) in *.
  transitivity ((1 + 1) * X / (1 + 1))%Qc; [field; intros EE; discriminate EE|]. rewrite E. field. intros EE; discriminate EE.
Qed.
Hypothesis Hc2 : 2 * k <= c.
Lemma hclass_neg i : i < 0 -> hclass c i = pzero.
Proof. intros H. unfold hclass. destruct (Z.eqb_spec i 0); [lia|]. destruct (Z.ltb_spec 0 i); [lia|]. reflexivity. Qed.
Notation ff j := (pmul (hclass c (k + Z.of_nat j)) (hclass c (k - Z.of_nat j))).
Lemma Tb_kk j : (1 <= j)%nat -> (j <= Z.to_nat k)%nat -> peq (Tb (k + Z.of_nat j) (k - Z.of_nat j)) (psub (ff j) (ff (S j))).
Proof.
  intros H1 H2.
  assert (Ew : forall i, (i <= Z.to_nat (k - Z.of_nat j))%nat -> weight_two_D k (k + Z.of_nat j) (k - Z.of_nat j) i = weight_short i).
  { intros i Hi. unfold weight_two_D, twice. destruct (Z.ltb_spec (2 * k) (k + Z.of_nat j + (k - Z.of_nat j))); [lia|]. destruct (Z.ltb_spec k (k + Z.of_nat j + Z.of_nat i)); [|lia].
    destruct (Z.ltb_spec k (k - Z.of_nat j - Z.of_nat i)); [lia|]. destruct (Z.ltb_spec k (k + Z.of_nat j)); [|lia]. destruct (Z.ltb_spec k (k - Z.of_nat j)); [lia|].
    field; try (intros EE; discriminate EE). }
  transitivity (products (hclass c) (k + Z.of_nat j) (k - Z.of_nat j) weight_short).
  { apply products_ext. intros i Hi. rewrite Ew, !both_not by lia. reflexivity. }
  unfold products. destruct (Z.to_nat (k - Z.of_nat j)) as [|m] eqn:Em.
  - cbn [seq]. rewrite psumf_cons. unfold psumf. cbn [fold_right weight_short]. rewrite !Z.add_0_r, !Z.sub_0_r. rewrite (hclass_neg (k - Z.of_nat (S j))) by lia. rewrite !pscale_pmul.
    change (pconst 1%Qc) with pone. ring.
  - cbn [seq]. rewrite !psumf_cons. rewrite psumf_zero.
    + cbn [weight_short]. rewrite !Z.add_0_r, !Z.sub_0_r. replace (k + Z.of_nat j + Z.of_nat 1) with (k + Z.of_nat (S j)) by lia. replace (k - Z.of_nat j - Z.of_nat 1) with (k - Z.of_nat (S j)) by lia.
      intros mo. rewrite !coef_padd, coef_psub, !coef_pscale, coef_nil. ring.
    + intros i Hi. apply in_seq in Hi. destruct i as [|[|i]]; try lia. cbn [weight_short]. intros mo. rewrite coef_pscale, coef_nil. ring.
Qed.
Definition evq (j : nat) : Qc := if Nat.even j then 1%Qc else 0%Qc.
Lemma alt_sum (F : nat -> Qc) M : qsumf (fun j => (evq (S j) * (F (S j) - F (S (S j))) + weight_two_k (S j) * F (S j))%Qc) (seq 0 (S M)) = (- (evq (S M) * F (S (S M))))%Qc.
Proof.
  induction M as [|M IH].
  - cbn [seq]. rewrite qsumf_cons, qsumf_nil. cbn [weight_two_k]. unfold evq. cbn [Nat.even]. ring.
  - rewrite qsumf_S, IH. change (weight_two_k (S (S M))) with (sign (S (S (S M)))). unfold sign, evq. change (Nat.even (S (S (S M)))) with (Nat.even (S M)). change (Nat.even (S (S M))) with (Nat.even M).
    rewrite Nat.even_succ, <- Nat.negb_even. destruct (Nat.even M); cbn [negb]; ring.
Qed.
Lemma ident_C s :
  peq (psumf (fun j => if (j =? 0)%nat then TD s k k else pscale (evq j) (Tb (k + Z.of_nat j) (k - Z.of_nat j))) (seq 0 (S (Nt c k k)))) (pmul (one_class c k s k) (one_class c k s k)).
Proof.
  assert (EN : Nt c k k = Z.to_nat k) by (unfold Nt; lia). rewrite EN. rewrite TD_kk. unfold products at 1. intros mo. rewrite coef_psumf', qsumf_S0. cbn [Nat.eqb]. rewrite coef_psumf', qsumf_S0.
  rewrite coef_pscale. rewrite !Z.add_0_r, !Z.sub_0_r. change (weight_two_k 0) with 1%Qc.
  set (F := fun j => coef (ff j) mo).
  rewrite (qsumf_ext (fun j => coef (pscale (weight_two_k (S j)) _) mo) (fun j => (weight_two_k (S j) * F (S j))%Qc)).
  2:{ intros j _. rewrite coef_pscale, !one_not by lia. reflexivity. }
  rewrite (qsumf_ext (fun j => coef (pscale (evq (S j)) _) mo) (fun j => (evq (S j) * (F (S j) - F (S (S j))))%Qc)).
  2:{ intros j Hj. apply in_seq in Hj. rewrite coef_pscale, (Tb_kk (S j)) by lia. rewrite coef_psub. unfold F. ring. }
  destruct (Z.to_nat k) as [|M] eqn:EM; [lia|]. pose proof (alt_sum F M) as E. rewrite qsumf_add in E.
  assert (E0 : F (S (S M)) = 0%Qc).
  { unfold F. rewrite (hclass_neg (k - Z.of_nat (S (S M)))) by lia. transitivity (coef pzero mo); [|reflexivity]. match goal with |- coef ?A _ = coef ?B _ => enough (EE : peq A B) by apply EE end. ring. }
  rewrite E0 in E.
  match goal with |- ((1 * ?A + ?B) + ?C)%Qc = _ => transitivity (A + (C + B))%Qc; [ring|] end. rewrite E. ring.
Qed.
End Fam.

(** ** OG(n+1-k,2n+2), k > 0 *)
Definition shape2 (l : list Z) : Prop := (length (shape l) <= 2)%nat.
Lemma shape2_row2 x y : shape2 (row2 x y).
Proof. unfold shape2, shape, row2. destruct (y =? 0); cbn [filter]; destruct (0 <? x); try destruct (0 <? y); cbn; lia. Qed.
Lemma shape2_row2m x y : shape2 (row2 x y ++ [0]).
Proof. unfold shape2. rewrite shape_app0. apply shape2_row2. Qed.
Section Main.
Variables (k n : Z) (qq : bool).
Hypothesis Hok : okD qq k n.
Hypothesis Hn : 1 <= n - k.
Notation c := (n + k).
Notation V := (typed_in k (n + 1 - k) (n + k)).
Notation PP := (P (piD k n qq)).
Notation DD := (DD c k).
Notation TD := (two_row_D c k).
Let Hkc : 1 <= k <= c. Proof. destruct Hok. lia. Qed.
Lemma pS_DD l : peq (psubst (dv DD) (pS l)) (DD l).
Proof. unfold pS. rewrite psubst_pvar. reflexivity. Qed.
Lemma swap_PD i p : ID k n i -> ID k n p -> peq (PP p (num2spec i)) (PP i (num2spec p)).
Proof.
  intros Hi Hp. pose proof (sysD k n qq Hok) as SYS. pose proof (ps_comm _ _ _ _ _ _ _ SYS i p [] Hi Hp (ps_nil _ _ _ _ _ _ _ SYS)) as E.
  rewrite <- (specialD k n qq Hok i Hi), <- (specialD k n qq Hok p Hp), !ext_pS in E. exact E.
Qed.
Lemma DD_sum a b K1 K2 : peq (psubst (dv DD) (padd (psum2 c a b K1) (psum2m c a b K2)))
  (psumf (fun j => padd (pscale (K1 j) (DD (row2 (a + Z.of_nat j) (b - Z.of_nat j)))) (pscale (K2 j) (DD (row2 (a + Z.of_nat j) (b - Z.of_nat j) ++ [0])))) (seq 0 (S (Nt c a b)))).
Proof.
  rewrite psubst_padd. unfold psum2, psum2m. rewrite !psubst_psumf, <- psumf_add. apply psumf_ext. intros j _. rewrite !psubst_pscale, !pS_DD. reflexivity.
Qed.
Lemma supp_PD a b p lam : 1 <= b <= a -> a <= c -> (k < a -> b < a) -> Z.abs p = b -> V lam -> shape lam = [a] -> supp (linm shape2 (eq VQ)) (PP p lam).
Proof.
  intros H1 H2 H3 H4 H5 H6. eapply supp_peq; [symmetry; apply (P_D k n qq Hok Hn a b p lam); auto|].
  apply supp_padd; apply supp_psumf; intros j _; apply supp_pscale, supp_lin_pS; [apply shape2_row2|apply shape2_row2m].
Qed.
Lemma V_row a : 1 <= a <= c -> V [a].
Proof. intros Ha. left. apply kstrict_row1'; destruct Hok; lia. Qed.
Lemma V_k0 : V [k; 0].
Proof. right. exists [k]. destruct Hok. split; [reflexivity|]. split; [lia|]. split; [left; reflexivity|]. apply kstrict_row1'; lia. Qed.
Lemma V_mark s : V (mark s [k]).
Proof. destruct s; [apply V_k0|apply V_row; lia]. Qed.
Lemma shape_row a : 1 <= a -> shape [a] = [a].
Proof. intros Ha. unfold shape. cbn [filter]. replace (0 <? a) with true by lia. reflexivity. Qed.
Lemma shape_mark s : shape (mark s [k]) = [k].
Proof. destruct s; cbn [mark]; [rewrite shape_app0|]; apply shape_row; lia. Qed.
Lemma pieri_A a b : 1 <= b <= a -> a <= c -> (k < a -> b < a) -> a <> k -> b <> k -> peq (psubst (dv DD) (PP b [a])) (pmul (hclass c a) (hclass c b)).
Proof.
  intros Hb Ha Hst Na Nb. pose proof Hok as (Hk & _). rewrite (P_D k n qq Hok Hn a b b [a]) by (auto; try apply V_row; try apply shape_row; lia).
  rewrite DD_sum, <- (ident_A c k Hkc a b) by auto. apply psumf_ext. intros j Hj. apply in_seq in Hj. unfold Nt in Hj.
  destruct (KD_A k n qq Hok a b b j Hb Hst Na Nb eq_refl ltac:(lia)) as (E1 & E2). rewrite E1, E2. rewrite DD_row2 by lia.
  destruct (hit k (a + Z.of_nat j) (b - Z.of_nat j)) eqn:Eh.
  - rewrite DD_row2m by (auto; lia). rewrite <- (hit_sum c k Hkc (a + Z.of_nat j) (b - Z.of_nat j)) by (auto; unfold hit in Eh; lia). rewrite !pscale_pmul. ring.
  - rewrite TD_not by auto. intros mo. rewrite coef_padd, !coef_pscale. ring.
Qed.
Lemma sum_B (s : bool) a b (K1 K2 : nat -> Qc) : 1 <= b <= a -> a <= c -> hit k a b = true -> (a = k -> b <> k) ->
  (forall j, (j <= Z.to_nat b)%nat -> K1 j = (if (j =? 0)%nat then if s then 0 else 1 else 1)%Qc /\ K2 j = (if (j =? 0)%nat then if s then 1 else 0 else 0)%Qc) ->
  peq (psubst (dv DD) (padd (psum2 c a b K1) (psum2m c a b K2))) (pmul (one_class c k s a) (one_class c k s b)).
Proof.
  intros Hb Ha Hh Hne HK. rewrite DD_sum, <- (ident_B c k Hkc s a b) by auto. apply psumf_ext. intros j Hj. apply in_seq in Hj. unfold Nt in Hj.
  destruct (HK j ltac:(lia)) as (E1 & E2). rewrite E1, E2. clear E1 E2. destruct j as [|j]; cbn [Nat.eqb].
  - rewrite !Z.add_0_r, !Z.sub_0_r. rewrite DD_row2, DD_row2m by (auto; lia). destruct s; intros mo; rewrite coef_padd, !coef_pscale; ring.
  - rewrite DD_row2 by lia. rewrite TD_not by (unfold hit in *; apply orb_true_iff in Hh; apply orb_false_iff; rewrite !Z.eqb_eq in Hh; rewrite !Z.eqb_neq; lia). intros mo; rewrite coef_padd, !coef_pscale; ring.
Qed.
Lemma pieri_B1 b s : 1 <= b < k -> peq (psubst (dv DD) (PP b (mark s [k]))) (pmul (one_class c k s k) (one_class c k s b)).
Proof.
  intros Hb. pose proof Hok as (Hk & _). rewrite (P_D k n qq Hok Hn k b b (mark s [k])) by (try apply V_mark; try apply shape_mark; lia).
  apply sum_B; try lia; [unfold hit; lia|]. intros j Hj. apply (KD_B1 k n qq Hok); auto.
Qed.
Lemma pieri_B2 a s : k < a <= c -> peq (psubst (dv DD) (PP (spc k s) [a])) (pmul (one_class c k s a) (one_class c k s k)).
Proof.
  intros Ha. pose proof Hok as (Hk & _). rewrite (P_D k n qq Hok Hn a k (spc k s) [a]) by (try apply V_row; try apply shape_row; try (unfold spc; destruct s); lia).
  apply sum_B; try lia; [unfold hit; lia|]. intros j Hj. apply (KD_B2 k n qq Hok); auto. lia.
Qed.
Lemma pieri_C s : peq (psubst (dv DD) (PP (spc k s) (mark s [k]))) (pmul (one_class c k s k) (one_class c k s k)).
Proof.
  pose proof Hok as (Hk & _). rewrite (P_D k n qq Hok Hn k k (spc k s) (mark s [k])) by (try apply V_mark; try apply shape_mark; try (unfold spc; destruct s); lia).
  rewrite DD_sum, <- (ident_C c k Hkc ltac:(lia) s). apply psumf_ext. intros j Hj. apply in_seq in Hj. unfold Nt in Hj.
  destruct (KD_C k n qq Hok s s j ltac:(lia)) as (E1 & E2). rewrite E1, E2. clear E1 E2. destruct j as [|j]; cbn [Nat.eqb].
  - rewrite !Z.add_0_r, !Z.sub_0_r. rewrite DD_row2, DD_row2m by (auto; unfold hit; lia). destruct s; cbn [andb orb]; intros mo; rewrite coef_padd, !coef_pscale; ring.
  - rewrite DD_row2 by lia. rewrite TD_not by (unfold hit; apply orb_false_iff; rewrite !Z.eqb_neq; lia). rewrite Bool.eqb_reflx. unfold evq. intros mo; rewrite coef_padd, !coef_pscale; ring.
Qed.
Lemma one_sv i s : ID k n i -> (s = true -> i = - k) -> (s = false -> 0 < i) -> one_class c k s (Z.abs i) = pvar (sv i).
Proof.
  intros Hi Ht Hf. unfold ID in Hi. destruct s.
  - specialize (Ht eq_refl). subst i. replace (Z.abs (- k)) with k by lia. rewrite one_k by lia. unfold sv, num2spec. replace (0 <? - k) with false by lia. rewrite Z.opp_involutive. reflexivity.
  - specialize (Hf eq_refl). rewrite Z.abs_eq by lia. destruct (Z.eq_dec i k) as [->|N].
    + rewrite one_k by lia. unfold sv, num2spec. replace (0 <? k) with true by lia. reflexivity.
    + rewrite one_not by lia. apply hclass_sv'. lia.
Qed.
Lemma DD_row a : 1 <= a -> peq (DD [a]) (one_class c k false a).
Proof. intros Ha. rewrite <- (TD_0 c k Hkc). change [a] with (row2 a 0). apply DD_row2; lia. Qed.
Lemma giam_D_rec l p l0 : V l -> shape2 l -> l <> [] -> gsel k l = Ok (p, l0) -> ID k n p -> V l0 ->
  shape2 l0 /\ supp (linm shape2 (eq VQ)) (PP p l0) /\ peq (psubst (dv DD) (PP p l0)) (pmul (pvar (sv p)) (DD l0)).
Proof.
  intros Hl HU Hne Hg Hp Hl0. pose proof Hok as (Hk & _).
  assert (Hrow : ID k n p -> shape2 [] /\ supp (linm shape2 (eq VQ)) (PP p []) /\ peq (psubst (dv DD) (PP p [])) (pmul (pvar (sv p)) (DD []))).
  { intros _. split; [unfold shape2; cbn; lia|]. split.
    - eapply supp_peq; [exact (specialD k n qq Hok p Hp)|]. apply supp_lin_pS. unfold num2spec. destruct (0 <? p); [apply (shape2_row2 p 0)|apply (shape2_row2m (-p) 0)].
    - rewrite <- (specialD k n qq Hok p Hp), pS_DD. cbn [GiamTwoD.DD].
      transitivity (pvar (sv p)); [|ring]. unfold num2spec. destruct (Z.ltb_spec 0 p) as [L|L].
      + rewrite DD_row by lia. rewrite <- (one_sv p false) by (auto; discriminate). rewrite Z.abs_eq by lia. reflexivity.
      + unfold ID in Hp. assert (Ep : p = - k) by lia. subst p. cbn [GiamTwoD.DD Z.eqb]. unfold sv, num2spec. replace (0 <? - k) with false by lia. rewrite Z.opp_involutive. reflexivity. }
  pose proof (typed_shape _ _ _ _ Hl) as (((Hpa & Hlen & Hc0) & Hks) & Hsh). unfold shape2 in HU.
  assert (Hparts : forall j, (j < length (shape l))%nat -> 0 < part (shape l) j) by apply Hpa.
  destruct (shape l) as [|a [|b [|z u]]] eqn:Es; [| | |cbn in HU; lia].
  - exfalso. destruct Hsh as [Hsh|(_ & _ & [])]. congruence.
  - specialize (Hparts 0%nat ltac:(cbn; lia)). change (part [a] 0) with a in *. destruct Hsh as [->|(-> & _ & Hin)].
    + rewrite gsel_part in Hg by auto. injection Hg as <- <-. apply Hrow; auto.
    + destruct Hin as [->|[]]. cbn [app] in Hg. unfold gsel in Hg. cbn [last hd] in Hg. change (0 =? 0) with true in Hg. rewrite Z.eqb_refl in Hg. cbn [andb] in Hg.
      change (py_get [k; 0] 1) with (@Ok Z 0) in Hg. cbn [bind] in Hg. replace (0 <? k) with true in Hg by lia. injection Hg as <- <-. apply Hrow; auto.
  - pose proof (Hparts 0%nat ltac:(cbn; lia)) as A0. pose proof (Hparts 1%nat ltac:(cbn; lia)) as A1. pose proof (proj2 Hpa 0%nat) as A2. specialize (Hks 0%nat).
    change (part [a; b] 0) with a in *. change (part [a; b] 1) with b in *.
    assert (Hst : k < a -> b < a) by lia.
    assert (G : forall i q s s', ID k n i -> ID k n q -> Z.abs i = a -> Z.abs q = b -> (s = true -> i = - k) -> (s = false -> 0 < i) -> (s' = true -> q = - k) -> (s' = false -> 0 < q) ->
      (a = k -> b = k -> s = s') ->
      shape2 (num2spec q) /\ supp (linm shape2 (eq VQ)) (PP i (num2spec q)) /\ peq (psubst (dv DD) (PP i (num2spec q))) (pmul (pvar (sv i)) (DD (num2spec q)))).
    { intros i q s s' Hi Hq Ea Eb Hs1 Hs2 Hs1' Hs2' Hss.
      assert (Eis : forall i s, ID k n i -> (s = true -> i = - k) -> (s = false -> 0 < i) -> num2spec i = if s then [k; 0] else [Z.abs i]).
      { intros j r Hj H1 H2. unfold num2spec. destruct r; [rewrite (H1 eq_refl); replace (0 <? - k) with false by lia; rewrite Z.opp_involutive; reflexivity|].
        specialize (H2 eq_refl). replace (0 <? j) with true by lia. rewrite Z.abs_eq by lia. reflexivity. }
      pose proof (Eis i s Hi Hs1 Hs2) as Ei. pose proof (Eis q s' Hq Hs1' Hs2') as Eq. rewrite Ea in Ei. rewrite Eb in Eq.
      pose proof (swap_PD q i Hq Hi) as HS.
      assert (ED : peq (DD (num2spec q)) (one_class c k s' b)).
      { rewrite Eq. destruct s'; [|apply DD_row; lia]. specialize (Hs1' eq_refl). subst q. replace b with k by lia. rewrite one_k by lia. reflexivity. }
      assert (HVi : V (num2spec i)) by (rewrite Ei; destruct s; [apply V_k0|apply V_row; lia]).
      assert (Hshi : shape (num2spec i) = [a]).
      { rewrite Ei. destruct s; [|apply shape_row; lia]. specialize (Hs1 eq_refl). replace a with k by lia. apply (shape_mark true). }
      split; [rewrite Eq; destruct s'; [apply (shape2_row2m k 0)|apply (shape2_row2 b 0)]|]. split.
      - eapply supp_peq; [symmetry; exact HS|]. apply (supp_PD a b); auto; lia.
      - rewrite HS, ED, <- (one_sv i s) by auto. rewrite Ea.
        destruct (Z.eq_dec a k) as [Ek|Nk]; [destruct (Z.eq_dec b k) as [Ek'|Nk']|destruct (Z.eq_dec b k) as [Ek'|Nk']].
        + specialize (Hss Ek Ek'). subst s'. assert (EE : q = spc k s) by (unfold spc; destruct s; [auto|specialize (Hs2' eq_refl); lia]).
          replace (num2spec i) with (mark s [k]) by (rewrite Ei; destruct s; cbn [mark app]; congruence). rewrite EE, pieri_C, Ek, Ek'. reflexivity.
        + destruct s'; [specialize (Hs1' eq_refl); lia|]. specialize (Hs2' eq_refl). replace q with b by lia.
          replace (num2spec i) with (mark s [k]) by (rewrite Ei; destruct s; cbn [mark app]; congruence). rewrite pieri_B1 by lia. rewrite Ek, (one_not c k s b), (one_not c k false b) by lia. reflexivity.
        + destruct s; [specialize (Hs1 eq_refl); lia|]. assert (EE : q = spc k s') by (unfold spc; destruct s'; [auto|specialize (Hs2' eq_refl); lia]).
          rewrite Ei, EE, pieri_B2 by lia. rewrite (one_not c k false a), (one_not c k s' a) by lia. rewrite Ek'. reflexivity.
        + destruct s; [specialize (Hs1 eq_refl); lia|]. destruct s'; [specialize (Hs1' eq_refl); lia|]. specialize (Hs2' eq_refl). replace q with b by lia. rewrite Ei, pieri_A by lia. rewrite !one_not by lia. reflexivity. }
    assert (N1 : forall z, 1 <= z -> num2spec z = [z]) by (intros z Hz; unfold num2spec; replace (0 <? z) with true by lia; reflexivity).
    assert (N2 : num2spec (- k) = [k; 0]) by (unfold num2spec; replace (0 <? - k) with false by lia; rewrite Z.opp_involutive; reflexivity).
    destruct Hsh as [->|(-> & _ & Hin)].
    + rewrite gsel_part in Hg by auto. injection Hg as <- <-. rewrite <- N1 by lia. apply (G a b false false); auto; try discriminate; try (left; lia); lia.
    + cbn [app] in Hg. unfold gsel in Hg. cbn [last hd] in Hg. change (0 =? 0) with true in Hg. rewrite andb_true_r in Hg.
      change (py_get [a; b; 0] 1) with (@Ok Z b) in Hg. cbn [bind] in Hg. change (sl [a; b; 0] 1 (-1)) with [b] in Hg. change (sl_from [a; b; 0] 1) with [b; 0] in Hg.
      destruct (Z.eqb_spec a k) as [Ea|Na].
      * injection Hg as <- <-. destruct (Z.ltb_spec b k).
        -- rewrite <- N1 by lia. apply (G (- k) b true false); auto; try discriminate; try (left; lia); lia.
        -- replace b with k in * by lia. rewrite <- N2. apply (G (- k) (- k) true true); auto; try discriminate; try lia.
      * assert (Eb : b = k) by (destruct Hin as [E|[E|[]]]; lia). subst b. replace (k <? k) with false in Hg by lia. injection Hg as <- <-. rewrite <- N2.
        apply (G a (- k) false true); auto; try discriminate; try (right; lia); lia.
Qed.
Lemma giam_D a b s : V (mark s [a; b]) -> 1 <= b <= a -> exists E, giambelli_rec_inner (giam_fuel (gD k n)) (piD k n qq) k (mark s [a; b]) = Ok E /\ peq E (TD s a b).
Proof.
  intros HV Hb. destruct (giam_on (sysD k n qq Hok) shape2 DD ltac:(reflexivity) giam_D_rec (mark s [a; b]) HV) as (E & E1 & E2).
  - destruct s; cbn [mark]; replace [a; b] with (row2 a b) by (unfold row2; replace (b =? 0) with false by lia; reflexivity); [apply shape2_row2m|apply shape2_row2].
  - exists E. split; auto. rewrite E2. destruct s; cbn [mark app GiamTwoD.DD]; [reflexivity|]. replace (b =? 0) with false by lia. reflexivity.
Qed.
End Main.

(** ** OG(n+1,2n+2) *)
Lemma P_D0 n qq a b : 2 <= n -> 1 <= b <= a -> a <= n + 0 -> (0 < a -> b < a) ->
  peq (P (piD 0 n qq) b [a]) (padd (psum2 (n + 0) a b (kt (twice 0) (kap 0 a b) a b)) (qterm (n + 0) false a b)).
Proof.
  intros Hn Hb Ha Hs. rewrite <- (proj2 (piD0_agree n qq b [a] ltac:(lia) ltac:(lia) ltac:(left; apply kstrict_row1'; lia))).
  apply P_B; auto; lia.
Qed.
Lemma giam_D0 n qq a b : 2 <= n -> kstrict_in 0 (n - 0) (n + 0) [a; b] -> exists E, giambelli_rec_inner (giam_fuel (gD 0 n)) (piD 0 n qq) 0 [a; b] = Ok E /\
  peq E (two_row_D (n + 0) 0 false a b).
Proof.
  intros Hn HV.
  assert (Hspec : forall i, 1 <= i <= n + 0 -> peq (pS [i]) (P (piD 0 n qq) i [])).
  { intros i Hi. rewrite <- (proj2 (piD0_agree n qq i [] ltac:(lia) ltac:(lia) ltac:(left; apply kstrict_nil; lia))). apply (specialB 0 n ltac:(lia) ltac:(lia) qq). lia. }
  destruct (giam_two (n + 0) (n - 0) (sysD0 n qq ltac:(lia)) ltac:(reflexivity) Hspec
    false (twice 0) ltac:(intros z; unfold twice; destruct (_ <? _); intros E; discriminate E) (fun a b => P_D0 n qq a b Hn) ltac:(discriminate) a b HV) as (E & E1 & E2).
  exists E. split; auto. rewrite E2. unfold T2, corr. cbn [andb]. transitivity (two_row (n + 0) a b (wt (twice 0) (weight_two 0 a b) a b)); [ring|].
  destruct HV as (((H1 & H2) & H3 & H4) & H5). pose proof (H1 0%nat ltac:(cbn; lia)) as A0. pose proof (H1 1%nat ltac:(cbn; lia)) as A1. specialize (H5 0%nat).
  change (part [a; b] 0) with a in *. change (part [a; b] 1) with b in *.
  unfold two_row_D. destruct (Z.eqb_spec a 0); [lia|]. destruct (Z.eqb_spec b 0); [lia|]. apply psumf_ext. intros i _.
  unfold wt, weight_two, weight_two_D. destruct (Z.ltb_spec (2 * 0 + 1) (a + b)); [|lia]. destruct (Z.ltb_spec (2 * 0) (a + b)); [|lia]. reflexivity.
Qed.

Lemma c69_OG_even m N g a b second : OrthogonalGrassmannian m N = Ok g -> Z.even N = true -> m <= N / 2 -> 1 <= b -> class_OG m N (mark second [a; b]) ->
  (exists x, giambelli g (pS (mark second [a; b])) = Ok x /\ peq x (two_row_D (N - 1 - m) (N / 2 - m) second a b)) /\
  (m <> N / 2 - 1 -> exists y, qgiambelli g (pS (mark second [a; b])) = Ok y /\ peq y (two_row_D (N - 1 - m) (N / 2 - m) second a b)).
Proof.
  intros Hg Ev Hm Hb HV. destruct (og_inv m N g Hg ltac:(lia)) as [(n & _ & _ & Ev' & _)|(n & EN & En & _ & Hmn & ->)]; [congruence|].
  unfold class_OG in HV. rewrite Ev in HV. replace (N / 2 - m) with (n + 1 - m) in * by lia. replace (N - 1 - m) with (n + (n + 1 - m)) in * by lia.
  assert (Ek : exists k, k = n + 1 - m) by eauto. destruct Ek as [k Ek]. rewrite <- Ek in *. replace m with (n + 1 - k) in HV by lia.
  assert (Hm1 : 1 <= n + 1 - k).
  { pose proof (typed_shape _ _ _ _ HV) as (((_ & HL & _) & _) & _). assert (Hin : In b (shape (mark second [a; b]))) by (apply filter_In; split; [destruct second; cbn; auto|lia]).
    destruct (shape (mark second [a; b])); [destruct Hin|]. cbn [length] in HL. lia. }
  assert (Es : shape (mark second [a; b]) = [a; b] /\ b <= a /\ 2 <= n + 1 - k /\ (k = 0 -> second = false /\ kstrict_in 0 (n - 0) (n + 0) [a; b])).
  { destruct (Z.eq_dec k 0) as [K0|K0].
    - rewrite K0 in *. replace (n + 1 - 0) with (n + 1) in HV by lia. rewrite Z.add_0_r in HV. pose proof HV as HV'. apply typed0 in HV; [|lia].
      destruct second; [exfalso; destruct HV as (((H1 & _) & _) & _); specialize (H1 2%nat ltac:(cbn; lia)); cbn in H1; lia|]. cbn [mark] in *.
      destruct HV as (((H1 & H2) & H3 & H4) & H5). pose proof (H1 0%nat ltac:(cbn; lia)) as A0. pose proof (H2 0%nat) as A2. change (part [a; b] 0) with a in *. change (part [a; b] 1) with b in *.
      split; [unfold shape; cbn [filter]; replace (0 <? a) with true by lia; replace (0 <? b) with true by lia; reflexivity|]. split; [lia|]. cbn [length] in H3. split; [lia|].
      intros _. split; auto. split; [split; [split; auto|]|]; auto.
    - assert (Em : shape (mark second [a; b]) = shape [a; b]) by (destruct second; cbn [mark]; [apply shape_app0|reflexivity]).
      pose proof (typed_shape _ _ _ _ HV) as ((((H1 & H2) & H3 & H4) & H5) & Hsh). rewrite Em in *.
      assert (Ha : 0 < a).
      { destruct (Z.ltb_spec 0 a) as [|L]; auto. exfalso. unfold shape in Hsh. cbn [filter] in Hsh. replace (0 <? a) with false in Hsh by lia. replace (0 <? b) with true in Hsh by lia.
        destruct second; cbn [mark app] in Hsh; destruct Hsh as [Hsh|(Hsh & _)]; try discriminate Hsh. injection Hsh as E1 E2. lia. }
      assert (E2 : shape [a; b] = [a; b]) by (unfold shape; cbn [filter]; replace (0 <? a) with true by lia; replace (0 <? b) with true by lia; reflexivity).
      rewrite E2 in *. specialize (H2 0%nat). change (part [a; b] 0) with a in *. change (part [a; b] 1) with b in *. cbn [length] in H3. split; [reflexivity|]. split; [lia|]. split; [lia|]. lia. }
  destruct Es as (Es & Hab & Hn2 & Hk0).
  assert (HG : forall qq, (qq = true -> k <> 1) -> exists e, apply_lc (on_part (giambelli_rec_inner (giam_fuel (mkGr TD k n)) (piD k n qq) k)) (pS (mark second [a; b])) = Ok e /\
    peq e (two_row_D (n + k) k second a b)).
  { intros qq Hq. destruct (Z.eq_dec k 0) as [K0|K0].
    - destruct (Hk0 K0) as (-> & HV'). cbn [mark] in *. rewrite K0 in *.
      destruct (giam_D0 n qq a b ltac:(destruct HV' as ((_ & HL & _) & _); cbn [length] in HL; lia) HV') as (E & E1 & E2).
      destruct (on_class (giambelli_rec_inner (giam_fuel (mkGr TD 0 n)) (piD 0 n qq) 0) [a; b] E E1) as (e & Ee & Pe). exists e. split; auto. rewrite Pe. exact E2.
    - assert (Hok : okD qq k n) by (split; [lia|]; intros Hqq; specialize (Hq Hqq); lia).
      destruct (giam_D k n qq Hok ltac:(lia) a b second HV ltac:(lia)) as (E & E1 & E2).
      destruct (on_class (giambelli_rec_inner (giam_fuel (mkGr TD k n)) (piD k n qq) k) (mark second [a; b]) E E1) as (e & Ee & Pe). exists e. split; auto. rewrite Pe. exact E2. }
  split; [apply (HG false); discriminate|]. intros Hm2. apply (HG true). intros _. lia.
Qed.
