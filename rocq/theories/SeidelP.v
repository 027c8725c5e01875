(** OG(n,2n+1): the class of a point acts by a rotation. *)

From Coq Require Import ZArith List Lia Bool Permutation QArith Qcanon Setoid Morphisms.
From Verif Require WordArrow.
From Verif Require Import Py OrderFacts PyFacts ModelPart ModelQcalc ModelPoly ModelStr ModelGr Spec SpecPieri SpecSeidel
  PolyFacts SuppFacts Enum FillFacts PartFacts ConjFacts PairFacts Word Transfer Extract CommC CommB OpTheory Sys Sys2 SysMap RingC RingB CoefSys PowTwo
  DualWord GrInv Seidel SeidelSys SeidelC SeidelApi SysApi ApiA SwapRing.
Import ListNotations.
Open Scope Z_scope.

(** ** words without free columns *)
(** the letter that makes the number of [LR] even *)
Definition et (w : word) : letter := if Z.odd (cR w) then LR else LL.
Definition Tp (w : word) : word := match w with h :: u => swq (et w) :: Tw u | [] => [] end.
Definition Tp' (w : word) : word := match w with g :: u => et (swq g :: Tw u) :: Tw u | [] => [] end.
Definition ap (w : word) : nat := Z.to_nat ((cR w + 1) / 2).

Lemma et_R w : isR (et w) = cR w mod 2.
Proof. unfold et. rewrite Zmod_odd. destruct (Z.odd (cR w)); reflexivity. Qed.
Lemma et_E w : isE (et w) = 0.
Proof. unfold et. destruct (Z.odd (cR w)); reflexivity. Qed.
Lemma ap_R w : 2 * Z.of_nat (ap w) = cR w + isR (et w).
Proof.
  unfold ap. rewrite et_R. pose proof (cR_range w). rewrite Z2Nat.id by (apply Z.div_pos; lia).
  pose proof (Z.div_mod (cR w + 1) 2 ltac:(lia)). pose proof (Z.mod_pos_bound (cR w + 1) 2 ltac:(lia)). pose proof (Z.div_mod (cR w) 2 ltac:(lia)). pose proof (Z.mod_pos_bound (cR w) 2 ltac:(lia)). lia.
Qed.
Lemma cE0_cons x w : cE (x :: w) = 0 -> isE x = 0 /\ cE w = 0 /\ x <> LE.
Proof. cbn [cE]. pose proof (cE_range w). destruct x; cbn [isE]; intros; (split; [lia|]; split; [lia|]; try discriminate). lia. Qed.
Lemma isR_swq x : x <> LE -> isR (swq x) = 1 - isR x.
Proof. destruct x; [congruence|reflexivity|reflexivity]. Qed.
Lemma isR_inj x y : x <> LE -> y <> LE -> isR x = isR y -> x = y.
Proof. destruct x, y; cbn; congruence. Qed.
Lemma et_ne w : et w <> LE.
Proof. unfold et. destruct (Z.odd (cR w)); discriminate. Qed.
Lemma swq_ne x : x <> LE -> swq x <> LE.
Proof. destruct x; cbn; congruence. Qed.
Lemma swq_inv x : swq (swq x) = x.
Proof. destruct x; reflexivity. Qed.
Lemma bit x : 0 <= isR x <= 1.
Proof. destruct x; cbn; lia. Qed.
Ltac pz := Z.div_mod_to_equations.
Lemma Tp_Tp' w : cE w = 0 -> Tp (Tp' w) = w.
Proof.
  destruct w as [|g u]; [reflexivity|]. intros H. apply cE0_cons in H. destruct H as (_ & _ & Hg). cbn [Tp' Tp]. rewrite Tw_Tw. f_equal.
  rewrite <- (swq_inv g) at 2. f_equal. apply isR_inj; [apply et_ne|apply swq_ne; auto|].
  rewrite et_R. cbn [cR]. rewrite et_R. cbn [cR]. pose proof (bit (swq g)). set (c := cR (Tw u)). clearbody c. pz. lia.
Qed.
Lemma Tp'_Tp w : cE w = 0 -> Tp' (Tp w) = w.
Proof.
  destruct w as [|h u]; [reflexivity|]. intros H. apply cE0_cons in H. destruct H as (_ & _ & Hh). cbn [Tp Tp']. rewrite swq_inv, Tw_Tw. f_equal.
  apply isR_inj; [apply et_ne|auto|]. rewrite et_R. cbn [cR]. rewrite et_R. cbn [cR]. pose proof (bit h). pz. lia.
Qed.
Lemma Tp_len w : length (Tp w) = length w.
Proof. destruct w; cbn [Tp length]; auto. rewrite Tw_len. auto. Qed.
Lemma Tp'_len w : length (Tp' w) = length w.
Proof. destruct w; cbn [Tp' length]; auto. rewrite Tw_len. auto. Qed.
Lemma isE_ne x : x <> LE -> isE x = 0.
Proof. destruct x; cbn; congruence. Qed.
Lemma Tp_E w : cE w = 0 -> cE (Tp w) = 0.
Proof. destruct w as [|h u]; auto. intros H. apply cE0_cons in H. cbn [Tp cE]. rewrite Tw_cE, isE_ne by apply swq_ne, et_ne. lia. Qed.
Lemma Tp'_E w : cE w = 0 -> cE (Tp' w) = 0.
Proof. destruct w as [|h u]; auto. intros H. apply cE0_cons in H. cbn [Tp' cE]. rewrite Tw_cE, isE_ne by apply et_ne. lia. Qed.

(** ** the kernel read backwards *)
Lemma bB0_head e x y a sh : x <> LE -> y <> LE -> bB0 e x y = Some (a, sh) -> sh = hS a /\ WordArrow.chE a = 0 /\ chR a + isR x = 2 * Z.of_nat e + isR y.
Proof. intros Hx Hy. destruct e as [|[|e]]; destruct x, y; try congruence; cbn; intros E; try discriminate; injection E as <- <-; auto. Qed.
Lemma bB0_tail b x y : x <> LE -> y <> LE -> fB b <> 0%Qc -> (isR x + isR y - chR b) mod 2 = 0 ->
  fB b = (two ^ zS b)%Qc /\ exists e, bB0 e (swq x) (swq y) = Some (std b, hS b) /\ 2 * Z.of_nat e = chR b + isR y - isR x.
Proof.
  intros Hx Hy. destruct b; cbn [fB]; try congruence; intros _; destruct x, y; try congruence; cbn; intros M; try discriminate;
    (split; [unfold two; ring|first [exists 0%nat; split; [reflexivity|reflexivity]|exists 1%nat; split; [reflexivity|reflexivity]]]).
Qed.
Lemma fB_std a : WordArrow.chE a = 0 -> fB (std a) = (two ^ zS a)%Qc.
Proof. destruct a; cbn; intros H; try discriminate; unfold two; ring. Qed.
Lemma two_add i j : (two ^ (i + j) = two ^ i * two ^ j)%Qc.
Proof. induction i as [|i IH]; cbn [Qcpower Nat.add]; [ring|rewrite IH; ring]. Qed.
Section K.
Variable m : nat.
Lemma ker_facts d x y p : length x = S m -> length y = S m -> cE x = 0 -> cE y = 0 -> co (kerT bB0 m d x y) p <> 0%Qc ->
  exists e, Z.of_nat (ap x) + Z.of_nat e = Z.of_nat d + Z.of_nat (ap y) /\
    co (kerT bB0 m d x y) p = co (kerT bB0 m e (Tp x) (Tp y)) p.
Proof.
  intros Lx Ly Ex Ey. pose proof (ap_R x) as A1. pose proof (ap_R y) as A2. pose proof (et_R x) as T1. pose proof (et_R y) as T2. pose proof (et_ne x) as N1. pose proof (et_ne y) as N2.
  destruct x as [|h w]; [discriminate|]. destruct y as [|h' v]; [discriminate|]. cbn [Tp]. set (t := et (h :: w)) in *. set (t' := et (h' :: v)) in *. clearbody t t'.
  injection Lx as Lw. injection Ly as Lv. destruct (cE0_cons _ _ Ex) as (_ & Ew & Hh), (cE0_cons _ _ Ey) as (_ & Ev & Hh').
  cbn [kerT]. destruct (bB0 d h h') as [[a sh]|] eqn:Eb; [|rewrite co_nil; congruence]. destruct (bB0_head _ _ _ _ _ Hh Hh' Eb) as (Esh & Ca & Ra).
  rewrite co_wterm. destruct (walk m a w v) as [[[g z] b]|] eqn:Ewk; [|congruence]. intros Hne.
  assert (Hf : fB b <> 0%Qc) by (intros X; apply Hne; rewrite X; destruct (sh + g =? p)%nat; ring). clear Hne.
  pose proof (walk_R _ _ _ _ _ _ _ Ewk Lw Lv) as R. cbn [cR] in *.
  assert (M : (isR t + isR t' - chR b) mod 2 = 0).
  { rewrite T1, T2. assert (chR b = 2 * Z.of_nat d + (isR h' + cR v) - (isR h + cR w)) as -> by lia. pz. lia. }
  destruct (bB0_tail b t t' N1 N2 Hf M) as (Fb & e & B & Re). exists e. split; [lia|].
  destruct (walk_rev _ _ _ _ _ _ _ Lw Lv Ewk) as (g' & z' & H1 & H2 & H3).
  cbn [kerT]. rewrite B, co_wterm, H1, Fb, (fB_std a Ca), <- !two_add.
  replace (hS b + g')%nat with (sh + g)%nat by lia. replace (z' + zS a)%nat with (z + zS b)%nat by lia. reflexivity.
Qed.
Lemma ker_facts' e x y p : length x = S m -> length y = S m -> cE x = 0 -> cE y = 0 -> co (kerT bB0 m e (Tp x) (Tp y)) p <> 0%Qc ->
  exists d, Z.of_nat (ap x) + Z.of_nat e = Z.of_nat d + Z.of_nat (ap y) /\
    co (kerT bB0 m d x y) p = co (kerT bB0 m e (Tp x) (Tp y)) p.
Proof.
  intros Lx Ly Ex Ey. pose proof (ap_R x) as A1. pose proof (ap_R y) as A2. pose proof (et_R x) as T1. pose proof (et_R y) as T2. pose proof (et_ne x) as N1. pose proof (et_ne y) as N2.
  destruct x as [|h w]; [discriminate|]. destruct y as [|h' v]; [discriminate|]. cbn [Tp]. set (t := et (h :: w)) in *. set (t' := et (h' :: v)) in *. clearbody t t'.
  injection Lx as Lw. injection Ly as Lv. destruct (cE0_cons _ _ Ex) as (_ & Ew & Hh), (cE0_cons _ _ Ey) as (_ & Ev & Hh').
  cbn [kerT]. destruct (bB0 e (swq t) (swq t')) as [[a sh]|] eqn:Eb; [|rewrite co_nil; congruence].
  destruct (bB0_head _ _ _ _ _ (swq_ne _ N1) (swq_ne _ N2) Eb) as (Esh & Ca & Ra). rewrite !isR_swq in Ra by auto.
  assert (Lw' : length (Tw w) = m) by (rewrite Tw_len; auto). assert (Lv' : length (Tw v) = m) by (rewrite Tw_len; auto).
  rewrite co_wterm. destruct (walk m a (Tw w) (Tw v)) as [[[g z] b]|] eqn:Ewk; [|congruence]. intros Hne.
  assert (Hf : fB b <> 0%Qc) by (intros X; apply Hne; rewrite X; destruct (sh + g =? p)%nat; ring). clear Hne.
  pose proof (walk_R _ _ _ _ _ _ _ Ewk Lw' Lv') as R. rewrite !Tw_cR, Ew, Ev in R. assert (zlen w = zlen v) by (unfold zlen; congruence). cbn [cR] in *.
  assert (M : (isR (swq h) + isR (swq h') - chR b) mod 2 = 0).
  { rewrite !isR_swq by auto. assert (chR b = 2 * Z.of_nat e + isR t - isR t' + cR w - cR v) as -> by lia. rewrite T1, T2. pose proof (bit h). pose proof (bit h'). pz. lia. }
  destruct (bB0_tail b (swq h) (swq h') (swq_ne _ Hh) (swq_ne _ Hh') Hf M) as (Fb & d & B & Re). rewrite !swq_inv in B. rewrite !isR_swq in Re by auto. exists d. split; [lia|].
  destruct (walk_rev _ _ _ _ _ _ _ Lw' Lv' Ewk) as (g' & z' & H1 & H2 & H3). rewrite !Tw_Tw in H1.
  cbn [kerT]. rewrite B, co_wterm, H1, Fb, (fB_std a Ca), <- !two_add.
  replace (hS b + g')%nat with (sh + g)%nat by lia. replace (z' + zS a)%nat with (z + zS b)%nat by lia. reflexivity.
Qed.
Lemma ker_rot d e x y p : length x = S m -> length y = S m -> cE x = 0 -> cE y = 0 -> (ap x + e = d + ap y)%nat ->
  co (kerT bB0 m d x y) p = co (kerT bB0 m e (Tp x) (Tp y)) p.
Proof.
  intros Lx Ly Ex Ey H. destruct (Qc_eq_dec (co (kerT bB0 m d x y) p) 0%Qc) as [Z0|NZ].
  - destruct (Qc_eq_dec (co (kerT bB0 m e (Tp x) (Tp y)) p) 0%Qc) as [Z1|NZ]; [congruence|].
    destruct (ker_facts' e x y p Lx Ly Ex Ey NZ) as (d' & H1 & H2). assert (d' = d) by lia. subst. auto.
  - destruct (ker_facts d x y p Lx Ly Ex Ey NZ) as (e' & H1 & H2). assert (e' = e) by lia. subst. auto.
Qed.
Lemma ker_low d x y p : length x = S m -> length y = S m -> cE x = 0 -> cE y = 0 -> (d + ap y < ap x)%nat -> co (kerT bB0 m d x y) p = 0%Qc.
Proof.
  intros Lx Ly Ex Ey H. destruct (Qc_eq_dec (co (kerT bB0 m d x y) p) 0%Qc) as [Z0|NZ]; auto.
  destruct (ker_facts d x y p Lx Ly Ex Ey NZ) as (e' & H1 & H2). lia.
Qed.
Lemma ker_low' e x y p : length x = S m -> length y = S m -> cE x = 0 -> cE y = 0 -> (ap x + e < ap y)%nat -> co (kerT bB0 m e (Tp x) (Tp y)) p = 0%Qc.
Proof.
  intros Lx Ly Ex Ey H. destruct (Qc_eq_dec (co (kerT bB0 m e (Tp x) (Tp y)) p) 0%Qc) as [Z0|NZ]; auto.
  destruct (ker_facts' e x y p Lx Ly Ex Ey NZ) as (e' & H1 & H2). lia.
Qed.
End K.

(** ** strict partitions *)
Lemma wp0_R w : cE w = 0 -> wp 0 (LR :: w) = (zlen w + 1) :: wp 0 w.
Proof. intros H. cbn [wp]. cbv zeta. rewrite H. pose proof (zlen_nonneg w). destruct (Z.eqb_spec (zlen w + 1 - 0 + 0) 0); [lia|]. f_equal. lia. Qed.
Lemma wp0_range w : cE w = 0 -> forall j, In j (wp 0 w) -> 1 <= j <= zlen w.
Proof.
  induction w as [|x w IH]; intros H j; [intros []|]. destruct (cE0_cons _ _ H) as (_ & Hw & Hx). rewrite zlen_cons. pose proof (zlen_nonneg w).
  destruct x; [congruence| |].
  - rewrite wp0_R by auto. intros [<-|Hj]; [lia|]. apply IH in Hj; auto. lia.
  - change (wp 0 (LL :: w)) with (wp 0 w). intros Hj. apply IH in Hj; auto. lia.
Qed.
Lemma wp0_snoc w x : cE (w ++ [x]) = 0 -> forall j, In j (wp 0 (w ++ [x])) <-> (j = 1 /\ x = LR) \/ In (j - 1) (wp 0 w).
Proof.
  induction w as [|y w IH]; intros H j.
  - cbn [app]. destruct x; cbn in H; try lia; cbn; intuition (try discriminate; try lia).
  - cbn [app] in *. destruct (cE0_cons _ _ H) as (_ & Hw & Hy). pose proof Hw as Hw'. rewrite cE_app in Hw'. pose proof (cE_range w). pose proof (cE_range [x]).
    destruct y; [congruence| |].
    + rewrite !wp0_R by (auto; lia). assert (zlen (w ++ [x]) = zlen w + 1) as -> by (unfold zlen; rewrite app_length; cbn; lia). cbn [In]. rewrite IH by auto. split; intros; intuition lia.
    + change (wp 0 (LL :: w ++ [x])) with (wp 0 (w ++ [x])). change (wp 0 (LL :: w)) with (wp 0 w). apply IH; auto.
Qed.
Lemma wp0_Tw w : cE w = 0 -> forall j, In j (wp 0 (Tw w)) <-> 1 <= j <= zlen w /\ ~ In (zlen w + 1 - j) (wp 0 w).
Proof.
  induction w as [|x w IH]; intros H j; [cbn; lia|]. destruct (cE0_cons _ _ H) as (_ & Hw & Hx). rewrite Tw_cons, zlen_cons. pose proof (zlen_nonneg w).
  rewrite wp0_snoc by (rewrite cE_app, Tw_cE; cbn [cE]; rewrite isE_ne by (apply swq_ne; auto); lia). rewrite IH by auto. pose proof (wp0_range w Hw) as RR.
  destruct x; [congruence| |].
  - rewrite wp0_R by auto. cbn [In swq]. replace (zlen w + 1 - (j - 1)) with (zlen w + 1 + 1 - j) by lia. split.
    + intros [[_ E]|[Hj Hn]]; [discriminate|]. split; [lia|]. intros [E|Hi]; [lia|auto].
    + intros [Hj Hn]. right. split; [|auto]. destruct (Z.eq_dec j 1) as [->|]; [|lia]. exfalso. apply Hn. left. lia.
  - change (wp 0 (LL :: w)) with (wp 0 w). cbn [swq]. replace (zlen w + 1 - (j - 1)) with (zlen w + 1 + 1 - j) by lia. split.
    + intros [[-> _]|[Hj Hn]]; [|split; [lia|auto]]. split; [lia|]. intros Hi. apply RR in Hi. lia.
    + intros [Hj Hn]. destruct (Z.eq_dec j 1) as [->|]; [left; auto|right]. split; [lia|auto].
Qed.
Lemma wp0_len w : cE w = 0 -> zlen (wp 0 w) = cR w.
Proof.
  induction w as [|x w IH]; intros H; [reflexivity|]. destruct (cE0_cons _ _ H) as (_ & Hw & Hx). destruct x; [congruence| |].
  - rewrite wp0_R, zlen_cons by auto. cbn [cR isR]. rewrite IH by auto. lia.
  - change (wp 0 (LL :: w)) with (wp 0 w). cbn [cR isR]. auto.
Qed.
Lemma wp0_Tp h u : cE (h :: u) = 0 -> forall j, In j (wp 0 (Tp (h :: u))) <->
  (j = zlen (h :: u) /\ Z.even (zlen (wp 0 (h :: u))) = true) \/ (1 <= j < zlen (h :: u) /\ ~ In (zlen (h :: u) - j) (wp 0 (h :: u))).
Proof.
  intros H j. destruct (cE0_cons _ _ H) as (_ & Hw & Hx). rewrite wp0_len by auto. cbn [Tp]. rewrite zlen_cons.
  pose proof (wp0_Tw u Hw j) as T. pose proof (wp0_range u Hw) as RR. assert (ET : cE (Tw u) = 0) by (rewrite Tw_cE; auto).
  assert (EI : forall i, i <> zlen u + 1 -> In i (wp 0 (h :: u)) <-> In i (wp 0 u)).
  { intros i Hi. destruct h; [congruence| |reflexivity]. rewrite wp0_R by auto. cbn [In]. intuition lia. }
  assert (ZT : zlen (Tw u) = zlen u) by (unfold zlen; rewrite Tw_len; auto).
  unfold et. rewrite <- Z.negb_odd. destruct (Z.odd (cR (h :: u))); cbn [swq negb].
  - change (wp 0 (LL :: Tw u)) with (wp 0 (Tw u)). rewrite T. split.
    + intros [Hj Hn]. right. split; [lia|]. rewrite EI by lia. exact Hn.
    + intros [[_ X]|[Hj Hn]]; [discriminate|]. rewrite EI in Hn by lia. split; [lia|auto].
  - rewrite wp0_R by auto. cbn [In]. rewrite ZT, T. split.
    + intros [<-|[Hj Hn]]; [left; auto|]. right. split; [lia|]. rewrite EI by lia. exact Hn.
    + intros [[-> _]|[Hj Hn]]; [auto|]. right. rewrite EI in Hn by lia. split; [lia|auto].
Qed.

(** ** classes *)
Section P.
Variable n : Z.
Hypothesis Hok : okB true 0 n.
Let Hn : 1 <= n. Proof. unfold okB in Hok. lia. Qed.
Notation V := (kstrict_in 0 (n - 0) (n + 0)).
Notation ws := (wset 0 n).
Notation wof := (SeidelC.wof 0 n).
Definition rotP (l : list Z) : list Z := wp 0 (Tp (wof l)).
Definition rotP' (l : list Z) : list Z := wp 0 (Tp' (wof l)).
Definition aP (l : list Z) : nat := ap (wof l).
Let Hk : 0 <= 0 <= n. Proof. lia. Qed.
Lemma inws w : In w ws <-> length w = Z.to_nat n /\ cE w = 0.
Proof. apply in_wset. Qed.
Lemma Tp_ws w : In w ws -> In (Tp w) ws.
Proof. rewrite !inws, Tp_len. intros [? ?]. auto using Tp_E. Qed.
Lemma Tp'_ws w : In w ws -> In (Tp' w) ws.
Proof. rewrite !inws, Tp'_len. intros [? ?]. auto using Tp'_E. Qed.
Lemma V_word l : V l -> exists w, In w ws /\ wp 0 w = l /\ wof l = w.
Proof. intros Hl. destruct (proj1 (wset_V 0 n Hk l) Hl) as (w & Hw & E). exists w. split; auto. split; auto. rewrite <- E. apply (wof_wp 0 n); auto. Qed.
Lemma word_V w : In w ws -> V (wp 0 w).
Proof. intros Hw. apply (wset_V 0 n Hk). eauto. Qed.
Lemma rotP_V l : V l -> V (rotP l).
Proof. intros Hl. destruct (V_word l Hl) as (w & Hw & _ & E). unfold rotP. rewrite E. apply word_V, Tp_ws, Hw. Qed.
Lemma rotP'_V l : V l -> V (rotP' l).
Proof. intros Hl. destruct (V_word l Hl) as (w & Hw & _ & E). unfold rotP'. rewrite E. apply word_V, Tp'_ws, Hw. Qed.
Lemma rotP_rotP' l : V l -> rotP (rotP' l) = l.
Proof.
  intros Hl. destruct (V_word l Hl) as (w & Hw & E & E'). unfold rotP', rotP. rewrite E', (wof_wp 0 n) by (auto using Tp'_ws). rewrite Tp_Tp' by (apply inws; auto). auto.
Qed.
Lemma rotP'_rotP l : V l -> rotP' (rotP l) = l.
Proof.
  intros Hl. destruct (V_word l Hl) as (w & Hw & E & E'). unfold rotP', rotP. rewrite E', (wof_wp 0 n) by (auto using Tp_ws). rewrite Tp'_Tp by (apply inws; auto). auto.
Qed.
Lemma rotP_pieri i l nu : IC 0 n i -> V l -> V nu ->
  (forall d e, (aP l + e = d + aP nu)%nat -> coef (P (piB 0 n true) i l) (qS d nu) = coef (P (piB 0 n true) i (rotP l)) (qS e (rotP nu))) /\
  (forall d, (d + aP nu < aP l)%nat -> coef (P (piB 0 n true) i l) (qS d nu) = 0%Qc) /\
  (forall e, (aP l + e < aP nu)%nat -> coef (P (piB 0 n true) i (rotP l)) (qS e (rotP nu)) = 0%Qc).
Proof.
  unfold IC. intros Hi Hl Hnu. destruct (V_word l Hl) as (w & Hw & El & Ew), (V_word nu Hnu) as (v & Hv & En & Ev).
  unfold aP, rotP. rewrite Ew, Ev, <- El, <- En. pose proof (Tp_ws _ Hw) as Hw'. pose proof (Tp_ws _ Hv) as Hv'.
  pose proof (fun d => proj1 (piB_wcoefs 0 n true i w Hok Hw ltac:(lia)) d v Hv) as C1.
  pose proof (fun d => proj1 (piB_wcoefs 0 n true i (Tp w) Hok Hw' ltac:(lia)) d (Tp v) Hv') as C2. cbv beta in C1, C2.
  pose proof (proj1 (inws w) Hw) as [L1 E1]. pose proof (proj1 (inws v) Hv) as [L2 E2].
  assert (Em : Z.to_nat n = S (Nat.pred (Z.to_nat n))) by lia. rewrite Em in L1, L2. unfold kerB, tabB in *. cbn [Z.eqb] in *.
  split; [|split].
  - intros d e H. rewrite C1, C2. rewrite (ker_rot _ d e w v) by auto. reflexivity.
  - intros d H. rewrite C1, ker_low by auto. ring.
  - intros e H. rewrite C2, ker_low' by auto. ring.
Qed.
Lemma wof_nil : wof [] = repeat LL (Z.to_nat n).
Proof.
  rewrite <- (w0_wp 0 n) by lia. rewrite (wof_wp 0 n); [|auto|apply w0_ws; lia]. unfold w0. change (Z.to_nat 0) with O. cbn [repeat]. rewrite app_nil_r. f_equal. f_equal. lia.
Qed.
Lemma cR_Ls j : cR (repeat LL j) = 0.
Proof. induction j; cbn [repeat cR isR]; lia. Qed.
Lemma rotP_nil : rotP [] = stairs n n /\ aP [] = O.
Proof.
  unfold rotP, aP, ap. rewrite wof_nil, cR_Ls. split; [|reflexivity]. destruct (Z.to_nat n) as [|j] eqn:E; [lia|].
  cbn [repeat]. cbn [Tp]. unfold et. cbn [cR isR]. rewrite cR_Ls. cbn [Z.add Z.odd swq]. unfold Tw, wdual. rewrite map_rep, rev_repeat. cbn [swq].
  change (LR :: repeat LR j) with (repeat LR (S j)). rewrite wp_Rs. f_equal; lia.
Qed.
Notation MQ := (M TB (piB 0 n true) 0 (giam_fuel (gB 0 n))).
Lemma rotPt l : V l -> peq (MQ (pS (stairs n n)) (pS l)) (pmono (qS (aP l) (rotP l))).
Proof.
  intros Hl. destruct rotP_nil as [E0 A0]. rewrite <- E0.
  apply (FT_mult (sysB 0 n true Hok) rotP rotP' aP); auto using rotP_V, rotP'_V, rotP_rotP', rotP'_rotP. intros; apply rotP_pieri; auto.
Qed.
Lemma symP lam m nu : V lam -> V m -> V nu ->
  (forall d e, (aP lam + e = d + aP nu)%nat -> coef (MQ (pS lam) (pS m)) (qS d nu) = coef (MQ (pS (rotP lam)) (pS m)) (qS e (rotP nu))) /\
  (forall d, (d + aP nu < aP lam)%nat -> coef (MQ (pS lam) (pS m)) (qS d nu) = 0%Qc) /\
  (forall e, (aP lam + e < aP nu)%nat -> coef (MQ (pS (rotP lam)) (pS m)) (qS e (rotP nu)) = 0%Qc).
Proof.
  destruct rotP_nil as [E0 A0].
  intros. apply (FT_sym (sysB 0 n true Hok) rotP rotP' aP); auto using rotP_V, rotP'_V, rotP_rotP', rotP'_rotP. intros; apply rotP_pieri; auto.
Qed.
Lemma rotP_parts l : V l -> (forall j, In j (rotP l) <-> (j = n /\ Z.even (zlen l) = true) \/ (1 <= j < n /\ ~ In (n - j) l)) /\
  Z.of_nat (aP l) = (zlen l + 1) / 2.
Proof.
  intros Hl. destruct (V_word l Hl) as (w & Hw & E & E'). unfold rotP, aP. rewrite E', <- E. pose proof (wset_zlen 0 n Hk w Hw) as Ez. apply inws in Hw. destruct Hw as [Lw Cw].
  destruct w as [|h u]; [cbn in Ez; lia|]. split.
  - intros j. rewrite (wp0_Tp h u Cw j), Ez. reflexivity.
  - rewrite (wp0_len _ Cw). unfold ap. pose proof (cR_range (h :: u)). rewrite Z2Nat.id; [reflexivity|]. apply Z.div_pos; lia.
Qed.
End P.

(** ** the API *)
Section Api.
Variables (n : Z) (g : gr).
Hypothesis Hg : OrthogonalGrassmannian n (2 * n + 1) = Ok g.
Hypothesis Hn : 1 <= n.
Notation V := (class_OG n (2 * n + 1)).
Notation L := (map (fun j => n - j) (zrange 0 n)).
Let Hm : 1 <= n <= n. Proof. lia. Qed.
Lemma okP : okB true 0 n. Proof. unfold okB. lia. Qed.
Lemma P_facts : forall l, V l <-> kstrict_in 0 (n - 0) (n + 0) l.
Proof. destruct (odd_facts n n g Hg Hm) as (_ & EV). intros l. rewrite EV. replace (n - n) with 0 by lia. reflexivity. Qed.
Notation MQ := (M TB (piB 0 n true) 0 (giam_fuel (gB 0 n))).
Lemma qmult_P a b : V a -> V b -> exists r, qmult g (pS a) (pS b) = Ok r /\ peq r (MQ (pS a) (pS b)).
Proof. pose proof (qmult_B n n g Hg Hm a b) as H. replace (n - n) with 0 in H by lia. exact H. Qed.
Lemma rotP_VO l : V l -> V (rotP n l).
Proof. rewrite !P_facts. apply rotP_V, okP. Qed.
Lemma LP_V : V L.
Proof. change (V (stairs n n)). rewrite <- (proj1 (rotP_nil n okP)). apply rotP_VO. apply (V_nilB n n g Hg Hm). Qed.
Lemma rotPO l : V l -> peq (MQ (pS L) (pS l)) (pmono (qS (aP n l) (rotP n l))).
Proof. rewrite P_facts. apply rotPt, okP. Qed.
Lemma c100_rot lam : V lam -> exists r mu d, qmult g (pS L) (pS lam) = Ok r /\ V mu /\
  is_sum_of r (fun e nu => e = d /\ nu = mu) /\
  (forall j, In j mu <-> (j = n /\ Z.even (zlen lam) = true) \/ (1 <= j < n /\ ~ In (n - j) lam)) /\
  Z.of_nat d = (zlen lam + 1) / 2.
Proof.
  intros Hl. destruct (gen_rot g V MQ L (rotP n) (aP n) qmult_P LP_V) with (lam := lam) as (r & E & S); auto using rotPO.
  exists r, (rotP n lam), (aP n lam). split; auto. split; [apply rotP_VO; auto|]. split; auto. apply rotP_parts; [apply okP|]. apply P_facts; auto.
Qed.
Lemma c100_sym : top_sym (qmult g) V L.
Proof.
  unfold top_sym. apply (gen_sym g V MQ L (rotP n) (aP n) qmult_P LP_V rotP_VO rotPO). intros lam mu nu. rewrite !P_facts. intros. apply symP; auto. apply okP.
Qed.
End Api.

(** the same on OG(n+1,2n+2), which has the same products *)
Section Api2.
Variables (n : Z) (g' : gr).
Hypothesis Hg : OrthogonalGrassmannian (n + 1) (2 * n + 2) = Ok g'.
Hypothesis Hn : 1 <= n.
Notation V := (class_OG n (2 * n + 1)).
Notation V' := (class_OG (n + 1) (2 * n + 2)).
Notation L := (map (fun j => n - j) (zrange 0 n)).
Lemma spin_eq : exists g, OrthogonalGrassmannian n (2 * n + 1) = Ok g /\ (forall l, V l <-> V' l) /\
  forall a b, V a -> V b -> exists r r', qmult g (pS a) (pS b) = Ok r /\ qmult g' (pS a) (pS b) = Ok r' /\ peq r r'.
Proof.
  assert (E : OrthogonalGrassmannian n (2 * n + 1) = Ok (mkGr TB 0 n)).
  { unfold OrthogonalGrassmannian. destruct (Z.ltb_spec n 0); [lia|]. destruct (Z.ltb_spec (2 * n + 1) 0); [lia|]. cbn [orb].
    assert ((2 * n + 1) mod 2 = 1) as -> by (symmetry; apply Z.mod_unique with n; lia). cbn [Z.eqb].
    assert ((2 * n + 1 - 1) / 2 = n) as -> by (symmetry; apply Z.div_unique with 0; lia). replace (n - n) with 0 by lia. reflexivity. }
  exists (mkGr TB 0 n). split; auto. destruct (c59 n _ _ Hn E Hg) as (HV & H). split; auto.
  intros a b Ha Hb. assert (LC : forall x, V x -> lin_comb V (pS x)) by (intros x Hx; apply lin_comb_iff, sys_lq_pS; auto).
  apply (H _ _ (LC a Ha) (LC b Hb)).
Qed.
Lemma c100_rot2 lam : V' lam -> exists r mu d, qmult g' (pS L) (pS lam) = Ok r /\ V' mu /\
  is_sum_of r (fun e nu => e = d /\ nu = mu) /\
  (forall j, In j mu <-> (j = n /\ Z.even (zlen lam) = true) \/ (1 <= j < n /\ ~ In (n - j) lam)) /\
  Z.of_nat d = (zlen lam + 1) / 2.
Proof.
  destruct spin_eq as (g & E & EV & HM). intros Hl. apply EV in Hl. destruct (c100_rot n g E Hn lam Hl) as (r & mu & d & Er & Hmu & Sr & R1 & R2).
  destruct (HM L lam (LP_V n g E Hn) Hl) as (r0 & r' & E0 & E' & Pr). rewrite Er in E0. injection E0 as <-.
  exists r', mu, d. split; auto. split; [apply EV; auto|]. split; auto. eapply is_sum_peq; [|exact Sr]. rewrite Pr. reflexivity.
Qed.
Lemma c100_sym2 : top_sym (qmult g') V' L.
Proof.
  destruct spin_eq as (g & E & EV & HM). unfold top_sym. intros lam mu nu lam' nu' a b rl rn Hl Hm Hnu El Sl En Sn. apply EV in Hl, Hm, Hnu.
  pose proof (LP_V n g E Hn) as HL.
  assert (G : forall x y r' R, V x -> V y -> qmult g' (pS x) (pS y) = Ok r' -> is_sum_of r' R -> exists r, qmult g (pS x) (pS y) = Ok r /\ is_sum_of r R).
  { intros x y r' R Hx Hy E' S. destruct (HM x y Hx Hy) as (r & r1 & E1 & E2 & Pr). rewrite E' in E2. injection E2 as <-. exists r. split; auto. eapply is_sum_peq; [|exact S]. rewrite Pr. reflexivity. }
  destruct (G _ _ _ _ HL Hl El Sl) as (rl0 & El0 & Sl0), (G _ _ _ _ HL Hnu En Sn) as (rn0 & En0 & Sn0).
  destruct (c100_rot n g E Hn lam Hl) as (r1 & mu1 & d1 & Er1 & Hmu1 & Sr1 & _). rewrite El0 in Er1. injection Er1 as <-.
  assert (Hl' : V lam').
  { apply single_term in Sl0, Sr1. rewrite Sl0 in Sr1. apply pmono_qS_inj in Sr1. destruct Sr1 as [_ ->]. auto. }
  destruct (c100_sym n g E Hn lam mu nu lam' nu' a b rl0 rn0 Hl Hm Hnu El0 Sl0 En0 Sn0) as (r & r' & E1 & E2 & A & B & C).
  destruct (HM lam mu Hl Hm) as (s & s' & F1 & F2 & P1). rewrite E1 in F1. injection F1 as <-.
  destruct (HM lam' mu Hl' Hm) as (t & t' & F3 & F4 & P2). rewrite E2 in F3. injection F3 as <-.
  exists s', t'. split; auto. split; auto. split; [|split]; intros.
  - rewrite <- (P1 _), <- (P2 _). auto.
  - rewrite <- (P1 _). auto.
  - rewrite <- (P2 _). auto.
Qed.
End Api2.
