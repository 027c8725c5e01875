(** The Littlewood-Richardson rule: products in type A as sums over tableaux. *)

From Coq Require Import ZArith List Lia Bool Permutation QArith Qcanon Setoid Morphisms.
From Verif Require Import Py OrderFacts PyFacts ModelPart ModelQcalc ModelPoly ModelStr ModelGr Spec
  PolyFacts SuppFacts OpTheory Enum FillFacts PartFacts PieriA QPieriA CylA WSum Sys Sys2 RingA FactsA
  Transfer CoefSys CommD2 Schub ConjFacts RimFacts DualSys LRCore LRSum.
Import ListNotations.
Open Scope Z_scope.

(** ** the alternating function that picks out one partition *)
Fixpoint sgnl (g : list Z) : Z :=
  match g with
  | [] => 1
  | x :: t => fold_right (fun y s => Z.sgn (x - y) * s) 1 t * sgnl t
  end.
Lemma sgn_prod_perm x a b : Permutation a b -> fold_right (fun y s => Z.sgn (x - y) * s) 1 a = fold_right (fun y s => Z.sgn (x - y) * s) 1 b.
Proof. induction 1; simpl; lia. Qed.
Lemma sgnl_swap u a b v : sgnl (u ++ b :: a :: v) = - sgnl (u ++ a :: b :: v).
Proof.
  induction u as [|x u IH]; cbn [app sgnl].
  - cbn [fold_right]. replace (b - a) with (- (a - b)) by lia. rewrite Z.sgn_opp. lia.
  - rewrite IH. rewrite (sgn_prod_perm x (u ++ b :: a :: v) (u ++ a :: b :: v)); [lia|].
    apply Permutation_app_head, perm_swap.
Qed.
Lemma sdecb_head x g : sdecb (x :: g) = true -> forall y, In y g -> y < x.
Proof.
  revert x. induction g as [|y g IH]; intros x H z Hz; [contradiction|]. rewrite sdecb_cons, andb_true_iff, Z.ltb_lt in H.
  destruct H as [H1 H2]. destruct Hz as [->|Hz]; auto. specialize (IH y H2 z Hz). lia.
Qed.
Lemma sgnl_sdec g : sdecb g = true -> sgnl g = 1.
Proof.
  induction g as [|x g IH]; intros H; auto. cbn [sgnl]. rewrite (IH (sdecb_tl _ _ H)).
  pose proof (sdecb_head x g H) as HB. clear H IH. induction g as [|y g IH]; auto. cbn [fold_right].
  rewrite Z.sgn_pos by (specialize (HB y (or_introl eq_refl)); lia).
  specialize (IH (fun z Hz => HB z (or_intror Hz))). lia.
Qed.
Lemma sdec_perm a : forall b, sdecb a = true -> sdecb b = true -> Permutation a b -> a = b.
Proof.
  induction a as [|x a IH]; intros b Ha Hb HP.
  - apply Permutation_nil in HP. auto.
  - destruct b as [|y b]; [apply Permutation_sym, Permutation_nil in HP; discriminate|].
    assert (x = y).
    { pose proof (Permutation_in x HP (or_introl eq_refl)) as H1.
      pose proof (Permutation_in y (Permutation_sym HP) (or_introl eq_refl)) as H2.
      destruct H1 as [|H1]; auto. destruct H2 as [|H2]; auto.
      pose proof (sdecb_head _ _ Ha y H2). pose proof (sdecb_head _ _ Hb x H1). lia. }
    subst y. f_equal. apply IH; eauto using sdecb_tl. eapply Permutation_cons_inv; eauto.
Qed.
Definition permb (a b : list Z) : bool :=
  forallb (fun x => (count_occ Z.eq_dec a x =? count_occ Z.eq_dec b x)%nat) (a ++ b).
Lemma permb_ok a b : permb a b = true <-> Permutation a b.
Proof.
  unfold permb. rewrite forallb_forall, (Permutation_count_occ Z.eq_dec). split; intros H x.
  - destruct (in_dec Z.eq_dec x (a ++ b)) as [Hi|Hi]; [apply Nat.eqb_eq; auto|].
    rewrite in_app_iff in Hi. rewrite (proj1 (count_occ_not_In Z.eq_dec a x)), (proj1 (count_occ_not_In Z.eq_dec b x)); tauto.
  - intros _. apply Nat.eqb_eq. auto.
Qed.
Definition chi (n : list Z) (g : list Z) : Qc := if permb g n then Q2Qc (inject_Z (sgnl g)) else 0%Qc.
Lemma permb_swap u a b v n : permb (u ++ b :: a :: v) n = permb (u ++ a :: b :: v) n.
Proof.
  apply eq_true_iff_eq. rewrite !permb_ok. assert (E : Permutation (u ++ b :: a :: v) (u ++ a :: b :: v)) by (apply Permutation_app_head, perm_swap).
  split; intros H; [rewrite <- E|rewrite E]; auto.
Qed.
Lemma Q2Qc_opp z : Q2Qc (inject_Z (- z)) = (- Q2Qc (inject_Z z))%Qc.
Proof. unfold Qcopp. apply Qc_is_canon. unfold Q2Qc, this. rewrite !Qred_correct. reflexivity. Qed.
Lemma chi_anti m n : anti m (chi n).
Proof. intros i u a b v _ _. unfold chi. rewrite permb_swap, sgnl_swap, Q2Qc_opp. destruct (permb _ n); ring. Qed.
Lemma chi_sdec n g : sdecb n = true -> sdecb g = true -> chi n g = if list_eq_dec Z.eq_dec g n then 1%Qc else 0%Qc.
Proof.
  intros Hn Hg. unfold chi. rewrite sgnl_sdec by auto. destruct (permb g n) eqn:E, (list_eq_dec Z.eq_dec g n) as [E2|E2]; auto.
  - exfalso. apply E2, sdec_perm; auto. apply permb_ok; auto.
  - exfalso. subst. rewrite (proj2 (permb_ok n n)) in E; [discriminate|reflexivity].
Qed.

(** ** strips *)
Fixpoint strl (o : Z) (l : list Z) (p : Z) : list (list Z) :=
  match l with
  | [] => if p =? 0 then [[]] else []
  | x :: l' => flat_map (fun y => map (cons y) (strl x l' (p - (y - x)))) (zrange x (o + 1))
  end.
Lemma strl_in l : forall o p mu, In mu (strl o l p) <-> intl o l mu /\ zsum mu = zsum l + p.
Proof.
  induction l as [|x l IH]; intros o p mu; cbn [strl].
  - destruct (Z.eqb_spec p 0) as [->|N]; cbn [In]; destruct mu as [|y mu]; cbn [intl zsum fold_right]; intuition (try discriminate; try lia).
  - rewrite in_flat_map. split.
    + intros (y & Hy & H). apply in_map_iff in H. destruct H as (t & <- & Ht). apply IH in Ht. apply in_zrange in Hy.
      cbn [intl]. change (zsum (y :: t)) with (y + zsum t). change (zsum (x :: l)) with (x + zsum l). intuition lia.
    + destruct mu as [|y mu]; cbn [intl]; [intros [[] _]|]. change (zsum (y :: mu)) with (y + zsum mu). change (zsum (x :: l)) with (x + zsum l).
      intros [[H1 H2] H3]. exists y. split; [apply in_zrange; lia|]. apply in_map. apply IH. split; auto. lia.
Qed.
Lemma strl_nodup l : forall o p, NoDup (strl o l p).
Proof.
  induction l as [|x l IH]; intros o p; cbn [strl].
  - destruct (p =? 0); repeat constructor. auto.
  - pose proof (zrange_nodup x (o + 1)) as Hn. induction Hn as [|y r Hy Hr IHr]; cbn [flat_map]; [constructor|].
    apply nodup_app; auto.
    + apply FinFun.Injective_map_NoDup; auto. intros a b E. inversion E; auto.
    + intros a H1 H2. apply in_map_iff in H1. destruct H1 as (t & <- & _).
      apply in_flat_map in H2. destruct H2 as (z & Hz & H2). apply in_map_iff in H2. destruct H2 as (t' & E & _). inversion E; subst; auto.
Qed.
Lemma ST_strl G l : forall u o p, ST G u (o + Z.of_nat (length l)) (vadd (rho (length l)) l) p =
  qsum (fun ka => G (u ++ vadd (rho (length l)) ka)) (strl o l p).
Proof.
  induction l as [|x l IH]; intros u o p.
  - cbn [length rho vadd ST strl]. destruct (p =? 0); [|reflexivity]. rewrite qsum_cons, qsum_nil, app_nil_r. ring.
  - cbn [length rho vadd ST strl]. rewrite qsum_flat_map.
    replace (zrange (Z.of_nat (length l) + x) (o + Z.of_nat (S (length l)))) with (zrange (x + Z.of_nat (length l)) (o + 1 + Z.of_nat (length l))) by (f_equal; lia).
    rewrite <- qsum_zshift. apply qsum_ext. intros y _. rewrite qsum_map.
    replace (Z.of_nat (length l) + x) with (x + Z.of_nat (length l)) by lia. rewrite IH.
    replace (p - (Z.of_nat (length l) + y - (x + Z.of_nat (length l)))) with (p - (y - x)) by lia.
    apply qsum_ext. intros ka _. rewrite <- app_assoc. reflexivity.
Qed.

(** ** columns of a partition *)
Definition colsz (l : list Z) (c : Z) : nat := length (filter (fun x => c <? x) l).
Definition cols (l : list Z) : list nat := map (colsz l) (rev (zrange 0 (part l 0))).

Lemma decp_le prev l x : decp prev l -> In x l -> x <= prev.
Proof.
  revert prev. induction l as [|y l IH]; intros prev H Hx; [contradiction|]. destruct H as [H1 H2]. destruct Hx as [->|Hx]; [lia|].
  specialize (IH y H2 Hx). lia.
Qed.
Lemma colsz_iff l : forall prev c t, decp prev l -> 0 <= c -> ((t < colsz l c)%nat <-> c < part l t).
Proof.
  unfold colsz. induction l as [|x l IH]; intros prev c t H Hc.
  - rewrite part_nil. simpl. lia.
  - destruct H as [H1 H2]. cbn [filter]. destruct (Z.ltb_spec c x) as [E|E].
    + cbn [length]. destruct t as [|t]; [unfold part; simpl; lia|]. change (part (x :: l) (S t)) with (part l t). rewrite <- (IH x c t); auto. lia.
    + assert (F : filter (fun y => c <? y) l = []).
      { destruct (filter (fun y => c <? y) l) as [|z r] eqn:EF; auto. exfalso.
        assert (Hz : In z (filter (fun y => c <? y) l)) by (rewrite EF; left; auto).
        apply filter_In in Hz. destruct Hz as [Hz1 Hz2]. apply (decp_le x) in Hz1; auto. lia. }
      rewrite F. simpl. pose proof (decp_nonneg x l H2) as Hn. rewrite Forall_forall in Hn.
      destruct t as [|t]; [unfold part; simpl; lia|]. change (part (x :: l) (S t)) with (part l t).
      split; [lia|]. intros HH. exfalso. destruct (Nat.lt_ge_cases t (length l)) as [Ht|Ht].
      * assert (In (part l t) l) by (apply nth_In; auto). apply (decp_le x) in H; auto. lia.
      * unfold part in HH. rewrite nth_overflow in HH by lia. lia.
Qed.
Lemma nth_vadd a : forall b t, length a = length b -> nth t (vadd a b) 0 = nth t a 0 + nth t b 0.
Proof. induction a as [|x a IH]; intros [|y b] [|t] H; simpl in *; auto; discriminate. Qed.
Lemma nth_ones n : forall s t, (t < n)%nat -> nth t (ones n s) 0 = if (t <? s)%nat then 1 else 0.
Proof.
  induction n as [|n IH]; intros s t H; [lia|]. destruct s as [|s], t as [|t]; cbn [ones nth]; auto.
  - rewrite IH by lia. reflexivity.
  - rewrite IH by lia. destruct (Nat.ltb_spec t s), (Nat.ltb_spec (S t) (S s)); auto; lia.
Qed.
Lemma Lones_len n L : length (Lones n L) = n.
Proof. induction L; simpl; [apply repeat_length|]. rewrite vadd_len; rewrite ones_len; auto. Qed.
Lemma nth_Lones n L t : (t < n)%nat -> nth t (Lones n L) 0 = Z.of_nat (length (filter (fun s => (t <? s)%nat) L)).
Proof.
  intros Ht. induction L as [|s L IH].
  - simpl. rewrite nth_repeat. reflexivity.
  - cbn [Lones fold_right filter]. fold (Lones n L). rewrite nth_vadd, nth_ones, IH by (rewrite ?ones_len, ?Lones_len; auto).
    destruct (t <? s)%nat; cbn [length]; lia.
Qed.
Lemma count_below n : forall a w, 0 <= a -> (Z.of_nat n = w) -> length (filter (fun c => c <? a) (zrange 0 w)) = Z.to_nat (Z.min a w).
Proof.
  induction n as [|n IH]; intros a w Ha Hw.
  - subst w. simpl. lia.
  - rewrite (zrange_snoc 0 w) by lia. rewrite filter_app, app_length, (IH a (w - 1)) by lia. cbn [filter].
    destruct (Z.ltb_spec (w - 1) a); cbn [length]; lia.
Qed.
Lemma Lones_cols m k l : 0 <= m -> in_box m k l -> Lones (Z.to_nat m) (cols l) = padm m l.
Proof.
  intros Hm Hl. pose proof (in_box_wbox _ _ _ Hl) as [Hd Hlen]. pose proof (in_box_decp _ _ _ Hl) as Hd'.
  unfold zlen in Hlen. apply nth_ext with (d := 0) (d' := 0); [rewrite Lones_len; lia|].
  intros t Ht. rewrite Lones_len in Ht. rewrite nth_Lones by auto.
  change (nth t (padm m l) 0) with (part (padm m l) t). rewrite part_padm.
  unfold cols. rewrite map_rev.
  assert (E : length (filter (fun s => (t <? s)%nat) (rev (map (colsz l) (zrange 0 (part l 0))))) = length (filter (fun s => (t <? s)%nat) (map (colsz l) (zrange 0 (part l 0))))).
  { apply Permutation_length, filter_perm, Permutation_sym, Permutation_rev. }
  rewrite E. clear E.
  assert (H0 : 0 <= part l t <= part l 0).
  { destruct Hl as (Hp & _). pose proof (is_partition_nonneg l t Hp). split; auto. apply (decp_part_le (part l 0) l t); [|apply part_decp; auto].
    apply is_partition_nonneg; auto. }
  assert (E : length (filter (fun s => (t <? s)%nat) (map (colsz l) (zrange 0 (part l 0)))) = length (filter (fun c => c <? part l t) (zrange 0 (part l 0)))).
  { assert (HZ : forall c, In c (zrange 0 (part l 0)) -> (t <? colsz l c)%nat = (c <? part l t)).
    { intros c Hc. apply in_zrange in Hc. pose proof (colsz_iff l k c t Hd' ltac:(lia)).
      destruct (Nat.ltb_spec t (colsz l c)), (Z.ltb_spec c (part l t)); auto; lia. }
    induction (zrange 0 (part l 0)) as [|c r IH]; auto. cbn [map filter]. rewrite HZ by (left; auto).
    destruct (c <? part l t); cbn [length]; rewrite IH; auto; intros; apply HZ; right; auto. }
  rewrite E, (count_below (Z.to_nat (part l 0))) by lia. lia.
Qed.

Lemma rev_zrange_nth n : forall j x, nth_error (rev (zrange 0 (Z.of_nat n))) j = Some x -> x = Z.of_nat n - 1 - Z.of_nat j /\ 0 <= x.
Proof.
  induction n as [|n IH]; intros j x; [destruct j; discriminate|].
  rewrite (zrange_snoc 0) by lia. rewrite rev_app_distr. cbn [rev app]. replace (Z.of_nat (S n) - 1) with (Z.of_nat n) by lia.
  destruct j as [|j]; cbn [nth_error].
  - intros E. injection E as <-. lia.
  - intros E. apply IH in E. lia.
Qed.
Lemma colsz_mono l c c' : c <= c' -> (colsz l c' <= colsz l c)%nat.
Proof.
  intros H. unfold colsz. induction l as [|x l IH]; auto. cbn [filter].
  destruct (Z.ltb_spec c x), (Z.ltb_spec c' x); cbn [length]; lia.
Qed.
Lemma colsz_len l c : (colsz l c <= length l)%nat.
Proof. unfold colsz. induction l as [|x l IH]; auto. cbn [filter]. destruct (c <? x); cbn [length]; lia. Qed.
Lemma cols_mono l : is_partition l -> forall a b i, nth_error (0%nat :: cols l) i = Some a -> nth_error (cols l) i = Some b -> (a <= b <= length l)%nat.
Proof.
  intros Hl a b i Ha Hb. pose proof (is_partition_nonneg l 0 Hl) as H0. unfold cols in *.
  rewrite <- (Z2Nat.id (part l 0)) in Ha, Hb by auto.
  assert (INV : forall j y, nth_error (map (colsz l) (rev (zrange 0 (Z.of_nat (Z.to_nat (part l 0)))))) j = Some y ->
    exists x, nth_error (rev (zrange 0 (Z.of_nat (Z.to_nat (part l 0))))) j = Some x /\ y = colsz l x).
  { intros j y E. rewrite nth_error_map in E. destruct (nth_error _ j) as [x|] eqn:E2; [|discriminate].
    cbn in E. injection E as <-. eauto. }
  apply INV in Hb. destruct Hb as (x & Hx & ->). apply rev_zrange_nth in Hx. split; [|apply colsz_len].
  destruct i as [|i]; cbn [nth_error] in Ha; [injection Ha as <-; lia|].
  apply INV in Ha. destruct Ha as (y & Hy & ->). apply rev_zrange_nth in Hy. apply colsz_mono. lia.
Qed.

Lemma Qc_succ n : (1 + Q2Qc (inject_Z (Z.of_nat n)))%Qc = Q2Qc (inject_Z (Z.of_nat (S n))).
Proof.
  apply Qc_is_canon. unfold Qcplus. unfold Q2Qc at 1 3, this. rewrite !Qred_correct. unfold Q2Qc, this. rewrite !Qred_correct.
  unfold Qeq, inject_Z, Qplus. cbn [Qnum Qden]. lia.
Qed.

Section Main.
Variables m k : Z.
Hypothesis Hm : 1 <= m.
Hypothesis Hk : 0 <= k.
Notation Mn := (Z.to_nat m).
Notation VB := (in_box m k).
Notation pi := (piA m k false).
Notation MM := (M TA pi k (giam_fuel (gA m k))).
Notation lq := (supp (linm VB (eq VQ))).
Notation sys := (sysA m k Hm Hk false).

(** alternating functions that vanish beyond the box *)
Definition good (G : list Z -> Qc) : Prop :=
  anti Mn G /\ forall g x, length g = Mn -> In x g -> m + k <= x -> G g = 0%Qc.

Definition val (G : list Z -> Qc) (l : list Z) : Qc := G (vadd (rho Mn) (padm m l)).
Definition ev (G : list Z -> Qc) (p : poly) : Qc := phi (wval (val G)) p.

Lemma wval_inv W : perm_inv (wval W).
Proof.
  intros a b HP. destruct a as [|v [|w a]].
  - apply Permutation_nil in HP. subst; auto.
  - apply Permutation_length_1_inv in HP. subst; auto.
  - apply Permutation_length in HP. destruct b as [|v' [|w' b]]; try discriminate. unfold wval.
    destruct v as [[?|? ?]| | |], v' as [[?|? ?]| | |]; reflexivity.
Qed.
Lemma ev_peq G p r : peq p r -> ev G p = ev G r.
Proof. intros E. apply phi_peq; auto. apply wval_inv. Qed.
Lemma ev_padd G p r : ev G (padd p r) = (ev G p + ev G r)%Qc.
Proof. apply phi_padd, wval_inv. Qed.
Lemma ev_pscale G c p : ev G (pscale c p) = (c * ev G p)%Qc.
Proof. apply phi_pscale. Qed.
Lemma ev_pS G l : ev G (pS l) = val G l.
Proof. unfold ev, pS, pvar. cbn [phi fold_right fst snd wval]. unfold wval, vS. ring. Qed.
Lemma ev_q G e p : ev G (pmul (pmono (repeat VQ e)) p) = if (e =? 0)%nat then ev G p else 0%Qc.
Proof.
  unfold ev. rewrite phi_pmul by apply wval_inv. cbn [pmono phi fold_right fst snd]. rewrite Qcplus_0_r, Qcmult_1_l.
  destruct e; [reflexivity|]. apply phi_zero. intros mo c _. reflexivity.
Qed.

Lemma padm_len l : VB l -> length (padm m l) = Mn.
Proof. intros H. destruct (in_box_wbox _ _ _ H) as [_ H2]. unfold zlen in H2. lia. Qed.
Lemma rho_sdec n : forall ka o, length ka = n -> decp o ka -> sdecb (vadd (rho n) ka) = true.
Proof.
  induction n as [|n IH]; intros ka o Hl Hd; destruct ka as [|x ka]; try discriminate; auto.
  destruct Hd as [H1 H2]. destruct n as [|n]; destruct ka as [|y ka]; try discriminate; auto.
  change (vadd (rho (S (S n))) (x :: y :: ka)) with (Z.of_nat (S n) + x :: Z.of_nat n + y :: vadd (rho n) ka).
  rewrite sdecb_cons, andb_true_iff, Z.ltb_lt. split; [destruct H2; lia|]. apply (IH (y :: ka) x); auto.
Qed.
Lemma rho_padm_sdec l : VB l -> sdecb (vadd (rho Mn) (padm m l)) = true.
Proof. intros H. apply (rho_sdec Mn (padm m l) k); [apply padm_len; auto|]. apply (in_box_wbox _ _ _ H). Qed.
Lemma rho_padm_len l : VB l -> length (vadd (rho Mn) (padm m l)) = Mn.
Proof. intros H. rewrite vadd_len; rewrite rho_len; auto. apply padm_len; auto. Qed.

Lemma ST_big G l : forall u o p x, (forall g, length g = (length u + length l)%nat -> In x g -> G g = 0%Qc) -> In x u -> ST G u o l p = 0%Qc.
Proof.
  induction l as [|y l IH]; intros u o p x HG Hx; cbn [ST].
  - assert (E : G u = 0%Qc) by (apply HG; [simpl; lia|auto]). rewrite E. destruct (p =? 0); auto.
  - apply qsum_zero. intros z _. apply (IH _ _ _ x); [|apply in_or_app; auto]. intros g Hg. apply HG. rewrite app_length in Hg. simpl in *. lia.
Qed.

(** the terms of the Pieri rule as a sum over strips *)
Lemma EA_ST G i l : VB l ->
  qsum (fun x => G (vadd (rho Mn) (snd x))) (EA m k false i (padm m l)) = ST G [] (k + m) (vadd (rho Mn) (padm m l)) i.
Proof.
  intros Hl. pose proof (in_box_wbox _ _ _ Hl) as Wl. pose proof (padm_len l Hl) as Ll.
  transitivity (qsum (fun x => G (vadd (rho Mn) (snd x))) (map (fun ka => (0%nat, ka)) (strl k (padm m l) i))).
  { apply qsum_perm. apply NoDup_Permutation; [apply EA_nodup| |].
    - apply FinFun.Injective_map_NoDup; [intros a b E; inversion E; auto|apply strl_nodup].
    - intros [d ka]. rewrite EA_in by auto. rewrite in_map_iff. split.
      + intros [(-> & H1 & H2)|(? & _)]; [|discriminate]. exists ka. split; auto. apply strl_in. auto.
      + intros (x & E & Hx). inversion E; subst. apply strl_in in Hx. left. tauto. }
  rewrite qsum_map. cbn [snd].
  pose proof (ST_strl G (padm m l) [] k i) as HST. rewrite Ll in HST. replace (k + m) with (k + Z.of_nat Mn) by lia. rewrite HST. reflexivity.
Qed.
Lemma rho_padm_head l : VB l -> exists x t, vadd (rho Mn) (padm m l) = x :: t /\ x < k + m.
Proof.
  intros Hl. destruct (in_box_wbox _ _ _ Hl) as [Wl _]. pose proof (padm_len l Hl) as Ll.
  destruct Mn as [|n] eqn:EM; [lia|]. destruct (padm m l) as [|x t] eqn:EP; [discriminate|]. cbn [rho vadd].
  do 2 eexists. split; [reflexivity|]. destruct Wl as [Wl _]. lia.
Qed.

(** a Pieri operator acts like the sum over compositions *)
Lemma ev_P G i l : good G -> IA k i -> VB l -> ev G (P pi i l) = val (hsum Mn i G) l.
Proof.
  intros [HA HB] Hi Hl. unfold ev. rewrite (phi_peq _ _ _ (wval_inv _) (P_enum m k Hm Hk false i l Hl (IA_dom k false i Hi))).
  rewrite phi_msum. change (fold_right (fun x y => (wval (val G) x + y)%Qc) 0%Qc (map qterm (EA m k false i (padm m l)))) with (qsum (wval (val G)) (map qterm (EA m k false i (padm m l)))).
  rewrite qsum_map. pose proof (in_box_wbox _ _ _ Hl) as Wl.
  transitivity (qsum (fun x => G (vadd (rho Mn) (snd x))) (EA m k false i (padm m l))).
  { apply qsum_ext. intros [d ka] Hx. pose proof (EA_wbox m k Hm Hk false i (padm m l) _ Wl Hx) as Wx. cbn [snd] in Wx.
    apply EA_in in Hx; auto. destruct Hx as [(-> & _)|(? & _)]; [|discriminate].
    unfold qterm, qS, wval, val. cbn [fst snd repeat vS]. unfold vS. rewrite (wbox_padm_clip m k); auto. }
  rewrite EA_ST by auto.
  unfold val. pose proof (rho_padm_sdec l Hl) as Hs. pose proof (rho_padm_len l Hl) as Hn.
  destruct (rho_padm_head l Hl) as (x & t & EX & Hx). rewrite EX in *.
  assert (0 <= i) by (unfold IA in Hi; lia).
  rewrite hsum_strip by auto. cbn [ST app].
  rewrite <- (qsum_zrange_zero _ x (k + m) (Z.max (k + m) (x + i + 1))); [|lia|].
  2:{ intros y Hy. apply (ST_big G t [y] x (i - (y - x)) y); [|left; auto]. intros g Hg Hgi. apply (HB g y); auto; [|lia]. simpl in *. lia. }
  rewrite <- (qsum_zrange_zero _ x (x + i + 1) (Z.max (k + m) (x + i + 1))); [reflexivity|lia|].
  intros y Hy. apply ST_neg. lia.
Qed.

Lemma good_hsum i G : good G -> good (hsum Mn i G).
Proof.
  intros [HA HB]. split; [apply hsum_anti; auto|]. intros g x Hg Hx Hb. unfold hsum. apply qsum_zero. intros b Hbb.
  destruct (zsum b =? i); auto. apply in_alll in Hbb. destruct Hbb as [Hl HF].
  destruct (In_nth _ _ 0 Hx) as (t & Ht & E). apply (HB _ (nth t (vadd g b) 0)).
  - rewrite vadd_len; lia.
  - apply nth_In. rewrite vadd_len; lia.
  - rewrite nth_vadd by lia. rewrite E. rewrite Forall_forall in HF. assert (Hti : In (nth t b 0) b) by (apply nth_In; lia). specialize (HF _ Hti). lia.
Qed.
Lemma good_V G L : good G -> good (V Mn G L (repeat 0 Mn)).
Proof.
  intros [HA HB]. split; [apply V_anti; auto|].
  assert (HV : forall d g x, length g = Mn -> In x g -> m + k <= x -> V Mn G L d g = 0%Qc).
  { induction L as [|s L IH]; intros d g x Hg Hx Hb; [apply (HB g x); auto|]. rewrite V_cons. apply qsum_zero. intros c Hc.
    destruct (_ && _); auto. apply in_alll in Hc. destruct Hc as [Hl HF].
    destruct (In_nth _ _ 0 Hx) as (t & Ht & E). apply (IH _ _ (nth t (vadd g c) 0)).
    - rewrite vadd_len; lia.
    - apply nth_In. rewrite vadd_len; lia.
    - rewrite nth_vadd by lia. rewrite E. rewrite Forall_forall in HF. assert (Hti : In (nth t c 0) c) by (apply nth_In; lia). specialize (HF _ Hti). lia. }
  intros. eapply HV; eauto.
Qed.

Lemma ev_ext G i p : good G -> IA k i -> lq p -> ev G (ext pi i p) = ev (hsum Mn i G) p.
Proof.
  intros HG Hi. revert p. apply (lin_ind VB (eq VQ) (fun p => ev G (ext pi i p) = ev (hsum Mn i G) p)).
  - intros p r E Hp. rewrite <- (ev_peq _ p r E), <- Hp. apply ev_peq, ext_proper. symmetry; auto.
  - reflexivity.
  - intros qm x c p Hx Hq Hl IH.
    assert (E : peq (ext pi i (padd (pscale c (pmul (pmono qm) (pS x))) p)) (padd (pscale c (pmul (pmono qm) (P pi i x))) (ext pi i p))).
    { rewrite ext_padd, ext_pscale, (ext_qmul pi (eq VQ) eqVQ_isqv), ext_pS; auto. reflexivity. }
    rewrite (ev_peq _ _ _ E), !ev_padd, !ev_pscale, IH. f_equal. f_equal.
    rewrite (allQ qm Hq), !ev_q. destruct (length qm =? 0)%nat; auto.
    rewrite ev_pS. apply ev_P; auto.
Qed.

Definition tsum (G : list Z -> Qc) (lam : list Z) : list Z -> Qc := V Mn G (map Z.of_nat (cols lam)) (repeat 0 Mn).

Lemma val_ext G G' l : (forall g, G g = G' g) -> val G l = val G' l.
Proof. intros H. apply H. Qed.

Lemma comb_lr (W : list Z -> Prop) G lam a : (forall l, W l -> VB l) -> VB lam ->
  (forall l, W l -> ev G (MM (pS l) (pS lam)) = val (tsum G lam) l) -> supp (linm W (eq VQ)) a ->
  ev G (MM a (pS lam)) = ev (tsum G lam) a.
Proof.
  intros HW Hlam HS. revert a. apply (lin_ind W (eq VQ)).
  - intros a b E Ha. rewrite <- (ev_peq _ a b E), <- Ha. apply ev_peq. apply M_peq; [symmetry; auto|reflexivity].
  - rewrite (ev_peq _ (MM pzero (pS lam)) pzero) by (apply (@sys_zero_l TA pi VB); apply sys_lq_pS; auto). reflexivity.
  - intros qm l c a Hl Hq Ha IH.
    assert (HlV : lq (pS l)) by (apply sys_lq_pS; auto).
    assert (HaV : lq a) by (eapply supp_impl; [|exact Ha]; intros mo (x & q & Hx & Hr' & Hq'); exists x, q; auto).
    assert (HqV : lq (pmul (pmono qm) (pS l))) by (apply (lin_qmul VB (eq VQ)); auto).
    assert (Hb : lq (pS lam)) by (apply sys_lq_pS; auto).
    assert (E : peq (MM (padd (pscale c (pmul (pmono qm) (pS l))) a) (pS lam)) (padd (pscale c (pmul (pmono qm) (MM (pS l) (pS lam)))) (MM a (pS lam)))).
    { rewrite (sys_add_l sys), (sys_scale_l sys), (sys_q_l sys); auto using (@sys_lq_vp VB), (@supp_pscale (linm VB (eq VQ))). reflexivity. }
    rewrite (ev_peq _ _ _ E), !ev_padd, !ev_pscale, IH. f_equal. f_equal.
    rewrite (allQ qm Hq), !ev_q. destruct (length qm =? 0)%nat; auto. rewrite HS, ev_pS; auto.
Qed.

Lemma vadd_zeros n a : length a = n -> vadd a (repeat 0 n) = a.
Proof. intros <-. apply vadd_zero. Qed.

Theorem lr_main mu : VB mu -> forall G lam, good G -> VB lam -> ev G (MM (pS mu) (pS lam)) = val (tsum G lam) mu.
Proof.
  remember (muA k mu) as N eqn:EN. revert mu EN. induction N as [N IH] using (well_founded_induction Wf_nat.lt_wf). intros mu -> Hmu G lam HG Hlam.
  destruct (list_eq_dec Z.eq_dec mu []) as [->|Hne].
  { rewrite (ev_peq _ _ (pS lam)) by (apply (sys_unit sys); apply sys_lq_pS; auto). rewrite ev_pS. unfold val, tsum.
    replace (padm m []) with (repeat 0 Mn) by (unfold padm, zlen; simpl; rewrite Z.sub_0_r; reflexivity).
    rewrite <- ones_0. pose proof (V_base Mn G (proj1 HG) (cols lam) 0 (repeat 0 Mn)) as HV.
    rewrite <- ones_0 in HV. rewrite HV.
    - rewrite ones_0, (vadd_zeros Mn (rho Mn)) by apply rho_len. rewrite (Lones_cols m k); auto. lia.
    - apply ones_len.
    - intros t _. rewrite ones_0. apply nth_repeat.
    - rewrite ones_0. rewrite (vadd_zeros Mn (rho Mn)) by apply rho_len.
      replace (rho Mn) with (vadd (rho Mn) (repeat 0 Mn)) by (apply vadd_zeros, rho_len). apply (rho_sdec Mn _ 0); [apply repeat_length|].
      clear. induction Mn; simpl; auto. split; [lia|auto].
    - intros a b i Ha Hb. destruct Hlam as (Hp & Hl & _). pose proof (cols_mono lam Hp a b i Ha Hb). lia. }
  assert (Hb : lq (pS lam)) by (apply sys_lq_pS; auto).
  destruct (sys_rec sys mu (pS lam) Hmu Hb Hne) as (i & l0 & Hg & Hi & (Hl0 & Hmm) & HS & E1).
  assert (HL0 : lq (pS l0)) by (apply sys_lq_pS; auto).
  assert (ES : forall a b, peq (psub a b) (padd a (pscale (-(1))%Qc b))).
  { intros x y mo. rewrite coef_psub, coef_padd, coef_pscale. ring. }
  rewrite (ev_peq _ _ _ E1), (ev_peq _ _ _ (ES _ _)), ev_padd, ev_pscale.
  rewrite ev_ext; auto; [|apply (sys_lin sys); auto using (@sys_lq_vp VB)].
  rewrite (IH (muA k l0) Hmm l0 eq_refl Hl0 _ lam (good_hsum i G HG) Hlam).
  rewrite (comb_lr (below VB (muA k) mu) G lam); auto.
  - rewrite (ev_peq _ _ _ (ES _ _)), ev_padd, ev_pscale, ev_pS. rewrite ev_P; auto; [|apply good_V; auto].
    replace (val (tsum (hsum Mn i G) lam) l0) with (val (hsum Mn i (tsum G lam)) l0) by (unfold val, tsum; apply hsum_V).
    unfold tsum. ring.
  - intros l [Hl _]; auto.
  - intros l [Hl Hml]. apply (IH (muA k l) Hml l eq_refl Hl); auto.
Qed.

(** coefficients are numbers of tableaux *)
Lemma chi_good nu : VB nu -> good (chi (vadd (rho Mn) (padm m nu))).
Proof.
  intros Hnu. split; [apply chi_anti|]. intros g x Hg Hx Hb. unfold chi. destruct (permb g _) eqn:E; auto. exfalso.
  apply permb_ok in E. apply (Permutation_in x) in E; auto.
  assert (HB : forall n ka, Forall (fun x => x <= k) ka -> forall y, In y (vadd (rho n) ka) -> y < Z.of_nat n + k).
  { clear. induction n as [|n IH]; intros [|z ka] HF y Hy; simpl in Hy; try contradiction. inversion HF; subst.
    destruct Hy as [<-|Hy]; [lia|]. specialize (IH ka H2 y Hy). lia. }
  apply (HB Mn) in E; [lia|]. apply Forall_forall. intros y Hy. destruct (in_box_wbox _ _ _ Hnu) as [Hd _]. apply (decp_le k) in Hy; auto.
Qed.

Lemma ev_chi nu p : VB nu -> lq p -> ev (chi (vadd (rho Mn) (padm m nu))) p = coef p [vS nu].
Proof.
  intros Hnu. revert p. apply (lin_ind VB (eq VQ)).
  - intros p r E Hp. rewrite <- (ev_peq _ p r E), Hp. apply E.
  - reflexivity.
  - intros qm l c p Hl Hq _ IH. rewrite ev_padd, ev_pscale, coef_padd, coef_pscale, IH. f_equal. f_equal.
    rewrite (allQ qm Hq), ev_q. change [vS nu] with (qS 0 nu). rewrite coef_qmul. destruct (length qm) as [|e]; [|reflexivity]. cbn [Nat.eqb Nat.leb Nat.sub].
    rewrite ev_pS, coef_pS_q. cbn [Nat.eqb]. unfold val. rewrite chi_sdec by (apply rho_padm_sdec; auto).
    destruct (list_eq_dec Z.eq_dec _ _) as [E|E], (WSum.l_dec l nu) as [E'|E']; auto; exfalso.
    + apply E'. assert (EV : forall a b c, length a = length b -> length a = length c -> vadd a b = vadd a c -> b = c).
      { clear. induction a as [|x a IHa]; intros [|y b] [|z c] H1 H2 H3; simpl in *; try discriminate; auto. injection H3 as H3 H4. f_equal; [lia|]. apply IHa; auto. }
      apply EV in E; try (rewrite rho_len, padm_len; auto).
      rewrite <- (clip_padm m k l), <- (clip_padm m k nu), E; auto.
    + apply E. subst; auto.
Qed.

Definition lr_list (lam mu nu : list Z) : list (list (list Z)) :=
  filter (fun T => if list_eq_dec Z.eq_dec (fold_left vadd T (vadd (rho Mn) (padm m mu))) (vadd (rho Mn) (padm m nu)) then true else false)
    (chains Mn (map Z.of_nat (cols lam)) (repeat 0 Mn) (vadd (rho Mn) (padm m mu))).

Lemma chains_sdec L : forall d g T, sdecb g = true -> In T (chains Mn L d g) -> sdecb (fold_left vadd T g) = true.
Proof.
  induction L as [|s L IH]; intros d g T Hs HT; cbn [chains] in HT.
  - destruct HT as [<-|[]]. auto.
  - apply in_flat_map in HT. destruct HT as (c & Hc & HT). destruct (sdecb (vadd g c)) eqn:E; [|rewrite andb_false_r in HT; contradiction].
    destruct (_ && _); [|contradiction]. apply in_map_iff in HT. destruct HT as (T' & <- & HT). cbn [fold_left]. eapply IH; eauto.
Qed.

Theorem lr_count lam mu nu : VB lam -> VB mu -> VB nu ->
  coef (MM (pS lam) (pS mu)) [vS nu] = Q2Qc (inject_Z (Z.of_nat (length (lr_list lam mu nu)))).
Proof.
  intros Hl Hmu Hnu. rewrite <- ev_chi; auto; [|apply (sys_lin sys); auto using (@sys_lq_vp VB), (@sys_lq_pS VB)].
  rewrite (ev_peq _ _ (MM (pS mu) (pS lam))) by (apply (sys_comm sys); apply sys_lq_pS; auto).
  rewrite lr_main; auto using chi_good. unfold val, tsum.
  rewrite (V_chains Mn _ _ (chi_anti _ _)) by (auto using rho_padm_len, rho_padm_sdec).
  unfold lr_list. pose proof (chains_sdec (map Z.of_nat (cols lam)) (repeat 0 Mn) (vadd (rho Mn) (padm m mu))) as HS.
  specialize (fun T => HS T (rho_padm_sdec mu Hmu)).
  induction (chains Mn (map Z.of_nat (cols lam)) (repeat 0 Mn) (vadd (rho Mn) (padm m mu))) as [|T r IH]; [reflexivity|].
  rewrite qsum_cons, IH by (intros; apply HS; right; auto). cbn [filter]. rewrite chi_sdec; [|apply rho_padm_sdec; auto|apply HS; left; auto].
  destruct (list_eq_dec Z.eq_dec _ _); [|ring]. cbn [length].
  apply Qc_succ.
Qed.
End Main.
