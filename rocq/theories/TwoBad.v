(** qpieri on OG(n,2n+2) for n >= 8: the set {1, 8} is iterated as 8, 1, so some
    result is not a combination of classes (compare QPieriD1.v for n <= 7). *)

From Coq Require Import ZArith List Lia Bool Permutation QArith Qcanon Setoid Morphisms.
From Verif Require Import Py OrderFacts PyFacts ModelPart ModelQcalc ModelPoly ModelStr ModelGr Spec SpecPieri
  PolyFacts SuppFacts Conv Enum FillFacts PartFacts ConjFacts PairFacts IndexC DualFacts Schub GrInv ApiPair ApiIndex ApiGr PieriA QPieriA PieriSet PieriBKT CompsFacts
  CompsBound WSum PieriCoef PieriD QPieriD ExprFacts ApiPieriQ QPieriD1 SetFacts.
Import ListNotations.
Open Scope Z_scope.

Lemma Ok_inj {A} (x y : A) : Ok x = Ok y -> x = y.
Proof. congruence. Qed.
(** apply on a multiple of a class *)
Lemma apply_pS f p r l : apply_lc (on_part f) p = Ok r -> peq p (pS l) -> exists y, f l = Ok y /\ peq r y.
Proof.
  intros H Hp. rewrite (apply_lc_peq _ _ _ Hp) in H. pose proof (apply_lc_defined _ _ _ H) as D. apply apply_lc_val' in H.
  destruct (D (vS l)) as (y & Ey); [left; reflexivity|]. exists y. split; [exact Ey|]. rewrite H. unfold pS. rewrite psubst_pvar. unfold val. rewrite Ey. reflexivity.
Qed.
Lemma apply_q1S f p r l : apply_lc (on_part f) p = Ok r -> peq p (pmul (pvar VQ1) (pS l)) -> exists y, f l = Ok y /\ peq r (pmul (pvar VQ1) y).
Proof.
  intros H Hp. rewrite (apply_lc_peq _ _ _ Hp) in H. pose proof (apply_lc_defined _ _ _ H) as D. apply apply_lc_val' in H.
  destruct (D (vS l)) as (y & Ey).
  { pose proof (supp_pvars (pmul (pvar VQ1) (pS l))) as SV.
    assert (Hc : coef (pmul (pvar VQ1) (pS l)) (q12S 1 0 l) <> 0%Qc).
    { pose proof (e12_mul 1 0 (pS l) (fun x => if l_dec l x then 1%Qc else 0%Qc)) as (E & _); [intros m; apply coef_pS|].
      change [(q12 1 0, 1%Qc)] with (pvar VQ1) in E. rewrite E. simpl. destruct (l_dec l l); [discriminate|congruence]. }
    assert (SV2 : Forall (fun v => In v (pvars (pmul (pvar VQ1) (pS l)))) (q12S 1 0 l)) by (apply SV; exact Hc).
    inversion SV2; auto. }
  exists y. split; [exact Ey|]. rewrite H, psubst_pmul, !psubst_pvar. unfold pS. rewrite psubst_pvar. unfold val. rewrite Ey. reflexivity.
Qed.

Section Bad.
Variable n : Z.
Hypothesis Hn : 8 <= n.
Let fl (j : Z) : Z := if j <? n - 8 then n + 1 - j else if j <? n - 2 then n - j else 1.
Definition lamb : list Z := map fl (zrange 0 n).

Lemma lamb_len : Z.of_nat (length lamb) = n.
Proof. unfold lamb. rewrite map_length, length_zrange. lia. Qed.
Lemma lamb_part j : part lamb j = if Z.of_nat j <? n then fl (Z.of_nat j) else 0.
Proof.
  destruct (Z.ltb_spec (Z.of_nat j) n) as [H|H].
  - apply PartFacts.part_map_zrange. lia.
  - apply nth_overflow. unfold lamb. rewrite map_length, length_zrange. lia.
Qed.
Lemma lamb_in y : In y lamb <-> 1 <= y <= n + 1 /\ y <> 2 /\ y <> 9.
Proof.
  unfold lamb. rewrite in_map_iff. split.
  - intros (j & <- & Hj). apply in_zrange in Hj. unfold fl. destruct (Z.ltb_spec j (n - 8)); [lia|]. destruct (Z.ltb_spec j (n - 2)); lia.
  - intros (H1 & H2 & H3). destruct (Z_lt_le_dec 9 y) as [H|H].
    + exists (n + 1 - y). split; [|apply in_zrange; lia]. unfold fl. replace (n + 1 - y <? n - 8) with true by lia. lia.
    + destruct (Z_lt_le_dec 1 y) as [H'|H'].
      * exists (n - y). split; [|apply in_zrange; lia]. unfold fl. replace (n - y <? n - 8) with false by lia. replace (n - y <? n - 2) with true by lia. lia.
      * exists (n - 1). split; [|apply in_zrange; lia]. unfold fl. replace (n - 1 <? n - 8) with false by lia. replace (n - 1 <? n - 2) with false by lia. lia.
Qed.
Lemma lamb_class : kstrict_in 1 n (n + 1) lamb.
Proof.
  assert (HP : is_partition lamb).
  { split.
    - intros j Hj. rewrite lamb_part. replace (Z.of_nat j <? n) with true by (pose proof lamb_len; lia). pose proof lamb_len. unfold fl. repeat match goal with |- context [?a <? ?b] => destruct (Z.ltb_spec a b) end; lia.
    - intros j. rewrite !lamb_part. unfold fl. destruct (Z.ltb_spec (Z.of_nat (S j)) n), (Z.ltb_spec (Z.of_nat j) n); try lia;
      repeat match goal with |- context [?a <? ?b] => destruct (Z.ltb_spec a b) end; lia. }
  split; [split; [exact HP|split]|].
  - rewrite lamb_len. lia.
  - rewrite lamb_part. unfold fl. repeat match goal with |- context [?a <? ?b] => destruct (Z.ltb_spec a b) end; lia.
  - intros j. rewrite !lamb_part. unfold fl. repeat match goal with |- context [?a <? ?b] => destruct (Z.ltb_spec a b) end; lia.
Qed.
Let lb : list Z := less_column (shape lamb).
Lemma lb_in x : In x lb <-> 1 <= x <= n /\ x <> 1 /\ x <> 8.
Proof.
  unfold lb, less_column, shape. rewrite filter_In, in_map_iff. split.
  - intros ((y & <- & Hy) & H0). apply filter_In in Hy. destruct Hy as (Hy & _). apply lamb_in in Hy. lia.
  - intros H. split; [|lia]. exists (x + 1). split; [lia|]. apply filter_In. split; [apply lamb_in|]; lia.
Qed.
Lemma filter_none {A} (f : A -> bool) l : (forall x, In x l -> f x = false) -> filter f l = [].
Proof. induction l as [|x l IH]; intros H; simpl; auto. rewrite (H x) by (left; auto). apply IH. intros y Hy. apply H. right; auto. Qed.
Lemma zsplit a b c : a <= b <= c -> zrange a c = zrange a b ++ zrange b c.
Proof.
  intros H. remember (Z.to_nat (b - a)) as d eqn:Ed. revert a H Ed. induction d as [|d IH]; intros a H Ed.
  - replace a with b by lia. rewrite (zrange_nil b b) by lia. reflexivity.
  - rewrite (zrange_cons a c), (zrange_cons a b) by lia. rewrite (IH (a + 1)) by lia. reflexivity.
Qed.
Lemma set_bad : rev (set_minus_list (set_of (zrange 1 (n + 1))) lb) = [1; 8].
Proof.
  unfold set_minus_list. rewrite set_range_list by lia.
  assert (EK : filter (fun x => negb (zmem x lb)) (zrange 1 (n + 1)) = [1; 8]).
  { rewrite (zsplit 1 2 (n + 1)), (zsplit 2 8 (n + 1)), (zsplit 8 9 (n + 1)) by lia. rewrite !filter_app.
    assert (G : forall a b, (a = 2 \/ a = 9) -> b <= 8 \/ 9 <= a -> b <= n + 1 -> filter (fun x => negb (zmem x lb)) (zrange a b) = []).
    { intros a b Ha Hb Hb'. apply filter_none. intros x Hx. apply in_zrange in Hx. apply negb_false_iff. apply zmem_iff. apply lb_in. lia. }
    rewrite (G 2 8), (G 9 (n + 1)) by lia. change (zrange 1 2) with [1]. change (zrange 8 9) with [8]. cbn [filter app].
    assert (Z1 : zmem 1 lb = false) by (apply not_true_is_false; intros E; apply zmem_iff in E; apply lb_in in E; lia).
    assert (Z8 : zmem 8 lb = false) by (apply not_true_is_false; intros E; apply zmem_iff in E; apply lb_in in E; lia).
    rewrite Z1, Z8. reflexivity. }
  rewrite EK. replace (zlen (nodup Z.eq_dec lb) <? zlen (zrange 1 (n + 1)) / 4) with false; [vm_compute; reflexivity|].
  symmetry. apply Z.ltb_ge. rewrite zlen_zrange.
  assert (HI : (length (zrange 2 8 ++ zrange 9 (n + 1)) <= length (nodup Z.eq_dec lb))%nat).
  { apply NoDup_incl_length.
    - assert (E : zrange 2 (n + 1) = zrange 2 8 ++ 8 :: zrange 9 (n + 1)) by (rewrite (zsplit 2 8 (n + 1)), (zrange_cons 8 (n + 1)) by lia; reflexivity).
      apply (NoDup_remove_1 _ _ 8). rewrite <- E. apply zrange_nodup.
    - intros x Hx. apply nodup_In, lb_in. apply in_app_iff in Hx. rewrite !in_zrange in Hx. lia. }
  rewrite app_length, !length_zrange in HI. unfold zlen. pose proof (Z.div_le_upper_bound (Z.max 0 (n + 1 - 1)) 4 (n - 2)). lia.
Qed.

(** the index set of (2, 9, 1, ..., 1) and the result of the conversions *)
Let x0 : list Z := map (fun x => x + 1) [1; 8] ++ repz 1 (n - zlen [1; 8]).
Lemma x0_part j : part x0 j = if (j =? 0)%nat then 2 else if (j =? 1)%nat then 9 else if Z.of_nat j <? n then 1 else 0.
Proof.
  unfold x0, repz. destruct j as [|[|j]]; [reflexivity|reflexivity|]. cbn [map app]. unfold part. cbn [nth]. change (zlen [1; 8]) with 2.
  cbn [Nat.eqb]. destruct (Z.ltb_spec (Z.of_nat (S (S j))) n) as [H|H].
  - rewrite (nth_indep _ 0 1) by (rewrite repeat_length; lia). apply nth_repeat.
  - apply nth_overflow. rewrite repeat_length. lia.
Qed.
Lemma x0_len : length x0 = Z.to_nat n.
Proof. unfold x0, repz. rewrite app_length, map_length, repeat_length. change (zlen [1; 8]) with 2. simpl length. lia. Qed.
Lemma la_part j : part (x0 ++ repz 0 (n + 1 - 1)) j = part x0 j.
Proof. unfold part, repz. destruct (Nat.lt_ge_cases j (length x0)) as [H|H]; [rewrite app_nth1 by auto; auto|].
  rewrite app_nth2 by auto. rewrite (nth_overflow x0) by auto. destruct (Nat.lt_ge_cases (j - length x0) (Z.to_nat (n + 1 - 1))) as [G|G];
  [apply nth_repeat|apply nth_overflow; rewrite repeat_length; auto]. Qed.
Lemma idx_val a (j : nat) : part2indexD_inner x0 1 n = Ok a -> Z.of_nat j < n ->
  length a = Z.to_nat n /\ (j = 0%nat -> part a j = n) /\ (j = 1%nat -> part a j = n - 7) /\ ((9 <= j)%nat -> n + 10 <= part a j).
Proof.
  intros E Hj. unfold part2indexD_inner in E. cbv zeta in E. set (la := x0 ++ repz 0 (n + 1 - 1)) in E. set (nt := match x0 with [] => n + 1 | _ => _ end) in E.
  replace (n + 1 - 1) with n in E by lia. apply mapM_nth in E. destruct E as (HL & HE). rewrite length_zrange in HL. split; [lia|].
  assert (Llen : zlen la = 2 * n) by (unfold la, zlen, repz; rewrite app_length, x0_len, repeat_length; lia).
  assert (Nj : nth_error (zrange 0 n) j = Some (Z.of_nat j)).
  { rewrite (nth_error_nth' (zrange 0 n) 0) by (rewrite length_zrange; lia). f_equal. apply nth_zrange. lia. }
  assert (Ny : nth_error a j = Some (part a j)) by (apply nth_error_nth'; lia).
  specialize (HE j _ _ Nj Ny). cbv beta in HE.
  rewrite (count_inner_ok 1 la x0 (-1) j) in HE; [|unfold zlen in Llen; lia|apply la_part]. cbn [bind] in HE.
  rewrite (py_get_in la (Z.of_nat j) 0) in HE by lia. cbn [bind] in HE. rewrite Nat2Z.id in HE. change (nth j la 0) with (part la j) in HE.
  unfold la in HE at 1 2 3. rewrite la_part in HE. rewrite x0_part in HE.
  split; [|split].
  - intros ->. cbn [Nat.eqb cnt] in HE. change (1 <? 2) with true in HE. cbv iota in HE. apply Ok_inj in HE. lia.
  - intros ->. cbn [Nat.eqb cnt] in HE. rewrite !x0_part in HE. cbn [Nat.eqb] in HE. change (1 <? 9) with true in HE. cbv iota in HE.
    change (2 + 9 <=? 2 * 1 + -1 + Z.of_nat 1 - Z.of_nat 0) with false in HE. cbv iota in HE. apply Ok_inj in HE. lia.
  - intros H9. replace (j =? 0)%nat with false in HE by (symmetry; apply Nat.eqb_neq; lia). replace (j =? 1)%nat with false in HE by (symmetry; apply Nat.eqb_neq; lia).
    replace (Z.of_nat j <? n) with true in HE by lia. change (1 <? 1) with false in HE. change (1 =? 1) with true in HE. cbv iota in HE.
    replace (Z.of_nat j =? 0) with false in HE by lia. rewrite (py_get_in la (Z.of_nat j - 1) 0) in HE by lia. cbn [bind] in HE.
    replace (Z.to_nat (Z.of_nat j - 1)) with (j - 1)%nat in HE by lia. change (nth (j - 1) la 0) with (part la (j - 1)) in HE.
    unfold la in HE. rewrite la_part, (x0_part (j - 1)) in HE.
    replace (j - 1 =? 0)%nat with false in HE by (symmetry; apply Nat.eqb_neq; lia). replace (j - 1 =? 1)%nat with false in HE by (symmetry; apply Nat.eqb_neq; lia).
    replace (Z.of_nat (j - 1) <? n) with true in HE by (symmetry; apply Z.ltb_lt; lia). change (1 <? 1) with false in HE. cbv iota in HE. cbn [andb] in HE. apply Ok_inj in HE. rewrite la_part, x0_part in HE.
    replace (j =? 0)%nat with false in HE by (symmetry; apply Nat.eqb_neq; lia). replace (j =? 1)%nat with false in HE by (symmetry; apply Nat.eqb_neq; lia).
    replace (Z.of_nat j <? n) with true in HE by lia.
    set (F := fun i => part x0 i + 1 <=? 2 * 1 + -1 + Z.of_nat j - Z.of_nat i) in HE.
    assert (HC : Z.of_nat j - 1 <= cnt F j).
    { rewrite (cnt_from F 2 j) by (try lia; intros h Hh; unfold F; rewrite x0_part;
        replace (h =? 0)%nat with false by (symmetry; apply Nat.eqb_neq; lia); replace (h =? 1)%nat with false by (symmetry; apply Nat.eqb_neq; lia);
        replace (Z.of_nat h <? n) with true by (symmetry; apply Z.ltb_lt; lia); apply Z.leb_le; lia).
      assert (F0 : F 0%nat = true) by (unfold F; rewrite x0_part; cbn [Nat.eqb]; apply Z.leb_le; lia).
      cbn [cnt]. rewrite F0. destruct (F 1%nat); lia. }
    lia.
Qed.
Let g := mkGr TD 1 n.
Lemma dix_part a j : length a = Z.to_nat n -> Z.of_nat j < n ->
  length (dix g a) = Z.to_nat n /\
  let y := 2 * n + 3 - part a (Z.to_nat n - 1 - j) in
  part (dix g a) j = y \/ (n + 1 <= y <= n + 2 /\ n + 1 <= part (dix g a) j <= n + 2).
Proof.
  intros HL Hj. cbv zeta. unfold dix, g, dualize_index_inner. cbn [g_type is_D ambient_N g_n]. rewrite andb_true_l.
  set (r := map (fun x => 2 * n + 2 + 1 - x) (rev a)).
  assert (Lr : length r = Z.to_nat n) by (unfold r; rewrite map_length, rev_length; auto).
  assert (Pr : part r j = 2 * n + 3 - part a (Z.to_nat n - 1 - j)).
  { unfold part, r. rewrite (nth_indep _ 0 (2 * n + 2 + 1 - 0)) by (rewrite map_length, rev_length; lia).
    rewrite (map_nth (fun x => 2 * n + 2 + 1 - x)). rewrite rev_nth by lia. rewrite HL. replace (Z.to_nat n - S j)%nat with (Z.to_nat n - 1 - j)%nat by lia. lia. }
  destruct (_ =? 2); [|split; [auto|left; auto]]. rewrite map_length. split; auto.
  set (sw := fun x => if x =? (2 * n + 2) / 2 then _ else _).
  assert (E : part (map sw r) j = sw (part r j)).
  { unfold part. rewrite (nth_indep _ 0 (sw 0)) by (rewrite map_length; lia). apply map_nth. }
  rewrite E, <- Pr. assert (EH : (2 * n + 2) / 2 = n + 1) by (rewrite (Z.mul_comm 2 n), Z.div_add_l by lia; reflexivity). unfold sw. rewrite !EH.
  destruct (Z.eqb_spec (part r j) (n + 1)); [right; lia|]. destruct (Z.eqb_spec (part r j) (n + 1 + 1)); [right; lia|left; auto].
Qed.
Lemma cnt_high F c m : (forall i, (i < c)%nat -> F i = false) -> (c <= m)%nat -> cnt F m <= Z.of_nat m - Z.of_nat c.
Proof. intros H Hc. pose proof (cnt_below F c m Hc) as H1. rewrite (cnt_none F c) in H1 by auto. lia. Qed.
Lemma bad_list a b : part2indexD_inner x0 1 n = Ok a -> index2partD_inner (dix g a) 1 n = Ok b ->
  part b (Z.to_nat n - 2) <= 0 /\ 0 < part b (Z.to_nat n - 1).
Proof.
  intros Ea Eb. unfold index2partD_inner in Eb. replace (n + 1 - 1) with n in Eb by lia.
  destruct (mapM _ (zrange 0 n)) as [la|] eqn:El; [|discriminate]. cbn [bind] in Eb.
  assert (Pb : forall j, part b j = part la j).
  { intros j. rewrite <- (part_clip_part la j). destruct (negb (zmem 1 (part_clip la))); [injection Eb as <-; reflexivity|].
    destruct (_ =? 1); injection Eb as <-; [|reflexivity]. unfold part. apply nth_app0. }
  rewrite !Pb. apply mapM_nth in El. destruct El as (HL & HE). rewrite length_zrange in HL.
  destruct (idx_val a 0 Ea ltac:(lia)) as (La & I0 & _). specialize (I0 eq_refl).
  destruct (idx_val a 1 Ea ltac:(lia)) as (_ & _ & I1 & _). specialize (I1 eq_refl).
  set (d := dix g a) in *. set (N := Z.to_nat n) in *.
  assert (Dl : length d = N) by (apply (dix_part a 0 La); lia).
  destruct (dix_part a (N - 1) La ltac:(lia)) as (_ & D0). cbv zeta in D0. fold d N in D0. replace (N - 1 - (N - 1))%nat with 0%nat in D0 by lia. rewrite I0 in D0.
  destruct (dix_part a (N - 2) La ltac:(lia)) as (_ & D1). cbv zeta in D1. fold d N in D1. replace (N - 1 - (N - 2))%nat with 1%nat in D1 by lia. rewrite I1 in D1.
  assert (V : forall j, (j < N)%nat -> n + 1 < part d j -> part la j = n + 3 - part d j + cnt (fun i => 2 * n + 3 <? part d i + part d j) j).
  { intros j Hj Hd. assert (Nj : nth_error (zrange 0 n) j = Some (Z.of_nat j)).
    { rewrite (nth_error_nth' (zrange 0 n) 0) by (rewrite length_zrange; lia). f_equal. apply nth_zrange. lia. }
    assert (Ny : nth_error la j = Some (part la j)) by (apply nth_error_nth'; lia).
    specialize (HE j _ _ Nj Ny). cbv beta in HE. rewrite (py_get_in d (Z.of_nat j) 0) in HE by (unfold zlen; lia). cbn [bind] in HE.
    rewrite Nat2Z.id in HE. change (nth j d 0) with (part d j) in HE. replace (part d j <=? n + 1) with false in HE by lia.
    rewrite count_idx_ok in HE by lia. cbn [bind] in HE. apply Ok_inj in HE. lia. }
  assert (d0 : part d (N - 1) = n + 3) by lia. assert (d1 : part d (N - 2) = n + 10) by lia. split.
  - rewrite V by lia. rewrite d1.
    pose proof (cnt_high (fun i => 2 * n + 3 <? part d i + (n + 10)) (N - 9) (N - 2)) as HC.
    assert (HC' : cnt (fun i => 2 * n + 3 <? part d i + (n + 10)) (N - 2) <= 7); [|lia].
    eapply Z.le_trans; [apply HC; [|lia]|lia]. intros i Hi.
    destruct (idx_val a (N - 1 - i) Ea ltac:(lia)) as (_ & _ & _ & I9). specialize (I9 ltac:(lia)).
    destruct (dix_part a i La ltac:(lia)) as (_ & Di). cbv zeta in Di. fold d N in Di. lia.
  - rewrite V by lia. rewrite d0. assert (E : (N - 1)%nat = S (N - 2)) by lia. rewrite E. cbn [cnt]. rewrite d1.
    pose proof (cnt_bounds (fun i => 2 * n + 3 <? part d i + (n + 3)) (N - 2)). replace (2 * n + 3 <? n + 10 + (n + 3)) with true by lia. lia.
Qed.
Lemma bad_not b : part b (Z.to_nat n - 2) <= 0 -> 0 < part b (Z.to_nat n - 1) -> ~ typed_in 1 n (n + 1) b.
Proof.
  intros H1 H2 HT. destruct (typed_shape _ _ _ _ HT) as ((((_ & Hd) & _) & _) & _). specialize (Hd (Z.to_nat n - 2)%nat).
  rewrite !(typed_part _ _ _ _ _ HT) in Hd. replace (S (Z.to_nat n - 2)) with (Z.to_nat n - 1)%nat in Hd by lia. lia.
Qed.
Lemma dual_bad p z : dualize g p = Ok z -> peq p (pmul (pvar VQ1) (pS x0)) ->
  exists b, peq z (pmul (pvar VQ1) (pS b)) /\ ~ typed_in 1 n (n + 1) b.
Proof.
  intros H Hp. unfold dualize in H. destruct (part2index g p) as [i1|] eqn:E1; [|discriminate]. cbn [bind] in H.
  destruct (apply_q1S _ _ _ _ E1 Hp) as (y1 & F1 & P1). cbv beta in F1. cbn [g_type g] in F1.
  destruct (part2indexD_inner x0 (g_k g) (g_n g)) as [a|] eqn:Ea; [|discriminate]. cbn [bind] in F1.
  assert (Y1 : y1 = pS a) by (unfold ret_schur, symbol in F1; destruct (schur_nonneg _); [injection F1 as <-; reflexivity|discriminate]). subst y1.
  match type of H with bind ?A _ = _ => destruct A as [i2|] eqn:E2 end; [|discriminate]. cbn [bind] in H.
  destruct (apply_q1S _ _ _ _ E2 P1) as (y2 & F2 & P2). cbv beta in F2. fold (dix g a) in F2.
  assert (Y2 : y2 = pS (dix g a)) by (unfold ret_schur, symbol in F2; destruct (schur_nonneg _); [injection F2 as <-; reflexivity|discriminate]). subst y2.
  destruct (apply_q1S _ _ _ _ H P2) as (y3 & F3 & P3). cbv beta in F3. cbn [g_type g] in F3.
  destruct (index2partD_inner (dix g a) (g_k g) (g_n g)) as [b|] eqn:Eb; [|discriminate]. cbn [bind] in F3.
  assert (Y3 : y3 = pS b) by (unfold ret_schur, symbol in F3; destruct (schur_nonneg _); [injection F3 as <-; reflexivity|discriminate]). subst y3.
  exists b. split; auto. destruct (bad_list a b Ea Eb). apply bad_not; auto.
Qed.
Lemma q1_coef b r : peq r (pmul (pvar VQ1) (pS b)) -> coef r (q12S 1 0 b) = 1%Qc.
Proof.
  intros H. rewrite (H (q12S 1 0 b)). pose proof (e12_mul 1 0 (pS b) (fun x => if l_dec b x then 1%Qc else 0%Qc)) as (E & _); [intros m; apply coef_pS|].
  change [(q12 1 0, 1%Qc)] with (pvar VQ1) in E. rewrite E. simpl. destruct (l_dec b b); [reflexivity|congruence].
Qed.

Lemma qpieri_bad r : qpieriD_inner g 1 lamb 1 n = Ok r -> exists b, coef r (q12S 1 0 b) <> 0%Qc /\ ~ typed_in 1 n (n + 1) b.
Proof.
  intros H. pose proof (or_introl lamb_class : typed_in 1 n (n + 1) lamb) as HT.
  assert (HT' : typed_in 1 (n + 1 - 1) (n + 1) lamb) by (replace (n + 1 - 1) with n by lia; exact HT).
  destruct (pieriD_lincl 1 n 1 lamb) as (r0 & Wr & Er & Hr & _); auto; try lia.
  assert (HS : shape lamb = lamb) by (apply shape_partition, lamb_class).
  unfold qpieriD_inner in H. rewrite Er in H. cbn [bind] in H. change (1 =? 0) with false in H. change (1 =? 1) with true in H. cbv iota in H.
  pose proof (qcondD 1 n lamb ltac:(lia) ltac:(lia) HT') as Hq. replace (n + 1 - 1) with n in Hq by lia. rewrite Hq in H. cbn [bind] in H.
  rewrite HS, lamb_len, Z.eqb_refl in H. cbv zeta in H. rewrite (lb_ok _ _ _ _ HT) in H. fold lb in H.
  change (1 <? Z.abs 1) with false in H. cbv iota in H.
  destruct (symbol (SP lb)) as [s0|] eqn:Es; [|discriminate]. cbn [bind] in H.
  assert (S0 : s0 = pS lb) by (unfold symbol in Es; destruct (schur_nonneg _); [injection Es as <-; reflexivity|discriminate]). subst s0.
  destruct (apply_lc (on_part (toSchurFromIntnMu n)) (pS lb)) as [c1|] eqn:E1; [|discriminate]. cbn [bind] in H.
  destruct (apply_pS _ _ _ _ E1 ltac:(reflexivity)) as (y1 & F1 & P1). unfold toSchurFromIntnMu in F1. rewrite set_bad in F1. injection F1 as <-.
  assert (EL : py_get lamb (-1) = Ok 1).
  { unfold lamb. rewrite (zrange_snoc 0 n) by lia. rewrite map_app. cbn [map]. rewrite py_get_last. unfold fl.
    replace (n - 1 <? n - 8) with false by lia. replace (n - 1 <? n - 2) with false by lia. reflexivity. }
  rewrite EL in H. cbn [bind] in H. change ((0 <? 1) && (0 <? 1)) with true in H. cbv iota in H.
  assert (EZ : zmem 1 lamb = true) by (apply zmem_iff, lamb_in; lia). rewrite EZ in H. cbn [negb orb andb] in H. change (1 =? 0) with false in H. cbn [negb orb andb] in H.
  match type of H with context [apply_lc ?f c1] => destruct (apply_lc f c1) as [z1|] eqn:E2 end; [|discriminate]. cbn [bind] in H.
  destruct (apply_pS _ _ _ _ E2 P1) as (y2 & F2 & P2). cbv beta in F2. fold x0 in F2.
  assert (Y2 : y2 = pS x0) by (unfold symbol in F2; destruct (schur_nonneg _); [injection F2 as <-; reflexivity|discriminate]). subst y2.
  destruct (dualize g (pmul (pvar VQ1) z1)) as [z|] eqn:E3; [|discriminate]. cbn [bind] in H.
  destruct (dual_bad _ _ E3) as (b & Pz & Hb); [rewrite P2; reflexivity|].
  exists b. split; auto.
  assert (C0 : coef (padd r0 z) (q12S 1 0 b) = 1%Qc).
  { rewrite coef_padd, (q1_coef b z Pz), Hr. simpl. ring. }
  rewrite head_is_pos in H by lia.
  destruct (Z.eqb_spec (part lamb 0) (n + 1)) as [Eh|Eh]; [|injection H as <-; rewrite C0; discriminate].
  destruct (qstarD 1 n lamb 1) as (y & w & Wz & Ey & Ez & Hz & _); auto; try lia.
  rewrite Ey in H. cbn [bind] in H. rewrite Ez in H. cbn [bind] in H. injection H as <-. rewrite coef_padd, C0.
  pose proof (e12_mul 1 1 w Wz Hz) as (E & _). change [(q12 1 1, 1%Qc)] with q1q2 in E. rewrite E. cbn. discriminate.
Qed.
End Bad.

Lemma in_q12S d1 d2 mu x m : Permutation m (q12S d1 d2 mu) -> In (vS x) m -> x = mu.
Proof.
  intros HP HI. apply (Permutation_in _ HP) in HI. destruct HI as [E|E]; [injection E; auto|].
  apply in_app_iff in E. destruct E as [E|E]; apply repeat_spec in E; discriminate.
Qed.
Lemma c42_iff m N g : OrthogonalGrassmannian m N = Ok g -> Z.even N = true -> 1 <= m -> m = N / 2 - 1 ->
  (N <= 16 <-> returns_classes (class_OG m N) (qpieri g)).
Proof.
  intros Hg He Hm Hk. split.
  - intros H16 p lam Hl. destruct (c44_qOG_one m N g p lam Hg He H16 Hm Hk Hl) as (r & c & Er & (X1 & X2) & HQ & _). exists r. split; auto.
    intros q mu Hq HI. destruct (X2 q Hq) as (d1 & d2 & nu & HP). rewrite (in_q12S _ _ _ _ _ HP HI).
    rewrite (coef_perm _ _ _ HP), X1 in Hq. destruct HQ as (_ & _ & _ & _ & H4). destruct (H4 _ _ _ Hq) as (_ & _ & HT).
    unfold class_OG. rewrite He. replace (N / 2 - m) with 1 by lia.
    assert (EN : N = 2 * (N / 2)) by (pose proof (Zdiv.Z_div_mod_eq_full N 2) as E; rewrite Zmod_even, He in E; lia).
    replace (N - 1 - m) with (m + 1) by lia. exact HT.
  - intros HR. destruct (Z_le_gt_dec N 16) as [|HN]; auto. exfalso.
    destruct (og_inv _ _ _ Hg ltac:(lia)) as [(n & EN & En & Ev & Hm' & ->)|(n & EN & En & Ev & Hm' & ->)]; rewrite Ev in He; [discriminate|].
    assert (m = n) as -> by lia. replace (n + 1 - n) with 1 in * by lia.
    assert (EV : forall x, class_OG n N x <-> typed_in 1 n (n + 1) x).
    { intros x. unfold class_OG. rewrite Ev. replace (N / 2 - n) with 1 by lia. replace (N - 1 - n) with (n + 1) by lia. reflexivity. }
    destruct (HR 1 (lamb n)) as (r & Er & HC); [apply EV; left; apply lamb_class; lia|].
    destruct (apply_pS _ _ _ _ Er ltac:(reflexivity)) as (y & Ey & Py). destruct (qpieri_bad n ltac:(lia) y Ey) as (b & Hb & HT).
    apply HT, EV, (HC (q12S 1 0 b)); [rewrite (Py (q12S 1 0 b)); auto|left; reflexivity].
Qed.
