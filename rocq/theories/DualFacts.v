(** Dualizing index sets of isotropic Grassmannians. *)

From Coq Require Import ZArith List Lia Bool Permutation.
From Verif Require Import Py OrderFacts ModelPart ModelQcalc ModelPoly Spec PyFacts PartFacts ConjFacts PairFacts
  IndexC IndexB IndexD.
Import ListNotations.
Open Scope Z_scope.

Definition rd (N : Z) (p : list Z) : list Z := map (fun x => N + 1 - x) (rev p).

Lemma length_rd N p : length (rd N p) = length p.
Proof. unfold rd. rewrite map_length, rev_length. auto. Qed.
Lemma part_rd N p j : (j < length p)%nat -> part (rd N p) j = N + 1 - part p (length p - S j).
Proof.
  intros Hj. unfold rd. rewrite part_map_in by (rewrite rev_length; auto). unfold part. rewrite rev_nth by auto. auto.
Qed.
Lemma rd_rd N p : rd N (rd N p) = p.
Proof.
  unfold rd. rewrite <- map_rev, rev_involutive, map_map. rewrite <- (map_id p) at 2. apply map_ext. intros; lia.
Qed.
Lemma rd_set m N p : isotropic_set m N p -> isotropic_set m N (rd N p).
Proof.
  intros [(L & R & I) Hs]. split; [split; [|split]|]; rewrite length_rd; auto.
  - intros j Hj. rewrite part_rd by auto. specialize (R (length p - S j)%nat ltac:(lia)). lia.
  - intros i j Hij. rewrite !part_rd by lia. specialize (I (length p - S j)%nat (length p - S i)%nat ltac:(lia)). lia.
  - intros i j Hi Hj. rewrite !part_rd by lia.
    specialize (Hs (length p - S i)%nat (length p - S j)%nat ltac:(lia) ltac:(lia)). lia.
Qed.

(** ** Sizes *)
Definition big (b x : Z) (l : list Z) : Z := zlen (filter (fun y => b <? x + y) l).
Fixpoint pairsum (b : Z) (l : list Z) : Z :=
  match l with [] => 0 | x :: t => big b x t + pairsum b t end.

Lemma big_cons b x y l : big b x (y :: l) = (if b <? x + y then 1 else 0) + big b x l.
Proof. unfold big. cbn [filter]. destruct (b <? x + y); unfold zlen; cbn [length]; lia. Qed.
Lemma big_app b x l l' : big b x (l ++ l') = big b x l + big b x l'.
Proof. unfold big. rewrite filter_app, zlen_app. auto. Qed.
Lemma pairsum_snoc b l x : pairsum b (l ++ [x]) = pairsum b l + big b x l.
Proof.
  induction l as [|y t IH]; [reflexivity|]. cbn [app pairsum]. rewrite IH, big_app, !big_cons. rewrite (Z.add_comm y x).
  change (big b y []) with 0. lia.
Qed.
Lemma pairsum_rev b l : pairsum b (rev l) = pairsum b l.
Proof.
  induction l as [|x t IH]; [reflexivity|]. cbn [rev pairsum]. rewrite pairsum_snoc, IH.
  enough (big b x (rev t) = big b x t) by lia. clear IH.
  induction t as [|y t IH]; [reflexivity|]. cbn [rev]. rewrite big_app, IH, !big_cons. change (big b x []) with 0. lia.
Qed.
Lemma big_cnt b x l : big b x l = cnt (fun i => b <? part l i + x) (length l).
Proof. unfold big. rewrite filter_cnt. apply cnt_ext. intros i _. rewrite Z.add_comm. auto. Qed.

Definition nozero (b : Z) (l : list Z) : Prop := forall x y, In x l -> In y l -> x + y <> b.
Lemma pairsum_compl b l : nozero b l ->
  2 * (pairsum b l + pairsum b (map (fun x => b - x) l)) = zlen l * (zlen l - 1).
Proof.
  assert (G : forall x t, (forall y, In y t -> x + y <> b) -> big b x t + big b (b - x) (map (fun x => b - x) t) = zlen t).
  { intros x t. induction t as [|y t IH]; intros H; [reflexivity|]. cbn [map]. rewrite !big_cons.
    specialize (IH ltac:(intros; apply H; simpl; auto)). specialize (H y ltac:(simpl; auto)).
    rewrite (zlen_cons y t).
    destruct (b <? x + y) eqn:E1, (b <? b - x + (b - y)) eqn:E2; lia. }
  induction l as [|x t IH]; intros H; [reflexivity|]. cbn [map pairsum].
  specialize (IH ltac:(intros a c Ha Hc; apply H; simpl; auto)).
  specialize (G x t ltac:(intros; apply H; simpl; auto)). rewrite (zlen_cons x t). lia.
Qed.

Lemma size_app l l' : size (l ++ l') = size l + size l'.
Proof. unfold size. induction l as [|x t IH]; [reflexivity|]. cbn [app fold_right]. lia. Qed.
Lemma size_rev l : size (rev l) = size l.
Proof. induction l as [|x t IH]; [reflexivity|]. cbn [rev]. rewrite size_app, IH. simpl. lia. Qed.
Lemma size_rd N p : size (rd N p) = zlen p * (N + 1) - size p.
Proof.
  unfold rd. rewrite <- (size_rev p).
  assert (G : forall l, size (map (fun x => N + 1 - x) l) = zlen l * (N + 1) - size l).
  { induction l as [|x t IH]; [reflexivity|]. cbn [map]. rewrite zlen_cons. simpl. unfold size in *. lia. }
  rewrite G. unfold zlen. rewrite rev_length. reflexivity.
Qed.
Lemma size_clip l : size (part_clip l) = size l.
Proof. rewrite !size_zsum. apply zsum_clip. Qed.

Lemma size_pre c b p :
  size (map (fun j => c - part p (Z.to_nat j) + cnt (fun i => b <? part p i + part p (Z.to_nat j)) (Z.to_nat j)) (zrange 0 (zlen p)))
  = c * zlen p - size p + pairsum b p.
Proof.
  induction p as [|x p IH] using rev_ind; [simpl; change (zlen []) with 0; cbn; lia|].
  rewrite zlen_app. change (zlen [x]) with 1. pose proof (zlen_nonneg p).
  rewrite zrange_snoc by lia. replace (zlen p + 1 - 1) with (zlen p) by lia.
  rewrite map_app, !size_app. rewrite pairsum_snoc, big_cnt.
  assert (E : forall j, In j (zrange 0 (zlen p)) -> part (p ++ [x]) (Z.to_nat j) = part p (Z.to_nat j)).
  { intros j Hj. apply in_zrange in Hj. unfold part. rewrite app_nth1; auto. unfold zlen in *. lia. }
  rewrite (map_ext_in _ (fun j => c - part p (Z.to_nat j) + cnt (fun i => b <? part p i + part p (Z.to_nat j)) (Z.to_nat j))).
  - rewrite IH. cbn [map]. unfold zlen at 2 3 4. rewrite !Nat2Z.id. 
    assert (El : part (p ++ [x]) (length p) = x) by (unfold part; apply nth_middle). rewrite El.
    rewrite (cnt_ext (fun i => b <? part (p ++ [x]) i + x) (fun i => b <? part p i + x)).
    + change (size [x]) with (x + 0). match goal with |- context [size [?e]] => change (size [e]) with (e + 0) end.
      fold (zlen p). lia.
    + intros i Hi. unfold part. rewrite app_nth1; auto.
  - intros j Hj. rewrite E by auto. f_equal. apply cnt_ext. intros i Hi. apply in_zrange in Hj.
    unfold part. rewrite app_nth1; auto. unfold zlen in *. lia.
Qed.

(** ** IG(m,2n) *)
Section C.
Variables (n k m : Z).
Hypothesis Hk : 0 <= k.
Hypothesis Hm : 0 <= m.
Hypothesis Hn : n = m + k.

Lemma size_prtC p : zlen p = m -> size (prtC n k m p) = (n + k + 1) * m - size p + pairsum (2 * n + 1) p.
Proof.
  intros L. unfold prtC. rewrite size_clip. unfold preC, dC, QC. rewrite <- L. apply size_pre.
Qed.
Lemma nozero_iso p : iso_set n m p -> nozero (2 * n + 1) p.
Proof.
  intros [_ S] x y Hx Hy. apply In_nth with (d := 0) in Hx. apply In_nth with (d := 0) in Hy.
  destruct Hx as (i & Hi & <-). destruct Hy as (j & Hj & <-). apply S; auto.
Qed.
Lemma size_dual p : iso_set n m p ->
  size (prtC n k m p) + size (prtC n k m (rd (2 * n) p)) = m * (2 * k + 1) + m * (m - 1) / 2.
Proof.
  intros Hp. pose proof Hp as [(L & _) _]. fold (zlen p) in L.
  rewrite !size_prtC; auto. 2:{ unfold zlen. rewrite length_rd. auto. }
  rewrite size_rd, L. pose proof (pairsum_compl (2 * n + 1) p (nozero_iso p Hp)) as E. rewrite L in E.
  unfold rd. rewrite map_rev, pairsum_rev.
  set (a := pairsum (2 * n + 1) p) in *. set (b := pairsum (2 * n + 1) (map _ p)) in *.
  assert (E2 : m * (m - 1) / 2 = a + b) by (symmetry; apply Z.div_unique_exact; lia). rewrite E2. lia.
Qed.

(** the first index set *)
Definition first_set : list Z := map (fun j => j + 1) (zrange 0 m).
Lemma length_first : length first_set = Z.to_nat m.
Proof. unfold first_set. rewrite map_length, length_zrange. lia. Qed.
Lemma part_first j : (j < Z.to_nat m)%nat -> part first_set j = Z.of_nat j + 1.
Proof. intros H. unfold first_set. rewrite part_map_zrange by auto. lia. Qed.
Lemma first_iso : iso_set n m first_set.
Proof.
  split; [split; [|split]|]; rewrite length_first; [lia| | |].
  - intros j Hj. rewrite part_first by auto. lia.
  - intros i j Hij. rewrite !part_first by lia. lia.
  - intros i j Hi Hj. rewrite !part_first by lia. lia.
Qed.
Lemma prtC_first j : (j < Z.to_nat m)%nat -> part (prtC n k m first_set) j = n + k - Z.of_nat j.
Proof.
  intros Hj. rewrite part_prtC by auto. rewrite (d_small n m first_set first_iso) by (try rewrite part_first; lia).
  rewrite part_first by auto. lia.
Qed.
Lemma prtC_first_rd : prtC n k m (rd (2 * n) first_set) = [].
Proof.
  assert (E : preC n k m (rd (2 * n) first_set) = repz 0 m).
  { apply list_part_eq; [rewrite length_preC by auto; unfold repz; rewrite repeat_length; lia|].
    intros j Hj. rewrite length_preC in Hj by auto. rewrite part_preC by auto.
    unfold dC. rewrite cnt_all.
    - rewrite part_rd by (rewrite length_first; auto). rewrite length_first, part_first by lia.
      unfold repz, part. rewrite nth_repeat. lia.
    - intros i Hi. unfold QC. apply Z.ltb_lt. rewrite !part_rd by (rewrite length_first; lia).
      rewrite length_first, !part_first by lia. lia. }
  unfold prtC. rewrite E. apply part_clip_repz.
Qed.
Lemma prtC_first_list : prtC n k m first_set = map (fun i => n + k - i) (zrange 0 m).
Proof.
  unfold prtC.
  assert (E : preC n k m first_set = map (fun i => n + k - i) (zrange 0 m)).
  { apply list_part_eq; [rewrite length_preC by auto; rewrite map_length, length_zrange; lia|].
    intros j Hj. rewrite length_preC in Hj by auto. rewrite part_map_zrange by auto. rewrite <- prtC_first by auto.
    unfold prtC. rewrite part_clip_part. auto. }
  rewrite E. apply part_clip_pos. apply Forall_forall. intros x Hx. apply in_map_iff in Hx.
  destruct Hx as (j & <- & Hj). apply in_zrange in Hj. lia.
Qed.
End C.

(** ** OG(m,2n+2) *)
Section D.
Variables (n k m : Z).
Hypothesis Hk : 0 <= k.
Hypothesis Hm : 0 <= m.
Hypothesis Hn : n + 1 = m + k.
Hypothesis Hn0 : 0 <= n.

Definition swf (x : Z) : Z := if x =? n + 1 then n + 2 else if x =? n + 2 then n + 1 else x.
Definition sw (p : list Z) : list Z := map swf p.
Definition rdD (p : list Z) : list Z := if Z.odd (n + 1) then sw (rd (2 * n + 2) p) else rd (2 * n + 2) p.

Lemma sw_sw p : sw (sw p) = p.
Proof.
  unfold sw. rewrite map_map. rewrite <- (map_id p) at 2. apply map_ext. intros x. unfold swf.
  destruct (x =? n + 1) eqn:E1, (x =? n + 2) eqn:E2; rewrite ?E1, ?E2; try lia;
    rewrite ?Z.eqb_refl; try lia. replace (n + 2 =? n + 1) with false by lia. lia.
Qed.
Lemma sw_rd p : sw (rd (2 * n + 2) p) = rd (2 * n + 2) (sw p).
Proof.
  unfold sw, rd. rewrite <- !map_rev. rewrite !map_map. apply map_ext. intros x. unfold swf.
  destruct (x =? n + 1) eqn:E1, (x =? n + 2) eqn:E2, (2 * n + 2 + 1 - x =? n + 1) eqn:E3,
    (2 * n + 2 + 1 - x =? n + 2) eqn:E4; lia.
Qed.
Lemma rdD_rdD p : rdD (rdD p) = p.
Proof.
  unfold rdD. destruct (Z.odd (n + 1)); [|apply rd_rd]. rewrite <- sw_rd, sw_sw. apply rd_rd.
Qed.
Lemma sw_set p : isotropic_set m (2 * n + 2) p -> isotropic_set m (2 * n + 2) (sw p).
Proof.
  intros [(L & R & I) S]. split; [split; [|split]|]; unfold sw; rewrite map_length; auto.
  - intros j Hj. rewrite part_map_in by auto. specialize (R j Hj). unfold swf.
    destruct (part p j =? n + 1), (part p j =? n + 2); lia.
  - intros i j Hij. rewrite !part_map_in by lia. specialize (I i j Hij). specialize (S i j ltac:(lia) ltac:(lia)). unfold swf.
    destruct (part p i =? n + 1) eqn:E1, (part p i =? n + 2) eqn:E2, (part p j =? n + 1) eqn:E3, (part p j =? n + 2) eqn:E4; lia.
  - intros i j Hi Hj. rewrite !part_map_in by lia. specialize (S i j ltac:(lia) ltac:(lia)). unfold swf.
    destruct (part p i =? n + 1) eqn:E1, (part p i =? n + 2) eqn:E2, (part p j =? n + 1) eqn:E3, (part p j =? n + 2) eqn:E4; lia.
Qed.
Lemma iso_C p : isotropic_set m (2 * n + 2) p <-> iso_set (n + 1) m p.
Proof. unfold iso_set. replace (2 * (n + 1)) with (2 * n + 2) by lia. tauto. Qed.

(** the shape does not change *)
Lemma shape_sw p : isotropic_set m (2 * n + 2) p -> dnl k m (prtC (n + 1) k m (sw p)) = dnl k m (prtC (n + 1) k m p).
Proof.
  intros Hp. pose proof (proj1 (iso_C p) Hp) as Hc. pose proof (proj1 (iso_C (sw p)) (sw_set p Hp)) as Hs.
  pose proof (p_len (n + 1) m p Hc) as L.
  assert (Ed : forall j, (j < Z.to_nat m)%nat -> dC (n + 1) (sw p) j = dC (n + 1) p j).
  { intros j Hj. apply cnt_ext. intros i Hi. unfold QC, sw. rewrite !part_map_in by lia.
    pose proof (p_sinc (n + 1) m p Hc i j ltac:(lia)). pose proof (p_iso (n + 1) m p Hc i j ltac:(lia) ltac:(lia)). unfold swf.
    destruct (part p i =? n + 1) eqn:E1, (part p i =? n + 2) eqn:E2, (part p j =? n + 1) eqn:E3, (part p j =? n + 2) eqn:E4;
    destruct (2 * (n + 1) + 1 <? part p i + part p j) eqn:E5; try lia; (apply Z.ltb_lt || apply Z.ltb_ge); lia. }
  unfold dnl. f_equal. apply map_ext_in. intros j' Hj'. apply in_zrange in Hj'.
  assert (Ej : exists j, j' = Z.of_nat j) by (exists (Z.to_nat j'); lia). destruct Ej as [j ->]. rewrite !Nat2Z.id.
  assert (Hj : (j < Z.to_nat m)%nat) by lia.
  rewrite !part_prtC by auto. rewrite Ed by auto. unfold sw. rewrite part_map_in by lia. unfold swf.
  destruct (part p j =? n + 1) eqn:E1.
  - rewrite (d_small (n + 1) m p Hc) by lia.
    destruct (k <? n + 1 + k + 1 - (n + 2) + 0) eqn:E3, (k <? n + 1 + k + 1 - part p j + 0) eqn:E4; lia.
  - destruct (part p j =? n + 2) eqn:E2; auto.
    pose proof (d_half (n + 1) m p Hc j Hj).
    assert (dC (n + 1) p j = 0) as ->.
    { apply cnt_none. intros i Hi. unfold QC. apply Z.ltb_ge. pose proof (p_sinc (n + 1) m p Hc i j ltac:(lia)). lia. }
    destruct (k <? n + 1 + k + 1 - (n + 1) + 0) eqn:E3, (k <? n + 1 + k + 1 - part p j + 0) eqn:E4; lia.
Qed.

Lemma count_rd p : count_ge (rd (2 * n + 2) p) (n + 2) = zlen p - count_ge p (n + 2).
Proof.
  unfold rd. assert (G : forall l, count_ge (map (fun x => 2 * n + 2 + 1 - x) l) (n + 2) = zlen l - count_ge l (n + 2)).
  { induction l as [|x t IH]; [reflexivity|]. cbn [map]. rewrite !count_ge_cons, IH, zlen_cons.
    destruct (n + 2 <=? 2 * n + 2 + 1 - x) eqn:E1, (n + 2 <=? x) eqn:E2; lia. }
  assert (R : forall l, count_ge (rev l) (n + 2) = count_ge l (n + 2)).
  { intros l. unfold count_ge. f_equal. apply Permutation_length. 
    induction l as [|x t IH]; [constructor|]. cbn [rev]. rewrite filter_app. cbn [filter].
    destruct (n + 2 <=? x); [|rewrite app_nil_r; auto]. rewrite <- Permutation_cons_append. auto. }
  rewrite G, R. unfold zlen. rewrite rev_length. auto.
Qed.
(** for k = 0 one of the two middle values occurs *)
Lemma middle_in p : k = 0 -> isotropic_set m (2 * n + 2) p -> In (n + 1) p \/ In (n + 2) p.
Proof.
  intros E0 Hp. pose proof (proj1 (iso_C p) Hp) as Hc. pose proof (p_len (n + 1) m p Hc) as L.
  destruct (in_dec Z.eq_dec (n + 1) p) as [|N1]; auto. destruct (in_dec Z.eq_dec (n + 2) p) as [|N2]; auto. exfalso.
  assert (H : cnt (fun _ => true) (Z.to_nat m) <= Z.max 0 (n + 1 - 1)).
  { apply (cnt_inj _ (fun i => Z.min (part p i) (2 * n + 3 - part p i))).
    - intros i Hi _. pose proof (p_rng (n + 1) m p Hc i Hi).
      assert (part p i <> n + 1) by (intros E; apply N1; rewrite <- E; apply nth_In; lia).
      assert (part p i <> n + 2) by (intros E; apply N2; rewrite <- E; apply nth_In; lia). lia.
    - intros i i' Hi _ _. pose proof (p_sinc (n + 1) m p Hc i i' ltac:(lia)). pose proof (p_iso (n + 1) m p Hc i i' ltac:(lia) ltac:(lia)). lia. }
  rewrite cnt_all in H by auto. lia.
Qed.
Lemma count_sw p : isotropic_set m (2 * n + 2) p -> In (n + 1) p \/ In (n + 2) p ->
  Z.even (count_ge (sw p) (n + 2)) = negb (Z.even (count_ge p (n + 2))).
Proof.
  intros Hp Hin.
  assert (Hno : forall l, incl l p -> NoDup l -> 
    count_ge (sw l) (n + 2) = count_ge l (n + 2) + (if zmem (n + 1) l then 1 else 0) - (if zmem (n + 2) l then 1 else 0)).
  { induction l as [|x t IH]; intros Hi Hnd; [reflexivity|]. inversion Hnd; subst. unfold sw in *. cbn [map].
    rewrite !count_ge_cons, IH; auto. 2:{ intros y Hy. apply Hi. simpl. auto. }
    unfold zmem. cbn [existsb]. fold (zmem (n + 1) t). fold (zmem (n + 2) t). unfold swf.
    assert (M1 : x = n + 1 -> zmem (n + 1) t = false).
    { intros ->. destruct (zmem (n + 1) t) eqn:E; auto. apply zmem_iff in E. contradiction. }
    assert (M2 : x = n + 2 -> zmem (n + 2) t = false).
    { intros ->. destruct (zmem (n + 2) t) eqn:E; auto. apply zmem_iff in E. contradiction. }
    destruct (x =? n + 1) eqn:E1.
    - rewrite (Z.eqb_sym (n + 1)), E1. cbn [orb]. rewrite M1 by lia. replace (n + 2 =? x) with false by lia. cbn [orb].
      replace (n + 2 <=? n + 2) with true by lia. replace (n + 2 <=? x) with false by lia.
      destruct (zmem (n + 2) t); lia.
    - rewrite (Z.eqb_sym (n + 1)), E1. cbn [orb]. rewrite (Z.eqb_sym (n + 2)). destruct (x =? n + 2) eqn:E2; cbn [orb].
      + rewrite M2 by lia. replace (n + 2 <=? n + 1) with false by lia. replace (n + 2 <=? x) with true by lia.
        destruct (zmem (n + 1) t); lia.
      + destruct (n + 2 <=? x); destruct (zmem (n + 1) t), (zmem (n + 2) t); lia. }
  assert (Hnd : NoDup p).
  { apply (NoDup_nth p 0). intros i j Hi Hj E. destruct Hp as [(_ & _ & I) _]. fold (part p i) in E. fold (part p j) in E.
    destruct (Nat.lt_trichotomy i j) as [H|[H|H]]; auto; [specialize (I i j)|specialize (I j i)]; lia. }
  rewrite Hno by (auto; apply incl_refl).
  assert (Hex : In (n + 1) p -> In (n + 2) p -> False).
  { intros H1 H2. apply In_nth with (d := 0) in H1. apply In_nth with (d := 0) in H2.
    destruct H1 as (i & Hi & E1), H2 as (j & Hj & E2). destruct Hp as [_ S]. specialize (S i j Hi Hj). unfold part in S. lia. }
  destruct (zmem (n + 1) p) eqn:E1, (zmem (n + 2) p) eqn:E2.
  - apply zmem_iff in E1. apply zmem_iff in E2. tauto.
  - rewrite Z.sub_0_r, Z.even_add. cbn [Z.even]. destruct (Z.even _); auto.
  - rewrite Z.add_0_r, Z.even_sub. cbn [Z.even]. destruct (Z.even _); auto.
  - exfalso. destruct Hin as [H|H]; apply zmem_iff in H; congruence.
Qed.
Lemma rdD_iso p : isotropic_set m (2 * n + 2) p -> isotropic_set m (2 * n + 2) (rdD p).
Proof. intros H. unfold rdD. destruct (Z.odd (n + 1)); [apply sw_set|]; apply rd_set; auto. Qed.
Lemma rdD_set p : iso_D n m p -> iso_D n m (rdD p).
Proof.
  intros [Hp Hpar]. split; [apply rdD_iso; auto|]. intros E. specialize (Hpar E). assert (E0 : k = 0) by lia.
  replace (m + 1) with (n + 2) in * by lia. pose proof (rd_set _ _ _ Hp) as Hr.
  pose proof (count_rd p) as Ec. destruct Hp as [(L & _) _]. fold (zlen p) in L.
  unfold rdD. destruct (Z.odd (n + 1)) eqn:Eo.
  - rewrite count_sw; auto using middle_in. rewrite Ec, L, Z.even_sub, Hpar. replace m with (n + 1) by lia.
    rewrite <- Z.negb_odd, Eo. reflexivity.
  - rewrite Ec, L, Z.even_sub, Hpar. replace m with (n + 1) by lia. rewrite <- Z.negb_odd, Eo. reflexivity.
Qed.

Lemma size_snoc0 l : size (l ++ [0]) = size l.
Proof. rewrite size_app. unfold size at 2. simpl. lia. Qed.
Lemma size_dnD mu : size (dnD n k m mu) = size (dnl k m mu).
Proof. unfold dnD. destruct (_ && _); auto. apply size_snoc0. Qed.
Lemma size_dnl mu : kstrict_in k m (n + 1 + k) mu -> size (dnl k m mu) = size mu - LD k m mu.
Proof.
  intros [Hb _]. unfold dnl, LD. rewrite size_clip.
  assert (E : size mu = size (map (fun j => part mu (Z.to_nat j)) (zrange 0 m))).
  { change (zsum mu = zsum (map (fun j => part mu (Z.to_nat j)) (zrange 0 m))). rewrite <- (zsum_padm m mu). apply f_equal. pose proof (in_box_wbox _ _ _ Hb) as [_ Hlen]. unfold zlen in Hlen.
    apply list_part_eq; [rewrite map_length, length_zrange; lia|]. intros j Hj. rewrite part_padm.
    rewrite part_map_zrange by lia. rewrite Nat2Z.id. auto. }
  rewrite E. clear E Hb. rewrite <- (Z2Nat.id m) at 1 2 by auto. generalize (Z.to_nat m). clear.
  induction n as [|c IH]; [reflexivity|]. rewrite zrange_snoc by lia. replace (Z.of_nat (S c) - 1) with (Z.of_nat c) by lia.
  rewrite !map_app, !size_app, IH. cbn [map cnt]. rewrite Nat2Z.id. unfold size at 2 4. cbn [fold_right]. lia.
Qed.
Lemma size_dualD p : iso_D n m p -> size (prtD n k m p) + size (prtD n k m (rdD p)) = 2 * m * k + m * (m - 1) / 2.
Proof.
  intros [Hp _]. pose proof (proj1 (iso_C p) Hp) as Hc.
  assert (E : size (prtD n k m (rdD p)) = size (prtD n k m (rd (2 * n + 2) p))).
  { unfold prtD. rewrite !size_dnD. unfold rdD. destruct (Z.odd (n + 1)); auto. rewrite shape_sw; auto. apply rd_set; auto. }
  rewrite E. pose proof (rd_set _ _ _ Hp) as Hr. pose proof (proj1 (iso_C _) Hr) as Hrc.
  unfold prtD. rewrite !size_dnD. rewrite !size_dnl by (apply prtC_in; auto).
  rewrite !(LD_count n k m) by auto. rewrite count_rd. pose proof (size_dual (n + 1) k m p Hc) as Es.
  replace (2 * (n + 1)) with (2 * n + 2) in Es by lia. destruct Hp as [(L & _) _]. fold (zlen p) in L. lia.
Qed.

(** the first index set *)
Lemma firstD : iso_D n m (first_set m).
Proof.
  split; [apply iso_C; apply (first_iso (n + 1) k m); auto|]. intros _.
  assert (count_ge (first_set m) (m + 1) = 0) as ->; [|reflexivity].
  rewrite count_ge_cnt. apply cnt_none. intros i Hi. rewrite length_first in Hi by auto. rewrite part_first by auto.
  apply Z.leb_gt. lia.
Qed.
Lemma prtD_first_rd : prtD n k m (rdD (first_set m)) = [].
Proof.
  assert (E : dnl k m (prtC (n + 1) k m (rdD (first_set m))) = []).
  { assert (E1 : dnl k m (prtC (n + 1) k m (rdD (first_set m))) = dnl k m (prtC (n + 1) k m (rd (2 * n + 2) (first_set m)))).
    { unfold rdD. destruct (Z.odd (n + 1)); auto. apply shape_sw. apply rd_set. apply firstD. }
    rewrite E1. replace (2 * n + 2) with (2 * (n + 1)) by lia. rewrite prtC_first_rd by auto.
    unfold dnl. rewrite (map_ext_in _ (fun _ => 0)).
    - rewrite <- (part_clip_repz m). f_equal. apply list_part_eq; [unfold repz; rewrite map_length, length_zrange, repeat_length; lia|].
      intros j Hj. rewrite map_length, length_zrange in Hj. rewrite part_map_zrange by lia. unfold part, repz. rewrite nth_repeat. auto.
    - intros j Hj. unfold part. destruct (Z.to_nat j); simpl nth; replace (k <? 0) with false by lia; lia. }
  unfold prtD, dnD. rewrite E. reflexivity.
Qed.
Lemma prtD_first : prtD n k m (first_set m) =
  map (fun i => n + k - i) (zrange 0 (n - k - (if 0 <? k then 0 else 1) + 1)).
Proof.
  assert (Hp : forall j, (j < Z.to_nat m)%nat -> part (dnl k m (prtC (n + 1) k m (first_set m))) j = n + k - Z.of_nat j).
  { intros j Hj. rewrite part_dnl by auto. rewrite prtC_first by auto. rewrite (proj2 (Z.ltb_lt k _)) by lia. lia. }
  assert (Hin : kstrict_in k m (n + k) (dnl k m (prtC (n + 1) k m (first_set m)))).
  { apply dn_in; auto. apply prtC_in; auto. apply (first_iso (n + 1) k m); auto. }
  assert (E : dnl k m (prtC (n + 1) k m (first_set m)) = map (fun i => n + k - i) (zrange 0 (n - k - (if 0 <? k then 0 else 1) + 1))).
  { assert (Hm' : forall c, 0 <= c -> c <= n + k -> is_partition (map (fun i => n + k - i) (zrange 0 c))).
    { intros c Hc Hc2. assert (El : length (map (fun i => n + k - i) (zrange 0 c)) = Z.to_nat c) by (rewrite map_length, length_zrange; lia).
      split.
      - intros j Hj. rewrite El in Hj. rewrite part_map_zrange by lia. lia.
      - intros j. destruct (Nat.lt_ge_cases (S j) (Z.to_nat c)) as [H|H].
        + rewrite !part_map_zrange by lia. lia.
        + rewrite (part_over _ (S j)) by lia. destruct (Nat.lt_ge_cases j (Z.to_nat c)).
          * rewrite part_map_zrange by lia. lia.
          * rewrite part_over by lia. lia. }
    apply partition_eq; [apply Hin|apply Hm'; destruct (0 <? k) eqn:E0; lia|].
    intros j. destruct (Nat.lt_ge_cases j (Z.to_nat m)) as [Hj|Hj].
    - rewrite Hp by auto. destruct (0 <? k) eqn:E0.
      + rewrite part_map_zrange by lia. lia.
      + destruct (Nat.eq_dec (S j) (Z.to_nat m)) as [Ej|Ej].
        * rewrite part_over by (rewrite map_length, length_zrange; lia). lia.
        * rewrite part_map_zrange by lia. lia.
    - rewrite part_dnl_over by auto. rewrite part_over; auto. rewrite map_length, length_zrange. destruct (0 <? k); lia. }
  unfold prtD, dnD. rewrite E. destruct (zmem k _) eqn:Ez; [|reflexivity]. exfalso.
  apply zmem_iff in Ez. apply in_map_iff in Ez. destruct Ez as (j & Ej & Hj). apply in_zrange in Hj.
  destruct (0 <? k) eqn:E0; lia.
Qed.
End D.
