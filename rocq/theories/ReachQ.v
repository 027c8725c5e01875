(** Quantum products of classes are never zero: the chains from the class of a
    point to the unit. *)

From Coq Require Import ZArith List Lia Bool Permutation QArith Qcanon Setoid Morphisms.
From Verif Require Import Py OrderFacts PyFacts ModelPart ModelQcalc ModelPoly ModelStr ModelGr Spec SpecRing SpecPieri SpecReach
  PolyFacts SuppFacts OpTheory PartFacts ConvA ConjFacts PieriBKT PieriCoef PieriD QPieriD PresA WSum Sys Sys2 SysApi RingA FactsA ApiA ApiConvA GrInv RingData ApiPieriP ApiRing ApiRingD
  DualSys ApiDual TopClass Reach ApiReach.
Import ListNotations.
Open Scope Z_scope.

(** ** The first row grows *)
Lemma part_grow M lam j : part (M :: tl lam) (S j) = part lam (S j).
Proof. destruct lam as [|a l]; [|reflexivity]. unfold part. simpl. destruct j; reflexivity. Qed.
Lemma part_grow_0 M lam : part (M :: tl lam) 0 = M.
Proof. reflexivity. Qed.

Section Grow.
Variables (k d M : Z) (lam : list Z).
Hypothesis Hd : d = 0 \/ d = 1.
Hypothesis Hl : is_partition lam.
Hypothesis HM : part lam 0 < M.

Lemma grow_pos : 0 < M.
Proof. pose proof (is_partition_nonneg lam 0 Hl). lia. Qed.
Lemma grow_partition : is_partition (M :: tl lam).
Proof.
  pose proof grow_pos. split.
  - intros [|j] Hj; [exact H|]. rewrite part_grow. apply Hl. destruct lam; simpl in *; lia.
  - intros [|j]; rewrite !part_grow; [rewrite part_grow_0; pose proof (proj2 Hl 0%nat); lia|apply Hl].
Qed.
Lemma grow_le j : part lam j <= part (M :: tl lam) j.
Proof. destruct j; [rewrite part_grow_0; lia|rewrite part_grow; lia]. Qed.
Lemma grow_added x : added lam (M :: tl lam) x -> fst x = 1 /\ part lam 0 < snd x <= M.
Proof.
  destruct x as [r c]. unfold added, in_diagram. cbn [fst snd]. intros ((H1 & H2) & H3).
  destruct (Z.eq_dec r 1) as [->|Hr].
  - change (Z.to_nat (1 - 1)) with 0%nat in *. rewrite part_grow_0 in H2. split; auto. lia.
  - exfalso. replace (Z.to_nat (r - 1)) with (S (Z.to_nat (r - 2))) in * by lia. rewrite part_grow in H2. apply H3. lia.
Qed.
Lemma grow_count c : 1 <= c -> count_ge lam c <= count_ge (M :: tl lam) c.
Proof.
  intros Hc. destruct (Z_le_gt_dec (count_ge lam c) (count_ge (M :: tl lam) c)) as [|Hg]; auto. exfalso.
  pose proof (count_ge_nonneg (M :: tl lam) c) as H0. set (r := count_ge (M :: tl lam) c) in *.
  assert (H1 := proj1 (count_iff lam (Z.to_nat r) c Hl Hc) ltac:(lia)).
  assert (H2 := proj2 (count_iff (M :: tl lam) (Z.to_nat r) c grow_partition Hc)).
  pose proof (grow_le (Z.to_nat r)). fold r in H2. lia.
Qed.
Lemma grow_arrow : pieri_arrow k d lam (M :: tl lam).
Proof.
  split; [|split].
  - exists lam. split; auto. split.
    + intros j. lia.
    + intros j. split; [|apply grow_le]. rewrite part_grow. apply Hl.
  - intros c Hc E x y Hx Hy Rx Ry. apply grow_added in Hx, Hy. destruct x as [x1 x2], y as [y1 y2]. cbn [fst snd] in *.
    destruct Hx as (-> & Hx), Hy as (-> & Hy). unfold related, bottom_box in Rx, Ry. cbn [fst snd] in Rx, Ry. rewrite E in Rx, Ry.
    assert (Hr : forall z, part lam 0 < z <= M -> Z.abs (2 * (c - k - 1) + d) + 2 * count_ge lam c = Z.abs (2 * (z - k - 1) + d) + 2 * 1 -> k < z).
    { intros z Hz R. destruct (Z_lt_le_dec k z) as [|Hk]; auto. exfalso.
      pose proof (count_ge_nonneg lam c). destruct (Z.eq_dec (count_ge lam c) 0) as [E0|E0].
      - rewrite E0 in *. destruct (Z_le_gt_dec c M) as [Hcm|Hcm]; [|destruct Hd; subst d; lia].
        pose proof (proj2 (count_iff (M :: tl lam) 0 c grow_partition ltac:(lia))) as G. rewrite part_grow_0 in G. specialize (G Hcm). lia.
      - pose proof (proj1 (count_iff lam 0 c Hl ltac:(lia)) ltac:(lia)). destruct Hd; subst d; lia. }
    assert (H1 := Hr x2 Hx Rx). assert (H2 := Hr y2 Hy Ry). f_equal. destruct Hd; subst d; lia.
  - intros c Hc E. pose proof (grow_count c Hc). lia.
Qed.
Lemma grow_size : size (M :: tl lam) = size lam + (M - part lam 0).
Proof. rewrite size_cons. destruct lam as [|a l]; [unfold size, part; simpl; lia|]. rewrite size_cons. simpl tl. unfold part. simpl. lia. Qed.
Lemma grow_kstrict r c : kstrict_in k r c lam -> k < M <= c -> 1 <= r -> kstrict_in k r c (M :: tl lam).
Proof.
  intros ((_ & H1 & H2) & H3) HM' Hr. split; [split; [apply grow_partition|split; [|exact (proj2 HM')]]|].
  - destruct lam; simpl in *; lia.
  - intros [|j]; rewrite ?part_grow.
    + rewrite part_grow_0. intros _. pose proof (proj2 Hl 0%nat). lia.
    + apply H3.
Qed.
End Grow.

Lemma two_to_neq e : 0 <= e -> two_to e <> 0%Qc.
Proof.
  intros He E. unfold two_to in E. apply (f_equal this) in E. change (Qred (inject_Z (2 ^ e)) = Qred 0) in E.
  assert (E' : (inject_Z (2 ^ e) == 0)%Q) by (rewrite <- (Qred_correct (inject_Z (2 ^ e))), E; reflexivity).
  unfold Qeq in E'. cbn in E'. pose proof (Z.pow_pos_nonneg 2 e ltac:(lia) He). lia.
Qed.
Lemma term_OG k n p lam mu c : coef_OG k n p lam mu c -> pieri_term k n p lam mu -> c <> 0%Qc.
Proof.
  intros [(_ & N & _ & H1 & ->)|(H1 & _)] HT; [|contradiction]. apply two_to_neq. destruct (p <=? k); lia.
Qed.
Lemma term_IG k n p s lam mu c : coef_IG k n p s lam mu c -> pieri_term k n p lam mu -> c <> 0%Qc.
Proof.
  intros [(_ & N & _ & H1 & ->)|(H1 & _)] HT; [|contradiction]. apply two_to_neq. lia.
Qed.
Lemma component_nonneg A P N : component_count A P N -> 0 <= N.
Proof. intros (reps & <- & _). lia. Qed.

Lemma step1 (op : Z -> poly -> res poly) (J : Z -> Prop) x y i r d : J i -> op i (pS x) = Ok r -> coef r (qS d y) <> 0%Qc -> chain op J x y.
Proof. intros Hi E Hc. eapply chain_step; [apply chain_refl|exact Hi|exact E|]. exists d. auto. Qed.

(** ** Gr *)
Definition rect (m a : Z) : list Z := if a =? 0 then [] else repeat a (Z.to_nat m).
Lemma part_rect m a j : 0 <= a -> part (rect m a) j = if Z.of_nat j <? m then a else 0.
Proof.
  intros Ha. unfold rect, part. destruct (Z.eqb_spec a 0) as [->|Hne]; [rewrite nth_overflow by (simpl; lia); destruct (_ <? _); reflexivity|].
  destruct (Z.ltb_spec (Z.of_nat j) m).
  - rewrite (nth_indep _ 0 a) by (rewrite repeat_length; lia). apply nth_repeat.
  - apply nth_overflow. rewrite repeat_length. lia.
Qed.
Lemma rect_in m k a : 0 <= m -> 0 <= a <= k -> in_box m k (rect m a) /\ size (rect m a) = m * a.
Proof.
  intros Hm Ha. split.
  - split; [split|split].
    + intros j Hj. rewrite part_rect by lia. unfold rect in Hj. destruct (Z.eqb_spec a 0); [simpl in Hj; lia|]. rewrite repeat_length in Hj.
      destruct (Z.ltb_spec (Z.of_nat j) m); lia.
    + intros j. rewrite !part_rect by lia. destruct (Z.ltb_spec (Z.of_nat j) m), (Z.ltb_spec (Z.of_nat (S j)) m); lia.
    + unfold rect. destruct (a =? 0); [simpl; lia|]. rewrite repeat_length. lia.
    + rewrite part_rect by lia. destruct (_ <? _); lia.
  - unfold rect. destruct (Z.eqb_spec a 0) as [->|]; [unfold size; simpl; lia|].
    assert (G : forall q : nat, size (repeat a q) = Z.of_nat q * a).
    { induction q as [|q IH]; [reflexivity|]. change (repeat a (S q)) with (a :: repeat a q). rewrite size_cons, IH. lia. }
    rewrite G. lia.
Qed.

Lemma c75_A m n g : Grassmannian m n = Ok g -> 1 <= m -> never_zero (in_box m (n - m)) (qmult g) (qpieri g) (fun i => 1 <= i <= n - m).
Proof.
  intros Hg Hm. pose proof (dual_A m n g true Hg Hm) as D. pose proof (pos_A m n g true Hg Hm) as P.
  assert (C : chain (qpieri g) (fun i => 1 <= i <= n - m) (rect m (n - m)) []).
  { pose proof Hg as Hg'. apply gr_inv in Hg'. destruct Hg' as (_ & Hk & _).
    assert (G : forall a : nat, Z.of_nat a <= n - m -> chain (qpieri g) (fun i => 1 <= i <= n - m) (rect m (Z.of_nat a)) []).
    { induction a as [|a IH]; intros Ha; [apply chain_refl|].
      apply (chain_trans _ _ _ (rect m (Z.of_nat a))); [|apply IH; lia].
      destruct (rect_in m (n - m) (Z.of_nat (S a)) ltac:(lia) ltac:(lia)) as (B1 & S1).
      destruct (rect_in m (n - m) (Z.of_nat a) ltac:(lia) ltac:(lia)) as (B0 & S0).
      destruct (c02 m n g (n - m) _ Hg Hm B1 ltac:(lia)) as (p & E & HS).
      assert (E1 : coef p (qS 1 (rect m (Z.of_nat a))) = 1%Qc).
      { apply (proj1 HS). split; [exact B0|]. right. split; auto. split; [|rewrite S0, S1; lia]. split; intros j Hj.
        - rewrite !part_rect by lia. destruct (Z.ltb_spec (Z.of_nat j) m); lia.
        - rewrite !part_rect by lia. destruct (Z.ltb_spec (Z.of_nat j) m), (Z.ltb_spec (Z.of_nat (S j)) m); lia. }
      apply (step1 _ _ _ _ (n - m) p 1); auto; [lia|]. rewrite E1. discriminate. }
    specialize (G (Z.to_nat (n - m)) ltac:(lia)). rewrite Z2Nat.id in G by lia. exact G. }
  assert (EP : point_class g = rect m (n - m)).
  { apply gr_inv in Hg. destruct Hg as (_ & Hk & ->). rewrite point_dual by auto.
    destruct (rect_in m (n - m) (n - m) ltac:(lia) ltac:(lia)) as (B & _).
    symmetry. apply (dualA_compl m (n - m)); auto.
    - split; [split; [intros j Hj; simpl in Hj; lia|intros j; rewrite !part_nil_0; lia]|split; [simpl; lia|rewrite part_nil_0; lia]].
    - intros j Hj. rewrite part_nil_0, part_rect by lia. destruct (Z.ltb_spec (Z.of_nat (Z.to_nat (m - 1 - Z.of_nat j))) m); lia. }
  rewrite <- EP in C. apply gr_inv in Hg. destruct Hg as (_ & Hk & ->).
  exact (gen_never (g := gA m (n - m)) (qq := true) (sysA m (n - m) Hm Hk true) P D C).
Qed.

(** ** IG *)
Lemma kstrict_tl k r c a l : kstrict_in k r c (a :: l) -> kstrict_in k r c l.
Proof.
  intros ((H1 & H2 & H3) & H4). split; [split; [eapply part_tail; eauto|split]|].
  - simpl in H2. lia.
  - pose proof (proj2 H1 0%nat) as G. change (part l 0 <= part (a :: l) 0) in G. lia.
  - intros j. exact (H4 (S j)).
Qed.
Lemma c75_IG m N g : IsotropicGrassmannian m N = Ok g -> 1 <= m -> never_zero (class_IG m N) (qmult g) (qpieri g) (fun i => 1 <= i <= N - m).
Proof.
  intros Hg Hm. pose proof (dual_IG m N g true Hg Hm) as D. destruct (rd_IG m N g Hg Hm) as (mu & R).
  assert (VP : class_IG m N (point_class g)).
  { destruct D as (dl & H1 & _ & _ & _ & <-). apply H1. apply (ps_nil _ _ _ _ _ _ _ (rd_qu _ _ _ _ R)). }
  assert (C : forall l, class_IG m N l -> chain (qpieri g) (fun i => 1 <= i <= N - m) l []).
  { pose proof Hg as Hg'. apply ig_inv in Hg'. destruct Hg' as (n & EN & En & Hmn & _). set (k := N / 2 - m) in *.
    induction l as [|a l IH]; intros Hl; [apply chain_refl|]. change (kstrict_in k m (N - m) (a :: l)) in Hl.
    pose proof (kstrict_tl _ _ _ _ _ Hl) as Hl'. apply (chain_trans _ _ _ l); [|apply IH; exact Hl'].
    pose proof Hl as ((P1 & P2 & P3) & P4). assert (Ha : 0 < a <= N - m) by (pose proof (proj1 P1 0%nat ltac:(simpl; lia)) as G; change (part (a :: l) 0) with a in *; lia).
    set (p := N / 2 + k + 1 - a). assert (Hp : 1 <= p <= N - m) by (unfold p, k; lia).
    destruct (c44_qIG' m N g p (a :: l) Hg Hl ltac:(lia)) as (r & c & E & (EX & _) & (_ & Q1 & _)).
    apply (step1 _ _ _ _ p r 1); auto. rewrite EX. apply (term_IG _ _ _ _ _ _ _ (Q1 l)). fold k.
    assert (HM : part (a :: l) 0 < N / 2 + k + 1) by (change (part (a :: l) 0) with a; unfold k; lia).
    split; [|split].
    - apply (grow_kstrict k (N / 2 + k + 1) (a :: l) P1 HM); [|unfold k; lia|unfold k; lia].
      split; [split; [exact P1|split]|exact P4]; unfold k; lia.
    - pose proof (grow_size (N / 2 + k + 1) (a :: l) P1 HM) as G. change (part (a :: l) 0) with a in G. simpl tl in G. rewrite G. unfold p. lia.
    - apply (grow_arrow k 0 (N / 2 + k + 1) (a :: l)); auto. }
  exact (gen_never (qq := true) (rd_qu _ _ _ _ R) (graded_nonneg g true _ _ _ (rd_gq _ _ _ _ R)) D (C _ VP)).
Qed.

Lemma chain_nil (op : Z -> poly -> res poly) (J : Z -> Prop) (V : list Z -> Prop) (len : list Z -> nat) :
  (forall x, V x -> x <> [] -> exists y, V y /\ chain op J x y /\ (len y < len x)%nat) -> forall x, V x -> chain op J x [].
Proof.
  intros H x. remember (len x) as N eqn:EN. revert x EN. induction N as [N IH] using (well_founded_induction Wf_nat.lt_wf). intros x -> Hx.
  destruct (list_eq_dec Z.eq_dec x []) as [->|Hne]; [apply chain_refl|]. destruct (H x Hx Hne) as (y & Hy & HC & HL).
  apply (chain_trans _ _ _ y); auto. apply (IH (len y)); auto.
Qed.

(** ** OG(m,N), N odd *)
Lemma c75_OGodd m N g : OrthogonalGrassmannian m N = Ok g -> Z.odd N = true -> 1 <= m <= N / 2 ->
  never_zero (class_OG m N) (qmult g) (qpieri g) (fun i => 1 <= i <= N - 1 - m).
Proof.
  intros Hg HN Hm. pose proof (dual_OGodd m N g true Hg HN Hm) as D. destruct (rd_OGodd m N g Hg HN Hm) as (mu & R).
  assert (VP : class_OG m N (point_class g)).
  { destruct D as (dl & H1 & _ & _ & _ & <-). apply H1. apply (ps_nil _ _ _ _ _ _ _ (rd_qu _ _ _ _ R)). }
  assert (HE : Z.even N = false) by (rewrite <- Z.negb_odd, HN; reflexivity).
  assert (EN : N = 2 * (N / 2) + 1) by (rewrite (Zdiv.Z_div_mod_eq_full N 2) at 1; rewrite Zmod_odd, HN; lia).
  set (n := N / 2) in *. set (k := n - m). set (t := n + k).
  assert (EV : class_OG m N = kstrict_in k m t).
  { unfold class_OG. rewrite HE. fold n. change (kstrict_in (n - m) m (N - 1 - m) = kstrict_in k m t). unfold t, k. f_equal. lia. }
  assert (Hdec : forall l, kstrict_in k m t l -> part l 0 < t -> pieri_term k n (t - part l 0) l (t :: tl l)).
  { intros l Hl Hlt. assert (Pl : is_partition l) by apply Hl. split; [|split].
    - replace (n - k) with m by (unfold k; lia). fold t. apply grow_kstrict; auto; unfold t, k; lia.
    - rewrite grow_size; auto; lia.
    - apply grow_arrow; auto. }
  assert (Hp : forall l, kstrict_in k m t l -> part l 0 < t -> 1 <= t - part l 0 <= N - 1 - m).
  { intros l Hl Hlt. assert (0 <= part l 0) by (apply is_partition_nonneg; apply Hl). unfold t, k in *. lia. }
  assert (Q : forall l, kstrict_in k m t (t :: l) -> chain (qpieri g) (fun i => 1 <= i <= N - 1 - m) (t :: l) (tl l)).
  { intros l Hl. pose proof (kstrict_tl _ _ _ _ _ Hl) as Hl'.
    assert (Hlt : part l 0 < t) by (apply (proj2 Hl 0%nat); change (k < t); unfold t, k; lia).
    set (p := t - part l 0).
    destruct (c44_qOG_odd' m N g p (t :: l) Hg HN Hm) as (r & c & E & (EX & _) & Q); [rewrite EV; exact Hl|]. fold n in Q. fold k in Q.
    destruct (Z.eqb_spec m n) as [Em|Em].
    - destruct Q as (_ & Q1 & _). specialize (Q1 (tl l)). change (part (t :: l) 0) with t in Q1.
      assert (Ek : k = 0) by (unfold k; lia). replace (t =? n) with true in Q1 by (unfold t; lia). simpl (tl (t :: l)) in Q1.
      apply (step1 _ _ _ _ p r 1); auto; [apply Hp; auto|]. rewrite EX. rewrite <- Ek in Q1. replace (n :: tl l) with (t :: tl l) in Q1 by (f_equal; unfold t; lia).
      apply (term_OG _ _ _ _ _ _ Q1). apply Hdec; auto.
    - destruct Q as (_ & _ & Q1 & _). specialize (Q1 (tl l)). change (part (t :: l) 0) with t in Q1. fold t in Q1. rewrite Z.eqb_refl in Q1. simpl (tl (t :: l)) in Q1.
      apply (step1 _ _ _ _ p r 2); auto; [apply Hp; auto|]. rewrite EX. apply (term_OG _ _ _ _ _ _ Q1). apply Hdec; auto. }
  assert (C : forall l, class_OG m N l -> chain (qpieri g) (fun i => 1 <= i <= N - 1 - m) l []).
  { apply (chain_nil _ _ _ (@length Z)). rewrite EV. intros x Hx Hne. destruct (Z_lt_le_dec (part x 0) t) as [Hlt|Hge].
    - assert (Hy : kstrict_in k m t (t :: tl x)) by (apply grow_kstrict; auto; [apply Hx|unfold t, k; lia|lia]).
      pose proof (kstrict_tl _ _ _ _ _ Hy) as Hy'. exists (tl (tl x)). split; [|split].
      + destruct (tl x) as [|b l] eqn:Eb; [exact Hy'|]. eapply kstrict_tl; eauto.
      + apply (chain_trans _ _ _ (t :: tl x)); [|apply Q; auto]. set (p := t - part x 0).
        destruct (c44_qOG_odd' m N g p x Hg HN Hm) as (r & c & E & (EX & _) & QQ); [rewrite EV; exact Hx|]. fold n in QQ. fold k in QQ.
        apply (step1 _ _ _ _ p r 0); auto; [apply Hp; auto|]. rewrite EX. apply (term_OG k n p x (t :: tl x)); [|apply Hdec; auto].
        destruct (Z.eqb_spec m n); [|apply QQ]. replace k with 0 by (unfold k; lia). apply QQ.
      + destruct x as [|a [|b x]]; [contradiction| |]; simpl; lia.
    - assert (Ht : part x 0 = t) by (assert (part x 0 <= t) by apply Hx; lia).
      destruct x as [|a l]; [contradiction|]. change (a = t) in Ht. subst a. exists (tl l). split; [|split; [apply Q; auto|destruct l; simpl; lia]].
      pose proof (kstrict_tl _ _ _ _ _ Hx) as Hl. destruct l as [|b l]; [exact Hl|]. eapply kstrict_tl; eauto. }
  exact (gen_never (qq := true) (rd_qu _ _ _ _ R) (graded_nonneg g true _ _ _ (rd_gq _ _ _ _ R)) D (C _ VP)).
Qed.

(** ** OG(m,N), N even *)
Definition tD (k : Z) (l : list Z) : list Z := if existsb (Z.eqb k) (tl (shape l)) then tl l else tl (shape l).
Lemma kstrict_tl' k r c l : kstrict_in k r c l -> kstrict_in k r c (tl l).
Proof. destruct l; auto. apply kstrict_tl. Qed.
Lemma in_existsb k l : existsb (Z.eqb k) l = true <-> In k l.
Proof. rewrite existsb_exists. split; [intros (x & H1 & H2); apply Z.eqb_eq in H2; subst; auto|intros H; exists k; rewrite Z.eqb_refl; auto]. Qed.
Lemma last_app0 (l : list Z) : last (l ++ [0]) 1 = 0.
Proof. apply last_last. Qed.
Lemma last_part l : is_partition l -> last l 1 <> 0.
Proof.
  intros [H _]. destruct l as [|a l]; [simpl; lia|]. destruct (exists_last (l := a :: l)) as (s & b & E); [discriminate|].
  rewrite E, last_last. rewrite E in H. specialize (H (length s)). unfold part in H. rewrite app_nth2, Nat.sub_diag in H by lia. simpl in H. rewrite app_length in H. simpl in H. lia.
Qed.

Section TD.
Variables (k r c : Z) (l : list Z).
Hypothesis Hl : typed_in k r c l.

Lemma tD_cases : (tD k l = tl (shape l) /\ (type_of k l <= 1 \/ type_of k (tD k l) = 0)) \/
  (tD k l = tl (shape l) ++ [0] /\ 0 < k /\ In k (tl (shape l)) /\ type_of k l = 2 /\ type_of k (tD k l) = 2).
Proof.
  destruct (typed_shape _ _ _ _ Hl) as (HS & [E|(E & K & HI)]).
  - left. unfold tD. rewrite <- E. split; [destruct (existsb _ _); reflexivity|]. left. unfold type_of.
    destruct (existsb _ _); [|lia]. assert (last l 1 <> 0) by (apply last_part; rewrite E; apply HS). destruct (Z.eqb_spec (last l 1) 0); [contradiction|lia].
  - assert (ET : tl l = tl (shape l) ++ [0]) by (rewrite E at 1; destruct (shape l); [destruct HI|reflexivity]).
    assert (T2 : type_of k l = 2).
    { unfold type_of. replace (existsb (Z.eqb k) l) with true by (symmetry; apply in_existsb; rewrite E; apply in_or_app; auto).
      rewrite E, last_app0. reflexivity. }
    unfold tD. destruct (existsb (Z.eqb k) (tl (shape l))) eqn:EX.
    + right. rewrite ET. split; auto. split; auto. pose proof EX as EX'. apply in_existsb in EX. split; auto. split; auto. unfold type_of.
      rewrite existsb_app, EX', last_app0. reflexivity.
    + left. split; auto. right. unfold type_of. rewrite EX. reflexivity.
Qed.
Lemma tD_typed : typed_in k r c (tD k l) /\ shape (tD k l) = tl (shape l).
Proof.
  destruct (typed_shape _ _ _ _ Hl) as (HS & _). apply kstrict_tl' in HS.
  destruct tD_cases as [(-> & _)|(-> & K & HI & _)].
  - split; [left; auto|]. apply shape_partition. apply HS.
  - split; [right; exists (tl (shape l)); auto|]. rewrite shape_app0. apply shape_partition. apply HS.
Qed.
Lemma size_shape : size l = size (shape l).
Proof.
  destruct (typed_shape _ _ _ _ Hl) as (_ & [E|(E & _)]); rewrite E at 1; auto.
  unfold size. rewrite fold_right_app. reflexivity.
Qed.
Lemma tD_size : size (tD k l) = size (tl (shape l)).
Proof. destruct tD_cases as [(-> & _)|(-> & _)]; auto. unfold size. rewrite fold_right_app. reflexivity. Qed.
End TD.

Lemma grow_D k n l : 0 <= k <= n -> 1 <= n -> typed_in k (n + 1 - k) (n + k) l -> part l 0 < n + k ->
  exists p, (1 <= p <= n + k \/ (0 < k /\ p = - k)) /\ forall c, coef_D k n p l (n + k :: tD k l) c -> c <> 0%Qc.
Proof.
  intros Hk Hn1 Hl Hlt. destruct (typed_shape _ _ _ _ Hl) as (HS & _).
  assert (Hlt' : part (shape l) 0 < n + k) by (rewrite (typed_part _ _ _ _ _ Hl); auto).
  assert (PS : is_partition (shape l)) by apply HS.
  destruct (tD_typed _ _ _ _ Hl) as (Td & Sd).
  assert (HY : kstrict_in k (n + 1 - k) (n + k) (n + k :: tl (shape l))) by (apply grow_kstrict; auto; lia).
  assert (ES : shape (n + k :: tD k l) = n + k :: tl (shape l)) by (rewrite shape_cons, Sd by lia; reflexivity).
  set (p0 := n + k - part l 0).
  assert (Hp0 : 1 <= p0 <= n + k) by (pose proof (is_partition_nonneg _ 0 PS) as G; rewrite (typed_part _ _ _ _ _ Hl) in G; unfold p0; lia).
  assert (HT : forall p, Z.abs p = p0 -> pieri_term_D k n p l (n + k :: tD k l)).
  { intros p Hp. split; [|split; [|split]].
    - destruct (tD_cases _ _ _ _ Hl) as [(-> & _)|(-> & K & HI & _)]; [left; exact HY|]. right. exists (n + k :: tl (shape l)).
      split; [reflexivity|]. split; auto. split; [right; auto|exact HY].
    - rewrite size_cons, (tD_size _ _ _ _ Hl), (size_shape _ _ _ _ Hl), Hp. pose proof (grow_size (n + k) (shape l) PS Hlt') as G.
      rewrite size_cons in G. rewrite (typed_part _ _ _ _ _ Hl) in G. unfold p0. lia.
    - rewrite ES. apply grow_arrow; auto.
    - rewrite type_cons by lia. destruct (tD_cases _ _ _ _ Hl) as [(E & [G|G])|(_ & _ & _ & -> & ->)]; [| |lia].
      + assert (type_of k (tD k l) <= 1); [|lia]. rewrite E. unfold type_of. destruct (existsb _ _); [|lia].
        assert (last (tl (shape l)) 1 <> 0) by (apply last_part, (kstrict_tl' _ _ _ _ HS)). destruct (Z.eqb_spec (last (tl (shape l)) 1) 0); [contradiction|lia].
      + rewrite G. unfold type_of. destruct (existsb _ _); [|lia]. destruct (_ =? _); lia. }
  set (b := Z.odd (not_gaining k (shape l) (shape (n + k :: tD k l)) + Z.max (type_of k l) (type_of k (n + k :: tD k l)))).
  exists (if p0 =? k then if b then k else - k else p0). split; [destruct (Z.eqb_spec p0 k) as [E|]; [destruct b; lia|lia]|].
  intros c HC. destruct HC as [(_ & N & HN & HN1 & ->)|(HC & _)].
  2:{ exfalso. apply HC. apply HT. destruct (Z.eqb_spec p0 k); [destruct b; lia|lia]. }
  apply component_nonneg in HN. unfold mult_D. destruct (Z.eqb_spec p0 k) as [E|E].
  - replace (Z.abs (if b then k else - k) <? k) with false by (destruct b; lia).
    destruct (Z.ltb_spec 0 N); [apply two_to_neq; lia|].
    replace (Z.odd _) with true; [discriminate|]. rewrite Z.odd_add. fold b. destruct b; [replace (k <? 0) with false by lia|replace (- k <? 0) with true by lia]; reflexivity.
  - destruct (Z.ltb_spec (Z.abs p0) k); [apply two_to_neq; lia|]. assert (1 <= N) by (apply HN1; lia).
    replace (0 <? N) with true by lia. apply two_to_neq. lia.
Qed.

Lemma c75_OGeven m N g : OrthogonalGrassmannian m N = Ok g -> Z.even N = true -> 4 <= N -> 1 <= m <= N / 2 -> m <> N / 2 - 1 ->
  never_zero (class_OG m N) (qmult g) (qpieri g) (index_even m N).
Proof.
  intros Hg HN H4 Hm Hm1. pose proof (dual_OGeven m N g true Hg HN H4 Hm (fun _ => Hm1)) as D.
  destruct (half_even m N g Hg HN H4 Hm) as (mu & R). specialize (R true (fun _ => Hm1)).
  assert (VP : class_OG m N (point_class g)).
  { destruct D as (dl & H1 & _ & _ & _ & <-). apply H1. apply (ps_nil _ _ _ _ _ _ _ (hf_sys _ _ _ _ _ R)). }
  assert (EN : N = 2 * (N / 2)) by (rewrite (Zdiv.Z_div_mod_eq_full N 2) at 1; rewrite Zmod_even, HN; lia).
  set (n := N / 2 - 1) in *. set (k := N / 2 - m) in *. set (t := n + k).
  assert (EV : class_OG m N = typed_in k (n + 1 - k) (n + k)).
  { unfold class_OG. rewrite HN. change (typed_in k m (N - 1 - m) = typed_in k (n + 1 - k) (n + k)). unfold n, k. f_equal; lia. }
  assert (HI : forall p, 1 <= p <= n + k \/ (0 < k /\ p = - k) -> index_even m N p) by (intros p Hp; unfold index_even; fold k; unfold n, k in *; lia).
  assert (Q : forall l, typed_in k (n + 1 - k) (n + k) (t :: l) -> typed_in k (n + 1 - k) (n + k) l /\ part l 0 < t /\
    chain (qpieri g) (index_even m N) (t :: l) (tD k l)).
  { intros l Hl. assert (Hl' : typed_in k (n + 1 - k) (n + k) l) by (apply (typed_tl k (n + 1 - k) (n + k) (t :: l)); auto; unfold n, k; lia).
    assert (Hlt : part l 0 < t).
    { destruct (typed_shape _ _ _ _ Hl) as (HS & _). rewrite shape_cons in HS by (unfold t, n, k; lia).
      rewrite <- (typed_part _ _ _ _ _ Hl'). apply (proj2 HS 0%nat). change (k < t). unfold t, n, k; lia. }
    split; auto. split; auto. destruct (grow_D k n l ltac:(unfold n, k; lia) ltac:(unfold n; lia) Hl' Hlt) as (p & Hp & HC).
    destruct (c44_qOG_even' m N g p (t :: l) Hg HN H4 Hm Hm1) as (r & c & E & (EX & _) & QQ); [rewrite EV; exact Hl|]. fold k n in QQ.
    destruct (Z.eqb_spec m (N / 2)) as [Em|Em].
    - destruct QQ as (_ & Q1 & _). specialize (Q1 (tD k l)). change (part (t :: l) 0) with t in Q1.
      assert (Ek : k = 0) by (unfold k; lia). replace (t =? n) with true in Q1 by (unfold t; lia). simpl (tl (t :: l)) in Q1.
      apply (step1 _ _ _ _ p r 1); auto. rewrite EX. apply HC. rewrite Ek in *. rewrite Z.add_0_r. exact Q1.
    - destruct QQ as (_ & _ & Q1 & _). specialize (Q1 (tD k l)). change (part (t :: l) 0) with t in Q1. fold t in Q1. rewrite Z.eqb_refl in Q1. simpl (tl (t :: l)) in Q1.
      apply (step1 _ _ _ _ p r 2); auto. rewrite EX. apply HC. exact Q1. }
  assert (C : forall l, class_OG m N l -> chain (qpieri g) (index_even m N) l []).
  { apply (chain_nil _ _ _ (fun x => length (shape x))). rewrite EV. intros x Hx Hne.
    assert (Hne' : (1 <= length (shape x))%nat).
    { destruct (typed_shape _ _ _ _ Hx) as (_ & [E|(_ & _ & G)]); [rewrite <- E; destruct x; [contradiction|simpl; lia]|destruct (shape x); [destruct G|simpl; lia]]. }
    destruct (Z_lt_le_dec (part x 0) t) as [Hlt|Hge].
    - destruct (tD_typed _ _ _ _ Hx) as (T1 & S1). destruct (tD_typed _ _ _ _ T1) as (T2 & S2).
      destruct (grow_D k n x ltac:(unfold n, k; lia) ltac:(unfold n; lia) Hx Hlt) as (p & Hp & HC).
      destruct (c44_qOG_even' m N g p x Hg HN H4 Hm Hm1) as (r & c & E & (EX & _) & QQ); [rewrite EV; exact Hx|]. fold k n in QQ.
      assert (HN0 : coef r (qS 0 (t :: tD k x)) <> 0%Qc).
      { rewrite EX. apply HC. destruct (Z.eqb_spec m (N / 2)); [|apply QQ]. assert (Ek : k = 0) by (unfold k; lia). fold t. destruct QQ as (Q0 & _). rewrite Ek. apply Q0. }
      assert (Hy : typed_in k (n + 1 - k) (n + k) (t :: tD k x)).
      { destruct (typed_shape _ _ _ _ Hx) as (HS & _).
        assert (HY : kstrict_in k (n + 1 - k) (n + k) (t :: tl (shape x))).
        { apply grow_kstrict; auto; [apply HS|rewrite (typed_part _ _ _ _ _ Hx); auto|unfold t, n, k; lia|unfold n, k; lia]. }
        destruct (tD_cases _ _ _ _ Hx) as [(-> & _)|(-> & K & HIn & _)]; [left; exact HY|]. right. exists (t :: tl (shape x)).
        split; [reflexivity|]. split; auto. split; [right; auto|exact HY]. }
      exists (tD k (tD k x)). split; auto. split.
      + apply (chain_trans _ _ _ (t :: tD k x)); [apply (step1 _ _ _ _ p r 0); auto|]. apply (Q _ Hy).
      + rewrite S2, S1. destruct (shape x) as [|a [|b s]]; simpl in *; lia.
    - assert (Ht : part x 0 = t).
      { destruct (typed_shape _ _ _ _ Hx) as (HS & _). assert (G : part (shape x) 0 <= n + k) by apply HS. rewrite (typed_part _ _ _ _ _ Hx) in G. unfold t in *. lia. }
      destruct x as [|a l]; [contradiction|]. change (a = t) in Ht. subst a. destruct (Q l Hx) as (T1 & _ & HC).
      destruct (tD_typed _ _ _ _ T1) as (T2 & S2). exists (tD k l). split; auto. split; auto.
      rewrite S2, (shape_cons t l) by (unfold t, n, k; lia). destruct (shape l); simpl; lia. }
  exact (gen_never (qq := true) (hf_sys _ _ _ _ _ R) (graded_nonneg g true _ _ _ (hf_gr _ _ _ _ _ R)) D (C _ VP)).
Qed.
