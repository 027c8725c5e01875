(** Commutation of the type A (quantum) Pieri operators: shapes [q^d S_mu] are
    read as periodic integer sequences, on which adding two strips can be
    exchanged by a toggle. *)

From Coq Require Import ZArith List Lia Bool Permutation.
From Verif Require Import Py PyFacts ModelPart Spec PartFacts PieriA QPieriA.
Import ListNotations.
Open Scope Z_scope.

(** a bijection between two duplicate-free lists *)
Lemma bij_perm {A B C} (la : list A) (lb : list B) (f : A -> B) (g : B -> A) (ea : A -> C) (eb : B -> C) :
  NoDup la -> NoDup lb ->
  (forall a, In a la -> In (f a) lb /\ g (f a) = a /\ eb (f a) = ea a) ->
  (forall b, In b lb -> In (g b) la /\ f (g b) = b) ->
  Permutation (map ea la) (map eb lb).
Proof.
  intros Na Nb Hf Hg.
  assert (Hp : Permutation (map f la) lb).
  { apply NoDup_Permutation; auto.
    - assert (Hinj : forall l, (forall a, In a l -> g (f a) = a) -> NoDup l -> NoDup (map f l)).
      { induction l as [|a l IH]; simpl; intros H N; constructor; inversion N; subst.
        - intros Hin. apply in_map_iff in Hin. destruct Hin as (b & E & Hb).
          apply H2. rewrite <- (H a), <- E, (H b); auto.
        - apply IH; auto. }
      apply Hinj; auto. intros a Ha. apply Hf; auto.
    - intros b. rewrite in_map_iff. split.
      + intros (a & <- & Ha). apply Hf; auto.
      + intros Hb. exists (g b). destruct (Hg b Hb). auto. }
  rewrite <- Hp, map_map. erewrite map_ext_in; [apply Permutation_refl|].
  intros a Ha. symmetry. apply Hf; auto.
Qed.

Lemma part_nonneg_w m k mu : 1 <= m -> 0 <= k -> wbox m k mu -> forall j, 0 <= part mu j <= k.
Proof.
  intros Hm Hk [Hd Hl] j. destruct (proj1 (decp_part k mu Hk) Hd) as (A & B & C).
  assert (Hnn : 0 <= part mu j).
  { destruct (Nat.lt_ge_cases j (length mu)); auto. unfold part. rewrite nth_overflow; auto. lia. }
  split; auto. clear Hnn. induction j as [|j IH]; auto.
  destruct (B j) as [H|H]; [lia|]. unfold part. rewrite nth_overflow; auto.
Qed.

Section Cyl.

Variables m k : Z.
Hypothesis Hm : 1 <= m.
Hypothesis Hk : 0 <= k.

Definition per (mu : list Z) (j : Z) : Z := part mu (Z.to_nat (j mod m)) - k * (j / m).
Definition win (d : Z) (mu : list Z) (j : Z) : Z := per mu (j - d) + d.

Definition il (a b : Z -> Z) : Prop := forall j, a j <= b j <= a (j - 1).
Definition perd (a : Z -> Z) : Prop := forall j, a (j + m) = a j - k.

Lemma per_perd mu : perd (per mu).
Proof.
  intros j. unfold per. replace (j + m) with (j + 1 * m) by lia.
  rewrite Z_mod_plus_full, Z_div_plus_full by lia. lia.
Qed.
Lemma win_perd d mu : perd (win d mu).
Proof. intros j. unfold win. replace (j + m - d) with (j - d + m) by lia. rewrite per_perd. lia. Qed.

Lemma per_in mu j : 0 <= j < m -> per mu j = part mu (Z.to_nat j).
Proof. intros H. unfold per. rewrite Z.mod_small, Z.div_small by auto. lia. Qed.
Lemma per_m1 mu : per mu (-1) = part mu (Z.to_nat (m - 1)) + k.
Proof.
  pose proof (per_perd mu (-1)) as H. replace (-1 + m) with (m - 1) in H by lia.
  rewrite per_in in H by lia. lia.
Qed.

(** a periodic property need only be checked on one period *)
Lemma period_ind (K : Z -> Prop) : (forall j, K (j + m) <-> K j) ->
  (forall j, 0 <= j < m -> K j) -> forall j, K j.
Proof.
  intros H1 H2 j.
  assert (Hq : forall q r, 0 <= q -> (K (r + q * m) <-> K r)).
  { intros q r Hq. revert q Hq. apply natlike_ind.
    - replace (r + 0 * m) with r by lia. tauto.
    - intros q Hq IH. rewrite <- IH. replace (r + Z.succ q * m) with (r + q * m + m) by lia. apply H1. }
  pose proof (Z_div_mod_eq_full j m) as E. pose proof (Z.mod_pos_bound j m ltac:(lia)).
  destruct (Z.le_gt_cases 0 (j / m)) as [Hj|Hj].
  - rewrite E. replace (m * (j / m) + j mod m) with (j mod m + (j / m) * m) by lia.
    apply Hq; auto.
  - apply (Hq (- (j / m)) j); [lia|]. replace (j + - (j / m) * m) with (j mod m) by lia. auto.
Qed.

Definition decr (a : Z -> Z) : Prop := forall j, a (j + 1) <= a j.

Lemma decr_le a : decr a -> forall x y, x <= y -> a y <= a x.
Proof.
  intros H x y Hxy. replace y with (x + (y - x)) by lia.
  assert (0 <= y - x) by lia. revert H0. generalize (y - x). apply natlike_ind.
  - replace (x + 0) with x by lia. lia.
  - intros z Hz IH. replace (x + Z.succ z) with (x + z + 1) by lia. pose proof (H (x + z)). lia.
Qed.

Lemma per_decr mu : wbox m k mu -> decr (per mu).
Proof.
  intros Hw. unfold decr. apply (period_ind (fun j => per mu (j + 1) <= per mu j)).
  - intros j. replace (j + m + 1) with (j + 1 + m) by lia. rewrite !per_perd. lia.
  - intros j Hj. rewrite (per_in mu j) by auto.
    pose proof (part_nonneg_w m k mu Hm Hk Hw) as Hp.
    destruct Hw as [Hd Hl]. destruct (proj1 (decp_part k mu Hk) Hd) as (A & B & C).
    destruct (Z.eq_dec (j + 1) m) as [E|E].
    + replace (j + 1) with (0 + m) by lia. rewrite per_perd, per_in by lia.
      pose proof (Hp (Z.to_nat j)). simpl Z.to_nat. lia.
    + rewrite per_in by lia. replace (Z.to_nat (j + 1)) with (S (Z.to_nat j)) by lia.
      destruct (B (Z.to_nat j)) as [|Ho]; auto. unfold zlen in Hl. lia.
Qed.

Lemma win_decr d mu : wbox m k mu -> decr (win d mu).
Proof.
  intros H j. unfold win. replace (j + 1 - d) with (j - d + 1) by lia.
  pose proof (per_decr mu H (j - d)). lia.
Qed.

Lemma il_decr a b : il a b -> decr b.
Proof. intros H j. pose proof (H j). pose proof (H (j + 1)). replace (j + 1 - 1) with j in * by lia. lia. Qed.

Lemma il_iff_period a b : perd a -> perd b ->
  (il a b <-> forall j, 0 <= j < m -> a j <= b j <= a (j - 1)).
Proof.
  intros Ha Hb. split; [intros H j _; apply H|]. intros H. unfold il.
  apply (period_ind (fun j => a j <= b j <= a (j - 1))); auto.
  intros j. replace (j + m - 1) with (j - 1 + m) by lia. rewrite !Ha, Hb. lia.
Qed.

Lemma win_shift d e mu j : win (d + e) mu j = win e mu (j - d) + d.
Proof. unfold win. replace (j - (d + e)) with (j - d - e) by lia. lia. Qed.

Lemma il_shift d e mu nu : il (per mu) (win e nu) <-> il (win d mu) (win (d + e) nu).
Proof.
  split; intros H j.
  - rewrite win_shift. specialize (H (j - d)).
    assert (E1 : win d mu j = per mu (j - d) + d) by reflexivity.
    assert (E2 : win d mu (j - 1) = per mu (j - d - 1) + d) by (unfold win; do 2 f_equal; lia). lia.
  - specialize (H (j + d)). rewrite win_shift in H. replace (j + d - d) with j in H by lia.
    assert (E1 : win d mu (j + d) = per mu j + d) by (unfold win; do 2 f_equal; lia).
    assert (E2 : win d mu (j + d - 1) = per mu (j - 1) + d) by (unfold win; do 2 f_equal; lia). lia.
Qed.

(** the exponent of q in one step is 0 or 1 *)
Lemma edge_d01 lam mu d : wbox m k lam -> wbox m k mu -> il (per lam) (win d mu) -> d = 0 \/ d = 1.
Proof.
  intros Hl Hmu H.
  pose proof (part_nonneg_w m k mu Hm Hk Hmu) as Pm. pose proof (part_nonneg_w m k lam Hm Hk Hl) as Pl.
  pose proof (decr_le _ (per_decr _ Hl)) as Dl. pose proof (decr_le _ (win_decr d _ Hmu)) as Dw.
  destruct (Z.le_gt_cases d (-1)) as [Hd|Hd].
  - pose proof (H (-1)) as H1. rewrite per_m1 in H1. pose proof (Dw d (-1) Hd) as H2.
    unfold win at 2 in H2. replace (d - d) with 0 in H2 by lia. rewrite per_in in H2 by lia.
    pose proof (Pm (Z.to_nat 0)). pose proof (Pl (Z.to_nat (m - 1))). lia.
  - destruct (Z.le_gt_cases 2 d) as [Hd'|Hd']; [|lia].
    pose proof (H (d - 1)) as H1. unfold win in H1. replace (d - 1 - d) with (-1) in H1 by lia.
    rewrite per_m1 in H1. pose proof (Dl 0 (d - 1 - 1) ltac:(lia)) as H2. rewrite (per_in lam 0) in H2 by lia.
    pose proof (Pm (Z.to_nat (m - 1))). pose proof (Pl (Z.to_nat 0)). lia.
Qed.

(** sums over one period *)
Definition wsum (a : Z -> Z) : Z := zsum (map a (zrange 0 m)).

Lemma wsum_ext a b : (forall j, a j = b j) -> wsum a = wsum b.
Proof. intros H. unfold wsum. f_equal. apply map_ext. auto. Qed.
Lemma zsum_map_add {A} (f g : A -> Z) l : zsum (map (fun x => f x + g x) l) = zsum (map f l) + zsum (map g l).
Proof. induction l; simpl; lia. Qed.
Lemma wsum_add a b : wsum (fun j => a j + b j) = wsum a + wsum b.
Proof. apply zsum_map_add. Qed.
Lemma wsum_opp a : wsum (fun j => - a j) = - wsum a.
Proof. unfold wsum. induction (zrange 0 m); simpl; lia. Qed.
Lemma wsum_const c : wsum (fun _ => c) = c * m.
Proof.
  unfold wsum. assert (E : zlen (zrange 0 m) = m) by (rewrite zlen_zrange; lia).
  rewrite <- E at 2. generalize (zrange 0 m). induction l; [cbn; lia|]. rewrite zlen_cons. simpl. lia.
Qed.
Lemma wsum_shift a : wsum (fun j => a (j - 1)) = wsum a + a (-1) - a (m - 1).
Proof.
  unfold wsum.
  assert (E : map (fun j => a (j - 1)) (zrange 0 m) = map a (zrange (0 + -1) (m + -1))).
  { rewrite zrange_shift, map_map. apply map_ext. intros. f_equal. }
  rewrite E. rewrite zrange_cons by lia. rewrite (zrange_snoc 0 m) by lia.
  rewrite map_app, zsum_app. simpl map. simpl zsum.
  replace (0 + -1 + 1) with 0 by lia. replace (m + -1) with (m - 1) by lia. cbn. lia.
Qed.

Lemma map_part_zrange l c : Z.of_nat (length l) <= c -> 
  map (fun j => part l (Z.to_nat j)) (zrange 0 c) = l ++ repz 0 (c - zlen l).
Proof.
  revert c. induction l as [|x l IH]; intros c Hc.
  - simpl. unfold zrange, repz. rewrite map_map. change (zlen (@nil Z)) with 0.
    replace (c - 0) with c by lia. induction (Z.to_nat c) as [|n IHn]; auto.
    rewrite seq_S, map_app, IHn. simpl. rewrite repeat_cons. unfold part. rewrite nth_overflow by (simpl; lia). auto.
  - simpl length in Hc. rewrite zrange_cons by lia. cbn [map app]. f_equal.
    rewrite zlen_cons. replace (c - (zlen l + 1)) with (c - 1 - zlen l) by lia. rewrite <- IH by lia.
    replace (zrange (0 + 1) c) with (zrange (0 + 1) (c - 1 + 1)) by (f_equal; lia).
    rewrite zrange_shift, map_map. apply map_ext_in. intros j Hj. apply in_zrange in Hj.
    replace (Z.to_nat (j + 1)) with (S (Z.to_nat j)) by lia. auto.
Qed.

Lemma map_per mu : zlen mu = m -> map (per mu) (zrange 0 m) = mu.
Proof.
  intros Hl. transitivity (map (fun j => part mu (Z.to_nat j)) (zrange 0 m)).
  - apply map_ext_in. intros j Hj. apply in_zrange in Hj. apply per_in; auto.
  - rewrite map_part_zrange by (unfold zlen in Hl; lia). rewrite Hl, Z.sub_diag. apply app_nil_r.
Qed.

Lemma wsum_win d mu : zlen mu = m -> wsum (win (Z.of_nat d) mu) = zsum mu + Z.of_nat d * (m + k).
Proof.
  intros Hl. induction d as [|d IH].
  - simpl. rewrite (wsum_ext _ (per mu)).
    + unfold wsum. rewrite map_per; auto. lia.
    + intros j. unfold win. replace (j - 0) with j by lia. lia.
  - rewrite (wsum_ext _ (fun j => win (Z.of_nat d) mu (j - 1) + 1)).
    + rewrite wsum_add, wsum_shift, wsum_const, IH.
      pose proof (win_perd (Z.of_nat d) mu (-1)) as H. replace (-1 + m) with (m - 1) in H by lia. lia.
    + intros j. replace (Z.of_nat (S d)) with (1 + Z.of_nat d) by lia. apply win_shift.
Qed.

(** *** reading a shape off a sequence *)
Definition unwin (L : Z -> Z) : nat * list Z :=
  if L 0 <=? k then (0%nat, map L (zrange 0 m)) else (1%nat, map (fun j => L (j + 1) - 1) (zrange 0 m)).

Lemma unwin_ext L L' : (forall j, L j = L' j) -> unwin L = unwin L'.
Proof.
  intros H. unfold unwin. rewrite H.
  rewrite (map_ext L L' H).
  rewrite (map_ext (fun j => L (j + 1) - 1) (fun j => L' (j + 1) - 1)); auto.
  intros; rewrite H; auto.
Qed.

Lemma unwin_win d mu : wbox m k mu -> (d = 0%nat \/ d = 1%nat) -> unwin (win (Z.of_nat d) mu) = (d, mu).
Proof.
  intros Hw Hd. pose proof (part_nonneg_w m k mu Hm Hk Hw) as P. destruct Hw as [_ Hl]. unfold unwin.
  destruct Hd as [-> | ->]; simpl Z.of_nat.
  - unfold win at 1. simpl. rewrite per_in by lia. pose proof (P (Z.to_nat 0)).
    destruct (part mu (Z.to_nat 0) + 0 <=? k) eqn:E; [|lia]. f_equal.
    transitivity (map (per mu) (zrange 0 m)); [|apply map_per; auto]. apply map_ext. intros j. unfold win.
    replace (j - 0) with j by lia. lia.
  - unfold win at 1. simpl. rewrite per_m1. pose proof (P (Z.to_nat (m - 1))).
    destruct (part mu (Z.to_nat (m - 1)) + k + 1 <=? k) eqn:E; [lia|]. f_equal.
    transitivity (map (per mu) (zrange 0 m)); [|apply map_per; auto]. apply map_ext. intros j. unfold win.
    replace (j + 1 - 1) with j by lia. lia.
Qed.

Lemma map_decp a (L : Z -> Z) : decr L -> forall b prev, L a <= prev -> 0 <= L (b - 1) ->
  decp prev (map L (zrange a b)).
Proof.
  intros HL b prev Hp Hn. destruct (Z.le_gt_cases b a) as [H|H].
  - rewrite zrange_nil by auto. simpl. auto.
  - remember (Z.to_nat (b - a)) as n eqn:En. revert a prev H Hp En. induction n as [|n IH]; intros a prev H Hp En; [lia|].
    rewrite zrange_cons by auto. simpl. split.
    + pose proof (decr_le L HL a (b - 1) ltac:(lia)). lia.
    + destruct (Z.eq_dec (a + 1) b) as [->|E].
      * rewrite zrange_nil by lia. simpl. auto.
      * apply IH; try lia. apply HL.
Qed.

Lemma part_map_zrange (f : Z -> Z) j : 0 <= j < m -> part (map f (zrange 0 m)) (Z.to_nat j) = f j.
Proof.
  intros Hj. unfold part, zrange. rewrite map_map.
  rewrite nth_indep with (d' := (fun x => f (0 + Z.of_nat x)) 0%nat) by (rewrite map_length, seq_length; lia).
  rewrite (map_nth (fun x => f (0 + Z.of_nat x))), seq_nth by lia. f_equal. lia.
Qed.

Lemma unwin_ok lam L : wbox m k lam -> perd L -> il (per lam) L ->
  let '(d, mu) := unwin L in
  wbox m k mu /\ (d = 0%nat \/ d = 1%nat) /\ forall j, L j = win (Z.of_nat d) mu j.
Proof.
  intros Hl HP HI. pose proof (il_decr _ _ HI) as HD.
  pose proof (part_nonneg_w m k lam Hm Hk Hl) as Pl.
  assert (Hlen : forall f : Z -> Z, zlen (map f (zrange 0 m)) = m).
  { intros. rewrite zlen_map, zlen_zrange. lia. }
  unfold unwin. destruct (L 0 <=? k) eqn:E.
  - assert (Hw : wbox m k (map L (zrange 0 m))).
    { split; auto. apply map_decp; auto; [lia|].
      pose proof (HI (m - 1)) as H. rewrite per_in in H by lia. pose proof (Pl (Z.to_nat (m - 1))). lia. }
    split; [exact Hw|]. split; auto.
    apply (period_ind (fun j => L j = win (Z.of_nat 0) (map L (zrange 0 m)) j)).
    + intros j. rewrite HP, win_perd. lia.
    + intros j Hj. unfold win. replace (j - Z.of_nat 0) with j by lia. rewrite per_in by auto.
      rewrite part_map_zrange by auto. lia.
  - assert (Hw : wbox m k (map (fun j => L (j + 1) - 1) (zrange 0 m))).
    { split; auto. apply (map_decp 0 (fun j => L (j + 1) - 1)).
      - intros j. specialize (HD (j + 1)). lia.
      - pose proof (HI (0 + 1)) as H. replace (0 + 1 - 1) with 0 in H by lia.
        rewrite (per_in lam 0) in H by lia. pose proof (Pl (Z.to_nat 0)). lia.
      - replace (m - 1 + 1) with (0 + m) by lia. rewrite HP. lia. }
    split; [exact Hw|]. split; auto.
    assert (Hst : forall j, L (j + 1) = win (Z.of_nat 1) (map (fun j => L (j + 1) - 1) (zrange 0 m)) (j + 1)).
    { apply (period_ind (fun j => L (j + 1) = win (Z.of_nat 1) (map (fun j => L (j + 1) - 1) (zrange 0 m)) (j + 1))).
      + intros j. replace (j + m + 1) with (j + 1 + m) by lia. rewrite HP, win_perd. lia.
      + intros j Hj. unfold win. replace (j + 1 - Z.of_nat 1) with j by lia. rewrite per_in by auto.
        rewrite (part_map_zrange (fun j => L (j + 1) - 1)) by auto. lia. }
    intros j. specialize (Hst (j - 1)). replace (j - 1 + 1) with j in Hst by lia. auto.
Qed.

(** *** the toggle *)
Definition toggle (lam L N : Z -> Z) (j : Z) : Z :=
  Z.max (lam j) (N (j + 1)) + Z.min (lam (j - 1)) (N j) - L j.

Lemma toggle_ok lam L N : il lam L -> il L N ->
  il lam (toggle lam L N) /\ il (toggle lam L N) N.
Proof.
  intros H1 H2. split; intros j; unfold toggle.
  - pose proof (H1 j). pose proof (H2 j). pose proof (H2 (j + 1)).
    replace (j + 1 - 1) with j in * by lia. lia.
  - pose proof (H1 j). pose proof (H2 j). pose proof (H2 (j + 1)). 
    pose proof (H1 (j - 1)). pose proof (H2 (j - 1)).
    replace (j + 1 - 1) with j in * by lia. replace (j - 1 + 1) with j in * by lia. lia.
Qed.

Lemma toggle_perd lam L N : perd lam -> perd L -> perd N -> perd (toggle lam L N).
Proof.
  intros H1 H2 H3 j. unfold toggle. replace (j + m + 1) with (j + 1 + m) by lia.
  replace (j + m - 1) with (j - 1 + m) by lia. rewrite !H1, !H2, !H3. lia.
Qed.

Lemma toggle_inv lam L N j : toggle lam (toggle lam L N) N j = L j.
Proof. unfold toggle. lia. Qed.

Lemma toggle_sum lam L N : perd lam -> perd N -> wsum (toggle lam L N) = wsum lam + wsum N - wsum L.
Proof.
  intros H1 H3.
  assert (E1 : wsum (toggle lam L N) = wsum (fun j => Z.max (lam j) (N (j + 1))) +
     wsum (fun j => Z.min (lam (j - 1)) (N j)) - wsum L).
  { rewrite <- Z.add_opp_r, <- wsum_opp, <- !wsum_add. apply wsum_ext. intros j. unfold toggle. lia. }
  set (b := fun j => Z.min (lam j) (N (j + 1))).
  assert (E2 : wsum (fun j => Z.min (lam (j - 1)) (N j)) = wsum b + b (-1) - b (m - 1)).
  { rewrite <- wsum_shift. apply wsum_ext. intros j. unfold b. replace (j - 1 + 1) with j by lia. auto. }
  assert (E3 : b (m - 1) = b (-1) - k).
  { unfold b. replace (m - 1) with (-1 + m) by lia. replace (-1 + m + 1) with (-1 + 1 + m) by lia.
    rewrite H1, H3. lia. }
  assert (E4 : wsum (fun j => Z.max (lam j) (N (j + 1))) + wsum b = wsum lam + wsum (fun j => N (j + 1))).
  { rewrite <- !wsum_add. apply wsum_ext. intros j. unfold b. lia. }
  assert (E5 : wsum N = wsum (fun j => N (j + 1)) + k).
  { rewrite (wsum_ext N (fun j => (fun x => N (x + 1)) (j - 1))).
    - rewrite (wsum_shift (fun x => N (x + 1))). replace (-1 + 1) with 0 by lia.
      replace (m - 1 + 1) with (0 + m) by lia. rewrite H3. lia.
    - intros j. simpl. f_equal. lia. }
  lia.
Qed.

(** *** edges and paths *)

(** [q^d S_mu] occurs in [S_i * S_lam] *)
Definition edge (lam : list Z) (i : Z) (x : nat * list Z) : Prop :=
  wbox m k (snd x) /\ il (per lam) (win (Z.of_nat (fst x)) (snd x)) /\
  zsum (snd x) + Z.of_nat (fst x) * (m + k) = zsum lam + i.

Definition flip (lam : list Z) (p : (nat * list Z) * (nat * list Z)) : (nat * list Z) * (nat * list Z) :=
  let '((d, mu), (d', nu)) := p in
  let L := win (Z.of_nat d) mu in
  let N := win (Z.of_nat (d + d')) nu in
  let x := unwin (toggle (per lam) L N) in
  (x, ((d + d' - fst x)%nat, nu)).

Definition pend (p : (nat * list Z) * (nat * list Z)) : nat * list Z :=
  ((fst (fst p) + fst (snd p))%nat, snd (snd p)).

Lemma flip_ok lam i j p : wbox m k lam -> edge lam i (fst p) -> edge (snd (fst p)) j (snd p) ->
  edge lam j (fst (flip lam p)) /\ edge (snd (fst (flip lam p))) i (snd (flip lam p)) /\
  flip lam (flip lam p) = p /\ pend (flip lam p) = pend p.
Proof.
  destruct p as [[d mu] [d' nu]]. intros Hl (Wm & Im & Sm) (Wn & In_ & Sn). simpl in *.
  set (L := win (Z.of_nat d) mu) in *. set (N := win (Z.of_nat (d + d')) nu).
  assert (ILN : il L N).
  { unfold L, N. rewrite Nat2Z.inj_add. apply il_shift. auto. }
  destruct (toggle_ok (per lam) L N Im ILN) as [T1 T2].
  assert (PT : perd (toggle (per lam) L N)).
  { apply toggle_perd; [apply per_perd | apply win_perd | apply win_perd]. }
  pose proof (unwin_ok lam _ Hl PT T1) as HU.
  destruct (unwin (toggle (per lam) L N)) as [d1 mu1] eqn:EU. destruct HU as (W1 & D1 & E1).
  simpl fst. simpl snd.
  assert (I1 : il (win (Z.of_nat d1) mu1) N).
  { intros x. rewrite <- !E1. apply T2. }
  assert (I2 : il (per mu1) (win (Z.of_nat (d + d') - Z.of_nat d1) nu)).
  { apply (il_shift (Z.of_nat d1)).
    replace (Z.of_nat d1 + (Z.of_nat (d + d') - Z.of_nat d1)) with (Z.of_nat (d + d')) by lia. auto. }
  pose proof (edge_d01 _ _ _ W1 Wn I2) as D2.
  assert (Ed : (d1 <= d + d')%nat) by lia.
  assert (S1 : zsum mu1 + Z.of_nat d1 * (m + k) = zsum lam + j).
  { rewrite <- wsum_win by apply W1. rewrite <- (wsum_ext _ _ E1).
    rewrite toggle_sum; [|apply per_perd | apply win_perd].
    unfold L, N. rewrite !wsum_win by (apply Wm || apply Wn).
    unfold wsum. rewrite map_per by apply Hl. lia. }
  split; [|split; [|split]].
  - split; [auto|]. split; auto. simpl. intros x. rewrite <- E1. apply T1.
  - split; [auto|]. cbn [fst snd]. rewrite Nat2Z.inj_sub by auto. split; [auto|]. lia.
  - unfold flip. cbn [fst snd].
    replace (d1 + (d + d' - d1))%nat with (d + d')%nat by lia. fold N.
    assert (EU2 : unwin (toggle (per lam) (win (Z.of_nat d1) mu1) N) = (d, mu)).
    { rewrite (unwin_ext _ L).
      - apply unwin_win; auto. pose proof (edge_d01 _ _ _ Hl Wm Im). lia.
      - intros x. rewrite <- (toggle_inv (per lam) L N x). unfold toggle at 1 2. rewrite <- E1. reflexivity. }
    rewrite EU2. cbn [fst snd]. repeat f_equal. lia.
  - unfold pend. simpl. f_equal. lia.
Qed.

(** *** the lists of edges *)
Variable qq : bool.

Variable E : Z -> list Z -> list (nat * list Z).
Variable I : Z -> Prop.
Hypothesis E_nodup : forall i lam, I i -> wbox m k lam -> NoDup (E i lam).
Hypothesis E_in : forall i lam x, I i -> wbox m k lam ->
  (In x (E i lam) <-> edge lam i x /\ (qq = true \/ fst x = 0%nat)).

Definition paths (i j : Z) (lam : list Z) : list ((nat * list Z) * (nat * list Z)) :=
  flat_map (fun x => map (fun y => (x, y)) (E j (snd x))) (E i lam).

Lemma paths_in i j lam p : In p (paths i j lam) <-> In (fst p) (E i lam) /\ In (snd p) (E j (snd (fst p))).
Proof.
  unfold paths. rewrite in_flat_map. split.
  - intros (x & Hx & Hp). apply in_map_iff in Hp. destruct Hp as (y & <- & Hy). simpl. auto.
  - destruct p as [x y]. simpl. intros [H1 H2]. exists x. split; auto. apply in_map; auto.
Qed.

Lemma nodup_flat {A B} (f : A -> list B) l : NoDup l -> (forall x, In x l -> NoDup (f x)) ->
  NoDup (flat_map (fun x => map (fun y => (x, y)) (f x)) l).
Proof.
  induction 1 as [|x l Hx Hl IH]; simpl; intros H; [constructor|].
  apply nodup_app.
  - apply FinFun.Injective_map_NoDup; [|apply H; auto]. intros a b Ep. inversion Ep; auto.
  - apply IH. auto.
  - intros [a b] H1 H2. apply in_map_iff in H1. destruct H1 as (y & Ey & _). inversion Ey; subst.
    apply in_flat_map in H2. destruct H2 as (x' & Hx' & H2). apply in_map_iff in H2.
    destruct H2 as (y' & Ey' & _). inversion Ey'; subst. auto.
Qed.

Lemma paths_nodup i j lam : I i -> I j -> wbox m k lam -> NoDup (paths i j lam).
Proof.
  intros Hi Hj Hl. apply nodup_flat; auto. intros x Hx. apply E_nodup; auto.
  apply E_in in Hx; auto. apply Hx.
Qed.

Theorem paths_comm i j lam : I i -> I j -> wbox m k lam ->
  Permutation (map pend (paths i j lam)) (map pend (paths j i lam)).
Proof.
  intros Hi Hj Hl.
  assert (K : forall i j, I i -> I j -> forall p, In p (paths i j lam) ->
     In (flip lam p) (paths j i lam) /\ flip lam (flip lam p) = p /\ pend (flip lam p) = pend p).
  { intros i' j' Hi' Hj' p Hp. apply paths_in in Hp. destruct Hp as [H1 H2].
    apply E_in in H1; auto. destruct H1 as [H1 Q1]. assert (Hmu := proj1 H1).
    apply E_in in H2; auto. destruct H2 as [H2 Q2].
    destruct (flip_ok lam i' j' p Hl H1 H2) as (F1 & F2 & F3 & F4).
    split; auto. apply paths_in.
    assert (Z1 : qq = true \/ (fst (fst (flip lam p)) = 0%nat /\ fst (snd (flip lam p)) = 0%nat)).
    { destruct Q1 as [|Q1]; auto. destruct Q2 as [|Q2]; auto. right.
      assert (fst (pend p) = 0%nat) by (unfold pend; simpl; lia).
      rewrite <- F4 in H. unfold pend in H. simpl in H. lia. }
    rewrite !E_in; auto; [|apply F1]. intuition. }
  apply (bij_perm _ _ (flip lam) (flip lam)).
  - apply paths_nodup; auto.
  - apply paths_nodup; auto.
  - intros p Hp. apply (K i j); auto.
  - intros p Hp. destruct (K j i Hj Hi p Hp) as (? & ? & ?). auto.
Qed.

End Cyl.
