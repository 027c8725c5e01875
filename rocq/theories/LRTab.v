(** Littlewood-Richardson tableaux and lists of 0/1-vectors: a tableau is
    determined by its columns. *)

From Coq Require Import ZArith List Lia Bool Permutation QArith Qcanon.
From Verif Require Import Py OrderFacts PyFacts ModelPoly ModelGr Spec SpecMisc PartFacts RingA RimFacts ConjFacts QPieriA Schub LRCore LRSum LRMult.
Import ListNotations.
Open Scope Z_scope.

(** ** columns as 0/1-vectors *)
Fixpoint sinc (lo : Z) (l : list Z) : Prop :=
  match l with
  | [] => True
  | x :: t => lo <= x /\ sinc (x + 1) t
  end.
Lemma sinc_le lo lo' l : lo' <= lo -> sinc lo l -> sinc lo' l.
Proof. destruct l; simpl; intuition lia. Qed.
Lemma sinc_ge lo l x : sinc lo l -> In x l -> lo <= x.
Proof. revert lo. induction l as [|y l IH]; intros lo H Hx; [contradiction|]. destruct H as [H1 H2]. destruct Hx as [->|Hx]; auto. specialize (IH _ H2 Hx). lia. Qed.
Definition cnt (v : Z) (l : list Z) : Z := Z.of_nat (count_occ Z.eq_dec l v).
Lemma cnt_cons v x l : cnt v (x :: l) = (if Z.eq_dec x v then 1 else 0) + cnt v l.
Proof. unfold cnt. cbn [count_occ]. destruct (Z.eq_dec x v); lia. Qed.
Lemma cnt_lt lo l v : sinc lo l -> v < lo -> cnt v l = 0.
Proof.
  intros H Hv. unfold cnt. rewrite (proj1 (count_occ_not_In Z.eq_dec l v)); auto. intros Hi. apply (sinc_ge lo) in Hi; auto. lia.
Qed.
(** the 0/1-vector of a column with entries in [v, v + n) *)
Fixpoint vec (v : Z) (n : nat) (l : list Z) : list Z :=
  match n with O => [] | S n => cnt v l :: vec (v + 1) n l end.
Lemma vec_map v n l : vec v n l = map (fun u => cnt u l) (zrange v (v + Z.of_nat n)).
Proof.
  revert v. induction n as [|n IH]; intros v; cbn [vec].
  - rewrite zrange_nil by lia. reflexivity.
  - rewrite (zrange_cons v) by lia. cbn [map]. rewrite IH. do 3 f_equal. lia.
Qed.
Lemma vec_len v n l : length (vec v n l) = n.
Proof. revert v. induction n; simpl; auto. Qed.
Lemma vec_app v n a b : vec v n (a ++ b) = vadd (vec v n a) (vec v n b).
Proof. revert v. induction n as [|n IH]; intros v; cbn [vec vadd]; auto. rewrite IH. f_equal. unfold cnt. rewrite count_occ_app. lia. Qed.
Lemma vec_perm v n a b : Permutation a b -> vec v n a = vec v n b.
Proof. intros H. revert v. induction n as [|n IH]; intros v; cbn [vec]; auto. rewrite IH. f_equal. unfold cnt. f_equal. apply Permutation_count_occ; auto. Qed.
Lemma vec_nil v n : vec v n [] = repeat 0 n.
Proof. revert v. induction n as [|n IH]; intros v; cbn [vec repeat]; auto. rewrite IH. reflexivity. Qed.
Lemma vec_skip v n x l : x < v -> vec v n (x :: l) = vec v n l.
Proof.
  intros H. revert v H. induction n as [|n IH]; intros v H; cbn [vec]; auto. rewrite cnt_cons. destruct (Z.eq_dec x v); [lia|].
  rewrite IH by lia. reflexivity.
Qed.

Lemma vec_head v l : sinc v l -> (l = [] \/ (exists t, l = v :: t /\ sinc (v + 1) t) \/ sinc (v + 1) l).
Proof. destruct l as [|x t]; auto. intros [H1 H2]. destruct (Z.eq_dec x v) as [->|N]; [right; left; eauto|]. right; right. split; [lia|auto]. Qed.
Lemma vec_split v n l : sinc v l -> (sinc (v + 1) l /\ vec v (S n) l = 0 :: vec (v + 1) n l) \/
  (exists t, l = v :: t /\ sinc (v + 1) t /\ vec v (S n) l = 1 :: vec (v + 1) n t).
Proof.
  intros H. destruct (vec_head v l H) as [->|[(t & -> & Ht)|Ht]].
  - left. split; auto.
  - right. exists t. repeat split; auto. cbn [vec]. rewrite cnt_cons, (cnt_lt (v + 1)) by (auto; lia). destruct (Z.eq_dec v v); [|congruence].
    f_equal. apply vec_skip. lia.
  - left. split; auto. cbn [vec]. rewrite (cnt_lt (v + 1)) by (auto; lia). reflexivity.
Qed.

Definition inr (lo hi : Z) (l : list Z) : Prop := sinc lo l /\ Forall (fun x => x < hi) l.

Lemma vec_bits n : forall v l, sinc v l -> In (vec v n l) (bits n).
Proof.
  induction n as [|n IH]; intros v l H; [left; reflexivity|].
  destruct (vec_split v n l H) as [(Ht & ->)|(t & -> & Ht & ->)]; apply bits_cons; split; auto; lia.
Qed.
Lemma vec_sum n : forall v l, inr v (v + Z.of_nat n) l -> zsum (vec v n l) = Z.of_nat (length l).
Proof.
  induction n as [|n IH]; intros v l [H1 H2].
  - destruct l as [|x l]; [reflexivity|]. destruct H1 as [H1 _]. inversion H2; subst. lia.
  - destruct (vec_split v n l H1) as [(Ht & ->)|(t & -> & Ht & ->)]; change (zsum (?x :: ?y)) with (x + zsum y).
    + rewrite IH; [lia|]. split; auto. eapply Forall_impl; [|exact H2]. intros; cbv beta in *; lia.
    + inversion H2; subst. rewrite IH; [cbn [length]; lia|]. split; auto. eapply Forall_impl; [|exact H4]. intros; cbv beta in *; lia.
Qed.
(** the column of a 0/1-vector *)
Fixpoint ents (v : Z) (c : list Z) : list Z :=
  match c with
  | [] => []
  | x :: c' => if x =? 1 then v :: ents (v + 1) c' else ents (v + 1) c'
  end.
Lemma ents_inr c : forall v, inr v (v + Z.of_nat (length c)) (ents v c).
Proof.
  induction c as [|x c IH]; intros v; cbn [ents length]; [split; simpl; auto|].
  destruct (IH (v + 1)) as [H1 H2].
  assert (H3 : Forall (fun y => y < v + Z.of_nat (S (length c))) (ents (v + 1) c)) by (eapply Forall_impl; [|exact H2]; intros; cbv beta in *; lia).
  destruct (x =? 1).
  - split; [split; [lia|auto]|]. constructor; auto. lia.
  - split; auto. eapply sinc_le; [|exact H1]. lia.
Qed.
Lemma vec_ents n : forall v c, In c (bits n) -> vec v n (ents v c) = c.
Proof.
  induction n as [|n IH]; intros v c Hc.
  - apply bits_len in Hc. destruct c; [reflexivity|discriminate].
  - destruct c as [|x c]; [apply bits_len in Hc; discriminate|]. apply bits_cons in Hc. destruct Hc as [Hx Hc].
    destruct (vec_split v n (ents v (x :: c)) (proj1 (ents_inr (x :: c) v))) as [(Ht & E)|(t & Et & Ht & E)]; rewrite E; cbn [ents] in *;
      destruct (Z.eqb_spec x 1).
    + destruct Ht as [Ht _]. lia.
    + rewrite IH by auto. f_equal. lia.
    + injection Et as <-. rewrite IH by auto. f_equal. lia.
    + exfalso. pose proof (proj1 (ents_inr c (v + 1))) as HH. rewrite Et in HH. destruct HH; lia.
Qed.
Lemma ents_vec n : forall v l, inr v (v + Z.of_nat n) l -> ents v (vec v n l) = l.
Proof.
  induction n as [|n IH]; intros v l [H1 H2].
  - destruct l as [|x l]; [reflexivity|]. destruct H1 as [H1 _]. inversion H2; subst. lia.
  - destruct (vec_split v n l H1) as [(Ht & ->)|(t & -> & Ht & ->)]; cbn [ents Z.eqb Pos.eqb].
    + apply IH. split; auto. eapply Forall_impl; [|exact H2]. intros; cbv beta in *; lia.
    + inversion H2; subst. f_equal. apply IH. split; auto. eapply Forall_impl; [|exact H4]. intros; cbv beta in *; lia.
Qed.

(** the column [a] may stand left of [b] *)
Definition beside (e : nat) (a b : list Z) : Prop :=
  forall t, (e <= t < length b)%nat -> (t - e < length a)%nat /\ nth (t - e) a 0 <= nth t b 0.
Lemma domb_beside n : forall v e a b, inr v (v + Z.of_nat n) a -> inr v (v + Z.of_nat n) b ->
  (domb (Z.of_nat e) (vec v n a) (vec v n b) = true <-> beside e a b).
Proof.
  induction n as [|n IH]; intros v e a b [Ha1 Ha2] [Hb1 Hb2].
  - cbn [vec domb]. destruct b as [|x b]; [|destruct Hb1 as [Hb1 _]; inversion Hb2; subst; lia].
    split; auto. intros _ t Ht. simpl in Ht. lia.
  - assert (MON : forall l, Forall (fun x => x < v + Z.of_nat (S n)) l -> Forall (fun x => x < v + 1 + Z.of_nat n) l).
    { intros l. apply Forall_impl. intros; lia. }
    destruct (vec_split v n a Ha1) as [(Ht & ->)|(a' & -> & Ht & ->)]; destruct (vec_split v n b Hb1) as [(Hs & ->)|(b' & -> & Hs & ->)]; cbn [domb]; rewrite andb_true_iff, Z.leb_le.
    + replace (Z.of_nat e + 0 - 0) with (Z.of_nat e) by lia. rewrite (IH (v + 1) e a b) by (split; auto). split; [tauto|]. intros H; split; [lia|auto].
    + inversion Hb2; subst. destruct e as [|e].
      * split; [intros [H _]; simpl in H; lia|]. intros HB. exfalso. destruct (HB O ltac:(simpl; lia)) as [H3 H4]. simpl in *.
        destruct a as [|x a]; [simpl in H3; lia|]. destruct Ht as [Ht _]. simpl in H4. lia.
      * replace (Z.of_nat (S e) + 0 - 1) with (Z.of_nat e) by lia. rewrite (IH (v + 1) e a b') by (split; auto).
        split.
        -- intros [_ HB] t Ht'. cbn [length] in Ht'. destruct t as [|t]; [lia|]. cbn [nth]. apply (HB t). lia.
        -- intros HB. split; [lia|]. intros t Ht'. apply (HB (S t)). simpl. lia.
    + inversion Ha2; subst. replace (Z.of_nat e + 1 - 0) with (Z.of_nat (S e)) by lia. rewrite (IH (v + 1) (S e) a' b) by (split; auto).
      split.
      * intros [_ HB] t Ht'. destruct (Nat.eq_dec t e) as [->|N].
        -- rewrite Nat.sub_diag. cbn [length nth]. split; [lia|]. assert (In (nth e b 0) b) by (apply nth_In; lia). apply (sinc_ge (v + 1)) in H; auto. lia.
        -- destruct (HB t ltac:(lia)) as [H3 H4]. replace (t - e)%nat with (S (t - S e)) by lia. cbn [length nth]. split; [lia|auto].
      * intros HB. split; [lia|]. intros t Ht'. destruct (HB t ltac:(lia)) as [H3 H4]. replace (t - e)%nat with (S (t - S e)) in * by lia. cbn [length nth] in *. split; [lia|auto].
    + inversion Ha2; subst. inversion Hb2; subst. replace (Z.of_nat e + 1 - 1) with (Z.of_nat e) by lia. rewrite (IH (v + 1) e a' b') by (split; auto).
      split.
      * intros [_ HB] t Ht'. cbn [length] in Ht'. destruct (Nat.eq_dec t e) as [->|N].
        -- rewrite Nat.sub_diag. cbn [length]. split; [lia|]. destruct e as [|e]; cbn [nth]; [lia|].
           assert (In (nth e b' 0) b') by (apply nth_In; lia). apply (sinc_ge (v + 1)) in H; auto. lia.
        -- destruct t as [|t]; [lia|]. destruct (HB t ltac:(lia)) as [H5 H6]. replace (S t - e)%nat with (S (t - e)) by lia. cbn [length nth]. split; [lia|auto].
      * intros HB. split; [lia|]. intros t Ht'. destruct (HB (S t) ltac:(simpl; lia)) as [H5 H6]. replace (S t - e)%nat with (S (t - e)) in * by lia. cbn [length nth] in *. split; [lia|auto].
Qed.

(** ** rows and columns *)
Definition column (T : list (list Z)) (c : nat) : list Z := map (fun row => nth c row 0) (filter (fun row => (c <? length row)%nat) T).
Definition transp (n : nat) (T : list (list Z)) : list (list Z) := map (column T) (seq 0 n).
Definition ragged (T : list (list Z)) : Prop := forall i, (length (nth (S i) T []) <= length (nth i T []))%nat.

Lemma ragged_tl r T : ragged (r :: T) -> ragged T /\ forall i, (length (nth i T []) <= length r)%nat.
Proof.
  intros H. split; [intros i; exact (H (S i))|]. intros i. induction i as [|i IH]; [exact (H O)|]. pose proof (H (S i)) as H1. cbn [nth] in *. lia.
Qed.
Lemma column_nil T c : (forall i, (length (nth i T []) <= c)%nat) -> column T c = [].
Proof.
  unfold column. induction T as [|r T IH]; intros H; auto. cbn [filter]. pose proof (H O) as H0. cbn [nth] in H0.
  destruct (Nat.ltb_spec c (length r)); [lia|]. apply IH. intros i. exact (H (S i)).
Qed.
Lemma column_nth T c : ragged T -> forall i, ((i < length (column T c))%nat <-> (c < length (nth i T []))%nat) /\
  ((c < length (nth i T []))%nat -> nth i (column T c) 0 = entry T i c).
Proof.
  induction T as [|r T IH]; intros HR i.
  - unfold column. cbn [filter map length]. destruct i; simpl; split; try lia; split; lia.
  - destruct (ragged_tl r T HR) as [HR' HL]. destruct (Nat.lt_ge_cases c (length r)) as [H|H].
    + assert (E : column (r :: T) c = nth c r 0 :: column T c).
      { unfold column. cbn [filter]. destruct (Nat.ltb_spec c (length r)); [reflexivity|lia]. }
      rewrite E. destruct i as [|i]; cbn [length nth]; [split; [lia|reflexivity]|]. destruct (IH HR' i) as [I1 I2]. split; [lia|exact I2].
    + rewrite column_nil.
      * split; [|intros Hc; exfalso]; destruct i as [|i]; cbn [nth length] in *; try lia; specialize (HL i); lia.
      * intros [|j]; cbn [nth]; auto. specialize (HL j). lia.
Qed.
Lemma ragged_transp n T : ragged T -> ragged (transp n T).
Proof.
  intros HR c. unfold transp. destruct (Nat.lt_ge_cases (S c) n) as [H|H].
  - assert (EN : forall c, (c < n)%nat -> nth c (map (column T) (seq 0 n)) [] = column T c).
    { intros x Hx. rewrite (nth_indep _ [] (column T 0)) by (rewrite map_length, seq_length; auto). rewrite map_nth, seq_nth by auto. reflexivity. }
    rewrite !EN by lia. destruct (Nat.lt_ge_cases (length (column T c)) (length (column T (S c)))) as [HH|]; auto. exfalso.
    destruct (column_nth T (S c) HR (length (column T c))) as [E1 _]. destruct (column_nth T c HR (length (column T c))) as [E2 _]. lia.
  - rewrite nth_overflow by (rewrite map_length, seq_length; auto). simpl. lia.
Qed.
Lemma nth_transp n T c : (c < n)%nat -> nth c (transp n T) [] = column T c.
Proof. intros H. unfold transp. rewrite (nth_indep _ [] (column T 0)) by (rewrite map_length, seq_length; auto). rewrite map_nth, seq_nth by auto. reflexivity. Qed.
Lemma transp_len n T : length (transp n T) = n.
Proof. unfold transp. rewrite map_length, seq_length. auto. Qed.
Lemma transp_invol n w T : ragged T -> length T = n -> (forall i, (length (nth i T []) <= w)%nat) -> transp n (transp w T) = T.
Proof.
  intros HR Hn Hw. apply nth_ext with (d := []) (d' := []); [rewrite transp_len; auto|].
  intros i Hi. rewrite transp_len in Hi. rewrite nth_transp by auto.
  pose proof (ragged_transp w T HR) as HR'.
  assert (HL : forall c, (c < length (column (transp w T) i))%nat <-> (c < length (nth i T []))%nat).
  { intros c. destruct (column_nth (transp w T) i HR' c) as [E1 _]. rewrite E1.
    destruct (Nat.lt_ge_cases c w) as [H|H].
    - rewrite nth_transp by auto. apply column_nth; auto.
    - rewrite nth_overflow by (rewrite transp_len; auto). simpl. specialize (Hw i). lia. }
  assert (EL : length (column (transp w T) i) = length (nth i T [])).
  { destruct (Nat.lt_trichotomy (length (column (transp w T) i)) (length (nth i T []))) as [H|[H|H]]; auto; exfalso.
    - apply HL in H. lia.
    - apply HL in H. lia. }
  apply nth_ext with (d := 0) (d' := 0); auto. intros c Hc.
  destruct (column_nth (transp w T) i HR' c) as [E1 E2]. rewrite E2 by (apply E1; auto).
  assert (Hcw : (c < w)%nat) by (specialize (Hw i); lia).
  unfold entry at 1. rewrite nth_transp by auto. rewrite EL in Hc. apply column_nth; auto.
Qed.

(** the contents of the columns *)
Lemma concat_column T c : Permutation (concat (columns_from c T)) (column T c ++ concat (columns_from (S c) T)).
Proof.
  unfold columns_from, column. induction T as [|r T IH]; [reflexivity|]. cbn [map concat filter].
  destruct (Nat.ltb_spec c (length r)) as [H|H].
  - cbn [map app]. assert (E : skipn c r = nth c r 0 :: skipn (S c) r).
    { clear -H. revert c H. induction r as [|x r IH]; intros c H; [simpl in H; lia|]. destruct c as [|c]; [reflexivity|].
      cbn [skipn nth length] in *. rewrite IH by lia. reflexivity. }
    rewrite E. cbn [app]. constructor. rewrite IH. rewrite !app_assoc. apply Permutation_app_tail. apply Permutation_app_comm.
  - rewrite !skipn_all2 by lia. cbn [app]. exact IH.
Qed.
Lemma content_vec m T : 0 <= m -> content m T = vec 1 (Z.to_nat m) (concat T).
Proof. intros Hm. rewrite vec_map. unfold content. replace (m + 1) with (1 + Z.of_nat (Z.to_nat m)) by lia. reflexivity. Qed.

Lemma lt_iff_eq a b : (forall t, (t < a)%nat <-> (t < b)%nat) -> a = b.
Proof. intros H. destruct (Nat.lt_trichotomy a b) as [L|[L|L]]; auto; apply H in L; lia. Qed.
Lemma sinc_nth l : forall lo, (forall i, (i < length l)%nat -> lo <= nth i l 0) ->
  (forall i, (S i < length l)%nat -> nth i l 0 < nth (S i) l 0) -> sinc lo l.
Proof.
  induction l as [|x l IH]; intros lo H1 H2; [exact I|]. split; [apply (H1 O); simpl; lia|].
  assert (H2' : forall i, (S i < length l)%nat -> nth i l 0 < nth (S i) l 0) by (intros i Hi; apply (H2 (S i)); simpl; lia).
  apply IH; auto. intros i. induction i as [|i IHi]; intros Hi.
  - specialize (H2 O ltac:(simpl; lia)). cbn [nth] in H2. lia.
  - specialize (H2' i Hi). specialize (IHi ltac:(lia)). lia.
Qed.
Lemma sinc_nth' l : forall lo, sinc lo l -> forall i, (S i < length l)%nat -> nth i l 0 < nth (S i) l 0.
Proof.
  induction l as [|x l IH]; intros lo H i Hi; [simpl in Hi; lia|]. destruct H as [H1 H2]. destruct i as [|i].
  - destruct l as [|y l]; [simpl in Hi; lia|]. destruct H2 as [H2 _]. cbn [nth]. lia.
  - apply (IH (x + 1) H2 i). simpl in Hi. lia.
Qed.
Lemma sdec_rho_iff n : forall y, length y = n -> (sdecb (vadd (rho n) y) = true <-> forall r, (S r < n)%nat -> nth (S r) y 0 <= nth r y 0).
Proof.
  induction n as [|n IH]; intros y Hy; destruct y as [|a y]; try discriminate; [simpl; intuition lia|].
  destruct n as [|n]; destruct y as [|b y]; try discriminate; [simpl; intuition lia|].
  change (vadd (rho (S (S n))) (a :: b :: y)) with (Z.of_nat (S n) + a :: Z.of_nat n + b :: vadd (rho n) y).
  rewrite sdecb_cons, andb_true_iff, Z.ltb_lt. change (Z.of_nat n + b :: vadd (rho n) y) with (vadd (rho (S n)) (b :: y)). rewrite IH by auto.
  split.
  - intros [H1 H2] r Hr. destruct r as [|r]; [cbn [nth]; lia|]. apply (H2 r). lia.
  - intros H. split; [specialize (H O ltac:(lia)); cbn [nth] in H; lia|]. intros r Hr. apply (H (S r)). lia.
Qed.
Lemma chains_in n s L d g C : In C (chains n (s :: L) d g) <->
  exists c C', C = c :: C' /\ In c (bits n) /\ zsum c = s /\ domb 0 c d = true /\ sdecb (vadd g c) = true /\ In C' (chains n L c (vadd g c)).
Proof.
  cbn [chains]. rewrite in_flat_map. split.
  - intros (c & Hc & H). destruct (Z.eqb_spec (zsum c) s); [|contradiction]. destruct (domb 0 c d) eqn:E1; [|contradiction].
    destruct (sdecb (vadd g c)) eqn:E2; [|contradiction]. cbn [andb] in H. apply in_map_iff in H. destruct H as (C' & <- & H). exists c, C'. auto 10.
  - intros (c & C' & -> & Hc & Hz & Hd & Hs & H). exists c. split; auto. rewrite (proj2 (Z.eqb_eq _ _) Hz), Hd, Hs. cbn [andb]. apply in_map; auto.
Qed.
Lemma chains_nodup n L : forall d g, NoDup (chains n L d g).
Proof.
  induction L as [|s L IH]; intros d g; cbn [chains]; [repeat constructor; auto|].
  pose proof (alll_nodup n 1) as Hn. unfold bits. induction Hn as [|y r Hy Hr IHr]; cbn [flat_map]; [constructor|].
  apply nodup_app; auto.
  - destruct (_ && _); [|constructor]. apply FinFun.Injective_map_NoDup; auto. intros a b E. inversion E; auto.
  - intros a H1 H2. destruct (_ && _); [|contradiction]. apply in_map_iff in H1. destruct H1 as (t & <- & _).
    apply in_flat_map in H2. destruct H2 as (z & Hz & H2). destruct (_ && _); [|contradiction].
    apply in_map_iff in H2. destruct H2 as (t' & E & _). inversion E; subst; auto.
Qed.

Section Bij.
Variables m k : Z.
Variable lam : list Z.
Hypothesis Hm : 0 <= m.
Hypothesis Hlam : in_box m k lam.
Notation Mn := (Z.to_nat m).
Let w := Z.to_nat (part lam 0).
Let n := length lam.

Definition precol (T : list (list Z)) : Prop :=
  length T = n /\ (forall i, (i < n)%nat -> Z.of_nat (length (nth i T [])) = part lam i) /\
  forall c, inr 1 (1 + Z.of_nat Mn) (column T c).

Lemma lam_part i : 0 <= part lam i <= part lam 0 /\ part lam (S i) <= part lam i.
Proof.
  destruct Hlam as (Hp & _). pose proof (is_partition_nonneg lam i Hp). repeat split; auto.
  - apply (decp_part_le (part lam 0)); [apply is_partition_nonneg; auto|apply part_decp; auto].
  - apply Hp.
Qed.
Lemma row_len T : precol T -> forall i, Z.of_nat (length (nth i T [])) = part lam i.
Proof.
  intros (H1 & H2 & _) i. destruct (Nat.lt_ge_cases i n) as [H|H]; auto.
  rewrite nth_overflow by lia. unfold part. rewrite nth_overflow by auto. reflexivity.
Qed.
Lemma pre_ragged T : precol T -> ragged T.
Proof. intros H i. pose proof (row_len T H i). pose proof (row_len T H (S i)). pose proof (lam_part i). lia. Qed.
Lemma pre_w T : precol T -> forall i, (length (nth i T []) <= w)%nat.
Proof. intros H i. pose proof (row_len T H i). pose proof (lam_part i). unfold w. lia. Qed.
Lemma col_len T c : precol T -> length (column T c) = colsz lam (Z.of_nat c).
Proof.
  intros H. apply lt_iff_eq. intros t. rewrite (proj1 (column_nth T c (pre_ragged T H) t)).
  rewrite (colsz_iff lam k (Z.of_nat c) t) by (try lia; apply in_box_decp with (m := m); auto). rewrite <- (row_len T H t). lia.
Qed.

Definition enc (T : list (list Z)) : list (list Z) := map (fun c => vec 1 Mn (column T c)) (rev (seq 0 w)).
Definition dec (C : list (list Z)) : list (list Z) := transp n (map (ents 1) (rev C)).
Definition szs (j : nat) : list Z := map (fun c => Z.of_nat (colsz lam (Z.of_nat c))) (rev (seq 0 j)).

Lemma zrange_seq j : zrange 0 (Z.of_nat j) = map Z.of_nat (seq 0 j).
Proof.
  induction j as [|j IH]; [reflexivity|]. rewrite (zrange_snoc 0) by lia. replace (Z.of_nat (S j) - 1) with (Z.of_nat j) by lia.
  rewrite IH, seq_S, map_app. reflexivity.
Qed.
Lemma cols_szs : map Z.of_nat (cols lam) = szs w.
Proof.
  unfold cols, szs. replace (part lam 0) with (Z.of_nat w) by (unfold w; pose proof (lam_part 0); lia).
  rewrite zrange_seq, <- map_rev, !map_map. reflexivity.
Qed.
Lemma rev_seq_S j : rev (seq 0 (S j)) = j :: rev (seq 0 j).
Proof. rewrite seq_S, rev_app_distr. reflexivity. Qed.

Section T.
Variable T : list (list Z).
Hypothesis HT : precol T.
Notation vc c := (vec 1 Mn (column T c)).
Notation cf c := (vec 1 Mn (concat (columns_from c T))).

Lemma cf_step c : cf c = vadd (vc c) (cf (S c)).
Proof. rewrite (vec_perm 1 Mn _ _ (concat_column T c)). apply vec_app. Qed.
Lemma cf_end : cf w = repeat 0 Mn.
Proof.
  assert (E : concat (columns_from w T) = []).
  { unfold columns_from. pose proof (pre_w T HT) as H. clear HT. induction T as [|r T' IH]; auto. cbn [map concat].
    rewrite skipn_all2 by exact (H O). apply IH. intros i. exact (H (S i)). }
  rewrite E. apply vec_nil.
Qed.

Lemma chain_iff g0 j : forall d,
  (In (map (fun c => vc c) (rev (seq 0 j))) (chains Mn (szs j) d (vadd g0 (cf j))) <->
   forall c, (c < j)%nat -> domb 0 (vc c) (if (S c =? j)%nat then d else vc (S c)) = true /\ sdecb (vadd g0 (cf c)) = true).
Proof.
  induction j as [|j IH]; intros d.
  - cbn. split; [intros _ c Hc; lia|auto].
  - unfold szs. rewrite !rev_seq_S. cbn [map]. fold (szs j). rewrite chains_in.
    assert (E : vadd (vadd g0 (cf (S j))) (vc j) = vadd g0 (cf j)).
    { rewrite (cf_step j), vadd_assoc. f_equal. apply vadd_comm. }
    destruct HT as (_ & _ & HC). split.
    + intros (c & C' & EC & Hb & Hz & Hd & Hs & H). injection EC as E1 E2. subst c C'. rewrite E in H, Hs. rewrite IH in H.
      intros c Hc. destruct (Nat.eq_dec c j) as [->|N]; [rewrite Nat.eqb_refl; auto|].
      destruct (H c ltac:(lia)) as [H1 H2]. destruct (Nat.eqb_spec (S c) (S j)); [lia|]. split; auto.
      destruct (Nat.eqb_spec (S c) j) as [E3|]; auto. rewrite E3. auto.
    + intros H. exists (vc j), (map (fun c => vc c) (rev (seq 0 j))). split; auto. split; [apply vec_bits; apply HC|].
      split; [rewrite vec_sum by apply HC; rewrite col_len by auto; reflexivity|].
      destruct (H j ltac:(lia)) as [H1 H2]. rewrite Nat.eqb_refl in H1. split; auto. rewrite E. split; auto. rewrite IH.
      intros c Hc. destruct (H c ltac:(lia)) as [H3 H4]. destruct (Nat.eqb_spec (S c) (S j)); [lia|]. split; auto.
      destruct (Nat.eqb_spec (S c) j) as [E3|]; auto. rewrite <- E3. auto.
Qed.
Lemma chain_end g0 j : fold_left vadd (map (fun c => vc c) (rev (seq 0 j))) (vadd g0 (cf j)) = vadd g0 (cf 0).
Proof.
  induction j as [|j IH]; [reflexivity|]. rewrite rev_seq_S. cbn [map fold_left]. rewrite <- IH. f_equal.
  rewrite (cf_step j), vadd_assoc. f_equal. apply vadd_comm.
Qed.

Lemma rows_iff : (forall i c, (S c < length (nth i T []))%nat -> entry T i c <= entry T i (S c)) <->
  (forall c, (c < w)%nat -> domb 0 (vc c) (if (S c =? w)%nat then repeat 0 Mn else vc (S c)) = true).
Proof.
  pose proof (pre_ragged T HT) as HR. pose proof (pre_w T HT) as HW. destruct HT as (_ & _ & HC). split.
  - intros H c Hc. destruct (Nat.eqb_spec (S c) w) as [E|E].
    + rewrite <- (vec_nil 1). change 0 with (Z.of_nat 0). apply domb_beside; auto; [split; simpl; auto|]. intros t Ht. simpl in Ht. lia.
    + change 0 with (Z.of_nat 0). apply domb_beside; auto. intros t Ht. rewrite Nat.sub_0_r.
      destruct (column_nth T (S c) HR t) as [E1 E2]. destruct (column_nth T c HR t) as [E3 E4].
      assert (HS : (S c < length (nth t T []))%nat) by (apply E1; lia). split; [apply E3; lia|]. rewrite E2, E4 by lia. apply H; auto.
  - intros H i c Hc. assert (Hcw : (S c < w)%nat) by (specialize (HW i); lia).
    specialize (H c ltac:(lia)). destruct (Nat.eqb_spec (S c) w); [lia|]. change 0 with (Z.of_nat 0) in H. apply domb_beside in H; auto.
    destruct (column_nth T (S c) HR i) as [E1 E2]. destruct (column_nth T c HR i) as [E3 E4].
    destruct (H i ltac:(split; [lia|apply E1; auto])) as [_ H2]. rewrite Nat.sub_0_r, E2, E4 in H2 by lia. auto.
Qed.

Lemma ssyt_iff : ssyt m lam T <-> (forall c, (c < w)%nat -> domb 0 (vc c) (if (S c =? w)%nat then repeat 0 Mn else vc (S c)) = true).
Proof.
  rewrite <- rows_iff. pose proof (pre_ragged T HT) as HR. pose proof HT as (H1 & H2 & HC). unfold ssyt. split; [tauto|]. intros H.
  split; [exact H1|]. split; [intros i Hi; apply H2; rewrite <- H1; auto|].
  split; [|split; [exact H|]].
  - intros i c Hc. destruct (column_nth T c HR i) as [E1 E2]. rewrite <- E2 by auto. destruct (HC c) as [S1 S2].
    assert (HI : In (nth i (column T c) 0) (column T c)) by (apply nth_In, E1; auto).
    pose proof (sinc_ge 1 _ _ S1 HI). rewrite Forall_forall in S2. specialize (S2 _ HI). lia.
  - intros i c Hc. destruct (column_nth T c HR i) as [E1 E2]. destruct (column_nth T c HR (S i)) as [E3 E4].
    pose proof (HR i). rewrite <- E2, <- E4 by lia. apply (sinc_nth' _ 1); [apply HC|]. apply E3; auto.
Qed.

Lemma enc_iff mu nu : in_box m k mu -> in_box m k nu -> (lr_tableau m lam mu nu T <-> In (enc T) (lr_list m lam mu nu)).
Proof.
  intros Hmu Hnu.
  assert (Lmu : length (padm m mu) = Mn) by (destruct (in_box_wbox _ _ _ Hmu) as [_ H]; unfold zlen in H; lia).
  assert (Lnu : length (padm m nu) = Mn) by (destruct (in_box_wbox _ _ _ Hnu) as [_ H]; unfold zlen in H; lia).
  set (g0 := vadd (rho Mn) (padm m mu)).
  assert (Lg : length g0 = Mn) by (unfold g0; rewrite vadd_len; rewrite rho_len; auto).
  unfold lr_list. rewrite cols_szs, filter_In. unfold enc.
  assert (EG : g0 = vadd g0 (cf w)) by (rewrite cf_end; symmetry; apply vadd_zeros; auto).
  change (vadd (rho Mn) (padm m mu)) with g0.
  pose proof (chain_iff g0 w (repeat 0 Mn)) as CI. pose proof (chain_end g0 w) as CE. rewrite <- EG in CI, CE.
  rewrite CI, CE. clear CI CE.
  assert (EC : forall c, content m (columns_from c T) = cf c) by (intros; apply content_vec; auto).
  assert (EC0 : content m T = cf 0).
  { rewrite <- EC. unfold columns_from. rewrite map_ext with (g := fun x => x) by reflexivity. rewrite map_id. reflexivity. }
  assert (HP : forall l j, length l = Mn -> (Mn <= j)%nat -> part l j = 0) by (intros l j Hl Hj; unfold part; apply nth_overflow; lia).
  assert (HC0 : forall c j, 0 <= part (cf c) j).
  { intros c j. rewrite vec_map. unfold part. destruct (Nat.lt_ge_cases j (length (map (fun u => cnt u (concat (columns_from c T))) (zrange 1 (1 + Z.of_nat Mn))))) as [H|H].
    - apply nth_In with (d := 0) in H. apply in_map_iff in H. destruct H as (u & <- & _). unfold cnt. lia.
    - rewrite nth_overflow; auto. lia. }
  assert (HS : forall c, (sdecb (vadd g0 (cf c)) = true <-> forall r, part mu (S r) + part (cf c) (S r) <= part mu r + part (cf c) r)).
  { intros c. unfold g0. rewrite vadd_assoc, sdec_rho_iff by (rewrite vadd_len; rewrite ?vec_len; auto). split.
    - intros H r. rewrite <- !(part_padm m mu). destruct (Nat.lt_ge_cases (S r) Mn) as [Hr|Hr].
      + specialize (H r Hr). rewrite !nth_vadd in H by (rewrite vec_len; auto). unfold part. lia.
      + rewrite (HP (padm m mu) (S r)), (HP (cf c) (S r)) by (rewrite ?vec_len; auto). pose proof (HC0 c r).
        rewrite part_padm. destruct Hmu as (Hmp & _). pose proof (is_partition_nonneg mu r Hmp). lia.
    - intros H r Hr. specialize (H r). rewrite <- !(part_padm m mu) in H. rewrite !nth_vadd by (rewrite vec_len; auto). unfold part in H. lia. }
  assert (HN : (if list_eq_dec Z.eq_dec (vadd g0 (cf 0)) (vadd (rho Mn) (padm m nu)) then true else false) = true <-> forall r, part nu r = part mu r + part (content m T) r).
  { rewrite EC0. destruct (list_eq_dec Z.eq_dec _ _) as [E|E].
    - split; auto. intros _ r. rewrite <- (part_padm m nu), <- (part_padm m mu).
      assert (E' : padm m nu = vadd (padm m mu) (cf 0)).
      { unfold g0 in E. rewrite vadd_assoc in E.
        assert (EV : forall a b c, length a = length b -> length a = length c -> vadd a b = vadd a c -> b = c).
        { clear. induction a as [|x a IHa]; intros [|y b] [|z c] H1 H2 H3; simpl in *; try discriminate; auto. injection H3 as H3 H4. f_equal; [lia|]. apply IHa; auto. }
        apply EV in E; auto; rewrite rho_len; auto. rewrite vadd_len; rewrite ?vec_len; auto. }
      rewrite E'. unfold part. apply nth_vadd. rewrite vec_len; auto.
    - split; [discriminate|]. intros H. exfalso. apply E. unfold g0. rewrite vadd_assoc. f_equal.
      apply nth_ext with (d := 0) (d' := 0); [rewrite vadd_len; rewrite ?vec_len; lia|]. intros r _. rewrite nth_vadd by (rewrite vec_len; auto).
      specialize (H r). rewrite <- (part_padm m nu), <- (part_padm m mu) in H. unfold part in H. lia. }
  unfold lr_tableau. rewrite ssyt_iff, HN. split.
  - intros (H1 & H2 & H3). split; auto. intros c Hc. split; auto. apply HS. intros r. rewrite <- EC. apply H2.
  - intros (H1 & H2). split; [intros c Hc; apply H1; auto|]. split; auto. intros c r. rewrite EC.
    destruct (Nat.lt_ge_cases c w) as [Hc|Hc]; [apply HS, H1; auto|].
    assert (E : concat (columns_from c T) = []).
    { unfold columns_from. pose proof (pre_w T HT) as H. clear -H Hc. induction T as [|r0 T' IH]; auto. cbn [map concat].
      rewrite skipn_all2 by (pose proof (H O) as H0; cbn [nth] in H0; lia). apply IH. intros i. exact (H (S i)). }
    rewrite E, vec_nil. unfold part at 2 4. rewrite !nth_repeat. destruct Hmu as (Hmp & _). destruct Hmp as [_ Hmp]. specialize (Hmp r). lia.
Qed.

Lemma dec_enc : dec (enc T) = T.
Proof.
  unfold dec, enc. rewrite <- map_rev, rev_involutive, map_map.
  rewrite (map_ext _ (column T)).
  - apply (transp_invol n w T); auto using pre_ragged, pre_w. apply HT.
  - intros c. apply ents_vec. apply HT.
Qed.
End T.

Lemma ssyt_pre T : ssyt m lam T -> precol T.
Proof.
  intros (H1 & H2 & H3 & H4 & H5). split; [exact H1|]. split; [intros i Hi; apply H2; rewrite H1; auto|].
  assert (HR : ragged T).
  { intros i. destruct (Nat.lt_ge_cases (S i) (length T)) as [H|H].
    - pose proof (H2 i ltac:(lia)). pose proof (H2 (S i) H). pose proof (lam_part i). lia.
    - rewrite (nth_overflow T) by auto. simpl. lia. }
  intros c. split.
  - apply sinc_nth.
    + intros i Hi. destruct (column_nth T c HR i) as [E1 E2]. rewrite E2 by (apply E1; auto). apply H3. apply E1; auto.
    + intros i Hi. destruct (column_nth T c HR i) as [E1 E2]. destruct (column_nth T c HR (S i)) as [E3 E4].
      rewrite E2, E4 by (try apply E1; try apply E3; lia). apply H5. apply E3; auto.
  - apply Forall_forall. intros x Hx. destruct (In_nth _ _ 0 Hx) as (i & Hi & <-).
    destruct (column_nth T c HR i) as [E1 E2]. rewrite E2 by (apply E1; auto). pose proof (H3 i c (proj1 E1 Hi)). lia.
Qed.

Lemma chains_sizes L : forall d g C, In C (chains Mn L d g) -> map zsum C = L /\ Forall (fun c => In c (bits Mn)) C.
Proof.
  induction L as [|s L IH]; intros d g C H.
  - destruct H as [<-|[]]. auto.
  - apply chains_in in H. destruct H as (c & C' & -> & Hb & Hz & _ & _ & H). apply IH in H. destruct H as [H1 H2]. cbn [map]. rewrite Hz, H1. auto.
Qed.

Lemma dec_pre C : map zsum C = szs w -> Forall (fun c => In c (bits Mn)) C -> precol (dec C) /\ enc (dec C) = C.
Proof.
  intros HZ HF. set (K := map (ents 1) (rev C)).
  assert (LC : length C = w).
  { apply (f_equal (@length Z)) in HZ. rewrite map_length in HZ. unfold szs in HZ. rewrite map_length, rev_length, seq_length in HZ. auto. }
  assert (LK : length K = w) by (unfold K; rewrite map_length, rev_length; auto).
  assert (HFr : Forall (fun c => In c (bits Mn)) (rev C)) by (apply Forall_forall; intros c Hc; apply in_rev in Hc; rewrite Forall_forall in HF; auto).
  assert (NK : forall c, (c < w)%nat -> length (nth c K []) = colsz lam (Z.of_nat c) /\ inr 1 (1 + Z.of_nat Mn) (nth c K [])).
  { intros c Hc. unfold K. rewrite (nth_indep _ [] (ents 1 [])) by (rewrite map_length, rev_length; lia). rewrite map_nth.
    set (x := nth c (rev C) []). assert (Hx : In x (rev C)) by (apply nth_In; rewrite rev_length; lia).
    rewrite Forall_forall in HFr. specialize (HFr x Hx).
    pose proof (ents_inr x 1) as HI. rewrite (bits_len _ _ HFr) in HI. split; auto.
    pose proof (vec_sum Mn 1 _ HI) as HS. rewrite (vec_ents Mn 1 x HFr) in HS.
    assert (E : zsum x = Z.of_nat (colsz lam (Z.of_nat c))); [|lia].
    assert (HZr : map zsum (rev C) = map (fun c => Z.of_nat (colsz lam (Z.of_nat c))) (seq 0 w)).
    { rewrite map_rev, HZ. unfold szs. rewrite <- map_rev, rev_involutive. reflexivity. }
    assert (E2 : nth c (map zsum (rev C)) 0 = nth c (map (fun c => Z.of_nat (colsz lam (Z.of_nat c))) (seq 0 w)) 0) by (rewrite HZr; auto).
    rewrite (nth_indep _ 0 (zsum [])) in E2 by (rewrite map_length, rev_length; lia). rewrite map_nth in E2.
    rewrite (nth_indep (map _ (seq 0 w)) 0 ((fun c => Z.of_nat (colsz lam (Z.of_nat c))) O)) in E2 by (rewrite map_length, seq_length; lia).
    rewrite (map_nth (fun c => Z.of_nat (colsz lam (Z.of_nat c)))), seq_nth in E2 by auto. exact E2. }
  assert (RK : ragged K).
  { intros c. destruct (Nat.lt_ge_cases (S c) w) as [H|H].
    - rewrite (proj1 (NK c ltac:(lia))), (proj1 (NK (S c) H)). apply colsz_mono. lia.
    - rewrite (nth_overflow K) by lia. simpl. lia. }
  assert (NKn : forall c, (length (nth c K []) <= n)%nat).
  { intros c. destruct (Nat.lt_ge_cases c w) as [H|H].
    - rewrite (proj1 (NK c H)). apply colsz_len.
    - rewrite (nth_overflow K) by lia. simpl. lia. }
  pose proof (transp_invol w n K RK LK NKn) as HI. change (transp n K) with (dec C) in HI.
  assert (RT : ragged (dec C)) by (apply ragged_transp; auto).
  assert (HRow : forall i, (i < n)%nat -> Z.of_nat (length (nth i (dec C) [])) = part lam i).
  { intros i Hi. unfold dec. fold K. rewrite nth_transp by auto.
    assert (E : length (column K i) = Z.to_nat (part lam i)); [|pose proof (lam_part i); lia].
    apply lt_iff_eq. intros c. rewrite (proj1 (column_nth K i RK c)). pose proof (lam_part i) as HL.
    destruct (Nat.lt_ge_cases c w) as [H|H].
    - rewrite (proj1 (NK c H)). rewrite (colsz_iff lam k (Z.of_nat c) i) by (try lia; apply in_box_decp with (m := m); auto). lia.
    - rewrite (nth_overflow K) by lia. simpl. unfold w in H. lia. }
  assert (HCol : forall c, (c < w)%nat -> column (dec C) c = nth c K []).
  { intros c Hc. rewrite <- HI. rewrite nth_transp by auto. reflexivity. }
  split.
  - split; [apply transp_len|]. split; auto. intros c. destruct (Nat.lt_ge_cases c w) as [H|H].
    + rewrite HCol by auto. apply NK; auto.
    + rewrite column_nil; [split; simpl; auto|]. intros i. destruct (Nat.lt_ge_cases i n) as [Hi|Hi].
      * specialize (HRow i Hi). pose proof (lam_part i). unfold w in H. lia.
      * rewrite nth_overflow by (unfold dec; rewrite transp_len; auto). simpl. lia.
  - unfold enc. rewrite map_rev.
    assert (E : map (fun c => vec 1 Mn (column (dec C) c)) (seq 0 w) = rev C); [|rewrite E; apply rev_involutive].
    rewrite <- (map_map (column (dec C)) (vec 1 Mn)). change (map (column (dec C)) (seq 0 w)) with (transp w (dec C)). rewrite HI.
    unfold K. rewrite map_map. rewrite (map_ext_in _ (fun x => x)); [apply map_id|]. intros c Hc. apply vec_ents. rewrite Forall_forall in HFr. auto.
Qed.

Theorem lr_bij mu nu : in_box m k mu -> in_box m k nu ->
  exists L, NoDup L /\ (forall T, In T L <-> lr_tableau m lam mu nu T) /\ length L = length (lr_list m lam mu nu).
Proof.
  intros Hmu Hnu. exists (map dec (lr_list m lam mu nu)).
  assert (HP : forall C, In C (lr_list m lam mu nu) -> precol (dec C) /\ enc (dec C) = C).
  { intros C HC. unfold lr_list in HC. apply filter_In in HC. destruct HC as [HC _]. rewrite cols_szs in HC. apply chains_sizes in HC. apply dec_pre; tauto. }
  split; [|split; [|apply map_length]].
  - assert (HN : NoDup (lr_list m lam mu nu)) by (apply NoDup_filter, chains_nodup).
    induction HN as [|C r HC Hr IH]; cbn [map]; constructor.
    + intros Hi. apply in_map_iff in Hi. destruct Hi as (C' & E & HC').
      assert (C' = C); [|subst; auto]. rewrite <- (proj2 (HP C' (or_intror HC'))), <- (proj2 (HP C (or_introl eq_refl))), E. auto.
    + apply IH. intros; apply HP; right; auto.
  - intros T. rewrite in_map_iff. split.
    + intros (C & <- & HC). destruct (HP C HC) as [H1 H2]. apply enc_iff; auto. rewrite H2. auto.
    + intros HT. pose proof (ssyt_pre T (proj1 HT)) as HPT. exists (enc T). split; [apply dec_enc; auto|]. apply enc_iff; auto.
Qed.
End Bij.
