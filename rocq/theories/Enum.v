(** Loops that enumerate a finite set of lists in decreasing lexicographic
    order. *)

From Coq Require Import ZArith List Lia Bool Permutation Sorted.
From Verif Require Import Py OrderFacts.
Import ListNotations.
Open Scope Z_scope.

(** ** Runs of a loop *)

Inductive runs {S R} (body : S -> res (step S R)) : S -> nat -> R -> Prop :=
| runs_done s r : body s = Ok (Done r) -> runs body s 0 r
| runs_next s s' n r : body s = Ok (Next s') -> runs body s' n r -> runs body s (Datatypes.S n) r.

Lemma bloop_runs {S R} (body : S -> res (step S R)) d : forall s n r, runs body s n r ->
  ((n < 2 ^ d)%nat -> bloop d body s = Ok (Done r)) /\
  ((2 ^ d <= n)%nat -> exists s', bloop d body s = Ok (Next s') /\ runs body s' (n - 2 ^ d) r).
Proof.
  induction d as [|d IH]; intros s n r H.
  - simpl. split.
    + intros Hn. inversion H; subst; auto. lia.
    + intros Hn. inversion H; subst; [lia|].
      exists s'. split; auto. replace (Datatypes.S n0 - 1)%nat with n0 by lia. auto.
  - cbn [Nat.pow bloop]. destruct (IH s n r H) as [H1 H2].
    destruct (Nat.lt_ge_cases n (2 ^ d)) as [Hn|Hn].
    + rewrite H1; auto. split; [auto | lia].
    + destruct (H2 Hn) as (s' & E & Hr). rewrite E. simpl.
      destruct (IH s' _ r Hr) as [H3 H4]. split.
      * intros Hlt. apply H3. lia.
      * intros Hge. destruct H4 as (s'' & E' & Hr'); [lia|].
        exists s''. split; auto. replace (n - (2 ^ d + (2 ^ d + 0)))%nat with (n - 2 ^ d - 2 ^ d)%nat by lia.
        auto.
Qed.

Lemma loop2_runs {S R} (body : S -> res (step S R)) d s n r :
  runs body s n r -> (n < 2 ^ d)%nat -> loop2 d body s = Ok r.
Proof.
  intros H Hn. unfold loop2. destruct (bloop_runs body d s n r H) as [H1 _].
  rewrite H1; auto.
Qed.

Lemma loop_runs {S R} (body : S -> res (step S R)) f s n r :
  runs body s n r -> (n < f)%nat -> loop f body s = Ok r.
Proof.
  intros H. revert f. induction H; intros f Hf; destruct f as [|f]; try lia; simpl.
  - rewrite H. auto.
  - rewrite H. simpl. apply IHruns. lia.
Qed.

(** ** Lexicographic rank of lists with entries in [0, B] *)

Section Rank.
Variable B : Z.
Hypothesis HB : 0 <= B.

Definition rng (l : list Z) : Prop := Forall (fun x => 0 <= x <= B) l.

Fixpoint rank (l : list Z) : Z :=
  match l with
  | [] => 0
  | x :: t => x * (B + 1) ^ Z.of_nat (length t) + rank t
  end.

Lemma pow_pos n : 0 < (B + 1) ^ Z.of_nat n.
Proof. apply Z.pow_pos_nonneg; lia. Qed.

Lemma rank_bounds l : rng l -> 0 <= rank l < (B + 1) ^ Z.of_nat (length l).
Proof.
  induction 1 as [|x t Hx _ IH]; cbn [rank length]; [simpl; lia|].
  rewrite Nat2Z.inj_succ, Z.pow_succ_r by lia.
  pose proof (pow_pos (length t)). nia.
Qed.

Lemma rank_lt_head x y a b : rng (x :: a) -> rng (y :: b) -> length a = length b ->
  x < y -> rank (x :: a) < rank (y :: b).
Proof.
  intros Ha Hb Hl Hxy. inversion Ha; inversion Hb; subst. simpl.
  pose proof (rank_bounds a H2). pose proof (rank_bounds b H6). rewrite Hl in *.
  pose proof (pow_pos (length b)). nia.
Qed.

Lemma rank_cons_lt x a b : length a = length b -> (rank (x :: a) < rank (x :: b) <-> rank a < rank b).
Proof. intros Hl. simpl. rewrite Hl. lia. Qed.

Lemma rank_inj a b : rng a -> rng b -> length a = length b -> rank a = rank b -> a = b.
Proof.
  revert b. induction a as [|x a IH]; destruct b as [|y b]; simpl length; intros Ha Hb Hl E;
    auto; try lia.
  assert (Hl' : length a = length b) by lia.
  destruct (Z.lt_trichotomy x y) as [H|[H|H]].
  - pose proof (rank_lt_head x y a b Ha Hb Hl' H). lia.
  - subst y. f_equal. inversion Ha; inversion Hb; subst. apply IH; auto.
    simpl in E. rewrite Hl' in E. lia.
  - pose proof (rank_lt_head y x b a Hb Ha (eq_sym Hl') H). lia.
Qed.

(** The number of lists, as a bound for loops *)
Lemma pow_le_2 n m : (B + 1) ^ Z.of_nat n <= 2 ^ (B * Z.of_nat n + Z.of_nat m).
Proof.
  assert (H1 : B + 1 <= 2 ^ B).
  { clear -HB. pattern B. apply natlike_ind; auto; [simpl; lia|].
    intros x Hx IH. rewrite Z.pow_succ_r by lia. lia. }
  rewrite Z.pow_add_r by lia. rewrite Z.pow_mul_r by lia.
  assert (1 <= 2 ^ Z.of_nat m) by (pose proof (Z.pow_pos_nonneg 2 (Z.of_nat m)); lia).
  assert ((B + 1) ^ Z.of_nat n <= (2 ^ B) ^ Z.of_nat n) by (apply Z.pow_le_mono_l; lia).
  pose proof (pow_pos n). nia.
Qed.

(** ** Enumeration by a successor function *)

Section Chain.
Variable V : list Z -> Prop.
Variable m : nat.
Variable next : list Z -> res (option (list Z)).

Inductive chain : list Z -> list (list Z) -> Prop :=
| chain_last a : next a = Ok None -> chain a [a]
| chain_cons a b l : next a = Ok (Some b) -> chain b l -> chain a (a :: l).

Hypothesis H_rng : forall a, V a -> rng a.
Hypothesis H_len : forall a, V a -> length a = m.
Hypothesis H_next : forall a, V a ->
  (next a = Ok None /\ forall c, V c -> rank a <= rank c) \/
  (exists b, next a = Ok (Some b) /\ V b /\ rank b < rank a /\
     forall c, V c -> rank c < rank a -> rank c <= rank b).

Lemma chain_ok a : V a -> exists l, chain a l /\
  (forall b, In b l <-> V b /\ rank b <= rank a) /\
  NoDup l /\ Z.of_nat (length l) <= rank a + 1.
Proof.
  intros Va.
  remember (Z.to_nat (rank a)) as n eqn:En.
  revert a Va En. induction n as [n IH] using lt_wf_ind. intros a Va En.
  pose proof (rank_bounds a (H_rng a Va)) as Hb.
  destruct (H_next a Va) as [[E Hmin]|(b & E & Vb & Hlt & Hmax)].
  - exists [a]. split; [constructor; auto|]. split; [|split].
    + intros b. simpl. split.
      * intros [<-|[]]. split; auto; lia.
      * intros [Vb Hle]. left. apply rank_inj; auto.
        -- rewrite !H_len; auto.
        -- specialize (Hmin b Vb). lia.
    + repeat constructor; auto.
    + simpl. lia.
  - pose proof (rank_bounds b (H_rng b Vb)) as Hbb.
    destruct (IH (Z.to_nat (rank b))) with (a := b) as (l & Hc & Hin & Hnd & Hlen); auto; [lia|].
    exists (a :: l). split; [econstructor; eauto|]. split; [|split].
    + intros c. simpl. rewrite Hin. split.
      * intros [<-|[Vc Hle]]; split; auto; lia.
      * intros [Vc Hle]. destruct (Z.eq_dec (rank c) (rank a)) as [Eq|Ne].
        -- left. symmetry. apply rank_inj; auto. rewrite !H_len; auto.
        -- right. split; auto. apply Hmax; auto. lia.
    + constructor; auto. rewrite Hin. intros [_ Hle]. lia.
    + cbn [length]. lia.
Qed.

Lemma chain_ok_max a : V a -> (forall c, V c -> rank c <= rank a) ->
  exists l, chain a l /\ (forall b, In b l <-> V b) /\ NoDup l /\
    Z.of_nat (length l) <= (B + 1) ^ Z.of_nat m.
Proof.
  intros Va Hmax. destruct (chain_ok a Va) as (l & Hc & Hin & Hnd & Hlen).
  exists l. split; auto. split; [|split]; auto.
  - intros b. rewrite Hin. split; [tauto | auto].
  - pose proof (rank_bounds a (H_rng a Va)). rewrite (H_len a Va) in *. lia.
Qed.

End Chain.

(** ** Greedy filling between two bounds

    [inV d prev bs p l]: [l] lies between the bounds [bs], contains [p] more
    boxes than the lower bounds, and each entry is at most the one before it
    minus [d]. *)

Fixpoint inV (d prev : Z) (bs : list (Z * Z)) (p : Z) (l : list Z) : Prop :=
  match bs, l with
  | [], [] => p = 0
  | (i, o) :: bs', x :: l' => i <= x <= o /\ x <= prev - d /\ inV d x bs' (p - x + i) l'
  | _, _ => False
  end.

Fixpoint fillD (d prev : Z) (bs : list (Z * Z)) (p : Z) : option (list Z) :=
  match bs with
  | [] => if 0 <? p then None else Some []
  | (i, o) :: t =>
      let x := Z.min (Z.min o (i + p)) (prev - d) in
      match fillD d x t (p - x + i) with
      | Some f => Some (x :: f)
      | None => None
      end
  end.

Definition lowsum (bs : list (Z * Z)) : Z := zsum (map fst bs).

Fixpoint nextD (d : Z) (bs : list (Z * Z)) (l : list Z) : option (list Z) :=
  match bs, l with
  | (i, o) :: bs', x :: l' =>
      match nextD d bs' l' with
      | Some l'' => Some (x :: l'')
      | None =>
          if i <? x then
            match fillD d (x - 1) bs' (zsum l' - lowsum bs' + 1) with
            | Some f => Some (x - 1 :: f)
            | None => None
            end
          else None
      end
  | _, _ => None
  end.

(** bounds are consistent *)
Fixpoint okB (d prev : Z) (bs : list (Z * Z)) : Prop :=
  match bs with
  | [] => True
  | (i, o) :: t => 0 <= i <= o /\ o <= B /\ i <= prev - d /\ okB d i t
  end.

Lemma okB_mono d prev prev' bs : prev <= prev' -> okB d prev bs -> okB d prev' bs.
Proof. destruct bs as [|[i o] t]; simpl; intuition lia. Qed.

Fixpoint cap (d prev : Z) (bs : list (Z * Z)) : Z :=
  match bs with
  | [] => 0
  | (i, o) :: t => let x := Z.min o (prev - d) in (x - i) + cap d x t
  end.

Lemma cap_mono d bs : forall a b, a <= b -> cap d a bs <= cap d b bs.
Proof.
  induction bs as [|[i o] t IH]; intros a b H; simpl; [lia|].
  assert (Z.min o (a - d) <= Z.min o (b - d)) by lia.
  specialize (IH _ _ H0). lia.
Qed.

Lemma cap_nonneg d bs : forall prev, okB d prev bs -> 0 <= cap d prev bs.
Proof.
  induction bs as [|[i o] t IH]; intros prev H; simpl in *; [lia|].
  destruct H as (H1 & H2 & H3 & K4).
  assert (0 <= cap d (Z.min o (prev - d)) t).
  { apply IH. eapply okB_mono; [|exact K4]. lia. }
  lia.
Qed.

Lemma inV_cap d bs : forall prev p l, inV d prev bs p l -> 0 <= p <= cap d prev bs.
Proof.
  induction bs as [|[i o] t IH]; intros prev p [|x l] H; simpl in *; try tauto; [lia|].
  destruct H as (H1 & H2 & H3). apply IH in H3.
  assert (cap d x t <= cap d (Z.min o (prev - d)) t) by (apply cap_mono; lia). lia.
Qed.

Lemma inV_len d bs : forall prev p l, inV d prev bs p l -> length l = length bs.
Proof.
  induction bs as [|[i o] t IH]; intros prev p [|x l] H; simpl in *; try tauto.
  f_equal. eapply IH. apply H.
Qed.

Lemma inV_sum d bs : forall prev p l, inV d prev bs p l -> zsum l = lowsum bs + p.
Proof.
  unfold lowsum.
  induction bs as [|[i o] t IH]; intros prev p [|x l] H; simpl in *; try tauto; [lia|].
  destruct H as (_ & _ & H). apply IH in H. lia.
Qed.

Lemma inV_rng d bs : forall prev p l, okB d prev bs -> inV d prev bs p l -> rng l.
Proof.
  induction bs as [|[i o] t IH]; intros prev p [|x l] Hok H; simpl in *; try tauto; [constructor|].
  destruct H as (H1 & H2 & H3). destruct Hok as (K1 & K2 & K3 & K4).
  constructor; [lia|]. eapply IH; [|eassumption]. eapply okB_mono; [|exact K4]. lia.
Qed.

Lemma fillD_some d bs : forall prev p, okB d prev bs -> 0 <= p <= cap d prev bs ->
  exists f, fillD d prev bs p = Some f /\ inV d prev bs p f /\
    forall c, inV d prev bs p c -> rank c <= rank f.
Proof.
  induction bs as [|[i o] t IH]; intros prev p Hok Hp; simpl in *.
  - exists []. assert (p = 0) by lia. subst. split; auto. split; auto.
    intros [|] Hc; simpl in *; [lia | tauto].
  - destruct Hok as (K1 & K2 & K3 & K4).
    remember (Z.min (Z.min o (i + p)) (prev - d)) as x eqn:Hx.
    assert (Hokx : okB d x t) by (eapply okB_mono; [|exact K4]; lia).
    assert (Hcx := cap_nonneg d t x Hokx).
    destruct (IH x (p - x + i)) as (f & Ef & Hf & Hmax); auto.
    { split; [lia|]. destruct (Z.eq_dec x (i + p)); [lia|].
      assert (x = Z.min o (prev - d)) by lia. rewrite H. lia. }
    rewrite Ef. exists (x :: f). split; auto. split.
    + simpl. split; [lia|]. split; [lia|]. auto.
    + intros [|y c] Hc; [simpl in Hc; tauto|]. cbn [inV] in Hc.
      destruct Hc as (C1 & C2 & C3). pose proof (inV_cap _ _ _ _ _ C3) as C4.
      assert (Hy : y <= x) by lia.
      assert (Hrc : rng c).
      { eapply inV_rng; [|eassumption]. eapply okB_mono; [|exact K4]. lia. }
      assert (Hrf : rng f) by (eapply inV_rng; [|eassumption]; auto).
      assert (Hl : length c = length f).
      { rewrite (inV_len _ _ _ _ _ C3), (inV_len _ _ _ _ _ Hf). auto. }
      destruct (Z.eq_dec y x) as [->|Hne].
      * specialize (Hmax c C3). simpl. rewrite Hl. lia.
      * assert (rank (y :: c) < rank (x :: f)); [|lia].
        apply rank_lt_head; auto; [constructor; auto; lia|constructor; auto; lia|lia].
Qed.

Lemma fillD_none d bs : forall prev p, okB d prev bs -> cap d prev bs < p -> fillD d prev bs p = None.
Proof.
  induction bs as [|[i o] t IH]; intros prev p Hok Hp; simpl in *.
  - destruct (0 <? p) eqn:E; auto. lia.
  - destruct Hok as (K1 & K2 & K3 & K4).
    remember (Z.min (Z.min o (i + p)) (prev - d)) as x eqn:Hx.
    assert (Hok' : okB d (Z.min o (prev - d)) t) by (eapply okB_mono; [|exact K4]; lia).
    assert (Hcx := cap_nonneg d t _ Hok').
    assert (x = Z.min o (prev - d)) by lia.
    rewrite IH; auto; rewrite H; auto. lia.
Qed.

Lemma fillD_spec d prev bs p : okB d prev bs -> 0 <= p ->
  match fillD d prev bs p with
  | Some f => inV d prev bs p f /\ forall c, inV d prev bs p c -> rank c <= rank f
  | None => forall c, ~ inV d prev bs p c
  end.
Proof.
  intros Hok Hp. destruct (Z.le_gt_cases p (cap d prev bs)) as [H|H].
  - destruct (fillD_some d bs prev p Hok) as (f & E & H1 & H2); [lia|]. rewrite E. auto.
  - rewrite (fillD_none d bs prev p Hok H). intros c Hc.
    apply inV_cap in Hc. lia.
Qed.

Lemma nextD_spec d bs : forall prev p l, okB d prev bs -> inV d prev bs p l ->
  match nextD d bs l with
  | Some b => inV d prev bs p b /\ rank b < rank l /\
              forall c, inV d prev bs p c -> rank c < rank l -> rank c <= rank b
  | None => forall c, inV d prev bs p c -> rank l <= rank c
  end.
Proof.
  induction bs as [|[i o] t IH]; intros prev p [|x l] Hok Hl; simpl in Hl; try tauto.
  - simpl. intros [|] Hc; simpl in *; [lia | tauto].
  - destruct Hl as (L1 & L2 & L3). destruct Hok as (K1 & K2 & K3 & K4).
    assert (Hokx : okB d x t) by (eapply okB_mono; [|exact K4]; lia).
    assert (Hrl : rng l) by (eapply inV_rng; eauto).
    assert (Hll := inV_len _ _ _ _ _ L3).
    specialize (IH x (p - x + i) l Hokx L3).
    (* an element with a smaller head is smaller *)
    assert (Hhead : forall y c, inV d prev ((i, o) :: t) p (y :: c) ->
              rng (y :: c) /\ length c = length t /\ i <= y <= o /\ inV d y t (p - y + i) c).
    { intros y c Hc. simpl in Hc. destruct Hc as (C1 & C2 & C3).
      split; [constructor; [lia|]|split; [eapply inV_len; eauto|split; auto]].
      eapply inV_rng; [|eassumption]. eapply okB_mono; [|exact K4]. lia. }
    cbn [nextD]. destruct (nextD d t l) as [b|] eqn:En.
    + destruct IH as (I1 & I2 & I3).
      assert (Hlb := inV_len _ _ _ _ _ I1).
      split; [|split].
      * simpl. auto.
      * simpl. rewrite Hlb, Hll. lia.
      * intros [|y c] Hc Hlt; [simpl in Hc; tauto|].
        destruct (Hhead y c Hc) as (R1 & R2 & R3 & R4).
        assert (Rb : rng b) by (eapply inV_rng; eauto).
        destruct (Z.lt_trichotomy y x) as [H|[H|H]].
        -- assert (rank (y :: c) < rank (x :: b)); [|lia].
           apply rank_lt_head; auto; [constructor; auto; lia | lia].
        -- subst y. simpl. simpl in Hlt. rewrite R2, Hlb, Hll in *.
           specialize (I3 c R4). lia.
        -- assert (rank (x :: l) < rank (y :: c)); [|lia].
           apply rank_lt_head; auto; [constructor; auto; lia | lia].
    + assert (Hsum := inV_sum _ _ _ _ _ L3).
      (* nothing below with the same head *)
      assert (Hsame : forall c, inV d prev ((i, o) :: t) p (x :: c) -> rank (x :: l) <= rank (x :: c)).
      { intros c Hc. destruct (Hhead x c Hc) as (R1 & R2 & R3 & R4).
        specialize (IH c R4). simpl. rewrite R2, Hll. lia. }
      assert (Hbig : forall y c, inV d prev ((i, o) :: t) p (y :: c) -> x < y -> rank (x :: l) <= rank (y :: c)).
      { intros y c Hc Hxy. destruct (Hhead y c Hc) as (R1 & R2 & R3 & R4).
        assert (rank (x :: l) < rank (y :: c)); [|lia].
        apply rank_lt_head; auto; [constructor; auto; lia | lia]. }
      destruct (i <? x) eqn:Eix.
      * apply Z.ltb_lt in Eix.
        assert (Ep : zsum l - lowsum t + 1 = p - (x - 1) + i) by lia.
        rewrite Ep.
        assert (Hok1 : okB d (x - 1) t) by (eapply okB_mono; [|exact K4]; lia).
        assert (Hp1 : 0 <= p - (x - 1) + i) by (apply inV_cap in L3; lia).
        pose proof (fillD_spec d (x - 1) t (p - (x - 1) + i) Hok1 Hp1) as Hf.
        destruct (fillD d (x - 1) t (p - (x - 1) + i)) as [f|] eqn:Ef.
        -- destruct Hf as [F1 F2]. assert (Hlf := inV_len _ _ _ _ _ F1).
           assert (Hrf : rng f) by (eapply inV_rng; eauto).
           split; [|split].
           ++ simpl. split; [lia|]. split; [lia|]. auto.
           ++ apply rank_lt_head; try (constructor; auto; lia); lia.
           ++ intros [|y c] Hc Hlt; [simpl in Hc; tauto|].
              destruct (Hhead y c Hc) as (R1 & R2 & R3 & R4).
              destruct (Z.lt_trichotomy y (x - 1)) as [H|[H|H]].
              ** assert (rank (y :: c) < rank (x - 1 :: f)); [|lia].
                 apply rank_lt_head; auto; [constructor; auto; lia | lia].
              ** subst y. simpl. rewrite R2, Hlf. specialize (F2 c R4). lia.
              ** destruct (Z.eq_dec y x) as [->|].
                 --- specialize (Hsame c Hc). lia.
                 --- specialize (Hbig y c Hc). lia.
        -- intros [|y c] Hc; [simpl in Hc; tauto|].
           destruct (Hhead y c Hc) as (R1 & R2 & R3 & R4).
           destruct (Z.lt_trichotomy y x) as [H|[H|H]]; [|subst; auto|apply Hbig; auto].
           exfalso.
           (* a smaller head leaves even more boxes for the rest *)
           pose proof (inV_cap _ _ _ _ _ R4) as C4.
           assert (cap d y t <= cap d (x - 1) t) by (apply cap_mono; lia).
           destruct (fillD_some d t (x - 1) (p - (x - 1) + i) Hok1) as (f & E & _); [lia|congruence].
      * apply Z.ltb_ge in Eix. intros [|y c] Hc; [simpl in Hc; tauto|].
        destruct (Hhead y c Hc) as (R1 & R2 & R3 & R4).
        destruct (Z.lt_trichotomy y x) as [H|[H|H]]; [lia|subst; auto|apply Hbig; auto].
Qed.

End Rank.
