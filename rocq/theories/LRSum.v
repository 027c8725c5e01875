(** The Littlewood-Richardson rule: only the tableaux that keep the vector
    strictly decreasing contribute; the case of the empty partition; sums over
    compositions and horizontal strips. *)

From Coq Require Import ZArith List Lia Bool Permutation QArith Qcanon.
From Verif Require Import Py PyFacts Spec PartFacts PieriA RingA Transfer CoefSys Schub LRCore.
Import ListNotations.
Open Scope Z_scope.

Fixpoint sdecb (g : list Z) : bool :=
  match g with
  | x :: (y :: _) as t => (y <? x) && sdecb t
  | _ => true
  end.
Lemma sdecb_cons x y t : sdecb (x :: y :: t) = (y <? x) && sdecb (y :: t).
Proof. reflexivity. Qed.

Lemma sdec_fail c : forall g, length g = length c -> Forall (fun x => 0 <= x <= 1) c ->
  sdecb g = true -> sdecb (vadd g c) = false ->
  exists u v gu x gv, c = u ++ 0 :: 1 :: v /\ vadd g c = gu ++ x :: x :: gv /\ length gu = length u.
Proof.
  induction c as [|a c IH]; intros [|x g] Hl HF Hs Hn; simpl in Hl; try discriminate.
  destruct c as [|b c], g as [|y g]; simpl in Hl; try discriminate.
  change (vadd (x :: y :: g) (a :: b :: c)) with (x + a :: y + b :: vadd g c) in *.
  rewrite sdecb_cons in Hs, Hn. apply andb_true_iff in Hs. destruct Hs as [H1 H2]. apply Z.ltb_lt in H1.
  inversion HF as [|? ? Ha HF']; subst. inversion HF' as [|? ? Hb HF'']; subst.
  destruct (Z.ltb_spec (y + b) (x + a)) as [H|H].
  - cbn [andb] in Hn. destruct (IH (y :: g)) as (u & v & gu & z & gv & E1 & E2 & E3); auto.
    exists (a :: u), v, (x + a :: gu), z, gv. rewrite E1. repeat split; simpl; auto.
    change (vadd (y :: g) (b :: c)) with (y + b :: vadd g c) in E2. rewrite E2. auto.
  - assert (a = 0) by lia. assert (b = 1) by lia. subst. exists [], c, [], (x + 0), (vadd g c).
    repeat split; auto. simpl. do 2 f_equal. lia.
Qed.

Section S.
Variable m : nat.
Notation VV := (V m).

Lemma V_lr G s L d g : anti m G -> length g = m -> sdecb g = true ->
  VV G (s :: L) d g = qsum (fun c => if (zsum c =? s) && domb 0 c d && sdecb (vadd g c) then VV G L c (vadd g c) else 0%Qc) (bits m).
Proof.
  intros HG Hg Hs. rewrite V_cons. apply qsum_ext. intros c Hc. apply in_alll in Hc. destruct Hc as [Hc HF].
  destruct (sdecb (vadd g c)) eqn:E; [rewrite andb_true_r; auto|]. rewrite andb_false_r.
  destruct ((zsum c =? s) && domb 0 c d); auto.
  destruct (sdec_fail c g ltac:(lia) HF Hs E) as (u & v & gu & x & gv & E1 & E2 & E3).
  apply Qc_self_opp. rewrite E2. rewrite E1 at 1 2. apply (V_anti_at m G (length u)); auto.
  - rewrite <- E1. auto.
  - unfold free. lia.
  - rewrite <- E2, vadd_len; lia.
Qed.

(** the tableaux that contribute *)
Fixpoint chains (L : list Z) (d g : list Z) : list (list (list Z)) :=
  match L with
  | [] => [[]]
  | s :: L' => flat_map (fun c => if (zsum c =? s) && domb 0 c d && sdecb (vadd g c)
                                  then map (cons c) (chains L' c (vadd g c)) else []) (bits m)
  end.

Lemma bits_vadd g c : length g = m -> In c (bits m) -> length (vadd g c) = m.
Proof. intros Hg Hc. apply bits_len in Hc. rewrite vadd_len; lia. Qed.

Lemma V_chains G L : anti m G -> forall d g, length g = m -> sdecb g = true ->
  VV G L d g = qsum (fun T => G (fold_left vadd T g)) (chains L d g).
Proof.
  intros HG. induction L as [|s L IH]; intros d g Hg Hs.
  - cbn. ring.
  - rewrite V_lr by auto. cbn [chains]. rewrite qsum_flat_map. apply qsum_ext. intros c Hc.
    destruct ((zsum c =? s) && domb 0 c d); [|reflexivity]. cbn [andb]. destruct (sdecb (vadd g c)) eqn:E; [|reflexivity].
    rewrite qsum_map. cbn [fold_left]. apply IH; auto. apply bits_vadd; auto.
Qed.

(** ** the empty partition: only one tableau contributes *)
Fixpoint ones (n s : nat) : list Z :=
  match n, s with
  | O, _ => []
  | S n, O => 0 :: ones n 0
  | S n, S s => 1 :: ones n s
  end.
Lemma ones_len n s : length (ones n s) = n.
Proof. revert s. induction n as [|n IH]; intros [|s]; simpl; auto. Qed.
Lemma ones_0 n : ones n 0 = repeat 0 n.
Proof. induction n; simpl; f_equal; auto. Qed.
Lemma zsum_ones n : forall s, (s <= n)%nat -> zsum (ones n s) = Z.of_nat s.
Proof. induction n as [|n IH]; intros [|s] H; cbn [ones zsum fold_right] in *; try lia; unfold zsum in *; cbn [fold_right]; rewrite IH; lia. Qed.
Lemma ones_bits n s : In (ones n s) (bits n).
Proof.
  apply in_alll. split; [apply ones_len|]. revert s. induction n as [|n IH]; intros [|s]; simpl; constructor; auto; lia.
Qed.
Lemma domb_ones n : forall e s s', (s' <= s)%nat -> 0 <= e -> domb e (ones n s) (ones n s') = true.
Proof.
  induction n as [|n IH]; intros e [|s] [|s'] H He; simpl; auto; try lia; rewrite IH by lia; rewrite andb_true_r; apply Z.leb_le; lia.
Qed.

Fixpoint rho (n : nat) : list Z := match n with O => [] | S n' => Z.of_nat n' :: rho n' end.
Lemma rho_len n : length (rho n) = n.
Proof. induction n; simpl; auto. Qed.

(** a 0/1 vector on top of [rho]: strictly decreasing only for ones followed by zeros *)
Lemma bits_zero n c : In c (bits n) -> zsum c = 0 -> c = ones n 0.
Proof.
  intros H. apply in_alll in H. destruct H as [Hl HF]. subst n. induction c as [|x c IH]; auto. inversion HF; subst.
  intros E. assert (0 <= zsum c).
  { clear -H2. induction c as [|y c IH]; [simpl; lia|]. inversion H2; subst. specialize (IH H3). simpl. lia. }
  change (zsum (x :: c)) with (x + zsum c) in E. simpl. f_equal; [lia|]. apply IH; auto. lia.
Qed.
Lemma bits_cons n x c : In (x :: c) (bits (S n)) <-> 0 <= x <= 1 /\ In c (bits n).
Proof.
  unfold bits. rewrite !in_alll. simpl. split.
  - intros [H1 H2]. inversion H2; subst. auto.
  - intros (H1 & H2 & H3). auto.
Qed.
Lemma bits_zsum n c : In c (bits n) -> 0 <= zsum c.
Proof.
  intros H. apply in_alll in H. destruct H as [_ H]. induction H as [|x l Hx Hl IH]; [simpl; lia|]. change (zsum (x :: l)) with (x + zsum l). lia.
Qed.
Lemma sdec_rho_bits n : forall c, In c (bits n) -> sdecb (vadd (rho n) c) = true -> c = ones n (Z.to_nat (zsum c)).
Proof.
  induction n as [|n IH]; intros c Hc Hs.
  - apply bits_len in Hc. destruct c; [reflexivity|discriminate].
  - destruct c as [|x c]; [apply bits_len in Hc; discriminate|]. apply bits_cons in Hc. destruct Hc as [Hx Hc].
    pose proof (bits_zsum _ _ Hc) as Hz. change (zsum (x :: c)) with (x + zsum c).
    assert (Hs' : sdecb (vadd (rho n) c) = true /\ (n <> O -> nth 0 c 0 <= x)).
    { destruct n as [|n]; [apply bits_len in Hc; destruct c; [split; auto; congruence|discriminate]|].
      destruct c as [|y c]; [apply bits_len in Hc; discriminate|].
      change (vadd (rho (S (S n))) (x :: y :: c)) with (Z.of_nat (S n) + x :: Z.of_nat n + y :: vadd (rho n) c) in Hs.
      rewrite sdecb_cons in Hs. apply andb_true_iff in Hs. destruct Hs as [H1 H2]. apply Z.ltb_lt in H1. split; auto. intros _. simpl. lia. }
    destruct Hs' as [H1 H2]. specialize (IH c Hc H1).
    assert (x = 0 \/ x = 1) as [-> | ->] by lia.
    + destruct n as [|n]; [apply bits_len in Hc; destruct c; [reflexivity|discriminate]|].
      specialize (H2 ltac:(lia)). destruct (Z.to_nat (zsum c)) as [|s] eqn:E.
      * replace (Z.to_nat (0 + zsum c)) with O by lia. cbn [ones]. f_equal. auto.
      * rewrite IH in H2. cbn in H2. lia.
    + replace (Z.to_nat (1 + zsum c)) with (S (Z.to_nat (zsum c))) by lia. cbn [ones]. f_equal. auto.
Qed.

Lemma sdecb_tl x g : sdecb (x :: g) = true -> sdecb g = true.
Proof. destruct g; auto. rewrite sdecb_cons, andb_true_iff. tauto. Qed.

(** [c] dominates [ones n s'] and keeps [rho + ka] decreasing, [ka] zero from position [s'] on *)
Lemma force_ones n : forall s' ka c e, In c (bits n) -> length ka = n ->
  (forall t, (s' <= t)%nat -> nth t ka 0 = 0) ->
  domb 0 c (ones n s') = true -> sdecb (vadd (vadd (rho n) ka) c) = true -> e = zsum c -> c = ones n (Z.to_nat e).
Proof.
  induction n as [|n IH]; intros s' ka c e Hc Hk Hz Hd Hs ->.
  - apply bits_len in Hc. destruct c; [reflexivity|discriminate].
  - destruct s' as [|s'].
    + assert (E : ka = repeat 0 (S n)).
      { apply nth_ext with (d := 0) (d' := 0); [rewrite repeat_length; auto|]. intros t Ht. rewrite Hz by lia. symmetry. apply nth_repeat. }
      rewrite E in Hs. replace (vadd (rho (S n)) (repeat 0 (S n))) with (rho (S n)) in Hs.
      * apply sdec_rho_bits; auto.
      * clear. generalize (S n) as p. induction p; simpl; auto. rewrite Z.add_0_r. f_equal. auto.
    + destruct c as [|x c]; [apply bits_len in Hc; discriminate|]. destruct ka as [|k0 ka]; [discriminate|].
      apply bits_cons in Hc. destruct Hc as [Hx Hc]. cbn [ones domb] in Hd. apply andb_true_iff in Hd. destruct Hd as [H1 H2].
      apply Z.leb_le in H1. assert (x = 1) by lia. subst x. cbn [rho vadd] in Hs. apply sdecb_tl in Hs.
      pose proof (bits_zsum _ _ Hc). change (zsum (1 :: c)) with (1 + zsum c).
      replace (Z.to_nat (1 + zsum c)) with (S (Z.to_nat (zsum c))) by lia. cbn [ones]. f_equal.
      apply (IH s' ka c); auto. intros t Ht. apply (Hz (S t)). lia.
Qed.

Lemma vadd_ones_nth n : forall s ka t, length ka = n -> (s <= t)%nat -> nth t (vadd ka (ones n s)) 0 = nth t ka 0.
Proof.
  induction n as [|n IH]; intros s ka t Hk Ht; destruct ka as [|x ka]; try discriminate; [destruct t; reflexivity|].
  destruct s as [|s], t as [|t]; simpl; try lia; apply IH; auto; lia.
Qed.

Lemma sdec_ones n : forall s ka, length ka = n -> sdecb (vadd (rho n) ka) = true -> sdecb (vadd (vadd (rho n) ka) (ones n s)) = true.
Proof.
  induction n as [|n IH]; intros s ka Hk Hs; destruct ka as [|x ka]; try discriminate; auto.
  destruct n as [|n]; [destruct ka; [|discriminate]; destruct s; reflexivity|].
  destruct ka as [|y ka]; [discriminate|]. pose proof Hs as Hs0. cbn [rho vadd] in Hs0. apply sdecb_tl in Hs0.
  change (vadd (rho (S (S n))) (x :: y :: ka)) with (Z.of_nat (S n) + x :: Z.of_nat n + y :: vadd (rho n) ka) in *.
  rewrite sdecb_cons, andb_true_iff, Z.ltb_lt in Hs. destruct Hs as [H1 H2].
  destruct s as [|s].
  - specialize (IH O (y :: ka) ltac:(simpl in *; lia) H2). cbn [ones vadd rho] in *. rewrite sdecb_cons, andb_true_iff, Z.ltb_lt. split; [lia|]. exact IH.
  - specialize (IH s (y :: ka) ltac:(simpl in *; lia) H2). destruct s; cbn [ones vadd rho] in *; rewrite sdecb_cons, andb_true_iff, Z.ltb_lt; (split; [lia|exact IH]).
Qed.

Definition Lones (L : list nat) : list Z := fold_right (fun s a => vadd (ones m s) a) (repeat 0 m) L.

Lemma vadd_zero a : vadd a (repeat 0 (length a)) = a.
Proof. induction a; simpl; auto. rewrite IHa, Z.add_0_r. auto. Qed.

Lemma V_base G : anti m G -> forall L s' ka, length ka = m -> (forall t, (s' <= t)%nat -> nth t ka 0 = 0) ->
  sdecb (vadd (rho m) ka) = true -> (forall a b i, nth_error (s' :: L) i = Some a -> nth_error L i = Some b -> (a <= b <= m)%nat) ->
  VV G (map Z.of_nat L) (ones m s') (vadd (rho m) ka) = G (vadd (vadd (rho m) ka) (Lones L)).
Proof.
  intros HG. induction L as [|s L IH]; intros s' ka Hk Hz Hs HL.
  - cbn [map Lones fold_right]. change (V m G [] (ones m s') (vadd (rho m) ka)) with (G (vadd (rho m) ka)). f_equal.
    replace m with (length (vadd (rho m) ka)) at 3 by (rewrite vadd_len; rewrite rho_len; auto). rewrite vadd_zero. auto.
  - assert (Lrk : length (vadd (rho m) ka) = m) by (rewrite vadd_len; rewrite rho_len; auto).
    pose proof (HL s' s O eq_refl eq_refl) as Hss.
    cbn [map]. rewrite V_lr by auto.
    rewrite (qsum_ext _ (fun c => if list_eq_dec Z.eq_dec c (ones m s) then VV G (map Z.of_nat L) c (vadd (vadd (rho m) ka) c) else 0%Qc)).
    + rewrite (qsum_delta (list_eq_dec Z.eq_dec) (fun c => VV G (map Z.of_nat L) c (vadd (vadd (rho m) ka) c))) by apply alll_nodup.
      destruct (in_dec (list_eq_dec Z.eq_dec) (ones m s) (bits m)) as [_|N]; [|exfalso; apply N, ones_bits].
      rewrite vadd_assoc. rewrite IH.
      * cbn [Lones fold_right]. f_equal. rewrite !vadd_assoc. reflexivity.
      * rewrite vadd_len; rewrite ?ones_len; auto.
      * intros t Ht. rewrite vadd_ones_nth by auto. apply Hz. lia.
      * rewrite <- vadd_assoc. apply sdec_ones; auto.
      * intros a b i Ha Hb. apply (HL a b (S i)); auto.
    + intros c Hc. destruct (list_eq_dec Z.eq_dec c (ones m s)) as [->|N].
      * rewrite zsum_ones by lia. rewrite Z.eqb_refl, domb_ones, sdec_ones by (auto; lia). reflexivity.
      * destruct (Z.eqb_spec (zsum c) (Z.of_nat s)) as [E1|]; [|reflexivity].
        destruct (domb 0 c (ones m s')) eqn:E2; [|reflexivity].
        destruct (sdecb (vadd (vadd (rho m) ka) c)) eqn:E3; [|reflexivity]. exfalso. apply N.
        rewrite (force_ones m s' ka c (zsum c)); auto. rewrite E1, Nat2Z.id. reflexivity.
Qed.

(** ** sums over compositions *)
(** [(h_p G)(g)]: the sum of [G (g + b)] over the vectors [b] of nonnegative
    numbers with sum [p] *)
Definition hsum (p : Z) (G : list Z -> Qc) (g : list Z) : Qc :=
  qsum (fun b => if zsum b =? p then G (vadd g b) else 0%Qc) (alll m p).

Lemma hsum_anti p G : anti m G -> anti m (hsum p G).
Proof.
  intros HG n u a b v Hu Hl. pose proof Hl as Hl'. rewrite app_length in Hl'. simpl in Hl'.
  unfold hsum. replace m with (n + S (S (length v)))%nat by lia. rewrite !qsum_alll_two, <- qsum_opp.
  apply qsum_ext. intros u' Hu'. apply in_alll in Hu'. destruct Hu' as [Hu' _]. rewrite <- qsum_opp. apply qsum_ext. intros v' Hv'.
  apply in_alll in Hv'. destruct Hv' as [Hv' _]. rewrite qsum_swap, <- qsum_opp. apply qsum_ext. intros y _. rewrite <- qsum_opp. apply qsum_ext.
  intros x _. rewrite !vadd_mid by lia. rewrite !zsum_mid.
  replace (zsum u' + x + y + zsum v') with (zsum u' + y + x + zsum v') by lia.
  destruct (zsum u' + y + x + zsum v' =? p); [|ring].
  apply (HG n); [rewrite vadd_len; lia|]. rewrite app_length. simpl. rewrite !vadd_len; lia.
Qed.

Lemma hsum_V p G L : forall d g, hsum p (VV G L d) g = VV (hsum p G) L d g.
Proof.
  induction L as [|s L IH]; intros d g; [reflexivity|]. rewrite V_cons. unfold hsum at 1.
  transitivity (qsum (fun b => qsum (fun c => if zsum b =? p then (if (zsum c =? s) && domb 0 c d then VV G L c (vadd (vadd g b) c) else 0%Qc) else 0%Qc) (bits m)) (alll m p)).
  { apply qsum_ext. intros b _. destruct (zsum b =? p); [apply V_cons|]. symmetry. apply qsum_zero. reflexivity. }
  rewrite qsum_swap. apply qsum_ext. intros c _. destruct ((zsum c =? s) && domb 0 c d).
  - rewrite <- IH. unfold hsum. apply qsum_ext. intros b _. rewrite vadd_swap. reflexivity.
  - apply qsum_zero. intros b _. destruct (zsum b =? p); reflexivity.
Qed.

(** ** horizontal strips *)
(** the sum of [G (u ++ z)] over the [z] with [l_i <= z_i < l_(i-1)], [l_0 = o], and sum [|l| + p] *)
Fixpoint ST (G : list Z -> Qc) (u : list Z) (o : Z) (l : list Z) (p : Z) : Qc :=
  match l with
  | [] => if p =? 0 then G u else 0%Qc
  | x :: l' => qsum (fun y => ST G (u ++ [y]) x l' (p - (y - x))) (zrange x o)
  end.
Lemma ST_neg G l : forall u o p, p < 0 -> ST G u o l p = 0%Qc.
Proof.
  induction l as [|x l IH]; intros u o p Hp; cbn [ST].
  - destruct (Z.eqb_spec p 0); [lia|reflexivity].
  - apply qsum_zero. intros y Hy. apply in_zrange in Hy. apply IH. lia.
Qed.
Lemma ST_anti G n l : anti_at m n G -> forall u x y w o p, length u = n -> length (u ++ x :: y :: w ++ l) = m ->
  ST G (u ++ y :: x :: w) o l p = (- ST G (u ++ x :: y :: w) o l p)%Qc.
Proof.
  intros HG. induction l as [|z l IH]; intros u x y w o p Hu Hl; cbn [ST].
  - rewrite app_nil_r in Hl. rewrite HG by auto. destruct (p =? 0); ring.
  - rewrite <- qsum_opp. apply qsum_ext. intros t _. rewrite <- !app_assoc. cbn [app]. rewrite IH; auto.
    rewrite <- Hl, <- app_assoc, !app_length. simpl. rewrite !app_length. reflexivity.
Qed.
(** the same without upper bounds, each increment at most [N] *)
Definition FL (N : Z) (G : list Z -> Qc) (u l : list Z) (p : Z) : Qc :=
  qsum (fun b => if zsum b =? p then G (u ++ vadd l b) else 0%Qc) (alll (length l) N).
Lemma FL_cons N G u x l p : FL N G u (x :: l) p = qsum (fun b => FL N G (u ++ [x + b]) l (p - b)) (zrange 0 (N + 1)).
Proof.
  unfold FL. cbn [length]. rewrite qsum_alll_S. apply qsum_ext. intros b _. apply qsum_ext. intros v _.
  change (zsum (b :: v)) with (b + zsum v). rewrite <- app_assoc. cbn [app vadd].
  replace (b + zsum v =? p) with (zsum v =? p - b); auto.
  destruct (Z.eqb_spec (zsum v) (p - b)), (Z.eqb_spec (b + zsum v) p); auto; lia.
Qed.

Lemma qsum_zrange_zero f a b c : a <= b <= c -> (forall x, b <= x < c -> f x = 0%Qc) -> qsum f (zrange a c) = qsum f (zrange a b).
Proof.
  intros H Hf. rewrite (zrange_split a b c) by auto. rewrite qsum_app, (qsum_zero f (zrange b c)); [ring|].
  intros x Hx. apply in_zrange in Hx. auto.
Qed.
Lemma qsum_antisym (f : Z -> Z -> Qc) l : (forall x y, In x l -> In y l -> f x y = (- f y x)%Qc) -> qsum (fun x => qsum (f x) l) l = 0%Qc.
Proof.
  intros H. apply Qc_self_opp. rewrite qsum_swap at 1. rewrite <- qsum_opp. apply qsum_ext. intros x Hx. rewrite <- qsum_opp. apply qsum_ext.
  intros y Hy. apply H; auto.
Qed.
Lemma qsum_zshift (f : Z -> Qc) a b c : qsum (fun x => f (c + x)) (zrange a b) = qsum f (zrange (a + c) (b + c)).
Proof. rewrite zrange_shift, qsum_map. apply qsum_ext. intros x _. f_equal. lia. Qed.

Lemma FL_strip N G : anti m G -> forall l x u p, p <= N -> length (u ++ x :: l) = m -> sdecb (x :: l) = true ->
  FL N G u (x :: l) p = qsum (fun b => ST G (u ++ [x + b]) x l (p - b)) (zrange 0 (N + 1)).
Proof.
  intros HG. induction l as [|y l IH]; intros x u p Hp Hl Hs.
  - rewrite FL_cons. apply qsum_ext. intros b _. unfold FL. cbn [length alll ST]. rewrite qsum_cons, qsum_nil. cbn [zsum fold_right vadd].
    rewrite app_nil_r. rewrite (Z.eqb_sym (p - b)). destruct (_ =? _); ring.
  - rewrite sdecb_cons in Hs. apply andb_true_iff in Hs. destruct Hs as [Hxy Hs]. apply Z.ltb_lt in Hxy.
    rewrite FL_cons.
    (* the terms with y + b' >= x cancel *)
    transitivity (qsum (fun b => qsum (fun b' => ST G ((u ++ [x + b]) ++ [y + b']) y l (p - b - b')) (zrange 0 (N + 1))) (zrange 0 (N + 1))).
    { apply qsum_ext. intros b Hb. apply in_zrange in Hb. apply IH; auto; [lia|]. rewrite <- Hl, <- app_assoc, !app_length. reflexivity. }
    set (f := fun b b' => ST G ((u ++ [x + b]) ++ [y + b']) y l (p - b - b')).
    assert (HF : forall b b', 0 <= b -> N + 1 <= b' -> f b b' = 0%Qc) by (intros b b' H1 H2; apply ST_neg; lia).
    assert (HN : forall b, In b (zrange 0 (N + 1)) ->
      qsum (f b) (zrange 0 (N + 1)) = ST G (u ++ [x + b]) x (y :: l) (p - b) +' qsum (fun c => f b (x - y + c)) (zrange 0 (N + 1))).
    { intros b Hb. apply in_zrange in Hb.
      rewrite (qsum_zshift (f b) 0 (N + 1) (x - y)). cbn [ST].
      replace (qsum (fun z => ST G ((u ++ [x + b]) ++ [z]) y l (p - b - (z - y))) (zrange y x)) with (qsum (f b) (zrange 0 (x - y))).
      2:{ replace (zrange y x) with (zrange (0 + y) (x - y + y)) by (f_equal; lia). rewrite <- qsum_zshift. apply qsum_ext. intros z _. unfold f. f_equal. lia. }
      rewrite <- (qsum_zrange_zero (f b) 0 (N + 1) (N + 1 + (x - y))) by (try lia; intros; apply HF; lia).
      rewrite (zrange_split 0 (x - y) (N + 1 + (x - y))) by lia. rewrite qsum_app. reflexivity. }
    change (qsum (fun b => qsum (f b) (zrange 0 (N + 1))) (zrange 0 (N + 1)) = qsum (fun b => ST G (u ++ [x + b]) x (y :: l) (p - b)) (zrange 0 (N + 1))).
    rewrite (qsum_ext _ _ _ HN), qsum_add.
    rewrite (qsum_antisym (fun b c => f b (x - y + c))); [ring|].
    intros b c _ _. unfold f. rewrite <- !app_assoc. cbn [app].
    replace (y + (x - y + c)) with (x + c) by lia. replace (y + (x - y + b)) with (x + b) by lia.
    replace (p - c - (x - y + b)) with (p - b - (x - y + c)) by lia. apply (ST_anti G (length u)); auto.
    rewrite <- Hl, !app_length. reflexivity.
Qed.

(** [h_p G] at a strictly decreasing vector is the sum over horizontal strips *)
Lemma hsum_strip p G x l : anti m G -> 0 <= p -> length (x :: l) = m -> sdecb (x :: l) = true ->
  hsum p G (x :: l) = ST G [] (x + p + 1) (x :: l) p.
Proof.
  intros HG Hp Hl Hs. unfold hsum. rewrite <- Hl.
  change (FL p G [] (x :: l) p = ST G [] (x + p + 1) (x :: l) p).
  rewrite FL_strip by (auto; lia). cbn [ST app].
  replace (zrange x (x + p + 1)) with (zrange (0 + x) (p + 1 + x)) by (f_equal; lia). rewrite <- qsum_zshift.
  apply qsum_ext. intros b _. f_equal. lia.
Qed.
End S.
