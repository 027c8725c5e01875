(** The formulas of Frobenius and of Schur satisfy the recurrence of the branching
    rule: the value at a list is the sum of the values at the lists with one entry
    lowered by one. *)

From Coq Require Import ZArith List Lia QArith Qcanon Field Bool.
From Verif Require Import Py Transfer PartialFrac Spec SpecDegree.
Import ListNotations.
Open Scope Qc_scope.

Definition zq (z : Z) : Qc := Q2Qc (inject_Z z).
Lemma zq_add a b : zq (a + b) = zq a + zq b.
Proof. unfold zq. rewrite inject_Z_plus. apply Qc_is_canon. unfold Qcplus, Q2Qc, this. rewrite !Qred_correct. reflexivity. Qed.
Lemma zq_mul a b : zq (a * b) = zq a * zq b.
Proof. unfold zq. rewrite inject_Z_mult. apply Qc_is_canon. unfold Qcmult, Q2Qc, this. rewrite !Qred_correct. reflexivity. Qed.
Lemma zq_0 : zq 0 = 0. Proof. apply Qc_is_canon. reflexivity. Qed.
Lemma zq_1 : zq 1 = 1. Proof. apply Qc_is_canon. reflexivity. Qed.
Lemma zq_opp a : zq (- a) = - zq a.
Proof. assert (H : zq (- a) + zq a = 0) by (rewrite <- zq_add, Z.add_opp_diag_l; apply zq_0). replace (zq (- a)) with (zq (- a) + zq a - zq a) by ring. rewrite H. ring. Qed.
Lemma zq_sub a b : zq (a - b) = zq a - zq b.
Proof. unfold Z.sub. rewrite zq_add, zq_opp. reflexivity. Qed.
Lemma zq_inj a b : zq a = zq b -> a = b.
Proof.
  intros H. unfold zq in H. apply (f_equal this) in H. cbn [this Q2Qc] in H. apply (f_equal (fun x => Qeq_bool x (Qred (inject_Z b)))) in H.
  assert (H2 : Qred (inject_Z a) == Qred (inject_Z b)). { apply Qeq_bool_iff. rewrite H. apply Qeq_bool_iff. reflexivity. }
  rewrite !Qred_correct in H2. apply inject_Z_injective; auto.
Qed.
Lemma zq_ne a : a <> 0%Z -> zq a <> 0.
Proof. intros H E. apply H, zq_inj. rewrite E, zq_0. reflexivity. Qed.

(** ** factorials *)
Lemma product_app a b : product (a ++ b) = (product a * product b)%Z.
Proof. induction a as [|x a IH]; [cbn [app]; change (product []) with 1%Z; ring|]. cbn [app]. change (product (?x :: ?l)) with (x * product l)%Z. rewrite IH. ring. Qed.
Lemma factorial_step x : (1 <= x)%Z -> factorial x = (x * factorial (x - 1))%Z.
Proof.
  intros H. unfold factorial. replace (Z.to_nat x) with (S (Z.to_nat (x - 1))) by lia. rewrite seq_S, map_app.
  change (fold_right Z.mul 1%Z) with product. rewrite product_app. cbn [map]. change (product [?a]) with (a * 1)%Z. replace (Z.of_nat (1 + Z.to_nat (x - 1))) with x by lia. ring.
Qed.
Lemma product_pos l : (forall x, In x l -> (1 <= x)%Z) -> (1 <= product l)%Z.
Proof.
  induction l as [|x l IH]; intros H; [change (product []) with 1%Z; lia|]. change (product (x :: l)) with (x * product l)%Z.
  specialize (IH ltac:(intros; apply H; simpl; auto)). specialize (H x (or_introl eq_refl)). nia.
Qed.
Lemma factorial_pos x : (1 <= factorial x)%Z.
Proof. apply product_pos. intros y Hy. apply in_map_iff in Hy. destruct Hy as (j & <- & Hj). apply in_seq in Hj. lia. Qed.

(** ** products over pairs *)
Definition qprod (l : list Qc) : Qc := fold_right Qcmult 1 l.
Fixpoint Kp (h : Z -> Z -> Qc) (l : list Z) : Qc := match l with [] => 1 | x :: l' => qprod (map (h x) l') * Kp h l' end.
Lemma qprod_app a b : qprod (a ++ b) = qprod a * qprod b.
Proof. induction a as [|x a IH]; [cbn [app]; change (qprod []) with 1; ring|]. cbn [app qprod fold_right]. fold (qprod (a ++ b)) (qprod a). rewrite IH. ring. Qed.
Lemma qprod_zq l : qprod (map zq l) = zq (product l).
Proof. induction l as [|x l IH]; [symmetry; apply zq_1|]. cbn [map qprod fold_right]. fold (qprod (map zq l)). rewrite IH. symmetry. apply zq_mul. Qed.
Lemma Kp_zq f l : Kp (fun x y => zq (f x y)) l = zq (over_pairs f l).
Proof. induction l as [|x l IH]; [symmetry; apply zq_1|]. cbn [Kp over_pairs]. rewrite IH, zq_mul, <- qprod_zq, map_map. reflexivity. Qed.
Lemma Kp_div f g l : (forall x y, In x l -> In y l -> g x y <> 0) -> Kp (fun x y => f x y / g x y) l * Kp g l = Kp f l.
Proof.
  assert (Q : forall x l, (forall y, In y l -> g x y <> 0) -> qprod (map (fun y => f x y / g x y) l) * qprod (map (g x) l) = qprod (map (f x) l)).
  { clear. intros x l. induction l as [|y l IH]; intros H; [cbn [map app Kp qprod fold_right prodl]; ring|]. cbn [map qprod fold_right].
    fold (qprod (map (fun y => f x y / g x y) l)) (qprod (map (g x) l)) (qprod (map (f x) l)). rewrite <- IH by (intros; apply H; simpl; auto). field. apply H. simpl. auto. }
  induction l as [|x l IH]; intros H; [cbn [map app Kp qprod fold_right prodl]; ring|]. cbn [Kp]. rewrite <- IH by (intros; apply H; simpl; auto). rewrite <- (Q x l) by (intros; apply H; simpl; auto). ring.
Qed.

Section K.
Variables (u w : Z -> Qc) (h : Z -> Z -> Qc).
(** one entry of the list is changed *)
Lemma Kp_change y y' b : forall a, ~ In y (a ++ b) ->
  (forall z, In z a -> h z y' = h z y * fac u w (u y) z) -> (forall z, In z b -> h y' z = h y z * fac u w (u y) z) ->
  Kp h (a ++ y' :: b) = Kp h (a ++ y :: b) * cc u w (a ++ y :: b) y.
Proof.
  induction a as [|z a IH]; intros Hy Ha Hb.
  - cbn [app Kp] in *. rewrite cc_self by auto.
    assert (E : qprod (map (h y') b) = qprod (map (h y) b) * prodl u w (u y) b); [|rewrite E; ring].
    clear -Hb. induction b as [|z b IH]; [cbn [map app Kp qprod fold_right prodl]; ring|]. cbn [map qprod fold_right prodl].
    fold (qprod (map (h y') b)) (qprod (map (h y) b)) (prodl u w (u y) b). rewrite IH by (intros; apply Hb; simpl; auto). rewrite Hb by (simpl; auto). ring.
  - cbn [app Kp]. rewrite cc_other by (intros ->; apply Hy; simpl; auto). rewrite IH; auto.
    + rewrite !map_app, !qprod_app. cbn [map qprod fold_right]. fold (qprod (map (h z) b)). rewrite (Ha z) by (simpl; auto). ring.
    + intros H. apply Hy. simpl. auto.
    + intros t Ht. apply Ha. simpl. auto.
Qed.
End K.

(** ** lowering one entry *)
Definition dec (i : nat) (l : list Z) : list Z := map (fun j => (nth j l 0 - (if Nat.eqb j i then 1 else 0))%Z) (seq 0 (length l)).
Lemma dec_length i l : length (dec i l) = length l.
Proof. unfold dec. rewrite map_length, seq_length. reflexivity. Qed.
Lemma nth_dec i l j : (j < length l)%nat -> nth j (dec i l) 0%Z = (nth j l 0 - (if Nat.eqb j i then 1 else 0))%Z.
Proof.
  intros H. unfold dec. set (f := fun j => _). rewrite (nth_indep _ 0%Z (f O)) by (rewrite map_length, seq_length; auto).
  rewrite map_nth, seq_nth by auto. reflexivity.
Qed.
Lemma dec_mid a y b : dec (length a) (a ++ y :: b) = a ++ (y - 1)%Z :: b.
Proof.
  apply nth_ext with (d := 0%Z) (d' := 0%Z); [rewrite dec_length, !app_length; reflexivity|]. intros j Hj. rewrite dec_length in Hj. rewrite nth_dec by auto.
  destruct (Nat.lt_total j (length a)) as [H|[->|H]].
  - rewrite !app_nth1 by auto. destruct (Nat.eqb_spec j (length a)); lia.
  - rewrite Nat.eqb_refl, !nth_middle. reflexivity.
  - rewrite !app_nth2 by lia. destruct (Nat.eqb_spec j (length a)); [lia|]. destruct (j - length a)%nat eqn:E; [lia|]. cbn [nth]. lia.
Qed.
Lemma list_mid (l : list Z) i : (i < length l)%nat -> exists a b, l = a ++ nth i l 0%Z :: b /\ length a = i.
Proof. intros H. destruct (nth_split l 0%Z H) as (a & b & E & L). eauto. Qed.
Lemma qsum_index (g : Z -> Qc) l : qsum (fun i => g (nth i l 0%Z)) (seq 0 (length l)) = qsum g l.
Proof.
  induction l as [|x l IH]; [reflexivity|]. cbn [length seq]. rewrite !qsum_cons, <- seq_shift, qsum_map. cbn [nth]. rewrite <- IH. reflexivity.
Qed.

(** ** Frobenius *)
Definition facts (l : list Z) : Qc := zq (product (map factorial l)).
Lemma facts_ne l : facts l <> 0.
Proof. apply zq_ne. pose proof (product_pos (map factorial l)) as H. assert (forall x, In x (map factorial l) -> (1 <= x)%Z) as F by (intros x Hx; apply in_map_iff in Hx; destruct Hx as (y & <- & _); apply factorial_pos). specialize (H F). lia. Qed.
Lemma facts_low a y b : (1 <= y)%Z -> facts (a ++ y :: b) = zq y * facts (a ++ (y - 1)%Z :: b).
Proof.
  intros H. unfold facts. rewrite !map_app, !product_app. cbn [map]. change (product (?x :: ?l)) with (x * product l)%Z.
  rewrite (factorial_step y) by auto. rewrite <- zq_mul. f_equal. ring.
Qed.
Definition hA (x y : Z) : Qc := zq (x - y).
Definition tri (n : nat) : Z := fold_right Z.add 0%Z (map Z.of_nat (seq 0 n)).
Lemma tri_S n : tri (S n) = (tri n + Z.of_nat n)%Z.
Proof.
  unfold tri. rewrite seq_S, map_app. cbn [map]. induction (map Z.of_nat (seq 0 n)) as [|x l IH]; [cbn; lia|]. cbn [app fold_right]. rewrite IH. lia.
Qed.
Definition zsum' (l : list Z) : Z := fold_right Z.add 0%Z l.
(** the value for a list with N + tri (length l) as its sum *)
Definition FA (N : Z) (l : list Z) : Qc := zq (factorial N) * Kp hA l / facts l.

Lemma pairsum_one l : pairsum (fun _ => 1) l = zq (tri (length l)).
Proof.
  assert (Q : forall l : list Z, qsum (fun _ => 1) l = zq (Z.of_nat (length l))).
  { clear. induction l as [|x l IH]; [symmetry; apply zq_0|]. rewrite qsum_cons, IH. cbn [length]. rewrite Nat2Z.inj_succ, <- zq_1, <- zq_add. f_equal. lia. }
  induction l as [|x l IH]; [symmetry; apply zq_0|]. cbn [pairsum length]. rewrite IH, Q, tri_S, zq_add. ring.
Qed.
Lemma qsum_zq l : qsum zq l = zq (zsum' l).
Proof. induction l as [|x l IH]; [symmetry; apply zq_0|]. rewrite qsum_cons, IH. cbn [zsum' fold_right]. symmetry. apply zq_add. Qed.
Lemma apart_zq l : NoDup l -> apart zq l.
Proof. intros H. split; auto. intros x y _ _ N E. apply N, zq_inj, E. Qed.

(** the term of one entry *)
Lemma FA_term N l i : (1 <= N)%Z -> NoDup l -> (i < length l)%nat -> (1 <= nth i l 0)%Z ->
  FA (N - 1) (dec i l) = FA N l / zq N * (zq (nth i l 0%Z) * cc zq (fun _ => 1) l (nth i l 0%Z)).
Proof.
  intros HN Hd Hi Hy. destruct (list_mid l i Hi) as (a & b & El & Ea). set (y := nth i l 0%Z) in *. clearbody y. subst l i. rewrite dec_mid.
  assert (Hin : ~ In y (a ++ b)) by (apply NoDup_remove_2; auto). unfold FA. rewrite (facts_low a y b) by auto.
  rewrite (Kp_change zq (fun _ => 1) hA y (y - 1) b a Hin).
  - rewrite (factorial_step N), zq_mul by auto. pose proof (facts_ne (a ++ (y - 1)%Z :: b)). pose proof (zq_ne N ltac:(lia)). pose proof (zq_ne y ltac:(lia)). field. auto.
  - intros z Hz. unfold hA, fac. assert (z <> y) by (intros ->; apply Hin, in_or_app; auto).
    assert (D : zq y - zq z <> 0) by (rewrite <- zq_sub; apply zq_ne; lia). rewrite !zq_sub, zq_1. field. auto.
  - intros z Hz. unfold hA, fac. assert (z <> y) by (intros ->; apply Hin, in_or_app; auto).
    assert (D : zq y - zq z <> 0) by (rewrite <- zq_sub; apply zq_ne; lia). rewrite !zq_sub, zq_1. field. auto.
Qed.
(** ... vanishes if the lowered list has a repeated entry *)
Lemma cc_zero u w l x y : In y l -> y <> x -> fac u w (u x) y = 0 -> cc u w l x = 0.
Proof.
  intros H N F. induction l as [|z l IH]; [destruct H|]. destruct H as [->|H].
  - rewrite cc_other by auto. rewrite F. ring.
  - specialize (IH H). cbn [cc fold_right]. fold (cc u w l x). rewrite IH. destruct (Z.eq_dec x z); ring.
Qed.
Lemma FA_zero l y : In (y - 1)%Z l -> cc zq (fun _ => 1) l y = 0.
Proof. intros H. apply (cc_zero zq (fun _ => 1) l y (y - 1)); auto; [lia|]. unfold fac. rewrite zq_sub, zq_1. replace (zq y - (zq y - 1)) with 1 by ring. apply Qc_is_canon. reflexivity. Qed.
Lemma FA_sum N l : (1 <= N)%Z -> NoDup l -> zsum' l = (N + tri (length l))%Z ->
  qsum (fun i => FA N l / zq N * (zq (nth i l 0%Z) * cc zq (fun _ => 1) l (nth i l 0%Z))) (seq 0 (length l)) = FA N l.
Proof.
  intros HN Hd Hs. rewrite (qsum_index (fun y => FA N l / zq N * (zq y * cc zq (fun _ => 1) l y)) l), qsum_mul.
  pose proof (sum_wu zq (fun _ => 1) l (apart_zq l Hd)) as E. rewrite pairsum_one in E.
  rewrite (qsum_ext _ (fun x => 1 * zq x * cc zq (fun _ => 1) l x)) by (intros; ring). rewrite E.
  rewrite (qsum_ext (fun x => 1 * zq x) zq) by (intros; ring). rewrite qsum_zq, Hs, zq_add. field. apply zq_ne. lia.
Qed.

(** ** Schur *)
Definition uG (y : Z) : Qc := zq (y * (y - 1)).
Definition wG (y : Z) : Qc := zq (2 * y).
Definition hG (x y : Z) : Qc := zq (x - y) / zq (x + y).
Definition FG (N : Z) (l : list Z) : Qc := zq (factorial N) * Kp hG l / facts l.
Lemma apart_uG l : NoDup l -> (forall x, In x l -> (1 <= x)%Z) -> apart uG l.
Proof. intros H P. split; auto. intros x y Hx Hy N E. apply zq_inj in E. apply P in Hx, Hy. apply N. nia. Qed.
Lemma fac_G y z : (1 <= y)%Z -> (1 <= z)%Z -> y <> z ->
  fac uG wG (uG y) z = zq (y - z - 1) * zq (y + z) / (zq (y - z) * zq (y + z - 1)).
Proof.
  intros Hy Hz H. unfold fac, uG, wG.
  assert (D : zq (y * (y - 1)) - zq (z * (z - 1)) = zq (y - z) * zq (y + z - 1)) by (rewrite <- zq_sub, <- zq_mul; f_equal; ring).
  rewrite D. pose proof (zq_ne (y - z) ltac:(lia)). pose proof (zq_ne (y + z - 1) ltac:(lia)).
  assert (E : zq (y - z - 1) * zq (y + z) = zq (y - z) * zq (y + z - 1) - zq (2 * z)) by (rewrite <- !zq_mul, <- zq_sub; f_equal; ring).
  rewrite E. field. auto.
Qed.
Lemma FG_term N l i : (1 <= N)%Z -> NoDup l -> (forall x, In x l -> (1 <= x)%Z) -> (i < length l)%nat ->
  FG (N - 1) (dec i l) = FG N l / zq N * (zq (nth i l 0%Z) * cc uG wG l (nth i l 0%Z)).
Proof.
  intros HN Hd Hp Hi. destruct (list_mid l i Hi) as (a & b & El & Ea). assert (Hy : (1 <= nth i l 0)%Z) by (apply Hp, nth_In; auto).
  set (y := nth i l 0%Z) in *. clearbody y. subst l i. rewrite dec_mid.
  assert (Hin : ~ In y (a ++ b)) by (apply NoDup_remove_2; auto). unfold FG. rewrite (facts_low a y b) by auto.
  rewrite (Kp_change uG wG hG y (y - 1) b a Hin).
  - rewrite (factorial_step N), zq_mul by auto. pose proof (facts_ne (a ++ (y - 1)%Z :: b)). pose proof (zq_ne N ltac:(lia)). pose proof (zq_ne y ltac:(lia)). field. auto.
  - intros z Hz. assert (N0 : z <> y) by (intros ->; apply Hin, in_or_app; auto). assert (1 <= z)%Z by (apply Hp, in_or_app; auto).
    rewrite fac_G by auto. unfold hG. replace (z - (y - 1))%Z with (- (y - z - 1))%Z by ring. replace (z + (y - 1))%Z with (y + z - 1)%Z by ring. replace (z + y)%Z with (y + z)%Z by ring.
    replace (z - y)%Z with (- (y - z))%Z by ring. rewrite !zq_opp. pose proof (zq_ne (y - z) ltac:(lia)). pose proof (zq_ne (y + z - 1) ltac:(lia)). pose proof (zq_ne (y + z) ltac:(lia)). field. auto.
  - intros z Hz. assert (N0 : z <> y) by (intros ->; apply Hin, in_or_app; auto). assert (1 <= z)%Z by (apply Hp, in_or_app; simpl; auto).
    rewrite fac_G by auto. unfold hG. replace (y - 1 - z)%Z with (y - z - 1)%Z by ring. replace (y - 1 + z)%Z with (y + z - 1)%Z by ring.
    pose proof (zq_ne (y - z) ltac:(lia)). pose proof (zq_ne (y + z - 1) ltac:(lia)). pose proof (zq_ne (y + z) ltac:(lia)). field. auto.
Qed.
Lemma FG_zero l y : (2 <= y)%Z -> In (y - 1)%Z l -> cc uG wG l y = 0.
Proof.
  intros Hy H. apply (cc_zero uG wG l y (y - 1)); auto; [lia|]. rewrite fac_G by lia. replace (y - (y - 1) - 1)%Z with 0%Z by ring. rewrite zq_0.
  pose proof (zq_ne (y - (y - 1)) ltac:(lia)). pose proof (zq_ne (y + (y - 1) - 1) ltac:(lia)). field. auto.
Qed.
Lemma FG_sum N l : (1 <= N)%Z -> NoDup l -> (forall x, In x l -> (1 <= x)%Z) -> zsum' l = N ->
  qsum (fun i => FG N l / zq N * (zq (nth i l 0%Z) * cc uG wG l (nth i l 0%Z))) (seq 0 (length l)) = FG N l.
Proof.
  intros HN Hd Hp Hs. rewrite (qsum_index (fun y => FG N l / zq N * (zq y * cc uG wG l y)) l), qsum_mul.
  pose proof (sum_w uG wG l (apart_uG l Hd Hp)) as E.
  assert (E2 : qsum (fun x => zq x * cc uG wG l x) l = zq N).
  { assert (E3 : zq 2 * qsum (fun x => zq x * cc uG wG l x) l = zq 2 * zq N).
    { rewrite <- qsum_mul. transitivity (qsum (fun x => wG x * cc uG wG l x) l); [apply qsum_ext; intros x _; unfold wG; rewrite zq_mul; ring|]. rewrite E.
      transitivity (qsum (fun x => zq 2 * zq x) l); [apply qsum_ext; intros x _; apply zq_mul|]. rewrite qsum_mul, qsum_zq, Hs. reflexivity. }
    pose proof (zq_ne 2 ltac:(lia)) as H2. replace (qsum _ l) with (zq 2 * qsum (fun x => zq x * cc uG wG l x) l / zq 2) by (field; auto). rewrite E3. field. auto. }
  rewrite E2. field. apply zq_ne. lia.
Qed.
(** a last entry 0 can be dropped *)
Lemma FG_last N l : (forall x, In x l -> (1 <= x)%Z) -> FG N (l ++ [0%Z]) = FG N l.
Proof.
  intros Hp. unfold FG. f_equal; [f_equal|].
  - induction l as [|x l IH]; [cbn [map app Kp qprod fold_right prodl]; ring|]. cbn [app Kp]. rewrite IH by (intros; apply Hp; simpl; auto). rewrite map_app, qprod_app. cbn [map qprod fold_right].
    unfold hG at 2. rewrite Z.sub_0_r, Z.add_0_r. specialize (Hp x (or_introl eq_refl)). pose proof (zq_ne x ltac:(lia)). field. auto.
  - unfold facts. rewrite map_app, product_app. cbn [map]. change (product [factorial 0]) with 1%Z. rewrite Z.mul_1_r. reflexivity.
Qed.
