(** CPython's iteration order for the set of the integers 1..n. *)

From Coq Require Import ZArith List Lia Bool.
From Verif Require Import Py PyFacts.
Import ListNotations.
Open Scope Z_scope.

(** a table of size 2^a that holds 1, ..., j in the slots of these numbers *)
Definition rtab (a : Z) (j : nat) : tbl :=
  None :: map Some (zrange 1 (Z.of_nat j + 1)) ++ repz None (2 ^ a - 1 - Z.of_nat j).

Lemma rtab_len a j : Z.of_nat j < 2 ^ a -> zlen (rtab a j) = 2 ^ a.
Proof.
  intros H. unfold rtab, zlen, repz. cbn [length]. rewrite app_length, map_length, length_zrange, repeat_length. lia.
Qed.
Lemma flat_none (c : nat) : flat_map (fun o : option Z => match o with Some k => [k] | None => [] end) (repeat None c) = [].
Proof. induction c; simpl; auto. Qed.
Lemma flat_some l : flat_map (fun o : option Z => match o with Some k => [k] | None => [] end) (map Some l) = l.
Proof. induction l as [|x l IH]; simpl; [auto|rewrite IH; auto]. Qed.
Lemma rtab_list a j : tbl_list (rtab a j) = zrange 1 (Z.of_nat j + 1).
Proof. unfold tbl_list, rtab. cbn [flat_map app]. rewrite flat_map_app, flat_some. unfold repz. rewrite flat_none, app_nil_r. reflexivity. Qed.
Lemma upd_app {A} (x : list A) y t v : upd (x ++ y :: t) (length x) v = x ++ v :: t.
Proof. induction x as [|z x IH]; simpl; [auto|rewrite IH; auto]. Qed.

Lemma rtab_split a j : Z.of_nat j + 1 < 2 ^ a -> rtab a j = (None :: map Some (zrange 1 (Z.of_nat j + 1))) ++ None :: repz None (2 ^ a - 2 - Z.of_nat j).
Proof.
  intros H. unfold rtab, repz. rewrite <- app_comm_cons. do 2 f_equal.
  replace (Z.to_nat (2 ^ a - 1 - Z.of_nat j)) with (S (Z.to_nat (2 ^ a - 2 - Z.of_nat j))) by lia. reflexivity.
Qed.
Lemma rtab_put a j : 0 <= a -> Z.of_nat j + 1 < 2 ^ a -> tbl_put (rtab a j) (Z.of_nat (S j)) = rtab a (S j).
Proof.
  intros Ha H. unfold tbl_put. rewrite rtab_len by lia.
  assert (EL : Z.land (Z.of_nat (S j)) (2 ^ a - 1) = Z.of_nat (S j)).
  { replace (2 ^ a - 1) with (Z.ones a) by (rewrite Z.ones_equiv; lia). rewrite Z.land_ones by lia. apply Z.mod_small. lia. }
  rewrite EL. replace (length (rtab a j) + 100)%nat with (S (length (rtab a j) + 99)) by lia. cbn [probe].
  set (X := None :: map Some (zrange 1 (Z.of_nat j + 1))).
  assert (LX : length X = S j) by (unfold X; cbn [length]; rewrite map_length, length_zrange; lia).
  assert (EN : nth_error (rtab a j) (Z.to_nat (Z.of_nat (S j))) = Some None).
  { rewrite rtab_split by auto. fold X. rewrite Nat2Z.id, nth_error_app2 by (rewrite LX; apply Nat.le_refl). rewrite LX, Nat.sub_diag. reflexivity. }
  set (cnt := if _ <=? _ then _ else _).
  assert (EP : probe_linear (rtab a j) (Z.of_nat (S j)) (Z.of_nat (S j)) cnt = Some (Z.of_nat (S j))) by (destruct cnt; cbn [probe_linear]; rewrite EN; reflexivity).
  rewrite EP, Nat2Z.id. rewrite rtab_split by auto. fold X. rewrite <- LX at 1. rewrite upd_app. unfold rtab, X.
  rewrite <- app_comm_cons. f_equal. rewrite (zrange_snoc 1 (Z.of_nat (S j) + 1)) by lia. replace (Z.of_nat (S j) + 1 - 1) with (Z.of_nat j + 1) by lia.
  rewrite map_app, <- app_assoc. cbn [map app]. f_equal. f_equal; [f_equal; lia|]. f_equal. lia.
Qed.
Lemma rtab_fill b j : 0 <= b -> Z.of_nat j < 2 ^ b -> fold_left tbl_put (zrange 1 (Z.of_nat j + 1)) (rtab b 0) = rtab b j.
Proof.
  intros Hb. induction j as [|j IH]; intros H; [reflexivity|].
  rewrite (zrange_snoc 1 (Z.of_nat (S j) + 1)) by lia. replace (Z.of_nat (S j) + 1 - 1) with (Z.of_nat j + 1) by lia.
  rewrite fold_left_app, IH by lia. cbn [fold_left]. replace (Z.of_nat j + 1) with (Z.of_nat (S j)) by lia. apply rtab_put; lia.
Qed.
Lemma grow_ok f : forall e m, 0 <= e -> m < 2 ^ (e + Z.of_nat f) -> exists b, e <= b /\ grow_size f (2 ^ e) m = 2 ^ b /\ m < 2 ^ b.
Proof.
  induction f as [|f IH]; intros e m He Hm.
  - exists e. split; [lia|]. split; auto. rewrite Z.add_0_r in Hm. auto.
  - cbn [grow_size]. destruct (Z.leb_spec (2 ^ e) m) as [H|H]; [|exists e; repeat split; auto; lia].
    replace (2 * 2 ^ e) with (2 ^ (e + 1)) by (rewrite Z.pow_add_r by lia; lia).
    destruct (IH (e + 1) m) as (b & B1 & B2 & B3); [lia|replace (e + 1 + Z.of_nat f) with (e + Z.of_nat (S f)) by lia; auto|].
    exists b. split; [lia|auto].
Qed.
Lemma rtab_none b : 0 <= b -> repz None (2 ^ b) = rtab b 0.
Proof.
  intros Hb. unfold rtab, repz. change (zrange 1 (Z.of_nat 0 + 1)) with (@nil Z). cbn [map app].
  replace (Z.to_nat (2 ^ b)) with (S (Z.to_nat (2 ^ b - 1 - Z.of_nat 0))) by (pose proof (Z.pow_pos_nonneg 2 b); lia). reflexivity.
Qed.
Lemma set_range j : exists a, 3 <= a /\ 5 * Z.of_nat j < 3 * (2 ^ a - 1) /\ set_of (zrange 1 (Z.of_nat j + 1)) = rtab a j.
Proof.
  induction j as [|j (a & Ha & H5 & E)].
  - exists 3. split; [lia|]. split; [simpl; lia|reflexivity].
  - rewrite (zrange_snoc 1 (Z.of_nat (S j) + 1)) by lia. replace (Z.of_nat (S j) + 1 - 1) with (Z.of_nat j + 1) by lia.
    unfold set_of in *. rewrite fold_left_app, E. cbn [fold_left]. replace (Z.of_nat j + 1) with (Z.of_nat (S j)) by lia.
    unfold set_add. rewrite rtab_list.
    assert (EX : existsb (Z.eqb (Z.of_nat (S j))) (zrange 1 (Z.of_nat j + 1)) = false).
    { apply not_true_is_false. intros X. apply existsb_exists in X. destruct X as (x & Hx & Ex). apply in_zrange in Hx. apply Z.eqb_eq in Ex. lia. }
    rewrite EX. clear EX. assert (P8 : 2 ^ 3 <= 2 ^ a) by (apply Z.pow_le_mono_r; lia). change (2 ^ 3) with 8 in P8.
    rewrite rtab_put by lia. rewrite rtab_list, zlen_zrange, rtab_len by lia.
    set (fill := Z.max 0 (Z.of_nat (S j) + 1 - 1)). assert (Ef : fill = Z.of_nat (S j)) by lia.
    destruct (Z.ltb_spec (fill * 5) ((2 ^ a - 1) * 3)) as [H|H]; [exists a; split; [auto|split; [rewrite Ef in H; lia|auto]]|].
    set (mu := if 50000 <? fill then fill * 2 else fill * 4).
    assert (Hmu : 2 * fill <= mu) by (unfold mu; destruct (_ <? _); lia).
    destruct (grow_ok (Z.to_nat (Z.log2 mu + 1)) 3 mu ltac:(lia)) as (b & B1 & B2 & B3).
    { pose proof (Z.log2_spec mu ltac:(lia)) as (_ & L). pose proof (Z.log2_nonneg mu). rewrite Z2Nat.id by lia.
      eapply Z.lt_le_trans; [exact L|]. apply Z.pow_le_mono_r; lia. }
    change (2 ^ 3) with 8 in B2. rewrite B2, rtab_none by lia. exists b. split; auto. split; [lia|].
    replace (Z.of_nat j + 1) with (Z.of_nat (S j)) in * by lia. apply rtab_fill; lia.
Qed.
Lemma set_range_list n : 0 <= n -> tbl_list (set_of (zrange 1 (n + 1))) = zrange 1 (n + 1).
Proof.
  intros Hn. destruct (set_range (Z.to_nat n)) as (a & _ & _ & E). rewrite Z2Nat.id in E by auto. rewrite E, rtab_list, Z2Nat.id by auto. reflexivity.
Qed.
