(** Facts about the Python primitives of Py.v. *)

From Coq Require Import ZArith List Lia Bool Permutation Sorted.
From Verif Require Import Py OrderFacts.
Import ListNotations.
Open Scope Z_scope.

Lemma zlen_nil {A} : zlen (@nil A) = 0.
Proof. reflexivity. Qed.
Lemma zlen_cons {A} (x : A) l : zlen (x :: l) = zlen l + 1.
Proof. unfold zlen. simpl length. lia. Qed.
Lemma zlen_one {A} (x : A) : zlen [x] = 0 + 1.
Proof. reflexivity. Qed.
Lemma zlen_app {A} (a b : list A) : zlen (a ++ b) = zlen a + zlen b.
Proof. unfold zlen. rewrite app_length. lia. Qed.
Lemma zlen_nonneg {A} (l : list A) : 0 <= zlen l.
Proof. unfold zlen. lia. Qed.
Lemma zlen_map {A B} (f : A -> B) l : zlen (map f l) = zlen l.
Proof. unfold zlen. rewrite map_length. auto. Qed.
Lemma zlen_repz {A} (v : A) c : 0 <= c -> zlen (repz v c) = c.
Proof. intros. unfold zlen, repz. rewrite repeat_length. lia. Qed.
Lemma zlen_repz_max {A} (v : A) c : zlen (repz v c) = Z.max 0 c.
Proof. intros. unfold zlen, repz. rewrite repeat_length. lia. Qed.
Lemma zlen_rev {A} (l : list A) : zlen (rev l) = zlen l.
Proof. unfold zlen. rewrite rev_length. auto. Qed.
Lemma zlen_0 {A} (l : list A) : zlen l = 0 -> l = [].
Proof. destruct l; auto. rewrite zlen_cons. pose proof (zlen_nonneg l). lia. Qed.
Lemma repz_nonpos {A} (v : A) c : c <= 0 -> repz v c = [].
Proof. intros. unfold repz. replace (Z.to_nat c) with 0%nat by lia. auto. Qed.

Lemma py_idx_in len i : 0 <= i < len -> py_idx len i = Some (Z.to_nat i).
Proof.
  intros H. unfold py_idx.
  destruct (i <? 0) eqn:E; [lia|].
  destruct (0 <=? i) eqn:E1; [|lia]. destruct (i <? len) eqn:E2; [|lia]. auto.
Qed.
Lemma py_idx_neg len i : - len <= i < 0 -> py_idx len i = Some (Z.to_nat (i + len)).
Proof.
  intros H. unfold py_idx.
  destruct (i <? 0) eqn:E; [|lia].
  destruct (0 <=? i + len) eqn:E1; [|lia]. destruct (i + len <? len) eqn:E2; [|lia]. auto.
Qed.

Lemma py_get_in {A} (l : list A) i d : 0 <= i < zlen l -> py_get l i = Ok (nth (Z.to_nat i) l d).
Proof.
  intros H. unfold py_get. rewrite py_idx_in; auto.
  assert (Hl : (Z.to_nat i < length l)%nat) by (unfold zlen in H; lia).
  rewrite (nth_error_nth' l d Hl). auto.
Qed.
Lemma py_get_out {A} (l : list A) i : zlen l <= i -> py_get l i = Err IndexError.
Proof.
  intros H. unfold py_get, py_idx. pose proof (zlen_nonneg l).
  destruct (i <? 0) eqn:E; [lia|].
  destruct (0 <=? i) eqn:E1; [|lia]. destruct (i <? zlen l) eqn:E2; [lia|]. auto.
Qed.

Lemma nth_mid {A} (pre : list A) x t d : nth (length pre) (pre ++ x :: t) d = x.
Proof. induction pre; simpl; auto. Qed.

Lemma py_get_mid {A} (pre : list A) x t i : i = zlen pre -> py_get (pre ++ x :: t) i = Ok x.
Proof.
  intros ->. rewrite (py_get_in _ _ x).
  - unfold zlen. rewrite Nat2Z.id, nth_mid. auto.
  - rewrite zlen_app, zlen_cons. pose proof (zlen_nonneg pre). pose proof (zlen_nonneg t). lia.
Qed.

Lemma upd_mid {A} (pre : list A) x t v : upd (pre ++ x :: t) (length pre) v = pre ++ v :: t.
Proof. induction pre; simpl; auto. f_equal; auto. Qed.

Lemma py_set_mid {A} (pre : list A) x t i v : i = zlen pre -> py_set (pre ++ x :: t) i v = Ok (pre ++ v :: t).
Proof.
  intros ->. unfold py_set. rewrite py_idx_in.
  - unfold zlen. rewrite Nat2Z.id, upd_mid. auto.
  - rewrite zlen_app, zlen_cons. pose proof (zlen_nonneg pre). pose proof (zlen_nonneg t). lia.
Qed.

Lemma py_get_last {A} (pre : list A) x : py_get (pre ++ [x]) (-1) = Ok x.
Proof.
  unfold py_get. rewrite zlen_app, zlen_one. pose proof (zlen_nonneg pre).
  rewrite py_idx_neg by lia.
  replace (Z.to_nat (-1 + (zlen pre + (0 + 1)))) with (length pre) by (unfold zlen; lia).
  rewrite nth_error_app2 by lia. rewrite Nat.sub_diag. auto.
Qed.

Lemma zrange_nil a b : b <= a -> zrange a b = [].
Proof. intros. unfold zrange. replace (Z.to_nat (b - a)) with 0%nat by lia. auto. Qed.
Lemma zrange_cons a b : a < b -> zrange a b = a :: zrange (a + 1) b.
Proof.
  intros. unfold zrange. replace (Z.to_nat (b - a)) with (S (Z.to_nat (b - (a + 1)))) by lia.
  cbn [seq map]. f_equal; [lia|]. rewrite <- seq_shift, map_map. apply map_ext. intros; lia.
Qed.
Lemma zrange_snoc a b : a < b -> zrange a b = zrange a (b - 1) ++ [b - 1].
Proof.
  intros. unfold zrange. replace (Z.to_nat (b - a)) with (Z.to_nat (b - 1 - a) + 1)%nat by lia.
  rewrite seq_app, map_app. simpl. do 2 f_equal. lia.
Qed.
Lemma in_zrange a b x : In x (zrange a b) <-> a <= x < b.
Proof.
  unfold zrange. rewrite in_map_iff. split.
  - intros (i & <- & Hi). apply in_seq in Hi. lia.
  - intros H. exists (Z.to_nat (x - a)). split; [lia|]. apply in_seq. lia.
Qed.
Lemma zlen_zrange a b : zlen (zrange a b) = Z.max 0 (b - a).
Proof. unfold zrange. rewrite zlen_map. unfold zlen. rewrite seq_length. lia. Qed.
Lemma length_zrange a b : length (zrange a b) = Z.to_nat (b - a).
Proof. unfold zrange. rewrite map_length, seq_length. auto. Qed.
Lemma zrange_nodup a b : NoDup (zrange a b).
Proof.
  unfold zrange. apply FinFun.Injective_map_NoDup; [|apply seq_NoDup].
  intros x y. lia.
Qed.
Lemma zrange_shift a b c : zrange (a + c) (b + c) = map (fun x => x + c) (zrange a b).
Proof.
  unfold zrange. replace (b + c - (a + c)) with (b - a) by lia. rewrite map_map.
  apply map_ext. intros; lia.
Qed.

Lemma mapM_ok {A B} (f : A -> res B) g l : (forall x, In x l -> f x = Ok (g x)) -> mapM f l = Ok (map g l).
Proof.
  induction l as [|x t IH]; simpl; intros H; auto.
  rewrite (H x); auto. simpl. rewrite IH; auto.
Qed.

Lemma mapM_ext {A B} (f g : A -> res B) l : (forall x, In x l -> f x = g x) -> mapM f l = mapM g l.
Proof.
  induction l as [|x t IH]; intros H; [reflexivity|]. cbn [mapM]. rewrite (H x) by (simpl; auto).
  rewrite IH; auto. intros; apply H; simpl; auto.
Qed.
Lemma mapM_app {A B} (f : A -> res B) l l' :
  mapM f (l ++ l') = (x <- mapM f l ;; y <- mapM f l' ;; Ok (x ++ y)).
Proof.
  induction l as [|x t IH]; simpl.
  - destruct (mapM f l'); auto.
  - destruct (f x); simpl; auto. rewrite IH. destruct (mapM f t); simpl; auto.
    destruct (mapM f l'); auto.
Qed.

Lemma foldM_app {S A} (b : S -> A -> res S) l l' s :
  foldM b (l ++ l') s = (s' <- foldM b l s ;; foldM b l' s').
Proof.
  revert s. induction l as [|x t IH]; simpl; intros s; auto.
  destruct (b s x); simpl; auto.
Qed.

Lemma sl_bound_in len j : 0 <= j <= len -> sl_bound len j = Z.to_nat j.
Proof. intros. unfold sl_bound. destruct (j <? 0) eqn:E; [lia|]. f_equal. lia. Qed.
Lemma sl_bound_neg len j : - len <= j < 0 -> sl_bound len j = Z.to_nat (j + len).
Proof. intros. unfold sl_bound. destruct (j <? 0) eqn:E; [|lia]. f_equal. lia. Qed.

Lemma firstn_pre {A} (a b : list A) : firstn (length a) (a ++ b) = a.
Proof. rewrite firstn_app, firstn_all, Nat.sub_diag. simpl. apply app_nil_r. Qed.
Lemma skipn_pre {A} (a b : list A) : skipn (length a) (a ++ b) = b.
Proof. rewrite skipn_app, skipn_all, Nat.sub_diag. reflexivity. Qed.

Lemma sl_to_app {A} (a b : list A) j : j = zlen a -> sl_to (a ++ b) j = a.
Proof.
  intros ->. unfold sl_to. rewrite sl_bound_in.
  - unfold zlen. rewrite Nat2Z.id. apply firstn_pre.
  - rewrite zlen_app. pose proof (zlen_nonneg a). pose proof (zlen_nonneg b). lia.
Qed.
Lemma sl_from_app {A} (a b : list A) j : j = zlen a -> sl_from (a ++ b) j = b.
Proof.
  intros ->. unfold sl_from. rewrite sl_bound_in.
  - unfold zlen. rewrite Nat2Z.id. apply skipn_pre.
  - rewrite zlen_app. pose proof (zlen_nonneg a). pose proof (zlen_nonneg b). lia.
Qed.
Lemma sl_to_all {A} (a : list A) j : zlen a <= j -> sl_to a j = a.
Proof.
  intros H. unfold sl_to, sl_bound. pose proof (zlen_nonneg a).
  destruct (j <? 0) eqn:E; [lia|].
  replace (Z.to_nat (Z.min (zlen a) (Z.max 0 j))) with (length a) by (unfold zlen in *; lia).
  apply firstn_all.
Qed.
Lemma sl_from_1 {A} (x : A) t : sl_from (x :: t) 1 = t.
Proof. apply (sl_from_app [x]). reflexivity. Qed.
Lemma sl_from_nil {A} j : sl_from (@nil A) j = [].
Proof. unfold sl_from. apply skipn_nil. Qed.
Lemma sl_to_m1 {A} (a : list A) x : sl_to (a ++ [x]) (-1) = a.
Proof.
  unfold sl_to. rewrite sl_bound_neg.
  - replace (Z.to_nat (-1 + zlen (a ++ [x]))) with (length a).
    + apply firstn_pre.
    + rewrite zlen_app, zlen_one. unfold zlen. lia.
  - rewrite zlen_app, zlen_one. pose proof (zlen_nonneg a). lia.
Qed.
Lemma sl_to_m1_removelast {A} (a : list A) : sl_to a (-1) = removelast a.
Proof.
  destruct a as [|x a'] using rev_ind; auto. rewrite sl_to_m1, removelast_last. auto.
Qed.

Lemma zsum_app a b : zsum (a ++ b) = zsum a + zsum b.
Proof. induction a; simpl; lia. Qed.
Lemma zsum_repz v c : 0 <= c -> zsum (repz v c) = v * c.
Proof.
  intros. unfold repz. rewrite <- (Z2Nat.id c) at 2 by auto. generalize (Z.to_nat c).
  induction n; simpl; [lia|]. rewrite IHn. lia.
Qed.
Lemma zsum_repz0 c : zsum (repz 0 c) = 0.
Proof. unfold repz. generalize (Z.to_nat c). induction n; simpl; auto. Qed.
Lemma zsum_nonneg l : Forall (fun x => 0 <= x) l -> 0 <= zsum l.
Proof. induction 1; simpl; lia. Qed.

Lemma nodup_app {A} (a b : list A) : NoDup a -> NoDup b ->
  (forall x, In x a -> In x b -> False) -> NoDup (a ++ b).
Proof.
  induction 1 as [|x a Hx Ha IH]; simpl; intros Hb H; auto.
  constructor.
  - intros Hin. apply in_app_or in Hin. destruct Hin; eauto.
  - apply IH; auto. intros y H1 H2. apply (H y); auto.
Qed.
