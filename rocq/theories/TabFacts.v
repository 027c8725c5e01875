(** SchurPol counts semistandard tableaux. *)

From Coq Require Import ZArith List Lia Bool Permutation.
From Verif Require Import Py OrderFacts ModelPart ModelMisc Spec SpecMisc PyFacts PartFacts.
Import ListNotations.
Open Scope Z_scope.

(** ** updating one row *)
Lemma upd_length {A} (l : list A) j v : length (upd l j v) = length l.
Proof. revert j. induction l; intros [|j]; simpl; auto. Qed.
Lemma upd_same {A} (l : list A) j v d : (j < length l)%nat -> nth j (upd l j v) d = v.
Proof. revert j. induction l; intros [|j] H; simpl in *; auto; try lia. apply IHl. lia. Qed.
Lemma upd_other {A} (l : list A) j i v d : i <> j -> nth i (upd l j v) d = nth i l d.
Proof. revert j i. induction l; intros [|j] [|i] H; simpl; auto; try lia. Qed.
Lemma upd_upd {A} (l : list A) j v w : upd (upd l j v) j w = upd l j w.
Proof. revert j. induction l; intros [|j]; simpl; auto. f_equal. auto. Qed.
Lemma upd_id {A} (l : list A) j d : upd l j (nth j l d) = l.
Proof. revert j. induction l; intros [|j]; simpl; auto. f_equal. auto. Qed.
Lemma upd_inj {A} (l l' : list A) j (f : A -> A) d : (forall x y, f x = f y -> x = y) -> length l = length l' ->
  (j < length l)%nat -> upd l j (f (nth j l d)) = upd l' j (f (nth j l' d)) -> l = l'.
Proof.
  intros Hf L Hj E. apply (nth_ext _ _ d d); auto. intros i Hi. destruct (Nat.eq_dec i j) as [->|N].
  - apply Hf. rewrite <- (upd_same l j (f (nth j l d)) d Hj), E. apply upd_same. lia.
  - rewrite <- (upd_other l j i (f (nth j l d)) d N), E. apply upd_other; auto.
Qed.

Definition add (m : Z) (j : nat) (T : list (list Z)) : list (list Z) := upd T j (nth j T [] ++ [m]).
Definition tab (m : Z) (j : nat) (nu : list Z) (T : list (list Z)) : Prop :=
  ssyt m nu T /\ forall i c, (i < j)%nat -> (c < length (nth i T []))%nat -> entry T i c <> m.
Definition has (m : Z) (j : nat) (T : list (list Z)) : Prop := exists c, (c < length (nth j T []))%nat /\ entry T j c = m.

Lemma add_length m j T : length (add m j T) = length T.
Proof. apply upd_length. Qed.
Lemma add_row_same m j T : (j < length T)%nat -> nth j (add m j T) [] = nth j T [] ++ [m].
Proof. intros H. apply upd_same; auto. Qed.
Lemma add_row_other m j T i : i <> j -> nth i (add m j T) [] = nth i T [].
Proof. intros H. apply upd_other; auto. Qed.
Lemma entry_add_other m j T i c : i <> j -> entry (add m j T) i c = entry T i c.
Proof. intros H. unfold entry. rewrite add_row_other; auto. Qed.
Lemma entry_add_old m j T c : (j < length T)%nat -> (c < length (nth j T []))%nat -> entry (add m j T) j c = entry T j c.
Proof. intros H H'. unfold entry. rewrite add_row_same by auto. apply app_nth1; auto. Qed.
Lemma entry_add_new m j T c : (j < length T)%nat -> c = length (nth j T []) -> entry (add m j T) j c = m.
Proof. intros H ->. unfold entry. rewrite add_row_same by auto. rewrite app_nth2, Nat.sub_diag; auto. Qed.
Lemma add_inj m j T T' : length T = length T' -> (j < length T)%nat -> add m j T = add m j T' -> T = T'.
Proof. intros L H E. apply (upd_inj T T' j (fun r => r ++ [m]) []); auto. intros x y. apply app_inv_tail. Qed.

Lemma part_upd_same nu j v : (j < length nu)%nat -> part (upd nu j v) j = v.
Proof. apply upd_same. Qed.
Lemma part_upd_other nu j v i : i <> j -> part (upd nu j v) i = part nu i.
Proof. apply upd_other. Qed.

Lemma row_len m nu T i : ssyt m nu T -> Z.of_nat (length (nth i T [])) = part nu i \/ (length T <= i)%nat /\ nth i T [] = [].
Proof.
  intros (L & H & _). destruct (Nat.lt_ge_cases i (length T)); [left; auto|right; split; auto]. apply nth_overflow; auto.
Qed.

(** ** a box with [m] in row [j] *)
Section Box.
Variables (m : Z) (j : nat) (nu : list Z).
Hypothesis (Hm : 1 <= m) (Hj : (j < length nu)%nat) (Hc : part nu (S j) < part nu j)
  (Hn : forall i, 0 <= part nu i) (Hd : forall i, part nu (S i) <= part nu i).
Let nu' := upd nu j (part nu j - 1).

Lemma add_tab T : tab m j nu' T -> tab m j nu (add m j T) /\ has m j (add m j T).
Proof.
  intros [(L & R & E & W & C) K].
  assert (HL : length T = length nu) by (rewrite L; apply upd_length).
  assert (HjT : (j < length T)%nat) by lia.
  assert (Rj : Z.of_nat (length (nth j T [])) = part nu j - 1) by (rewrite R by auto; apply part_upd_same; auto).
  assert (Ra : forall i, i <> j -> length (nth i (add m j T) []) = length (nth i T [])) by (intros; rewrite add_row_other; auto).
  assert (Rb : length (nth j (add m j T) []) = S (length (nth j T []))) by (rewrite add_row_same, app_length by auto; simpl; lia).
  split; [split|].
  - split; [rewrite add_length; auto|]. split; [|split; [|split]].
    + intros i Hi. rewrite add_length in Hi. destruct (Nat.eq_dec i j) as [->|N]; [rewrite Rb; lia|].
      rewrite Ra by auto. rewrite R by auto. apply part_upd_other; auto.
    + intros i c Hi. destruct (Nat.eq_dec i j) as [->|N].
      * rewrite Rb in Hi. destruct (Nat.eq_dec c (length (nth j T []))) as [->|Nc]; [rewrite entry_add_new by auto; lia|].
        rewrite entry_add_old by (auto; lia). apply E. lia.
      * rewrite Ra in Hi by auto. rewrite entry_add_other by auto. apply E; auto.
    + intros i c Hi. destruct (Nat.eq_dec i j) as [->|N].
      * rewrite Rb in Hi. rewrite (entry_add_old m j T c) by (auto; lia).
        destruct (Nat.eq_dec (S c) (length (nth j T []))) as [Ec|Nc]; [rewrite entry_add_new by auto; apply E; lia|].
        rewrite entry_add_old by (auto; lia). apply W. lia.
      * rewrite Ra in Hi by auto. rewrite !entry_add_other by auto. apply W; auto.
    + intros i c Hi. destruct (Nat.eq_dec (S i) j) as [Ej|N].
      * rewrite entry_add_other by lia. rewrite Ej in *. rewrite Rb in Hi.
        assert (Hli : (length (nth j T []) < length (nth i T []))%nat).
        { assert (Z.of_nat (length (nth i T [])) = part nu i) by (rewrite R by lia; apply part_upd_other; lia).
          specialize (Hd i). rewrite Ej in Hd. lia. }
        destruct (Nat.eq_dec c (length (nth j T []))) as [->|Nc].
        -- rewrite entry_add_new by auto. assert (Q : entry T i (length (nth j T [])) <> m) by (apply K; lia). specialize (E i _ Hli). lia.
        -- rewrite entry_add_old by (auto; lia). rewrite <- Ej. apply C. rewrite Ej. lia.
      * rewrite (entry_add_other m j T (S i)) by auto. rewrite Ra in Hi by auto.
        destruct (Nat.eq_dec i j) as [->|Ni].
        -- rewrite entry_add_old; [apply C; auto|auto|].
           destruct (Nat.lt_ge_cases (S j) (length T)) as [Q|Q]; [|rewrite nth_overflow in Hi by auto; simpl in Hi; lia].
           assert (Z.of_nat (length (nth (S j) T [])) = part nu (S j)) by (rewrite R by auto; apply part_upd_other; lia). lia.
        -- rewrite entry_add_other by auto. apply C; auto.
  - intros i c Hi Hcc. rewrite entry_add_other by lia. apply K; auto. rewrite Ra in Hcc by lia. auto.
  - exists (length (nth j T [])). split; [rewrite Rb; lia|]. apply entry_add_new; auto.
Qed.

Lemma tab_add T : tab m j nu T -> has m j T -> exists T', T = add m j T' /\ tab m j nu' T'.
Proof.
  intros [(L & R & E & W & C) K] (c0 & Hc0 & Ec0).
  assert (HjT : (j < length T)%nat) by lia.
  assert (Rj := R j HjT).
  set (r := nth j T []) in *.
  assert (Hl : nth (length r - 1) r 0 = m).
  { assert (G : forall d, (c0 + d < length r)%nat -> m <= nth (c0 + d) r 0).
    { induction d as [|d IH]; intros Hd'; [rewrite Nat.add_0_r; unfold entry in Ec0; fold r in Ec0; lia|].
      specialize (IH ltac:(lia)). specialize (W j (c0 + d)%nat). unfold entry in W. fold r in W. specialize (W ltac:(lia)).
      replace (c0 + S d)%nat with (S (c0 + d)) by lia. lia. }
    specialize (G (length r - 1 - c0)%nat ltac:(lia)). replace (c0 + (length r - 1 - c0))%nat with (length r - 1)%nat in G by lia.
    specialize (E j (length r - 1)%nat). unfold entry in E. fold r in E. specialize (E ltac:(lia)). lia. }
  destruct (exists_last (l := r)) as (r0 & x & Er); [intros Q; rewrite Q in Hc0; simpl in Hc0; lia|].
  assert (Hx : x = m). { rewrite Er in Hl. rewrite app_length in Hl. simpl in Hl. rewrite app_nth2 in Hl by lia. replace (length r0 + 1 - 1 - length r0)%nat with 0%nat in Hl by lia. exact Hl. }
  subst x. assert (Lr : length r = S (length r0)) by (rewrite Er, app_length; simpl; lia).
  set (T' := upd T j r0).
  assert (LT : length T' = length T) by apply upd_length.
  assert (RT : nth j T' [] = r0) by (apply upd_same; auto).
  assert (RO : forall i, i <> j -> nth i T' [] = nth i T []) by (intros i Hi; apply upd_other; auto).
  assert (EO : forall i c, i <> j -> entry T' i c = entry T i c) by (intros; unfold entry; rewrite RO; auto).
  assert (ES : forall c, (c < length r0)%nat -> entry T' j c = entry T j c).
  { intros c Hcc. unfold entry. rewrite RT. fold r. rewrite Er, app_nth1; auto. }
  exists T'. split.
  - unfold add. rewrite RT. unfold T'. rewrite upd_upd, <- Er. symmetry. apply upd_id.
  - split; [split; [|split; [|split; [|split]]]|].
    + rewrite LT. unfold nu'. rewrite upd_length. auto.
    + intros i Hi. rewrite LT in Hi. unfold nu'. destruct (Nat.eq_dec i j) as [->|N].
      * rewrite RT, part_upd_same by auto. lia.
      * rewrite RO, part_upd_other by auto. auto.
    + intros i c Hi. destruct (Nat.eq_dec i j) as [->|N].
      * rewrite RT in Hi. rewrite ES by auto. apply E. fold r. lia.
      * rewrite RO in Hi by auto. rewrite EO by auto. auto.
    + intros i c Hi. destruct (Nat.eq_dec i j) as [->|N].
      * rewrite RT in Hi. rewrite !ES by lia. apply W. fold r. lia.
      * rewrite RO in Hi by auto. rewrite !EO by auto. auto.
    + intros i c Hi. destruct (Nat.eq_dec (S i) j) as [Ej|N].
      * rewrite Ej in *. rewrite RT in Hi. rewrite ES, EO by lia. rewrite <- Ej. apply C. rewrite Ej. fold r. lia.
      * rewrite RO in Hi by auto. rewrite (EO (S i)) by auto. destruct (Nat.eq_dec i j) as [->|Ni]; [|rewrite EO by auto; auto].
        rewrite ES; [auto|].
        destruct (Nat.lt_ge_cases (S j) (length T)) as [Q|Q]; [|rewrite nth_overflow in Hi by auto; simpl in Hi; lia].
        specialize (R (S j) Q). lia.
    + intros i c Hi Hcc. rewrite RO in Hcc by lia. rewrite EO by lia. apply K; auto.
Qed.
End Box.

(** ** splitting by the first row with [m] *)
Lemma has_dec m j T : has m j T \/ ~ has m j T.
Proof.
  assert (D : In m (nth j T []) \/ ~ In m (nth j T [])) by (destruct (in_dec Z.eq_dec m (nth j T [])); auto).
  assert (E : has m j T <-> In m (nth j T [])).
  { split; [intros (c & H & <-); apply nth_In; auto|]. intros H. apply (In_nth _ _ 0) in H. exact H. }
  rewrite E. exact D.
Qed.
Lemma tab_next m j nu T : tab m (S j) nu T <-> tab m j nu T /\ ~ has m j T.
Proof.
  split.
  - intros [H K]. split; [split; auto|]. intros (c & Hc & E). apply (K j c); auto.
  - intros [[H K] N]. split; auto. intros i c Hi Hc. destruct (Nat.eq_dec i j) as [->|]; [|apply K; auto; lia]. intros E. apply N. exists c. auto.
Qed.
Lemma tab_lower m nu T : (forall j, tab m j nu T) <-> ssyt (m - 1) nu T.
Proof.
  split.
  - intros H. destruct (H 0%nat) as [(L & R & E & W & C) _]. split; [auto|]. split; [auto|]. split; [|split; auto]. intros i c H0.
    specialize (E i c H0). destruct (H (S i)) as [_ K]. specialize (K i c ltac:(lia) H0). lia.
  - intros (L & R & E & W & C) j. split.
    + split; [auto|]. split; [auto|]. split; [|split; auto]. intros i c H. specialize (E i c H). lia.
    + intros i c Hi Hc. specialize (E i c Hc). lia.
Qed.
Lemma tab_end m j nu T : tab m j nu T -> (forall i, (j <= i)%nat -> part nu i = 0) -> ssyt (m - 1) nu T.
Proof.
  intros [H K] Hz. apply (proj1 (tab_lower m nu T)). intros j'. split; [exact H|]. intros i c _ Hc.
  destruct (Nat.lt_ge_cases i j); [apply K; auto|]. exfalso.
  destruct (row_len m nu T i H) as [Q|[_ Q]]; [rewrite Hz in Q by auto; lia|]. rewrite Q in Hc. simpl in Hc. lia.
Qed.
Lemma lower_tab m j nu T : ssyt (m - 1) nu T -> tab m j nu T.
Proof. intros H. apply (proj2 (tab_lower m nu T)); auto. Qed.
Lemma lower_has m j nu T : ssyt (m - 1) nu T -> ~ has m j T.
Proof. intros (L & R & E & W & C) (c & Hc & Ec). specialize (E j c Hc). lia. Qed.

(** ** contents *)
Lemma bump_map f n m e : 1 <= m <= n ->
  bump m e (map f (zrange 1 (n + 1))) = map (fun v => f v + if v =? m then e else 0) (zrange 1 (n + 1)).
Proof.
  intros Hm. unfold bump. replace (zrange 1 (n + 1)) with (map (fun x => x + 1) (zrange 0 n)) by (rewrite <- zrange_shift; reflexivity).
  rewrite !map_map. apply list_part_eq; [rewrite upd_length, !map_length; auto|].
  rewrite upd_length, map_length, length_zrange. intros i Hi.
  assert (Hi' : (i < Z.to_nat n)%nat) by lia. rewrite (part_map_zrange (fun x => f (x + 1) + _) n i) by auto.
  destruct (Nat.eq_dec i (Z.to_nat (m - 1))) as [->|N].
  - rewrite part_upd_same by (rewrite map_length, length_zrange; lia).
    change (nth (Z.to_nat (m - 1)) ?l 0) with (part l (Z.to_nat (m - 1))). rewrite part_map_zrange by lia.
    rewrite Z2Nat.id by lia. replace (m - 1 + 1) with m by lia. rewrite Z.eqb_refl. reflexivity.
  - rewrite part_upd_other by auto. rewrite part_map_zrange by auto. destruct (Z.eqb_spec (Z.of_nat i + 1) m); lia.
Qed.
Lemma concat_upd_count (T : list (list Z)) j r v : (j < length T)%nat ->
  (count_occ Z.eq_dec (concat (upd T j r)) v + count_occ Z.eq_dec (nth j T []) v =
   count_occ Z.eq_dec (concat T) v + count_occ Z.eq_dec r v)%nat.
Proof.
  revert j. induction T as [|a T IH]; intros [|j] H; simpl in H; try lia; cbn [upd concat nth]; rewrite !count_occ_app.
  - lia.
  - specialize (IH j ltac:(lia)). lia.
Qed.
Lemma content_add n m j T : 1 <= m <= n -> (j < length T)%nat -> content n (add m j T) = bump m 1 (content n T).
Proof.
  intros Hm Hj. unfold content. rewrite bump_map by auto. apply map_ext. intros v.
  pose proof (concat_upd_count T j (nth j T [] ++ [m]) v Hj) as H. rewrite count_occ_app in H. unfold add.
  cbn [count_occ] in H. destruct (Z.eq_dec m v), (Z.eqb_spec v m); try congruence; lia.
Qed.
Lemma concat_nil c : concat (repeat (@nil Z) c) = [].
Proof. induction c; simpl; auto. Qed.
Lemma map_zero n : map (fun _ : Z => 0) (zrange 1 (n + 1)) = repz 0 n.
Proof.
  unfold repz. assert (E : length (zrange 1 (n + 1)) = Z.to_nat n) by (rewrite length_zrange; f_equal; lia).
  rewrite <- E. clear. induction (zrange 1 (n + 1)); simpl; congruence.
Qed.
Lemma content_row n a c : 0 <= a -> 1 <= n -> content n (repeat 1 (Z.to_nat a) :: repeat [] c) = bump 1 a (repz 0 n).
Proof.
  intros Ha Hn. replace (repz 0 n) with (map (fun _ => 0) (zrange 1 (n + 1))).
  - rewrite bump_map by lia. unfold content. apply map_ext. intros v. cbn [concat]. rewrite concat_nil, app_nil_r.
    destruct (Z.eqb_spec v 1) as [->|N].
    + rewrite count_occ_repeat_eq by auto. lia.
    + rewrite count_occ_repeat_neq by auto. lia.
  - apply map_zero.
Qed.
Lemma content_nil n c : content n (repeat [] c) = repz 0 n.
Proof. unfold content. rewrite concat_nil. cbn [count_occ]. apply (map_zero n). Qed.

(** ** the recursion *)
Section Main.
Variables (n : Z) (kappa : list Z).
Hypothesis (Hn : 1 <= n) (Hk : is_partition kappa).

(** a list of monomials for a set of tableaux *)
Definition lists (P : list (list Z) -> Prop) (p : xpoly) : Prop :=
  exists Ts, NoDup Ts /\ (forall T, In T Ts <-> P T) /\ Permutation p (map (content n) Ts).

Lemma lists_ext (P Q : list (list Z) -> Prop) p : (forall T, P T <-> Q T) -> lists P p -> lists Q p.
Proof. intros H (Ts & H1 & H2 & H3). exists Ts. split; auto. split; auto. intros T. rewrite H2. auto. Qed.
Lemma lists_app P Q R p r : lists P p -> lists Q r -> (forall T, R T <-> P T \/ Q T) -> (forall T, P T -> Q T -> False) -> lists R (p ++ r).
Proof.
  intros (Ts & H1 & H2 & H3) (Us & G1 & G2 & G3) HR HD. exists (Ts ++ Us). split; [|split].
  - apply nodup_app; auto. intros T HT HU. apply (HD T); [apply H2|apply G2]; auto.
  - intros T. rewrite in_app_iff, H2, G2, HR. reflexivity.
  - rewrite map_app. apply Permutation_app; auto.
Qed.
Lemma lists_single P T : (forall U, P U <-> U = T) -> lists P [content n T].
Proof.
  intros H. exists [T]. split; [repeat constructor; intros []|]. split; [|apply Permutation_refl].
  intros U. rewrite H. simpl. split; [intros [->|[]]; auto|auto].
Qed.
Lemma lists_none P : (forall U, ~ P U) -> lists P [].
Proof. intros H. exists []. split; [constructor|]. split; [|apply perm_nil]. intros T. split; [intros []|]. intros HT. destruct (H T HT). Qed.

(** the shapes met during the recursion *)
Definition shape (nu : list Z) : Prop :=
  length nu = length kappa /\ (forall i, 0 <= part nu i <= part kappa i) /\ (forall i, part nu (S i) <= part nu i).

Lemma shape_zero nu i : shape nu -> part nu i = 0 -> forall i', (i <= i')%nat -> part nu i' = 0.
Proof.
  intros (L & N & D) H i' Hi. induction Hi; auto. pose proof (D m). pose proof (N (S m)). lia.
Qed.
Lemma shape_dec nu j : shape nu -> (j < length nu)%nat -> 0 < part nu j -> part nu (S j) < part nu j -> shape (upd nu j (part nu j - 1)).
Proof.
  intros (L & N & D) Hj Hp Hc. split; [rewrite upd_length; auto|]. split.
  - intros i. destruct (Nat.eq_dec i j) as [->|Q]; [rewrite part_upd_same by auto; pose proof (N j); lia|rewrite part_upd_other; auto].
  - intros i. destruct (Nat.eq_dec i j) as [->|Q].
    + rewrite part_upd_same, part_upd_other by (auto; lia). lia.
    + rewrite (part_upd_other nu j _ i) by auto. destruct (Nat.eq_dec (S i) j) as [<-|Q']; [|rewrite part_upd_other; auto].
      rewrite part_upd_same by auto. pose proof (D i). lia.
Qed.
Lemma zsum_upd nu j v : (j < length nu)%nat -> zsum (upd nu j v) = zsum nu - part nu j + v.
Proof.
  revert j. induction nu as [|x nu IH]; intros [|j] H; simpl in H; try lia; cbn [upd].
  - unfold part. cbn [nth]. change (v + zsum nu = x + zsum nu - x + v). lia.
  - change (x + zsum (upd nu j v) = x + zsum nu - part nu j + v). rewrite IH by lia. lia.
Qed.
Lemma shape_sum nu : shape nu -> 0 <= zsum nu.
Proof.
  intros (L & N & D). apply zsum_nonneg. apply Forall_forall. intros x Hx. apply (In_nth _ _ 0) in Hx. destruct Hx as (i & Hi & <-). apply N.
Qed.

(** the table index is in range *)
Lemma mixed_bound ka : forall mu, Forall (fun x => 0 <= x) ka -> length mu = length ka -> (forall i, 0 <= part mu i <= part ka i) ->
  0 <= mixed_N ka mu <= mixed_N ka ka /\ (0 < part mu 0 -> 1 <= mixed_N ka mu).
Proof.
  induction ka as [|a ka IH]; intros [|x mu] Hka L H; try discriminate; cbn [mixed_N].
  - split; [lia|]. unfold part; simpl; lia.
  - inversion Hka; subst. simpl in L. destruct (IH mu H3 ltac:(lia)) as [I _]; [intros i; apply (H (S i))|].
    assert (P : 1 <= zprod (map (fun x => x + 1) ka)).
    { clear -H3. induction H3; cbn [map zprod]; [lia|]. nia. }
    specialize (H 0%nat). unfold part in H. cbn [nth] in H. split; [nia|]. unfold part. cbn [nth]. nia.
Qed.
Lemma N_ok nu : shape nu -> 0 < part nu 0 -> 1 <= mixed_N kappa nu <= rowsN kappa.
Proof.
  intros (L & N & D) H. destruct (mixed_bound kappa nu) as [A B]; auto.
  - apply Forall_forall. intros x Hx. apply (In_nth _ _ 0) in Hx. destruct Hx as (i & Hi & <-). apply (is_partition_nonneg kappa i Hk).
  - unfold rowsN. specialize (B H). lia.
Qed.

(** no tableau has more rows than letters *)
Lemma col_ge m nu T : ssyt m nu T -> (forall i, part nu (S i) <= part nu i) -> forall i, 0 < part nu i -> (i < length nu)%nat -> Z.of_nat i + 1 <= entry T i 0.
Proof.
  intros (L & R & E & W & C) D. induction i as [|i IH]; intros Hp Hi.
  - apply E. specialize (R 0%nat). lia.
  - assert (Hl : (0 < length (nth (S i) T []))%nat) by (specialize (R (S i)); lia).
    specialize (C i 0%nat Hl). specialize (D i). specialize (IH ltac:(lia) ltac:(lia)). lia.
Qed.

Section Rows.
Variable rec : memo -> Z -> Z -> list Z -> res (xpoly * memo).
Lemma rows_ok m nu : 2 <= m <= n -> shape nu ->
  (forall m' k nu', 1 <= m' <= m -> shape nu' -> 1 <= k -> (2 <= m' \/ k = 1) -> zsum nu' < zsum nu ->
     exists p S, rec [] m' k nu' = Ok (p, S) /\ lists (tab m' (Z.to_nat (k - 1)) nu') p) ->
  forall fuel i s, 1 <= i -> Z.of_nat (length nu) + 2 - i <= Z.of_nat fuel -> (0 < fuel)%nat ->
  exists t, sch_rows rec fuel [] m i nu s = Ok (s ++ t) /\
    lists (fun T => tab m (Z.to_nat (i - 1)) nu T /\ ~ ssyt (m - 1) nu T) t.
Proof.
  intros Hm Hs Hrec. pose proof Hs as (L & N & D).
  assert (Hnone : forall i, 1 <= i -> (forall i', (Z.to_nat (i - 1) <= i')%nat -> part nu i' = 0) ->
     lists (fun T => tab m (Z.to_nat (i - 1)) nu T /\ ~ ssyt (m - 1) nu T) []).
  { intros i Hi Hz. apply lists_none. intros T [H1 H2]. apply H2. eapply tab_end; eauto. }
  induction fuel as [|f IH]; intros i s Hi Hf Hf0; [lia|]. cbn [sch_rows]. unfold zlen.
  destruct (Z.ltb_spec (Z.of_nat (length nu)) i) as [Q|Q].
  { exists []. rewrite app_nil_r. split; auto. apply Hnone; auto. intros i' Hi'. apply part_over. lia. }
  set (j := Z.to_nat (i - 1)) in *. assert (Hj : (j < length nu)%nat) by lia.
  rewrite (py_get_in nu (i - 1) 0) by (unfold zlen; lia). fold j. change (nth j nu 0) with (part nu j). cbn [bind].
  destruct (Z.ltb_spec 0 (part nu j)) as [P|P].
  2:{ exists []. rewrite app_nil_r. split; auto. apply Hnone; auto. apply (shape_zero nu j); auto. pose proof (N j). lia. }
  assert (Hcor : (if Z.of_nat (length nu) =? i then Ok true else b <- py_get nu i ;; Ok (b <? part nu j)) = Ok (part nu (S j) <? part nu j)).
  { destruct (Z.eqb_spec (Z.of_nat (length nu)) i) as [Q'|Q'].
    - rewrite (part_over nu (S j)) by lia. destruct (Z.ltb_spec 0 (part nu j)); [auto|lia].
    - rewrite (py_get_in nu i 0) by (unfold zlen; lia). cbn [bind]. replace (Z.to_nat i) with (S j) by lia. reflexivity. }
  rewrite Hcor. cbn [bind].
  assert (Hnext : Z.to_nat (i + 1 - 1) = S j) by lia.
  destruct (Z.ltb_spec (part nu (S j)) (part nu j)) as [C|C].
  - replace (py_set nu (i - 1) (part nu j - 1)) with (Ok (upd nu j (part nu j - 1))).
    2:{ unfold py_set. rewrite py_idx_in by (unfold zlen; lia). reflexivity. }
    cbn [bind]. set (nu' := upd nu j (part nu j - 1)). assert (Hs' : shape nu') by (apply shape_dec; auto).
    assert (Hz : zsum nu' < zsum nu) by (unfold nu'; rewrite zsum_upd by auto; lia).
    assert (HR : exists p S, (if 1 <? part nu j then rec [] m i nu' else rec [] (m - 1) 1 nu') = Ok (p, S) /\ lists (tab m j nu') p).
    { destruct (Z.ltb_spec 1 (part nu j)) as [B|B].
      - apply (Hrec m i nu'); auto; lia.
      - destruct (Hrec (m - 1) 1 nu') as (p & S & E & HL); auto; try lia. exists p, S. split; auto.
        apply (lists_ext (tab (m - 1) 0 nu')); auto. intros T.
        assert (Hz' : forall i0, (j <= i0)%nat -> part nu' i0 = 0).
        { apply (shape_zero nu' j); auto. unfold nu'. rewrite part_upd_same by auto. lia. }
        split; [intros [H _]; apply lower_tab; auto|]. intros H. split; [eapply tab_end; eauto|]. intros; lia. }
    destruct HR as (p & S & E & HL). rewrite E. cbn [bind].
    destruct (IH (i + 1) (s ++ xmul m p)) as (t & E' & HL'); [lia|lia|lia|].
    rewrite E'. exists (xmul m p ++ t). rewrite app_assoc. split; auto. rewrite Hnext in HL'.
    apply (lists_app (fun T => tab m j nu T /\ has m j T) _ _ _ _) with (2 := HL').
    + destruct HL as (Ts & H1 & H2 & H3). exists (map (add m j) Ts). split; [|split].
      * clear -H1 H2 Hj L. assert (HT : forall T, In T Ts -> length T = length nu).
        { intros T HT. apply H2 in HT. destruct HT as [(HT & _) _]. rewrite HT. apply upd_length. }
        clear H2. induction Ts as [|T Ts IH]; [constructor|]. inversion H1; subst. cbn [map]. constructor.
        -- rewrite in_map_iff. intros (U & EU & HU). apply H2. assert (T = U); [|subst; auto].
           apply (add_inj m j); [|rewrite HT by (left; auto); auto|auto]. rewrite (HT T), (HT U); [reflexivity|right; exact HU|left; reflexivity].
        -- apply IH; auto. intros U HU. apply HT. right; auto.
      * intros T. rewrite in_map_iff. split.
        -- intros (T' & <- & HT). apply H2 in HT. apply (add_tab m j nu); auto; try lia.
        -- intros [HT HH]. destruct (tab_add m j nu) with (T := T) as (T' & -> & HT'); auto; try lia; try (intros i0; apply N).
           exists T'. split; auto. apply H2. auto.
      * unfold xmul. rewrite map_map. rewrite (Permutation_map (bump m 1) H3). rewrite map_map.
        erewrite map_ext_in; [apply Permutation_refl|]. intros T HT. cbn beta. symmetry. apply content_add; [lia|].
        apply H2 in HT. destruct HT as [(HT & _) _]. rewrite HT. unfold nu'. rewrite upd_length. auto.
    + intros T. rewrite tab_next. split.
      * intros [H1 H2]. destruct (has_dec m j T); auto.
      * intros [[H1 H2]|[[H1 H2] H3]]; split; auto. intros H3. eapply lower_has; eauto.
    + intros T [H1 H2] [H3 H4]. apply tab_next in H3. tauto.
  - cbn [bind]. destruct (IH (i + 1) s) as (t & E' & HL'); [lia|lia|lia|]. exists t. split; auto. rewrite Hnext in HL'.
    apply (lists_ext (fun T => tab m (S j) nu T /\ ~ ssyt (m - 1) nu T)); auto. intros T. rewrite tab_next. split; [tauto|].
    intros [H1 H2]. split; auto. split; auto. intros (c & Hc & Ec). pose proof H1 as [(LT & R & E & W & CC) K].
    (* row j is full under row j+1: an entry m would have a larger one below it *)
    assert (HSj : (S j < length T)%nat). { rewrite LT. destruct (Nat.lt_ge_cases (S j) (length nu)); auto. rewrite (part_over nu (S j)) in C by auto. lia. }
    assert (R1 := R j ltac:(lia)). assert (R2 := R (S j) HSj). pose proof (D j).
    assert (Hc' : (c < length (nth (S j) T []))%nat) by lia. specialize (CC j c Hc'). specialize (E (S j) c Hc'). lia.
Qed.
End Rows.

Lemma ssyt_empty m nu T : (forall i, part nu i = 0) -> (ssyt m nu T <-> T = repeat [] (length nu)).
Proof.
  intros H. split.
  - intros (L & R & _). apply nth_ext with (d := []) (d' := []); [rewrite repeat_length; auto|].
    intros i Hi. rewrite nth_repeat. specialize (R i Hi). rewrite H in R. destruct (nth i T []); [auto|simpl in R; lia].
  - intros ->. split; [apply repeat_length|].
    assert (Q : forall i, nth i (repeat (@nil Z) (length nu)) [] = []) by (intros i; apply nth_repeat).
    split; [intros i _; rewrite Q, H; reflexivity|]. split; [|split]; intros i c Hc; rewrite Q in Hc; simpl in Hc; lia.
Qed.

Lemma ssyt_one nu T : (0 < length nu)%nat -> (forall i, part nu (S i) = 0) -> 0 <= part nu 0 ->
  (ssyt 1 nu T <-> T = repeat 1 (Z.to_nat (part nu 0)) :: repeat [] (length nu - 1)).
Proof.
  intros Hl H0 Hp. split.
  - intros (L & R & E & _). destruct T as [|r T]; [simpl in L; lia|]. f_equal.
    + specialize (R 0%nat). cbn [nth length] in R. rewrite <- (R ltac:(lia)), Nat2Z.id.
      apply nth_ext with (d := 0) (d' := 1); [rewrite repeat_length; auto|]. intros c Hc. rewrite nth_repeat.
      specialize (E 0%nat c Hc). unfold entry in E. cbn [nth] in E. lia.
    + simpl in L. replace (length nu - 1)%nat with (length T) by lia.
      apply nth_ext with (d := []) (d' := []); [rewrite repeat_length; auto|]. intros i Hi. rewrite nth_repeat.
      specialize (R (S i)). cbn [nth length] in R. specialize (R ltac:(lia)). rewrite H0 in R. destruct (nth i T []); [auto|simpl in R; lia].
  - intros ->. assert (Q : forall i, nth (S i) (repeat 1 (Z.to_nat (part nu 0)) :: repeat (@nil Z) (length nu - 1)) [] = []) by (intros i; apply nth_repeat).
    split; [cbn [length]; rewrite repeat_length; lia|]. split; [|split; [|split]].
    + intros [|i] _; [cbn [nth]; rewrite repeat_length; lia|rewrite Q, H0; reflexivity].
    + intros [|i] c; [|rewrite Q; simpl; lia]. cbn [nth]. rewrite repeat_length. intros Hc. unfold entry. cbn [nth].
      rewrite (nth_indep _ 0 1), nth_repeat by (rewrite repeat_length; auto). lia.
    + intros [|i] c; [|rewrite Q; simpl; lia]. cbn [nth]. rewrite repeat_length. intros Hc. unfold entry. cbn [nth].
      rewrite (nth_indep _ 0 1), nth_repeat by (rewrite repeat_length; lia).
      rewrite (nth_indep _ 0 1), nth_repeat by (rewrite repeat_length; lia). lia.
    + intros i c. rewrite Q. simpl; lia.
Qed.

Lemma ssyt_dec m nu T : ssyt m nu T -> ssyt (m - 1) nu T \/ ~ ssyt (m - 1) nu T.
Proof.
  intros HT. assert (K : forall j, tab m j nu T \/ ~ ssyt (m - 1) nu T).
  { induction j as [|j [H|H]]; [left; split; auto; intros; lia| |auto].
    destruct (has_dec m j T) as [Q|Q]; [right; intros A; eapply lower_has; eauto|left; apply tab_next; auto]. }
  destruct (K (length nu)) as [H|H]; auto. left. eapply tab_end; eauto. intros i Hi. apply part_over. auto.
Qed.
Lemma sch_ok fuel : forall m k nu, 1 <= m <= n -> shape nu -> 1 <= k -> (2 <= m \/ k = 1) -> m + zsum nu < Z.of_nat fuel ->
  exists p S, sch n kappa fuel [] m k nu = Ok (p, S) /\ lists (tab m (Z.to_nat (k - 1)) nu) p.
Proof.
  induction fuel as [|f IH]; intros m k nu Hm Hs Hk1 Hmk Hf; [pose proof (shape_sum nu Hs); lia|].
  pose proof Hs as (L & N & D). pose proof (shape_sum nu Hs) as HS. cbn [sch]. unfold zlen.
  assert (Hempty : (forall i, part nu i = 0) -> lists (tab m (Z.to_nat (k - 1)) nu) (xone n)).
  { intros H. unfold xone. rewrite <- (content_nil n (length nu)). apply lists_single. intros U. rewrite <- (ssyt_empty m nu U H).
    split; [intros [A _]; auto|]. intros A. split; auto. intros i c Hi Hc. exfalso. pose proof (row_len m nu U i A) as [B|[B1 B2]].
    - rewrite H in B. lia.
    - rewrite B2 in Hc. simpl in Hc. lia. }
  destruct (Z.eqb_spec (Z.of_nat (length nu)) 0) as [Q|Q].
  { eexists; eexists. split; [reflexivity|]. apply Hempty. intros i. apply part_over. lia. }
  rewrite (py_get_in nu 0 0) by (unfold zlen; lia). change (nth (Z.to_nat 0) nu 0) with (part nu 0). cbn [bind].
  destruct (Z.eqb_spec (part nu 0) 0) as [Q0|Q0].
  { eexists; eexists. split; [reflexivity|]. apply Hempty. intros i. apply (shape_zero nu 0); auto; lia. }
  destruct (Z.eqb_spec m 0) as [|_]; [lia|]. cbn [orb].
  assert (Hlong : (if m <? Z.of_nat (length nu) then b <- py_get nu m ;; Ok (0 <? b) else Ok false) = Ok (0 <? part nu (Z.to_nat m))).
  { destruct (Z.ltb_spec m (Z.of_nat (length nu))).
    - rewrite (py_get_in nu m 0) by (unfold zlen; lia). reflexivity.
    - rewrite part_over by lia. reflexivity. }
  rewrite Hlong. cbn [bind]. destruct (Z.ltb_spec 0 (part nu (Z.to_nat m))) as [Q1|Q1].
  { eexists; eexists. split; [reflexivity|]. apply lists_none. intros U [A _].
    assert (B : (Z.to_nat m < length nu)%nat) by (destruct (Nat.lt_ge_cases (Z.to_nat m) (length nu)); auto; rewrite part_over in Q1 by auto; lia).
    pose proof (col_ge m nu U A D (Z.to_nat m) Q1 B). destruct A as (LU & R & E & _). specialize (R (Z.to_nat m) ltac:(lia)).
    specialize (E (Z.to_nat m) 0%nat ltac:(lia)). lia. }
  destruct (Z.eqb_spec m 1) as [Q2|Q2].
  { subst m. assert (k = 1) by lia. subst k. eexists; eexists. split; [reflexivity|]. cbn [map xone]. unfold xone. cbn [map].
    pose proof (N 0%nat). rewrite <- (content_row n (part nu 0) (length nu - 1)) by lia. apply lists_single. intros U.
    rewrite <- (ssyt_one nu U); [|lia| |lia].
    - split; [intros [A _]; auto|]. intros A. split; auto. intros i c Hi. simpl in Hi. lia.
    - intros i. apply (shape_zero nu 1); auto; [|lia]. change (Z.to_nat 1) with 1%nat in Q1. pose proof (N 1%nat). lia. }
  pose proof (N 0%nat) as Hp0. pose proof (N_ok nu Hs ltac:(lia)) as HN.
  destruct (Z.ltb_spec (mixed_N kappa nu) 1); [lia|]. destruct (Z.ltb_spec (rowsN kappa) (mixed_N kappa nu)); [lia|].
  destruct (Z.ltb_spec m 1); [lia|]. destruct (Z.ltb_spec n m); [lia|]. cbn [orb memo_get].
  destruct (IH (m - 1) 1 nu) as (p0 & S0 & E0 & HL0); auto; try lia. rewrite E0. cbn [bind].
  destruct (rows_ok (sch n kappa f) m nu) with (fuel := (Z.to_nat (Z.of_nat (length nu)) + 1)%nat) (i := k) (s := p0) as (t & E & HL); auto; try lia.
  { intros m' k' nu' A B C E F. apply IH; auto; lia. }
  rewrite E. cbn [bind]. eexists; eexists. split; [reflexivity|].
  apply (lists_app _ _ _ _ _ HL0 HL).
  - intros T. split.
    + intros H3. destruct (ssyt_dec m nu T (proj1 H3)); [left; split; auto; intros; simpl in *; lia|auto].
    + intros [[A _]|[A _]]; auto. apply lower_tab. auto.
  - intros T [A _] [_ B]. auto.
Qed.
End Main.
