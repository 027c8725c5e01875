(** The Littlewood-Richardson rule, combinatorial part: sums of an alternating
    function over semistandard tableaux.  A tableau is given by its columns, from
    right to left, and a column by its 0/1-vector. *)

From Coq Require Import ZArith List Lia Bool Permutation QArith Qcanon.
From Verif Require Import Py PyFacts Spec PartFacts RingA Transfer CoefSys.
Import ListNotations.
Open Scope Z_scope.

(** ** vectors *)
Notation "a +' b" := (Qcplus a b) (at level 50, left associativity).
Notation "-' a" := (Qcopp a) (at level 35, right associativity).
Notation "a -' b" := (Qcminus a b) (at level 50, left associativity).

Fixpoint vadd (a b : list Z) : list Z :=
  match a, b with
  | x :: a', y :: b' => x + y :: vadd a' b'
  | _, _ => []
  end.
Lemma vadd_len a : forall b, length b = length a -> length (vadd a b) = length a.
Proof. induction a as [|x a IH]; intros [|y b] H; simpl in *; try discriminate; auto. Qed.
Lemma vadd_app a a' : forall b b', length a = length b -> vadd (a ++ a') (b ++ b') = vadd a b ++ vadd a' b'.
Proof. induction a as [|x a IH]; intros [|y b] b' H; simpl in *; auto; try discriminate. rewrite IH; auto. Qed.
Lemma vadd_comm a : forall b, vadd a b = vadd b a.
Proof. induction a as [|x a IH]; intros [|y b]; simpl; auto. rewrite IH, Z.add_comm; auto. Qed.
Lemma vadd_assoc a : forall b c, vadd (vadd a b) c = vadd a (vadd b c).
Proof. induction a as [|x a IH]; intros [|y b] [|z c]; simpl; auto. rewrite IH, Z.add_assoc; auto. Qed.
Lemma vadd_swap a b c : vadd (vadd a b) c = vadd (vadd a c) b.
Proof. rewrite !vadd_assoc, (vadd_comm b); auto. Qed.

(** all 0/1-vectors *)
Definition bits (n : nat) : list (list Z) := alll n 1.
Lemma qsum_alll_S (F : list Z -> Qc) n k : qsum F (alll (S n) k) = qsum (fun x => qsum (fun l => F (x :: l)) (alll n k)) (zrange 0 (k + 1)).
Proof.
  cbn [alll]. induction (zrange 0 (k + 1)) as [|x l IH]; [reflexivity|]. cbn [flat_map].
  rewrite qsum_app, qsum_cons, qsum_map, IH. reflexivity.
Qed.
Lemma qsum_alll_app (F : list Z -> Qc) a b k : qsum F (alll (a + b) k) = qsum (fun u => qsum (fun v => F (u ++ v)) (alll b k)) (alll a k).
Proof.
  revert F. induction a as [|a IH]; intros F.
  - cbn [alll plus qsum]. rewrite qsum_cons, qsum_nil, Qcplus_0_r. reflexivity.
  - change (S a + b)%nat with (S (a + b)). rewrite !qsum_alll_S. apply qsum_ext. intros x _. rewrite IH. reflexivity.
Qed.
Lemma qsum_alll_two (F : list Z -> Qc) n j k :
  qsum F (alll (n + S (S j)) k) =
  qsum (fun u => qsum (fun v => qsum (fun a => qsum (fun b => F (u ++ a :: b :: v)) (zrange 0 (k + 1))) (zrange 0 (k + 1))) (alll j k)) (alll n k).
Proof.
  assert (SW : forall A B (f : A -> B -> Qc) l1 l2, qsum (fun x => qsum (f x) l2) l1 = qsum (fun y => qsum (fun x => f x y) l1) l2).
  { intros A B f l1 l2. induction l1 as [|x l1 IH].
    - symmetry. apply qsum_zero. reflexivity.
    - rewrite qsum_cons, IH, <- qsum_add. apply qsum_ext. intros. rewrite qsum_cons. reflexivity. }
  rewrite qsum_alll_app. apply qsum_ext. intros u _. rewrite qsum_alll_S.
  rewrite (SW _ _ (fun v a => qsum (fun b => F (u ++ a :: b :: v)) (zrange 0 (k + 1)))).
  apply qsum_ext. intros a _. rewrite qsum_alll_S.
  apply SW.
Qed.
Lemma qsum_swap {A B} (f : A -> B -> Qc) l1 l2 : qsum (fun x => qsum (f x) l2) l1 = qsum (fun y => qsum (fun x => f x y) l1) l2.
Proof.
  induction l1 as [|x l1 IH].
  - symmetry. apply qsum_zero. reflexivity.
  - rewrite qsum_cons, IH, <- qsum_add. apply qsum_ext. intros. rewrite qsum_cons. reflexivity.
Qed.
Lemma qsum_opp {A} (f : A -> Qc) l : qsum (fun x => - f x)%Qc l = (- qsum f l)%Qc.
Proof. induction l as [|x l IH]; [reflexivity|]. rewrite !qsum_cons, IH. ring. Qed.
Lemma qsum_flat_map {A B} (f : B -> Qc) (g : A -> list B) l : qsum f (flat_map g l) = qsum (fun x => qsum f (g x)) l.
Proof. induction l as [|x l IH]; [reflexivity|]. cbn [flat_map]. rewrite qsum_app, qsum_cons, IH. reflexivity. Qed.
Lemma Qc_self_opp (x : Qc) : x = (- x)%Qc -> x = 0%Qc.
Proof.
  intros H. assert (E : (x + x = 0)%Qc) by (rewrite H at 1; ring).
  destruct (Qc_eq_dec x 0) as [|N]; auto. exfalso. apply N.
  assert (E2 : ((1 + 1) * x = 0)%Qc) by (rewrite <- E; ring).
  apply Qcmult_integral in E2. destruct E2 as [E2|]; auto. discriminate.
Qed.

(** ** alternating functions of vectors of length m *)
Definition anti_at (m n : nat) (G : list Z -> Qc) : Prop :=
  forall u a b v, length u = n -> length (u ++ a :: b :: v) = m -> G (u ++ b :: a :: v) = (- G (u ++ a :: b :: v))%Qc.
Definition anti (m : nat) (G : list Z -> Qc) : Prop := forall n, anti_at m n G.

(** the prefix sums of [c] dominate those of [d]: the column [c] may stand left
    of the column [d] *)
Fixpoint domb (e : Z) (c d : list Z) : bool :=
  match c, d with
  | [], [] => true
  | x :: c', y :: d' => (0 <=? e + x - y) && domb (e + x - y) c' d'
  | _, _ => false
  end.
Lemma domb_app e c c' : forall d d', length c = length d ->
  domb e (c ++ c') (d ++ d') = domb e c d && domb (e + zsum c - zsum d) c' d'.
Proof.
  revert e. induction c as [|x c IH]; intros e [|y d] d' H; simpl in *; try discriminate.
  - f_equal. lia.
  - rewrite IH by lia. rewrite andb_assoc. f_equal. f_equal. lia.
Qed.
Lemma domb_end e c : forall d, 0 <= e -> domb e c d = true -> 0 <= e + zsum c - zsum d.
Proof.
  revert e. induction c as [|x c IH]; intros e [|y d] He H; simpl in *; try discriminate; [lia|].
  apply andb_true_iff in H. destruct H as [H1 H2]. apply Z.leb_le in H1. apply IH in H2; lia.
Qed.

Lemma zsum_mid u a b v : zsum (u ++ a :: b :: v) = zsum u + a + b + zsum v.
Proof. rewrite zsum_app. simpl. lia. Qed.

Lemma domb_mid u a b v u' a' b' v' : length u = length u' ->
  domb 0 (u ++ a :: b :: v) (u' ++ a' :: b' :: v') =
  domb 0 u u' && ((0 <=? zsum u - zsum u' + a - a') && ((0 <=? zsum u - zsum u' + a - a' + b - b') &&
    domb (zsum u - zsum u' + a - a' + b - b') v v')).
Proof. intros H. rewrite domb_app by auto. cbn [domb]. reflexivity. Qed.

Lemma z01 : zrange 0 (1 + 1) = [0; 1].
Proof. reflexivity. Qed.
Lemma qsum_01 (f : Z -> Qc) : qsum f (zrange 0 (1 + 1)) = f 0 +' f 1.
Proof. rewrite z01, !qsum_cons, qsum_nil, Qcplus_0_r. reflexivity. Qed.
Lemma bits_len k c : In c (bits k) -> length c = k.
Proof. intros H. apply in_alll in H. tauto. Qed.

Lemma vadd_mid gu x y gv u a b v : length gu = length u -> vadd (gu ++ x :: y :: gv) (u ++ a :: b :: v) = vadd gu u ++ x + a :: y + b :: vadd gv v.
Proof. intros H. rewrite vadd_app by auto. reflexivity. Qed.

Definition free (a b : Z) : Prop := (a = 0 /\ b = 0) \/ (a = 0 /\ b = 1) \/ (a = 1 /\ b = 1).


Section V.
Variable m : nat.

(** the sum of [G (g + content of T)] over the tableaux [T] with columns of the
    sizes [L], from right to left, that may stand left of the column [d] *)
Fixpoint V (G : list Z -> Qc) (L : list Z) (d g : list Z) : Qc :=
  match L with
  | [] => G g
  | s :: L' => qsum (fun c => if (zsum c =? s) && domb 0 c d then V G L' c (vadd g c) else 0%Qc) (bits m)
  end.

Lemma V_cons G s L d g : V G (s :: L) d g = qsum (fun c => if (zsum c =? s) && domb 0 c d then V G L c (vadd g c) else 0%Qc) (bits m).
Proof. reflexivity. Qed.


Section Anti.
Variables (G : list Z -> Qc) (n j : nat).
Hypothesis Hm : m = (n + S (S j))%nat.
Hypothesis HG : anti_at m n G.

Lemma domb_free u a b v u' a' b' v' : length u = length u' -> free a' b' -> 0 <= a <= 1 -> 0 <= b <= 1 ->
  domb 0 (u ++ a :: b :: v) (u' ++ a' :: b' :: v') =
  domb 0 u u' && ((0 <=? zsum u - zsum u' + (a + b) - (a' + b')) &&
    domb (zsum u - zsum u' + (a + b) - (a' + b')) v v').
Proof.
  intros H HF Ha Hb. rewrite domb_mid by auto. destruct (domb 0 u u') eqn:E; auto. cbn [andb].
  apply domb_end in E; [|lia].
  replace (zsum u - zsum u' + a - a' + b - b') with (zsum u - zsum u' + (a + b) - (a' + b')) by lia.
  destruct (0 <=? zsum u - zsum u' + (a + b) - (a' + b')) eqn:E2.
  - apply Z.leb_le in E2. destruct (Z.leb_spec 0 (zsum u - zsum u' + a - a')); auto.
    exfalso. unfold free in HF. lia.
  - cbn [andb]. destruct (0 <=? zsum u - zsum u' + a - a'); auto.
Qed.

(** the two claims of the induction over the columns *)
Definition claimB L := forall u a b v gu x y gv, length u = n -> length v = j -> length gu = n -> length gv = j ->
  free a b -> V G L (u ++ a :: b :: v) (gu ++ y :: x :: gv) = -' V G L (u ++ a :: b :: v) (gu ++ x :: y :: gv).
Definition claimC L := forall u v gu x y gv, length u = n -> length v = j -> length gu = n -> length gv = j ->
  V G L (u ++ 0 :: 1 :: v) (gu ++ y :: x + 1 :: gv) +' V G L (u ++ 1 :: 0 :: v) (gu ++ y + 1 :: x :: gv) =
  -' (V G L (u ++ 0 :: 1 :: v) (gu ++ x :: y + 1 :: gv) +' V G L (u ++ 1 :: 0 :: v) (gu ++ x + 1 :: y :: gv)).

Lemma claimB_step s L : claimB L -> claimC L -> claimB (s :: L).
Proof.
  intros HB HC u a b v gu x y gv Hu Hv Hgu Hgv HF. rewrite !V_cons. unfold bits. rewrite Hm, !qsum_alll_two, <- qsum_opp.
  apply qsum_ext. intros u' Hu'. apply bits_len in Hu'. rewrite <- qsum_opp. apply qsum_ext. intros v' Hv'. apply bits_len in Hv'.
  rewrite !qsum_01. cbv beta. rewrite !zsum_mid.
  rewrite !(domb_free u' _ _ v' u a b v) by (auto; lia). rewrite !vadd_mid by lia.
  change (0 + 0) with 0. change (0 + 1) with 1. change (1 + 0) with 1. change (1 + 1) with 2.
  rewrite !Z.add_0_r.
  replace (zsum u' + 1 + 1 + zsum v') with (zsum u' + 2 + zsum v') by lia.
  assert (Lu : length (vadd gu u') = n) by (rewrite vadd_len; lia).
  assert (Lv : length (vadd gv v') = j) by (rewrite vadd_len; lia).
  set (c0 := (zsum u' + zsum v' =? s) && _).
  set (c1 := (zsum u' + 1 + zsum v' =? s) && _).
  set (c2 := (zsum u' + 2 + zsum v' =? s) && _).
  assert (E0 : V G L (u' ++ 0 :: 0 :: v') (vadd gu u' ++ y :: x :: vadd gv v') = -' V G L (u' ++ 0 :: 0 :: v') (vadd gu u' ++ x :: y :: vadd gv v'))
    by (apply HB; auto; unfold free; lia).
  assert (E2 : V G L (u' ++ 1 :: 1 :: v') (vadd gu u' ++ y + 1 :: x + 1 :: vadd gv v') = -' V G L (u' ++ 1 :: 1 :: v') (vadd gu u' ++ x + 1 :: y + 1 :: vadd gv v'))
    by (apply HB; auto; unfold free; lia).
  pose proof (HC u' v' (vadd gu u') x y (vadd gv v') Hu' Hv' Lu Lv) as E1.
  rewrite E0, E2. clear E0 E2.
  destruct c0, c1, c2; try ring;
  match goal with |- ?A = ?B => idtac end.
  all: rewrite <- ?Qcplus_assoc; try (rewrite Qcplus_assoc with (x := V G L (u' ++ 0 :: 1 :: v') _)).
  all: match type of E1 with (?p + ?q = - (?r + ?s))%Qc => assert (E3 : p = (- (r + s) - q)%Qc) by (rewrite <- E1; ring); rewrite E3; ring end.
Qed.

Lemma claimC_gen L : claimB L ->
  (forall u v gu x y gv, length u = n -> length v = j -> length gu = n -> length gv = j ->
    V G L (u ++ 0 :: 1 :: v) (gu ++ y + 1 :: x :: gv) -' V G L (u ++ 1 :: 0 :: v) (gu ++ y + 1 :: x :: gv) =
    -' (V G L (u ++ 0 :: 1 :: v) (gu ++ x + 1 :: y :: gv) -' V G L (u ++ 1 :: 0 :: v) (gu ++ x + 1 :: y :: gv))) ->
  claimC L.
Proof.
  intros HB HD u v gu x y gv Hu Hv Hgu Hgv.
  assert (E1 := HB u 0 1 v gu (x + 1) y gv Hu Hv Hgu Hgv ltac:(unfold free; lia)).
  assert (E2 := HB u 0 1 v gu x (y + 1) gv Hu Hv Hgu Hgv ltac:(unfold free; lia)).
  specialize (HD u v gu x y gv Hu Hv Hgu Hgv). rewrite E2 in HD. rewrite E1.
  match type of HD with (- ?p - ?q = - (?r - ?s))%Qc => assert (E3 : q = (- p + (r - s))%Qc) by (transitivity (- p - (- p - q))%Qc; [ring|rewrite HD; ring]); rewrite E3; ring end.
Qed.

Lemma domb_0110 u v u' v' a b : length u = length u' -> 0 <= a <= 1 -> 0 <= b <= 1 ->
  domb 0 (u ++ a :: b :: v) (u' ++ 0 :: 1 :: v') =
  domb 0 (u ++ a :: b :: v) (u' ++ 1 :: 0 :: v') || (domb 0 u u' && ((zsum u =? zsum u') && ((a =? 0) && ((b =? 1) && domb 0 v v')))).
Proof.
  intros H Ha Hb. rewrite !domb_mid by auto. destruct (domb 0 u u') eqn:E; auto. cbn [andb].
  apply domb_end in E; [|lia].
  replace (zsum u - zsum u' + a - 1 + b - 0) with (zsum u - zsum u' + a - 0 + b - 1) by lia.
  destruct (Z.eqb_spec (zsum u) (zsum u')) as [EQ|EQ]; cbn [andb].
  2:{ rewrite orb_false_r. replace (0 <=? zsum u - zsum u' + a - 0) with true by (symmetry; apply Z.leb_le; lia).
      replace (0 <=? zsum u - zsum u' + a - 1) with true by (symmetry; apply Z.leb_le; lia). reflexivity. }
  rewrite EQ, Z.sub_diag.
  assert (a = 0 \/ a = 1) as [-> | ->] by lia; assert (b = 0 \/ b = 1) as [-> | ->] by lia; cbn; rewrite ?orb_false_r; auto.
Qed.

Lemma diff_step s L u v g : length u = n ->
  V G (s :: L) (u ++ 0 :: 1 :: v) g -' V G (s :: L) (u ++ 1 :: 0 :: v) g =
  qsum (fun u' => qsum (fun v' => if (zsum u' + 1 + zsum v' =? s) && (domb 0 u' u && ((zsum u' =? zsum u) && domb 0 v' v))
    then V G L (u' ++ 0 :: 1 :: v') (vadd g (u' ++ 0 :: 1 :: v')) else 0%Qc) (alll j 1)) (alll n 1).
Proof.
  intros Hu. rewrite !V_cons. unfold bits.
  transitivity (qsum (fun c => (if (zsum c =? s) && domb 0 c (u ++ 0 :: 1 :: v) then V G L c (vadd g c) else 0%Qc) +'
     -' (if (zsum c =? s) && domb 0 c (u ++ 1 :: 0 :: v) then V G L c (vadd g c) else 0%Qc)) (alll m 1)).
  { rewrite qsum_add, qsum_opp. reflexivity. }
  rewrite Hm, qsum_alll_two. apply qsum_ext. intros u' Hu'. apply bits_len in Hu'. apply qsum_ext. intros v' Hv'.
  rewrite !qsum_01. cbv beta. rewrite !(domb_0110 u' v' u v) by lia. cbn [Z.eqb Pos.eqb andb]. rewrite !andb_false_r, !orb_false_r.
  rewrite (zsum_mid u' 0 1 v'), !Z.add_0_r.
  set (X := V G L (u' ++ 0 :: 1 :: v') _).
  set (Y := V G L (u' ++ 0 :: 0 :: v') _). set (Z1 := V G L (u' ++ 1 :: 0 :: v') _). set (W := V G L (u' ++ 1 :: 1 :: v') _).
  set (P := domb 0 (u' ++ 0 :: 1 :: v') (u ++ 1 :: 0 :: v)).
  assert (HP : domb 0 u' u && ((zsum u' =? zsum u) && domb 0 v' v) = true -> P = false).
  { intros HT. apply andb_true_iff in HT. destruct HT as [_ HT]. apply andb_true_iff in HT. destruct HT as [HT _]. apply Z.eqb_eq in HT.
    unfold P. rewrite domb_mid by lia. rewrite HT, Z.sub_diag. cbn. apply andb_false_r. }
  destruct (domb 0 u' u && ((zsum u' =? zsum u) && domb 0 v' v)).
  - rewrite (HP eq_refl). cbn [orb]. rewrite andb_true_r, andb_false_r.
    destruct (zsum u' + 1 + zsum v' =? s), ((zsum (u' ++ 0 :: 0 :: v') =? s) && domb 0 (u' ++ 0 :: 0 :: v') (u ++ 1 :: 0 :: v)),
      ((zsum (u' ++ 1 :: 0 :: v') =? s) && domb 0 (u' ++ 1 :: 0 :: v') (u ++ 1 :: 0 :: v)),
      ((zsum (u' ++ 1 :: 1 :: v') =? s) && domb 0 (u' ++ 1 :: 1 :: v') (u ++ 1 :: 0 :: v)); ring.
  - rewrite orb_false_r, andb_false_r.
    destruct ((zsum u' + 1 + zsum v' =? s) && P), ((zsum (u' ++ 0 :: 0 :: v') =? s) && domb 0 (u' ++ 0 :: 0 :: v') (u ++ 1 :: 0 :: v)),
      ((zsum (u' ++ 1 :: 0 :: v') =? s) && domb 0 (u' ++ 1 :: 0 :: v') (u ++ 1 :: 0 :: v)),
      ((zsum (u' ++ 1 :: 1 :: v') =? s) && domb 0 (u' ++ 1 :: 1 :: v') (u ++ 1 :: 0 :: v)); ring.
Qed.

Lemma claims L : claimB L /\ claimC L.
Proof.
  induction L as [|s L [IB IC]].
  - assert (HB : claimB []).
    { intros u a b v gu x y gv Hu Hv Hgu Hgv _. apply HG; auto. rewrite app_length. simpl. lia. }
    split; auto. apply claimC_gen; auto. intros. simpl. ring.
  - assert (HB : claimB (s :: L)) by (apply claimB_step; auto). split; auto. apply claimC_gen; auto.
    intros u v gu x y gv Hu Hv Hgu Hgv. rewrite !diff_step by auto. rewrite <- qsum_opp. apply qsum_ext. intros u' Hu'.
    apply bits_len in Hu'. rewrite <- qsum_opp. apply qsum_ext. intros v' Hv'. apply bits_len in Hv'.
    rewrite !vadd_mid by lia. rewrite !Z.add_0_r.
    rewrite (IB u' 0 1 v' (vadd gu u') (x + 1) (y + 1) (vadd gv v')); auto; try (unfold free; lia); try (rewrite vadd_len; lia).
    destruct (_ && _); ring.
Qed.
End Anti.

Lemma V_anti_at G n L u a b v : anti_at m n G -> length u = n -> length (u ++ a :: b :: v) = m ->
  free a b -> anti_at m n (V G L (u ++ a :: b :: v)).
Proof.
  intros HG Hu Hl HF gu x y gv Hgu Hgl. rewrite app_length in Hl, Hgl. simpl in Hl, Hgl.
  apply (claims G n (length v) ltac:(lia) HG L); auto. lia.
Qed.

(** sums over all tableaux of a shape are alternating *)
Lemma V_anti G L : anti m G -> anti m (V G L (repeat 0 m)).
Proof.
  intros HG n u a b v Hu Hl. rewrite app_length in Hl. simpl in Hl.
  assert (E : repeat 0 m = repeat 0 n ++ 0 :: 0 :: repeat 0 (length v)).
  { replace m with (n + S (S (length v)))%nat by lia. rewrite repeat_app. reflexivity. }
  rewrite E. apply V_anti_at with (n := n); auto.
  - rewrite repeat_length. auto.
  - rewrite app_length. simpl. rewrite !repeat_length. lia.
  - unfold free. lia.
  - rewrite app_length. simpl. lia.
Qed.
End V.
