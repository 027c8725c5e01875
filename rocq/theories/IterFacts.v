(** The lemmas behind C87 and C88 in PropsIter.v. *)

From Coq Require Import ZArith List Lia Bool Permutation Sorted.
From Verif Require Import Py OrderFacts PyFacts ModelPart ModelQcalc Spec SpecIter PartFacts Enum FillFacts Schub BetwFacts ApiDraw.
Import ListNotations.
Open Scope Z_scope.

(** ** orders *)
Lemma rank_cmp B a : forall b, 0 <= B -> rng B a -> rng B b -> length a = length b -> (rank B a < rank B b <-> zl_cmp a b = Lt).
Proof.
  induction a as [|x a IH]; intros [|y b] HB Ha Hb Hl; cbn [length] in Hl; try discriminate.
  - split; [cbn; lia|discriminate].
  - injection Hl as Hl. inversion Ha; inversion Hb; subst. change (zl_cmp (x :: a) (y :: b)) with (match Z.compare x y with Eq => zl_cmp a b | c => c end).
    destruct (Z.compare_spec x y) as [->|L|L].
    + rewrite rank_cons_lt by auto. apply IH; auto.
    + split; [auto|]. intros _. apply rank_lt_head; auto.
    + split; [|discriminate]. pose proof (rank_lt_head B HB y x b a Hb Ha (eq_sym Hl) L). lia.
Qed.
Lemma rank_lex B a b : 0 <= B -> rng B a -> rng B b -> length a = length b -> (rank B a < rank B b <-> lex_lt a b).
Proof. intros HB Ha Hb Hl. rewrite rank_cmp by auto. split; [apply zl_lt_lex|apply lex_zl_lt]. Qed.
Lemma rank_lex_le B a b : 0 <= B -> rng B a -> rng B b -> length a = length b -> (rank B a <= rank B b <-> a = b \/ lex_lt a b).
Proof.
  intros HB Ha Hb Hl. rewrite <- (rank_lex B) by auto. split; [|intros [->|H]; lia]. intros H.
  destruct (Z.eq_dec (rank B a) (rank B b)) as [E|E]; [left; apply (rank_inj B); auto|right; lia].
Qed.

(** ** a bound for all lists below a list *)
Definition head0 (l : list Z) : Z := match l with [] => 0 | x :: _ => x end.
Lemma part_out l j : (length l <= j)%nat -> part l j = 0.
Proof. intros H. unfold part. apply nth_overflow. exact H. Qed.
Lemma row_decp n l B : head0 l <= B -> row_list n l -> length l = n /\ decp B l.
Proof.
  intros HB (H1 & H2 & H3). split; auto. assert (H0 : 0 <= head0 l) by (specialize (H2 O); destruct l; auto; reflexivity).
  apply decp_part; [lia|]. split; [auto|]. split; [auto|]. destruct l; unfold part; cbn in *; lia.
Qed.
Lemma decp_row B l : 0 <= B -> decp B l -> row_list (length l) l.
Proof.
  intros HB H. apply decp_part in H; auto. destruct H as (A & D & C). split; auto.
  assert (P0 : forall j, 0 <= part l j) by (intros j; destruct (Nat.lt_ge_cases j (length l)); [auto|rewrite part_out; lia]).
  split; auto. intros j. destruct (D j) as [|E]; auto. rewrite part_out by auto. auto.
Qed.
Lemma row_head n l : row_list n l -> 0 <= head0 l.
Proof. intros (_ & H & _). specialize (H O). destruct l; exact H. Qed.
Lemma row_le_head n l j : row_list n l -> part l j <= head0 l.
Proof.
  intros (_ & H2 & H3). induction j as [|j IH]; [destruct l; unfold part; cbn; lia|]. specialize (H3 j). lia.
Qed.
Lemma row_kstrict n l K : row_list n l -> head0 l <= K -> kstrict K l.
Proof. intros H HK j Hj. pose proof (row_le_head n l j H). lia. Qed.
Lemma head_lex a c : length a = length c -> head0 a < head0 c -> lex_lt a c.
Proof. destruct a as [|x a], c as [|y c]; cbn; intros Hl H; try discriminate; try lia. exists []. right. exists x, y, a, c. auto. Qed.
Lemma lex_head n a c : row_list n a -> row_list n c -> lex_lt c a -> head0 c <= head0 a.
Proof.
  intros Ha Hc H. destruct (Z.le_gt_cases (head0 c) (head0 a)) as [|G]; auto. exfalso.
  assert (L : lex_lt a c) by (apply head_lex; [destruct Ha as [-> _], Hc as [-> _]; reflexivity|lia]).
  apply lex_zl_lt in L. apply lex_zl_lt in H. rewrite (cmp_opp _ zl_cmp_ok) in L. rewrite H in L. discriminate.
Qed.

(** ** one step *)
Definition Dk (k : Z) (n : nat) (l : list Z) : Prop := row_list n l /\ kstrict k l.
Lemma Dk_kdec k n l B : 0 <= k -> head0 l <= B -> Dk k n l -> length l = n /\ kdec k B l.
Proof.
  intros Hk HB [H1 H2]. pose proof (row_head n l H1). destruct (row_decp n l B HB H1) as [E D]. split; auto. apply kdec_iff; auto. lia.
Qed.
Lemma kdec_Dk k n l B : 0 <= k -> 0 <= B -> length l = n -> kdec k B l -> Dk k n l.
Proof. intros Hk HB <- H. apply kdec_iff in H; auto. destruct H as [H1 H2]. split; auto. apply (decp_row B); auto. Qed.
Lemma knext_step k n a : 0 <= k -> Dk k n a ->
  match knext k a with None => least (Dk k n) a | Some b => previous (Dk k n) a b end.
Proof.
  intros Hk Ha. pose proof (row_head n a (proj1 Ha)) as H0.
  assert (G : forall B, head0 a <= B -> kdec k B a /\ 0 <= B) by (intros B HB; split; [apply (Dk_kdec k n a B); auto|lia]).
  assert (R : forall B c, Dk k n c -> head0 c <= B -> rng B c /\ kdec k B c /\ length c = length a).
  { intros B c Hc HB. destruct (Dk_kdec k n c B Hk HB Hc) as [E D]. destruct (Dk_kdec k n a (head0 a) Hk ltac:(lia) Ha) as [E' _]. split; [apply (kdec_rng k B B); auto; lia|]. split; auto. congruence. }
  destruct (knext k a) as [b|] eqn:E.
  - destruct (G (head0 a) ltac:(lia)) as [Ka B0].
    destruct (knext_spec k Hk (head0 a) B0 a (head0 a) (Z.le_refl _) Ka) as [[E' _]|(b' & E' & Kb & Lb & Rb & _)]; [congruence|]. assert (b' = b) by congruence. subst b'.
    destruct (Dk_kdec k n a (head0 a) Hk ltac:(lia) Ha) as [La _].
    assert (Db : Dk k n b) by (apply (kdec_Dk k n b (head0 a)); auto; congruence).
    assert (Hb : head0 b <= head0 a) by (destruct b; cbn in *; lia).
    assert (Lba : lex_lt b a) by (apply (rank_lex (head0 a)); auto; apply R; auto; lia).
    split; auto. split; auto. intros c Dc Hc. pose proof (lex_head n a c (proj1 Ha) (proj1 Dc) Hc) as Hca.
    destruct (R (head0 a) c Dc Hca) as (Rc & Kc & Lc).
    destruct (knext_spec k Hk (head0 a) B0 a (head0 a) (Z.le_refl _) Ka) as [[E2 _]|(b2 & E2 & _ & _ & _ & Hm)]; [congruence|]. assert (b2 = b) by congruence. subst b2.
    apply (rank_lex_le (head0 a)); auto; [apply R; auto|congruence|]. apply Hm; auto. apply (rank_lex (head0 a)); auto. apply R; auto; lia.
  - intros c Dc. set (B := Z.max (head0 a) (head0 c)). destruct (G B ltac:(unfold B; lia)) as [Ka B0].
    destruct (R B c Dc ltac:(unfold B; lia)) as (Rc & Kc & Lc). destruct (R B a Ha ltac:(unfold B; lia)) as (Ra & _ & _).
    destruct (knext_spec k Hk B B0 a B (Z.le_refl _) Ka) as [[_ Hm]|(b' & E' & _)]; [|congruence].
    specialize (Hm c Kc Lc). apply (rank_lex_le B) in Hm; auto. destruct Hm as [->|Hm]; auto.
Qed.

Theorem c87_itr_kstrict k n a : 0 <= k -> row_list n a /\ kstrict k a ->
  let D := fun l => row_list n l /\ kstrict k l in
  (least D a /\ itr_kstrict a k = Ok []) \/ (exists b, previous D a b /\ itr_kstrict a k = Ok b).
Proof.
  intros Hk Ha. cbv zeta. change (fun l => row_list n l /\ kstrict k l) with (Dk k n). pose proof (knext_step k n a Hk Ha) as H.
  rewrite itr_knext; auto.
  - destruct (knext k a) as [b|]; [right; exists b|left]; auto.
  - destruct (row_decp n a (head0 a) ltac:(lia) (proj1 Ha)) as [_ D]. apply (decp_nonneg _ _ D).
Qed.
Lemma itr_entries n a : row_list n a -> Forall (fun x => 0 <= x <= head0 a) a.
Proof.
  intros Ha. apply Forall_forall. intros x Hx. apply (In_nth _ _ 0) in Hx. destruct Hx as (j & _ & <-). change (nth j a 0) with (part a j).
  split; [apply Ha|apply (row_le_head n); auto].
Qed.
Theorem c87_part_itr n : steps_down (row_list n) part_itr.
Proof.
  intros a Ha. pose proof (row_head n a Ha) as H0. set (K := head0 a).
  assert (Da : Dk K n a) by (split; auto; apply (row_kstrict n); auto; unfold K; lia).
  pose proof (knext_step K n a H0 Da) as H. rewrite (part_itr_knext K) by (auto; apply (itr_entries n); auto).
  assert (Hc : forall c, row_list n c -> head0 c <= K -> Dk K n c) by (intros c Hc HK; split; auto; apply (row_kstrict n); auto).
  destruct (knext K a) as [b|].
  - right. exists b. split; auto. destruct H as (Db & Hb & Hm). split; [apply Db|]. split; auto. intros c Dc L. apply Hm; auto. apply Hc; auto. apply (lex_head n a c); auto.
  - left. split; auto. intros c Dc. destruct (Z.le_gt_cases (head0 c) K) as [L|L]; [apply H; apply Hc; auto|]. right. apply head_lex; [|auto]. destruct Ha as [-> _], Dc as [-> _]; reflexivity.
Qed.

(** ** between two partitions *)
Definition Dbt (n : nat) (tau lam l : list Z) : Prop := row_list n l /\ forall j, part tau j <= part l j <= part lam j.
Lemma row_cons n x l : row_list (S n) (x :: l) <-> row_list n l /\ head0 l <= x /\ 0 <= x.
Proof.
  split.
  - intros (H1 & H2 & H3). injection H1 as H1. split; [split; auto; split; intros j; [apply (H2 (S j))|apply (H3 (S j))]|].
    split; [|apply (H2 O)]. specialize (H3 O). specialize (H2 1%nat). destruct l; unfold part in *; cbn in *; lia.
  - intros ((H1 & H2 & H3) & H4 & H5). split; [cbn; auto|]. split; intros [|j].
    + apply H5.
    + apply (H2 j).
    + destruct l; unfold part in *; cbn in *; lia.
    + apply (H3 j).
Qed.
Lemma inT_iff tau : forall lam n prev l, row_list n tau -> row_list n lam ->
  (inT prev (combine tau lam) l <-> Dbt n tau lam l /\ (head0 l <= prev \/ n = O)).
Proof.
  induction tau as [|i tau IH]; intros [|o lam] n prev l Ht Hl.
  - destruct Ht as [<- _]. cbn. destruct l as [|x l]; cbn.
    + split; [|tauto]. intros _. split; [|auto]. split; [split; [auto|split; intros j; unfold part; rewrite ?nth_nil; destruct j; cbn; lia]|intros j; unfold part; destruct j; cbn; lia].
    + split; [tauto|]. intros [[[E _] _] _]. discriminate.
  - destruct Ht as [<- _], Hl as [E _]. discriminate.
  - destruct Ht as [<- _], Hl as [E _]. discriminate.
  - destruct n as [|n]; [destruct Ht as [E _]; discriminate|]. apply row_cons in Ht. apply row_cons in Hl. destruct Ht as (Ht & Ht1 & Ht2), Hl as (Hl & Hl1 & Hl2).
    destruct l as [|x l]; cbn [combine inT].
    + split; [tauto|]. intros [[[E _] _] _]. discriminate.
    + rewrite (IH lam n x l) by auto. unfold Dbt. rewrite row_cons. split.
      * intros (H1 & H2 & (H3 & H4) & H5). split; [|left; cbn; lia]. split; [split; auto|].
        -- split; [|lia]. destruct H5 as [|En]; auto. destruct H3 as [E _]. destruct l; cbn in *; [lia|lia].
        -- intros [|j]; [exact H1|apply (H4 j)].
      * intros (((H1 & H2 & H3) & H4) & [H5|H5]); [|discriminate]. cbn in H5. split; [apply (H4 O)|]. split; [auto|]. split; [|auto]. split; auto. intros j. apply (H4 (S j)).
Qed.
Lemma combine_lows (a : list Z) : forall b, length a = length b -> lows (combine a b) = a /\ highs (combine a b) = b.
Proof. induction a as [|x a IH]; intros [|y b] H; try discriminate; auto. injection H as H. destruct (IH b H) as [E1 E2]. split; [change (x :: lows (combine a b) = x :: a)|change (y :: highs (combine a b) = y :: b)]; congruence. Qed.
Lemma okB_combine tau : forall lam n B, row_list n tau -> row_list n lam -> (forall j, part tau j <= part lam j) -> head0 lam <= B ->
  forall prev, head0 tau <= prev \/ n = O -> okB B 0 prev (combine tau lam) /\ decH (combine tau lam).
Proof.
  induction tau as [|i tau IH]; intros [|o lam] n B Ht Hl Hle HB prev Hp; cbn [combine okB decH]; auto.
  destruct n as [|n]; [destruct Ht as [E _]; discriminate|]. apply row_cons in Ht. apply row_cons in Hl. destruct Ht as (Ht & Ht1 & Ht2), Hl as (Hl & Hl1 & Hl2).
  cbn in HB. pose proof (Hle O) as H0. cbn in H0. unfold part in H0. cbn in H0.
  destruct (IH lam n B Ht Hl (fun j => Hle (S j)) ltac:(lia) i ltac:(left; lia)) as [A C].
  split; [split; [lia|split; [lia|split; [destruct Hp as [Hp|]; [cbn in Hp; lia|discriminate]|exact A]]]|].
  split; auto. destruct (combine tau lam) as [|[i' o'] t] eqn:E; auto.
  destruct tau, lam; cbn in E; try discriminate. injection E as <- <- <-. cbn in Hl1. lia.
Qed.
Theorem c87_between n tau lam : row_list n tau -> row_list n lam -> (forall j, part tau j <= part lam j) ->
  steps_down (fun l => row_list n l /\ forall j, part tau j <= part l j <= part lam j) (fun a => part_itr_between a tau lam).
Proof.
  intros Ht Hl Hle a Ha. change (Dbt n tau lam a) in Ha. change (fun l => row_list n l /\ forall j, part tau j <= part l j <= part lam j) with (Dbt n tau lam).
  set (B := head0 lam). assert (HB : 0 <= B) by (apply (row_head n); auto).
  assert (Lt : length tau = length lam) by (destruct Ht as [-> _], Hl as [-> _]; auto).
  destruct (combine_lows tau lam Lt) as [E1 E2]. set (bs := combine tau lam) in *.
  assert (Lb : forall c, Dbt n tau lam c -> length c = n) by (intros c [[E _] _]; auto).
  assert (Lbs : length bs = n) by (unfold bs; rewrite combine_length, <- Lt, Nat.min_id; apply Ht).
  assert (Hh : forall c, Dbt n tau lam c -> head0 c <= B).
  { intros c [_ Hc]. specialize (Hc O). unfold B. destruct c, lam; unfold part in *; cbn in *; lia. }
  assert (Hi : forall c, Dbt n tau lam c <-> inT B bs c).
  { intros c. unfold bs. rewrite (inT_iff tau lam n B c Ht Hl). split; [|tauto]. intros Hc. auto. }
  assert (HtB : head0 tau <= B) by (specialize (Hle O); unfold B; destruct tau, lam; unfold part in *; cbn in *; lia).
  destruct (okB_combine tau lam n B Ht Hl Hle ltac:(unfold B; lia) B ltac:(auto)) as [Hok Hd]. fold bs in Hok, Hd.
  assert (Hr : forall c, Dbt n tau lam c -> rng B c) by (intros c Hc; apply Hi in Hc; apply (inT_rng B bs B); auto).
  pose proof (nextT_spec B HB bs B a Hok Hd (proj1 (Hi a) Ha)) as H.
  assert (Eb : part_itr_between a tau lam = Ok (nextT bs a)).
  { rewrite <- (between_ok bs a) by (rewrite Lbs; apply Lb; auto). rewrite E1, E2. reflexivity. }
  rewrite Eb. destruct (nextT bs a) as [b|].
  - right. exists b. split; auto. destruct H as (H1 & H2 & H3). apply Hi in H1.
    split; [auto|]. split.
    + apply (rank_lex B); auto. rewrite !Lb; auto.
    + intros c Hc L. apply (rank_lex_le B); auto; [rewrite !Lb; auto|]. apply H3; [apply Hi; auto|]. apply (rank_lex B); auto. rewrite !Lb; auto.
  - left. split; auto. intros c Hc. pose proof (H c (proj1 (Hi c) Hc)) as L. apply (rank_lex_le B) in L; auto; [|rewrite !Lb; auto]. destruct L as [->|L]; auto.
Qed.

(** ** skew heights *)
Lemma skew_contained_ok lam : forall mu, (length lam <= length mu)%nat -> (forall j, (j < length lam)%nat -> part lam j <= part mu j) -> skew_contained lam mu = Ok tt.
Proof.
  induction lam as [|a lam IH]; intros [|b mu] Hl Hp; cbn in Hl; try reflexivity; [lia|]. cbn [skew_contained].
  pose proof (Hp O ltac:(cbn; lia)) as H0. unfold part in H0. cbn in H0. destruct (Z.ltb_spec b a); [lia|].
  apply IH; [lia|]. intros j Hj. apply (Hp (S j)). cbn. lia.
Qed.
Lemma skew_contained_err lam : forall mu, ~ ((length lam <= length mu)%nat /\ forall j, (j < length lam)%nat -> part lam j <= part mu j) -> skew_contained lam mu = Err ValueError.
Proof.
  induction lam as [|a lam IH]; intros [|b mu] H; try reflexivity.
  - exfalso. apply H. split; auto. cbn. intros; lia.
  - exfalso. apply H. split; [cbn; lia|]. cbn. intros; lia.
  - cbn [skew_contained]. destruct (Z.ltb_spec b a); auto. apply IH. intros [H1 H2]. apply H. split; [cbn; lia|].
    intros [|j] Hj; [unfold part; cbn; lia|]. apply (H2 j). cbn in Hj. lia.
Qed.
Lemma rows_shift lam mu n : rows_with_boxes lam mu (S n) = (if part lam 0 <? part mu 0 then 1 else 0) + rows_with_boxes (tl lam) (tl mu) n.
Proof.
  induction n as [|n IH]; [cbn; lia|].
  change (rows_with_boxes lam mu (S (S n))) with (rows_with_boxes lam mu (S n) + (if part lam (S n) <? part mu (S n) then 1 else 0)).
  rewrite IH. cbn [rows_with_boxes]. assert (E : forall l j, part l (S j) = part (tl l) j) by (intros [|x l] j; [unfold part; destruct j; reflexivity|reflexivity]).
  rewrite !E. lia.
Qed.
Lemma skew_count_ok mu : forall lam, skew_count lam mu = rows_with_boxes lam mu (length mu).
Proof.
  induction mu as [|b mu IH]; intros lam; [reflexivity|]. cbn [length]. rewrite rows_shift. cbn [skew_count tl]. rewrite IH.
  destruct lam; reflexivity.
Qed.
Theorem c88_height lam mu : lam <> [] -> (length lam <= length mu)%nat -> (forall j, (j < length lam)%nat -> part lam j <= part mu j) ->
  skew_partition_height lam mu = Ok (rows_with_boxes lam mu (length mu)).
Proof.
  intros H0 H1 H2. unfold skew_partition_height. destruct lam; [congruence|]. rewrite skew_contained_ok by auto. cbn [bind]. rewrite skew_count_ok. reflexivity.
Qed.
Theorem c88_rejects lam mu : ~ ((length lam <= length mu)%nat /\ forall j, (j < length lam)%nat -> part lam j <= part mu j) ->
  skew_partition_height lam mu = Err ValueError.
Proof.
  intros H. unfold skew_partition_height. destruct lam; [exfalso; apply H; split; [cbn; lia|cbn; intros; lia]|]. rewrite skew_contained_err by auto. reflexivity.
Qed.
Lemma rows_all mu : Forall (fun x => 0 < x) mu -> rows_with_boxes [] mu (length mu) = zlen mu.
Proof.
  rewrite <- skew_count_ok. induction 1 as [|x mu Hx _ IH]; [reflexivity|]. cbn [skew_count tl]. rewrite IH, zlen_cons. destruct (Z.ltb_spec 0 x); lia.
Qed.
Theorem c88_empty mu : skew_partition_height [] mu = Ok (Z.of_nat (length mu)) /\ (Forall (fun x => 0 < x) mu -> rows_with_boxes [] mu (length mu) = Z.of_nat (length mu)).
Proof. split; [reflexivity|]. apply rows_all. Qed.

(** ** all partitions from a given one downwards *)
Lemma zl_cmp_cons x a y b : zl_cmp (x :: a) (y :: b) = match Z.compare x y with Eq => zl_cmp a b | c => c end.
Proof. reflexivity. Qed.
Lemma pad_le p : forall lam c, 0 <= c -> length (p ++ repz 0 c) = length lam -> Forall (fun x => 0 <= x) lam ->
  (zl_cmp (p ++ repz 0 c) lam <> Gt <-> zl_cmp p lam <> Gt).
Proof.
  induction p as [|x p IH]; intros lam c Hc Hl Hp.
  - split; [intros _; destruct lam; discriminate|]. intros _. cbn [app] in *. revert lam Hl Hp. unfold repz. induction (Z.to_nat c) as [|k IH]; intros [|y lam] Hl Hp; try discriminate.
    cbn [repeat]. rewrite zl_cmp_cons. pose proof (Forall_inv Hp) as Hy. cbv beta in Hy. destruct (Z.compare_spec 0 y); try lia; try discriminate.
    apply IH; [cbn in Hl; lia|apply Forall_inv_tail in Hp; auto].
  - destruct lam as [|y lam]; [discriminate|]. cbn [app]. rewrite !zl_cmp_cons. destruct (Z.compare x y); try tauto. apply Forall_inv_tail in Hp. cbn in Hl. apply IH; auto; lia.
Qed.
Lemma cmp_le a b : zl_cmp a b <> Gt <-> a = b \/ lex_lt a b.
Proof.
  split.
  - destruct (zl_cmp a b) eqn:E; [left; apply (cmp_eq _ zl_cmp_ok); auto|right; apply zl_lt_lex; auto|congruence].
  - intros [->|H]; [rewrite (proj2 (cmp_eq _ zl_cmp_ok b b) eq_refl); discriminate|]. apply lex_zl_lt in H. congruence.
Qed.
Lemma clip_cmp a : forall b, length a = length b -> Forall (fun x => 0 <= x) a -> Forall (fun x => 0 <= x) b ->
  zl_cmp (part_clip a) (part_clip b) = zl_cmp a b.
Proof.
  induction a as [|x a IH]; intros [|y b] Hl Ha Hb; try discriminate; auto. injection Hl as Hl.
  pose proof (Forall_inv Ha) as Hx. pose proof (Forall_inv Hb) as Hy. apply Forall_inv_tail in Ha. apply Forall_inv_tail in Hb. cbv beta in Hx, Hy.
  specialize (IH b Hl Ha Hb). rewrite zl_cmp_cons, <- IH. cbn [part_clip].
  destruct (part_clip a) as [|u s] eqn:Ea, (part_clip b) as [|v t] eqn:Eb; destruct (Z.eqb_spec x 0), (Z.eqb_spec y 0); rewrite ?zl_cmp_cons;
    destruct (Z.compare_spec x y); try lia; auto.
Qed.
Lemma chain_sorted B next (V : list Z -> Prop) : (forall a b, V a -> next a = Ok (Some b) -> V b /\ rank B b < rank B a) ->
  forall a l, chain next a l -> V a -> StronglySorted (fun x y => rank B y < rank B x) l /\ Forall (fun x => rank B x <= rank B a /\ V x) l.
Proof.
  intros HV a l Hc. induction Hc as [a E|a b l E Hc IH]; intros Va.
  - split; repeat constructor; auto; lia.
  - destruct (HV a b Va E) as [Vb Lb]. destruct (IH Vb) as [S F]. split.
    + constructor; auto. eapply Forall_impl; [|exact F]. intros x [Hx _]. cbv beta in *. lia.
    + constructor; [split; auto; lia|]. eapply Forall_impl; [|exact F]. intros x [Hx Vx]. split; auto. lia.
Qed.
Lemma sorted_snoc {A} (R : A -> A -> Prop) l x : StronglySorted R l -> Forall (fun y => R y x) l -> StronglySorted R (l ++ [x]).
Proof.
  induction 1 as [|y l S IH F]; intros H; cbn; [repeat constructor|]. constructor.
  - apply IH. apply Forall_inv_tail in H. auto.
  - apply Forall_app. split; auto. constructor; [|constructor]. apply Forall_inv in H. auto.
Qed.
Lemma sorted_rev {A} (R : A -> A -> Prop) l : StronglySorted (fun x y => R y x) l -> StronglySorted R (rev l).
Proof. induction 1 as [|x l S IH F]; cbn; [constructor|]. apply sorted_snoc; auto. apply Forall_rev. auto. Qed.
Lemma sorted_map {A C} (f : A -> C) (R : A -> A -> Prop) (R' : C -> C -> Prop) (P : A -> Prop) : (forall x y, P x -> P y -> R x y -> R' (f x) (f y)) ->
  forall l, Forall P l -> StronglySorted R l -> StronglySorted R' (map f l).
Proof.
  intros H l HP S. induction S as [|x l S IH F]; cbn; [constructor|]. pose proof (Forall_inv HP) as Px. apply Forall_inv_tail in HP. constructor; auto.
  apply Forall_map. rewrite Forall_forall in *. auto.
Qed.
Lemma strict_sorted l : StronglySorted (fun a b => zl_cmp a b = Lt) l -> strictly_increasing l.
Proof.
  intros S. apply sorted_strict.
  - induction S as [|x l S IH F]; constructor; auto. eapply Forall_impl; [|exact F]. intros y Hy. unfold cle. cbv beta in *. congruence.
  - induction S as [|x l S IH F]; constructor; auto. rewrite Forall_forall in F. intros Hx. specialize (F _ Hx). cbv beta in F.
    rewrite (proj2 (cmp_eq _ zl_cmp_ok x x) eq_refl) in F. discriminate.
Qed.
Lemma row_clip n l : row_list n l -> is_partition (part_clip l) /\ (length (part_clip l) <= n)%nat.
Proof.
  intros H. split.
  - destruct (row_decp n l (head0 l) ltac:(lia) H) as [_ D]. apply (decp_is_partition (head0 l)); auto. apply (row_head n); auto.
  - destruct H as [<- _]. destruct (part_clip_spec l) as (c & Hc & E). rewrite E at 2. rewrite app_length. lia.
Qed.
Lemma pad_row n p : is_partition p -> (length p <= n)%nat -> exists c, 0 <= c /\ row_list n (p ++ repz 0 c) /\ part_clip (p ++ repz 0 c) = p.
Proof.
  intros [H1 H2] Hn. exists (Z.of_nat (n - length p)). split; [lia|]. split.
  - split; [rewrite app_length; unfold repz; rewrite repeat_length; lia|]. split; intros j; rewrite ?part_app0.
    + destruct (Nat.lt_ge_cases j (length p)); [apply Z.lt_le_incl; auto|rewrite part_out; lia].
    + auto.
  - rewrite part_clip_app0. apply is_partition_clip. split; auto.
Qed.

Lemma fold_max_head n l : row_list n l -> fold_right Z.max 0 l = head0 l.
Proof.
  revert n. induction l as [|x l IH]; intros n H; [reflexivity|]. destruct n as [|n]; [destruct H as [E _]; discriminate|]. apply row_cons in H. destruct H as (H1 & H2 & H3).
  cbn [fold_right head0]. rewrite (IH n H1). lia.
Qed.
Theorem c87_part_gen lam : lam <> [] -> row_list (length lam) lam ->
  exists ls, part_gen lam = Ok ls /\ strictly_increasing (rev ls) /\
    forall p, In p ls <-> is_partition p /\ (length p <= length lam)%nat /\ (p = lam \/ lex_lt p lam).
Proof.
  intros Hne Hr. set (n := length lam) in *. set (K := head0 lam). pose proof (row_head n lam Hr) as HK. fold K in HK.
  set (V := fun l => length l = n /\ kdec K K l).
  assert (HV : forall l, V l <-> row_list n l /\ head0 l <= K).
  { intros l. split.
    - intros [E D]. pose proof D as D'. apply (kdec_Dk K n l K) in D'; auto. split; [apply D'|]. destruct l; cbn in *; lia.
    - intros [H1 H2]. apply (Dk_kdec K n l K); auto. split; auto. apply (row_kstrict n); auto. }
  assert (Vr : forall l, V l -> rng K l) by (intros l [_ D]; apply (kdec_rng K K K); auto; lia).
  assert (Vlam : V lam) by (apply HV; split; auto; unfold K; lia).
  assert (Vn : forall a, V a -> (Ok (knext K a) = Ok None /\ forall c, V c -> rank K a <= rank K c) \/
    (exists b, Ok (knext K a) = Ok (Some b) /\ V b /\ rank K b < rank K a /\ forall c, V c -> rank K c < rank K a -> rank K c <= rank K b)).
  { intros a [La Da]. destruct (knext_spec K HK K HK a K (Z.le_refl _) Da) as [[E Hm]|(b & E & Kb & Lb & Rb & Hm)]; rewrite E.
    - left. split; auto. intros c [Lc Dc]. apply Hm; auto. congruence.
    - right. exists b. split; auto. split; [split; auto; congruence|]. split; auto. intros c [Lc Dc]. apply Hm; auto. congruence. }
  destruct (chain_ok K HK V n (fun a => Ok (knext K a)) Vr (fun a H => proj1 H) Vn lam Vlam) as (l & Hc & Hin & Hnd & Hlen).
  destruct (chain_sorted K (fun a => Ok (knext K a)) V) with (a := lam) (l := l) as [Hs _]; auto.
  { intros a b Va E. destruct (Vn a Va) as [[E' _]|(b' & E' & Vb & Rb & _)]; [congruence|]. assert (b' = b) by congruence. subst. auto. }
  assert (VF : forall x, In x l -> V x) by (intros x Hx; apply Hin in Hx; tauto).
  assert (Vp : forall x, V x -> Forall (fun y => 0 <= y) x).
  { intros x Hx. apply Vr in Hx. eapply Forall_impl; [|exact Hx]. intros y Hy. cbv beta in *. lia. }
  exists (map part_clip l). split; [|split].
  - assert (Eg : part_gen lam = loop2 (gen_depth lam) part_gen_body (Some lam, [])) by (clear - Hne; destruct lam; [congruence|reflexivity]).
    rewrite Eg. apply loop2_runs with (length l).
    + apply (part_gen_runs K lam l) with (acc := []); auto. intros b Hb. apply VF, Vr in Hb. exact Hb.
    + apply nat_pow_lt. pose proof (rank_bounds K HK lam (Vr _ Vlam)) as Hb. fold n in Hb.
      pose proof (pow2_bound K (Z.of_nat n) HK ltac:(lia)) as Hp. unfold gen_depth. rewrite (fold_max_head n lam Hr). fold K.
      assert (Ez : zlen lam = Z.of_nat n) by reflexivity. rewrite Ez. rewrite Z2Nat.id by nia. eapply Z.le_lt_trans; [|apply Z.pow_lt_mono_r with (b := K * Z.of_nat n); nia]. lia.
  - apply strict_sorted. apply sorted_rev.
    apply (sorted_map part_clip (fun x y => rank K y < rank K x) _ V) with (l := l); auto; [|apply Forall_forall; auto].
    intros x y Vx Vy L. rewrite clip_cmp; auto; [|destruct Vx, Vy; congruence]. apply (rank_cmp K); auto. destruct Vx, Vy; congruence.
  - intros p. rewrite in_map_iff. split.
    + intros (x & <- & Hx). apply Hin in Hx. destruct Hx as [Vx Rx]. pose proof (proj1 (HV x) Vx) as [Rwx _]. destruct (row_clip n x Rwx) as [P1 P2]. split; auto. split; auto.
      destruct (part_clip_spec x) as (c & Hc0 & Ec). apply cmp_le. apply (pad_le (part_clip x) lam c); auto; [rewrite <- Ec; apply Vx|]. rewrite <- Ec.
      apply (rank_lex_le K) in Rx; auto; [|apply Vx]. apply cmp_le. auto.
    + intros (P1 & P2 & P3). destruct (pad_row n p P1 P2) as (c & Hc0 & Hrow & Hcl). exists (p ++ repz 0 c). split; auto.
      assert (L : zl_cmp (p ++ repz 0 c) lam <> Gt) by (apply pad_le; auto; [apply Hrow|apply cmp_le; auto]).
      apply cmp_le in L. assert (Vx : V (p ++ repz 0 c)).
      { apply HV. split; auto. destruct L as [->|L]; [unfold K; lia|]. apply (lex_head n lam); auto. }
      apply Hin. split; auto. apply (rank_lex_le K); auto. apply Vx.
Qed.
