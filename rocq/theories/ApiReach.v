(** Which products of classes are zero: the lemmas behind PropsReach.v. *)

From Coq Require Import ZArith List Lia Bool Permutation QArith Qcanon Setoid Morphisms.
From Verif Require Import Py OrderFacts PyFacts ModelPart ModelQcalc ModelPoly ModelStr ModelGr Spec SpecRing SpecPieri SpecReach
  PolyFacts SuppFacts OpTheory PartFacts ConvA ConjFacts PieriCoef PresA WSum Sys Sys2 SysApi RingA FactsA ApiA ApiConvA GrInv RingData ApiRing ApiRingD
  DualSys ApiDual Reach.
Import ListNotations.
Open Scope Z_scope.

Definition opq (g : gr) (qq : bool) : Z -> poly -> res poly := if qq then qpieri g else pieri g.
Definition mulq (g : gr) (qq : bool) : poly -> poly -> res poly := if qq then qmult g else mult g.
Lemma opq_eq g qq i p : opq g qq i p = apply_lc (on_part (piq g qq i)) p.
Proof. destruct qq; reflexivity. Qed.

Section Gen.
Context {g : gr} {qq : bool} {V : list Z -> Prop} {I : Z -> Prop} {mu : list Z -> nat}.
Hypothesis H : pieri_sys (g_type g) (piq g qq) V I (g_k g) mu (giam_fuel g).
Hypothesis HP : forall i l, I i -> V l -> exists r, opq g qq i (pS l) = Ok r /\ forall d x, (0 <= coef r (qS d x))%Qc.
Hypothesis HD : dual_data g qq V I.

Lemma op_P i l : I i -> V l -> exists r, opq g qq i (pS l) = Ok r /\ peq r (P (piq g qq) i l).
Proof. intros Hi Hl. rewrite opq_eq. apply on_class. apply (ps_ok _ _ _ _ _ _ _ H); auto. Qed.
Lemma P_pos i l d x : I i -> V l -> (0 <= coef (P (piq g qq) i l) (qS d x))%Qc.
Proof.
  intros Hi Hl. destruct (HP i l Hi Hl) as (r & E & Hr). destruct (op_P i l Hi Hl) as (r' & E' & Pr).
  rewrite E in E'. injection E' as <-. rewrite <- (Pr _). apply Hr.
Qed.
Lemma reach_chain x y : V x -> (@reach (piq g qq) I x y <-> chain (opq g qq) I x y).
Proof.
  intros Hx. split; intros HR.
  - induction HR as [|y z i d HR IH Hi Hc]; [apply chain_refl|].
    destruct (op_P i y Hi (reach_V H x y Hx HR)) as (r & E & Pr). apply (chain_step _ _ x y z i r); auto. exists d. rewrite (Pr _). auto.
  - induction HR as [|y z i r HR IH Hi E (d & Hc)]; [apply reach_refl|].
    destruct (op_P i y Hi (reach_V H x y Hx IH)) as (r' & E' & Pr). rewrite E in E'. injection E' as <-.
    apply (reach_step x y z i d); auto. rewrite <- (Pr _). auto.
Qed.

Lemma gen_nonzero : nonzero_law V (mulq g qq) (dualize g) (opq g qq) I.
Proof.
  destruct HD as (dl & H1 & H2 & H3 & H4 & _). intros lam nu Hl Hn.
  destruct (api_prod H (pS lam) (pS nu)) as (r & Er & Pr & _); auto using lin_comb_poly_in, lin_comb_pS.
  destruct (H4 nu Hn) as (d & Ed & Pd). exists r, d, (dl nu). split; [destruct qq; exact Er|]. repeat (split; [solve [auto]|]).
  rewrite <- (reach_chain lam (dl nu) Hl), <- (nonzero_reach H P_pos dl H1 H2 H3 lam nu Hl Hn).
  rewrite Pr. reflexivity.
Qed.
Lemma gen_never : chain (opq g qq) I (point_class g) [] -> never_zero V (mulq g qq) (opq g qq) I.
Proof.
  destruct HD as (dl & H1 & H2 & H3 & H4 & Hp). rewrite <- Hp. intros HC.
  assert (V0 : V []) by apply (ps_nil _ _ _ _ _ _ _ H).
  apply reach_chain in HC; [|auto].
  assert (HA := reach_all H dl H1 H2 H3 HC). split.
  - intros lam nu Hl Hn. destruct (api_prod H (pS lam) (pS nu)) as (r & Er & Pr & _); auto using lin_comb_poly_in, lin_comb_pS.
    exists r. split; [destruct qq; exact Er|]. rewrite Pr. apply (nonzero_reach H P_pos dl H1 H2 H3 lam nu Hl Hn). auto.
  - intros lam nu Hl Hn. apply reach_chain; auto.
Qed.
End Gen.

(** ** The four types *)
Lemma positive_nonneg r : positive_coefs r -> forall d x, (0 <= coef r (qS d x))%Qc.
Proof.
  intros Hr d x. destruct (Qc_eq_dec (coef r (qS d x)) 0%Qc) as [->|E0]; [apply Qcle_refl|].
  destruct (Hr _ E0) as (z & Hz & ->). change (Qle 0 (Qred (inject_Z z))). rewrite Qred_correct. unfold Qle. cbn. lia.
Qed.
Lemma graded_nonneg g qq V I dq : graded dq I V (piq g qq) -> forall i l, I i -> V l ->
  exists r, opq g qq i (pS l) = Ok r /\ forall d x, (0 <= coef r (qS d x))%Qc.
Proof.
  intros G i l Hi Hl. destruct (G i l Hi Hl) as (r & E & H1 & _). exists r. rewrite opq_eq. split; auto. apply positive_nonneg; auto.
Qed.
Lemma sum_nonneg r R : is_sum_of r R -> forall d x, (0 <= coef r (qS d x))%Qc.
Proof.
  intros (H1 & H2) d x. destruct (Qc_eq_dec (coef r (qS d x)) 0%Qc) as [->|E0]; [apply Qcle_refl|].
  destruct (H2 _ E0) as (e & y & HR & HP). rewrite (coef_perm _ _ _ HP), (H1 e y HR). discriminate.
Qed.
Lemma pos_A m n g qq : Grassmannian m n = Ok g -> 1 <= m -> forall i l, 1 <= i <= n - m -> in_box m (n - m) l ->
  exists r, opq g qq i (pS l) = Ok r /\ forall d x, (0 <= coef r (qS d x))%Qc.
Proof.
  intros Hg Hm i l Hi Hl. destruct qq.
  - destruct (c02 m n g i l Hg Hm Hl Hi) as (p & E & S). exists p. split; auto. eapply sum_nonneg; eauto.
  - destruct (c01 m n g i l Hg Hm Hl ltac:(lia)) as (p & E & S). exists p. split; auto. eapply sum_nonneg; eauto.
Qed.

Lemma c71_A_gen m n g qq : Grassmannian m n = Ok g -> 1 <= m ->
  nonzero_law (in_box m (n - m)) (mulq g qq) (dualize g) (opq g qq) (fun i => 1 <= i <= n - m).
Proof.
  intros Hg Hm. pose proof (dual_A m n g qq Hg Hm) as D. pose proof (pos_A m n g qq Hg Hm) as P.
  apply gr_inv in Hg. destruct Hg as (_ & Hk & ->).
  exact (gen_nonzero (g := gA m (n - m)) (qq := qq) (sysA m (n - m) Hm Hk qq) P D).
Qed.
Lemma c71_A m n g : Grassmannian m n = Ok g -> 1 <= m ->
  nonzero_law (in_box m (n - m)) (mult g) (dualize g) (pieri g) (fun i => 1 <= i <= n - m).
Proof. exact (c71_A_gen m n g false). Qed.
Lemma c71_IG m N g : IsotropicGrassmannian m N = Ok g -> 1 <= m ->
  nonzero_law (class_IG m N) (mult g) (dualize g) (pieri g) (fun i => 1 <= i <= N - m).
Proof.
  intros Hg Hm. pose proof (dual_IG m N g false Hg Hm) as D. destruct (rd_IG m N g Hg Hm) as (mu & R).
  exact (gen_nonzero (qq := false) (rd_cl _ _ _ _ R) (graded_nonneg g false _ _ _ (rd_gc _ _ _ _ R)) D).
Qed.
Lemma c71_OGodd m N g : OrthogonalGrassmannian m N = Ok g -> Z.odd N = true -> 1 <= m <= N / 2 ->
  nonzero_law (class_OG m N) (mult g) (dualize g) (pieri g) (fun i => 1 <= i <= N - 1 - m).
Proof.
  intros Hg HN Hm. pose proof (dual_OGodd m N g false Hg HN Hm) as D. destruct (rd_OGodd m N g Hg HN Hm) as (mu & R).
  exact (gen_nonzero (qq := false) (rd_cl _ _ _ _ R) (graded_nonneg g false _ _ _ (rd_gc _ _ _ _ R)) D).
Qed.
Lemma c71_OGeven m N g : OrthogonalGrassmannian m N = Ok g -> Z.even N = true -> 4 <= N -> 1 <= m <= N / 2 ->
  nonzero_law (class_OG m N) (mult g) (dualize g) (pieri g) (index_even m N).
Proof.
  intros Hg HN H4 Hm. assert (F : false = true -> m <> N / 2 - 1) by discriminate.
  pose proof (dual_OGeven m N g false Hg HN H4 Hm F) as D. destruct (half_even m N g Hg HN H4 Hm) as (mu & R). specialize (R false F).
  exact (gen_nonzero (qq := false) (hf_sys _ _ _ _ _ R) (graded_nonneg g false _ _ _ (hf_gr _ _ _ _ _ R)) D).
Qed.

(** ** Gr(m,n): there is a chain exactly if the diagrams are nested *)
Fixpoint zm (l s : list Z) : list Z := match l, s with a :: l', b :: s' => Z.min a b :: zm l' s' | _, _ => [] end.
Lemma part_zm l s j : is_partition l -> is_partition s -> part (zm l s) j = Z.min (part l j) (part s j).
Proof.
  revert s j. induction l as [|a l IH]; intros s j Hl Hs.
  - assert (Hn := is_partition_nonneg s j Hs). unfold part in *. simpl. destruct j; simpl in *; destruct s; simpl in *; lia.
  - destruct s as [|b s].
    + assert (Hn := is_partition_nonneg _ j Hl). unfold part in *. simpl zm. rewrite !nth_overflow with (l := []) by (simpl; lia). lia.
    + destruct j as [|j]; [reflexivity|]. unfold part in *. simpl. apply IH.
      * destruct Hl as [A B]. split; intros i; [intros Hi; apply (A (S i)); simpl; lia|apply (B (S i))].
      * destruct Hs as [A B]. split; intros i; [intros Hi; apply (A (S i)); simpl; lia|apply (B (S i))].
Qed.
Lemma length_zm l s : length (zm l s) = Nat.min (length l) (length s).
Proof. revert s. induction l as [|a l IH]; intros [|b s]; simpl; auto. Qed.
Lemma size_zm l s : is_partition l -> size (zm l s) <= size l.
Proof.
  revert s. induction l as [|a l IH]; intros s Hl.
  - simpl. unfold size. simpl. lia.
  - destruct s as [|b s]; [simpl zm|].
    + assert (0 <= size (a :: l)); [|unfold size in *; simpl in *; lia]. clear IH. induction l as [|c l IH] in a, Hl |- *.
      * destruct Hl as [A _]. specialize (A 0%nat ltac:(simpl; lia)). unfold part in A. simpl in A. unfold size. simpl. lia.
      * rewrite size_cons. assert (Ha : 0 < a) by (destruct Hl as [A _]; exact (A 0%nat ltac:(simpl; lia))).
        assert (Hl' : is_partition (c :: l)) by (destruct Hl as [A B]; split; intros i; [intros Hi; apply (A (S i)); simpl in *; lia|apply (B (S i))]).
        specialize (IH c Hl'). lia.
    + simpl zm. rewrite !size_cons. assert (Hl' : is_partition l) by (destruct Hl as [A B]; split; intros i; [intros Hi; apply (A (S i)); simpl in *; lia|apply (B (S i))]).
      specialize (IH s Hl'). lia.
Qed.
Definition up (l s : list Z) : list Z := match s with [] => [] | b :: s' => b :: zm l s' end.
Lemma part_tail (b : Z) (s : list Z) : is_partition (b :: s) -> is_partition s.
Proof. intros [A B]. split; intros i; [intros Hi; apply (A (S i)); simpl; lia|apply (B (S i))]. Qed.
Lemma nested_nil l : is_partition l -> (forall j, part l j <= 0) -> l = [].
Proof. intros [A _] H. destruct l; auto. specialize (A 0%nat ltac:(simpl; lia)). specialize (H 0%nat). lia. Qed.
Lemma part_nil_0 j : part [] j = 0.
Proof. unfold part. destruct j; reflexivity. Qed.

Section Nested.
Variables (m k : Z) (l s : list Z).
Hypothesis Hl : in_box m k l.
Hypothesis Hs : in_box m k s.
Hypothesis Hn : forall j, part l j <= part s j.

Lemma up_0 : part (up l s) 0 = part s 0.
Proof. destruct s; reflexivity. Qed.
Lemma up_S j : part (up l s) (S j) = Z.min (part l j) (part s (S j)).
Proof.
  destruct Hl as (Pl & _), Hs as (Ps & _). destruct s as [|b s'].
  - rewrite !part_nil_0. pose proof (is_partition_nonneg l j Pl). lia.
  - change (part (up l (b :: s')) (S j)) with (part (zm l s') j). change (part (b :: s') (S j)) with (part s' j).
    apply part_zm; auto. eapply part_tail; eauto.
Qed.
Lemma up_box : in_box m k (up l s).
Proof.
  pose proof up_0 as U0. pose proof up_S as US. destruct Hl as (Pl & L1 & L2), Hs as (Ps & S1 & S2).
  assert (HLen : (length (up l s) <= length s)%nat) by (destruct s; simpl; auto; rewrite length_zm; lia).
  split; [|split; lia]. split.
  - intros [|j] Hj; [rewrite U0; apply Ps; lia|]. rewrite US.
    assert (Hj' : (j < length l)%nat) by (destruct s; simpl in Hj; [lia|]; rewrite length_zm in Hj; lia).
    pose proof (proj1 Pl j Hj'). pose proof (proj1 Ps (S j) ltac:(lia)). lia.
  - intros [|j]; rewrite !US; [rewrite U0; pose proof (proj2 Ps 0%nat); lia|].
    pose proof (proj2 Pl j). pose proof (proj2 Ps (S j)). lia.
Qed.
Lemma up_strip : adds_horizontal_strip l (up l s).
Proof.
  pose proof up_0 as U0. pose proof up_S as US. destruct Hl as (Pl & L1 & L2), Hs as (Ps & S1 & S2).
  intros [|j]; rewrite !US; [rewrite U0; pose proof (Hn 0%nat); lia|].
  pose proof (proj2 Pl j). pose proof (Hn (S j)). pose proof (proj2 Pl (S j)). lia.
Qed.
Lemma up_size : size (up l s) <= size l + part s 0.
Proof.
  destruct Hl as (Pl & _). pose proof (size_zm l (tl s) Pl). destruct s as [|b s'].
  - pose proof (size_zm l [] Pl). destruct l; unfold size, part in *; simpl in *; lia.
  - unfold up, tl in *. rewrite size_cons. unfold part. simpl. lia.
Qed.
Lemma up_le j : part (up l s) j <= part s j.
Proof. destruct j; [rewrite up_0; lia|rewrite up_S; lia]. Qed.
Lemma up_same : up l s = l -> l = s.
Proof.
  intros E. destruct Hl as (Pl & _), Hs as (Ps & _). apply partition_eq; auto. intros j. induction j as [|j IH].
  - rewrite <- E at 1. apply up_0.
  - rewrite <- E at 1. rewrite up_S, IH. pose proof (proj2 Ps j). lia.
Qed.
End Nested.

Lemma strip_size l s : is_partition l -> is_partition s -> (forall j, part l j <= part s j) -> size l <= size s /\ (size l = size s -> l = s).
Proof.
  revert s. induction l as [|a l IH]; intros s Hl Hs Hn.
  - assert (0 <= size s) by (destruct s as [|b s]; [unfold size; simpl; lia|]; pose proof (size_zm (b :: s) [] Hs); simpl in *; unfold size in *; simpl in *; lia).
    split; [exact H|]. intros E. destruct s as [|b s]; auto. exfalso. pose proof (part_tail _ _ Hs) as Hs'. pose proof (size_zm s [] Hs').
    pose proof (proj1 Hs 0%nat ltac:(simpl; lia)) as Hb. unfold part in Hb. simpl in Hb. rewrite size_cons in E.
    assert (size (zm s []) = 0) by (destruct s; reflexivity). unfold size in *; simpl in *; lia.
  - destruct s as [|b s].
    + exfalso. pose proof (proj1 Hl 0%nat ltac:(simpl; lia)). specialize (Hn 0%nat). rewrite part_nil_0 in Hn. lia.
    + rewrite !size_cons. pose proof (Hn 0%nat) as H0. change (a <= b) in H0.
      destruct (IH s (part_tail _ _ Hl) (part_tail _ _ Hs) (fun j => Hn (S j))) as (A & B). split; [lia|].
      intros E. f_equal; [lia|apply B; lia].
Qed.

Lemma chain_trans op J x y z : chain op J x y -> chain op J y z -> chain op J x z.
Proof. intros H1 H2. induction H2; auto. eapply chain_step; eauto. Qed.
Lemma is_sum_occurs p R x : is_sum_of p R -> (occurs p x <-> exists d, R d x).
Proof.
  intros (H1 & H2). split.
  - intros (d & Hd). destruct (H2 _ Hd) as (e & y & HR & HP). apply qS_inj in HP. destruct HP as [<- <-]. eauto.
  - intros (d & HR). exists d. rewrite (H1 d x HR). discriminate.
Qed.

Lemma chain_nested m n g lam nu : Grassmannian m n = Ok g -> 1 <= m -> in_box m (n - m) lam -> in_box m (n - m) nu ->
  (chain (pieri g) (fun i => 1 <= i <= n - m) lam nu <-> forall j, part lam j <= part nu j).
Proof.
  intros Hg Hm Hl Hn. split.
  - intros HC. assert (G : in_box m (n - m) nu /\ forall j, part lam j <= part nu j); [|apply G]. clear Hn.
    induction HC as [|y z i r HC IH Hi E Ho]; [split; auto; lia|]. destruct IH as (Hy & IH).
    destruct (c01 m n g i y Hg Hm Hy ltac:(lia)) as (p & E' & S). rewrite E in E'. injection E' as <-.
    apply (is_sum_occurs _ _ _ S) in Ho. destruct Ho as (d & _ & Hz & Hs & _). split; auto. intros j. specialize (IH j). specialize (Hs j). lia.
  - remember (Z.to_nat (size nu - size lam)) as N eqn:EN. revert lam EN Hl. induction N as [N IH] using (well_founded_induction Wf_nat.lt_wf).
    intros lam -> Hl HN. destruct (list_eq_dec Z.eq_dec lam nu) as [->|Hne]; [apply chain_refl|].
    pose proof (up_box m (n - m) lam nu Hl Hn HN) as Hu. pose proof (up_strip m (n - m) lam nu Hl Hn HN) as Us.
    pose proof (up_size m (n - m) lam nu Hl Hn HN) as Uz. pose proof (up_le m (n - m) lam nu Hl Hn HN) as Ul.
    assert (Ul' : forall j, part lam j <= part (up lam nu) j) by (intros j; apply (Us j)).
    destruct (strip_size lam (up lam nu) ltac:(apply Hl) ltac:(apply Hu) Ul') as (S1 & S2).
    destruct (strip_size (up lam nu) nu ltac:(apply Hu) ltac:(apply Hn) Ul) as (S3 & _).
    assert (S4 : size lam <> size (up lam nu)) by (intros E; apply Hne; apply (up_same m (n - m) lam nu Hl Hn HN); symmetry; auto).
    assert (Hp : part nu 0 <= n - m) by apply Hn.
    apply (chain_trans _ _ _ (up lam nu)); [|apply (IH (Z.to_nat (size nu - size (up lam nu)))); auto; lia].
    set (i := size (up lam nu) - size lam). assert (Hi : 1 <= i <= n - m) by (unfold i; lia).
    destruct (c01 m n g i lam Hg Hm Hl ltac:(lia)) as (p & E & S). apply (chain_step _ _ _ lam _ i p); auto; [apply chain_refl|].
    apply (is_sum_occurs _ _ _ S). exists 0%nat. repeat split; auto; unfold i; try lia; apply Hu || apply Us.
Qed.

Lemma c71_box m n g lam mu : Grassmannian m n = Ok g -> 1 <= m -> in_box m (n - m) lam -> in_box m (n - m) mu ->
  exists r, mult g (pS lam) (pS mu) = Ok r /\
    (~ peq r pzero <-> forall j, Z.of_nat j < m -> part lam j + part mu (Z.to_nat (m - 1 - Z.of_nat j)) <= n - m).
Proof.
  intros Hg Hm Hl Hmu. destruct (c71_A m n g Hg Hm lam mu Hl Hmu) as (r & d & nu & Er & Ed & Hnu & Pd & HN).
  exists r. split; auto. rewrite HN, (chain_nested m n g lam nu Hg Hm Hl Hnu).
  destruct (c17_class m n g mu Hg Hmu) as (nu' & d' & Ed' & Pd' & _ & HC & _). rewrite Ed in Ed'. injection Ed' as <-.
  rewrite Pd in Pd'. apply pS_peq_inj in Pd'. subst nu'.
  assert (HC' : forall j, Z.of_nat j < m -> part nu j = n - m - part mu (Z.to_nat (m - 1 - Z.of_nat j))).
  { intros j Hj. specialize (HC (Z.to_nat (m - 1 - Z.of_nat j)) ltac:(lia)). rewrite Z2Nat.id in HC by lia.
    replace (m - 1 - (m - 1 - Z.of_nat j)) with (Z.of_nat j) in HC by lia. rewrite Nat2Z.id in HC. lia. }
  split.
  - intros H j Hj. specialize (H j). rewrite HC' in H by auto. lia.
  - intros H j. destruct (Z_lt_le_dec (Z.of_nat j) m) as [Hj|Hj].
    + rewrite HC' by auto. specialize (H j Hj). lia.
    + destruct Hl as (Pl & Ll & _). unfold part at 1. rewrite nth_overflow by lia. apply is_partition_nonneg. apply Hnu.
Qed.
