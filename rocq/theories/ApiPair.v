(** part2pair, pair2part, type_swap and miami_swap on expressions. *)

From Coq Require Import ZArith List Lia Bool Permutation QArith Qcanon Setoid Morphisms.
From Verif Require Import Py OrderFacts ModelPart ModelQcalc ModelPoly ModelStr ModelGr Spec
  PolyFacts SuppFacts PyFacts PartFacts ConjFacts PairFacts Conv Schub GrInv ApiConvA.
Import ListNotations.
Open Scope Z_scope.

Lemma nonneg_part l : (forall j, (j < length l)%nat -> 0 <= part l j) -> nonneg l.
Proof.
  intros H. apply Forall_forall. intros x Hx. apply In_nth with (d := 0) in Hx. destruct Hx as (j & Hj & <-).
  apply H; auto.
Qed.
Lemma partition_nonneg l : is_partition l -> nonneg l.
Proof. intros H. apply nonneg_part. intros j _. apply is_partition_nonneg; auto. Qed.
Lemma kstrict_nonneg k rows cols l : kstrict_in k rows cols l -> nonneg l.
Proof. intros [(H & _) _]. apply partition_nonneg; auto. Qed.
Lemma typed_nonneg k rows cols l : typed_in k rows cols l -> nonneg l.
Proof.
  intros [H|(mu & -> & _ & _ & H)]; [eapply kstrict_nonneg; eauto|].
  apply Forall_app. split; [eapply kstrict_nonneg; eauto|]. repeat constructor. lia.
Qed.
Lemma pair_nonneg k rows cols t b : pair_in k rows cols t b -> nonneg t /\ nonneg b.
Proof.
  intros (L & R & _ & Pb & _). split; [|apply partition_nonneg; auto].
  apply nonneg_part. intros j Hj. apply R. lia.
Qed.
Lemma nonneg_forallb l : nonneg l -> forallb (fun x => 0 <=? x) l = true.
Proof. intros H. apply forallb_forall. intros x Hx. unfold nonneg in H. rewrite Forall_forall in H. apply Z.leb_le; auto. Qed.
Lemma ret_pair t b : nonneg t -> nonneg b -> ret_schur (SPair t b) = Ok (pvar (VS (SPair t b))).
Proof. intros Ht Hb. unfold ret_schur, symbol, schur_nonneg. rewrite !nonneg_forallb by auto. reflexivity. Qed.

Lemma partition_decp_le l i j : is_partition l -> (i <= j)%nat -> part l j <= part l i.
Proof. intros [_ H] Hij. induction Hij; [lia|]. specialize (H m). lia. Qed.

(** rows of length exactly k *)
Lemma row_k k l t b : 0 < k -> is_partition l -> pair_of k l t b ->
  (In k l <-> Z.of_nat (length b) < part t (Z.to_nat (k - 1))).
Proof.
  intros Hk Hl (L & T & Pb & B). rewrite T by lia. replace (Z.of_nat (Z.to_nat (k - 1)) + 1) with k by lia.
  rewrite count_iff by (auto; lia).
  assert (Hlen : part l (length b) <= k).
  { pose proof (B (length b)). rewrite part_over in H by auto. lia. }
  split.
  - intros Hin. apply In_nth with (d := 0) in Hin. destruct Hin as (j & Hj & E). fold (part l j) in E.
    destruct (Nat.lt_ge_cases j (length b)) as [H|H].
    + destruct Pb as [Pb _]. specialize (Pb j H). rewrite B in Pb. lia.
    + pose proof (partition_decp_le l (length b) j Hl H). lia.
  - intros H. assert (part l (length b) = k) by lia. rewrite <- H0. apply nth_In.
    destruct (Nat.lt_ge_cases (length b) (length l)); auto. rewrite part_over in H0 by auto. lia.
Qed.

Definition p2p (k : Z) (s : schur) : schur :=
  match s with SP l => let '(t, b) := part2pair_inner l k in SPair t b | _ => s end.
Definition p2p' (s : schur) : schur :=
  match s with SPair t b => match pair2part_inner t b with Ok a => SP a | _ => s end | _ => s end.

Lemma p2p_unmarked k rows cols l : 0 <= k <= cols -> kstrict_in k rows cols l ->
  exists t b, part2pair_inner l k = (t, b) /\ pair_of k l t b /\ pair_in k rows cols t b.
Proof.
  intros Hk Hl. assert (Hp : is_partition l) by apply Hl.
  pose proof (part2pair_pair_of k l ltac:(lia) Hp) as H. destruct (part2pair_inner l k) as [t b] eqn:E.
  exists t, b. split; auto. split; auto. eapply pair_of_in; eauto.
Qed.
Lemma p2p_marked k rows cols l : 0 < k <= cols -> kstrict_in k rows cols l -> In k l ->
  exists t b, part2pair_inner (l ++ [0]) k = (t, b ++ [0]) /\ pair_of k l t b /\ pair_in k rows cols t b /\
    Z.of_nat (length b) < part t (Z.to_nat (k - 1)).
Proof.
  intros Hk Hl Hin. destruct (p2p_unmarked k rows cols l ltac:(lia) Hl) as (t & b & E & Hp & Hi).
  exists t, b. split; [|split; auto; split; auto].
  - rewrite part2pair_marked by (try apply Hl; lia). rewrite E. reflexivity.
  - eapply row_k; eauto; try lia. apply Hl.
Qed.
Lemma glue_kstrict k rows cols t b : 0 <= k <= cols -> pair_in k rows cols t b -> kstrict_in k rows cols (glue t b).
Proof.
  intros Hk H. eapply pair_of_kstrict; eauto; [eapply glue_partition; eauto; lia|eapply glue_pair_of; eauto; lia].
Qed.

Section P2P.
Variables (tp : gtype) (k n rows cols : Z).
Hypothesis Htp : tp <> TA.
Hypothesis Hk : 0 <= k <= cols.

Definition f2p := on_part (fun lam => let '(t, b) := part2pair_inner lam k in ret_schur (SPair t b)).
Definition f2p' := (fun s => match s with
           | SPair t b => a <- pair2part_inner t b ;; ret_schur (SP a)
           | SP [_; _] => Err TypeError
           | SP _ => Err ValueError
           end).

Lemma typed_p2p s : on_list (typed_in k rows cols) s ->
  f2p s = Ok (pvar (VS (p2p k s))) /\ typed_pair k rows cols (p2p k s) /\ p2p' (p2p k s) = s.
Proof.
  destruct s as [l|]; [|contradiction]. unfold f2p, on_part, p2p. simpl on_list. intros [H|(mu & -> & Hk0 & Hin & H)].
  - destruct (p2p_unmarked k rows cols l Hk H) as (t & b & E & Hp & Hi). rewrite E.
    destruct (pair_nonneg _ _ _ _ _ Hi). rewrite ret_pair by auto. split; auto. split; [left; auto|].
    unfold p2p'. rewrite (pair2part_unmarked k rows cols) by (auto; lia). f_equal. eapply glue_of_pair; eauto.
  - destruct (p2p_marked k rows cols mu ltac:(lia) H Hin) as (t & b & E & Hp & Hi & Hm). rewrite E.
    destruct (pair_nonneg _ _ _ _ _ Hi). rewrite ret_pair; auto.
    2:{ apply Forall_app. split; auto. repeat constructor. lia. }
    split; auto. split; [right; exists t, b; auto|].
    unfold p2p'. rewrite (pair2part_marked k rows cols) by auto. f_equal. f_equal. eapply glue_of_pair; eauto.
Qed.
Lemma typed_p2p' s : typed_pair k rows cols s ->
  f2p' s = Ok (pvar (VS (p2p' s))) /\ on_list (typed_in k rows cols) (p2p' s) /\ p2p k (p2p' s) = s.
Proof.
  unfold f2p', p2p'. intros [H|(t & b & -> & H & Hk0 & Hm)].
  - destruct s as [l|t b]; [contradiction|]. simpl in H. rewrite (pair2part_unmarked k rows cols) by (auto; lia).
    cbn [bind]. pose proof (glue_kstrict k rows cols t b Hk H) as Hg.
    rewrite ret_nonneg by (eapply kstrict_nonneg; eauto). split; auto. split; [left; auto|].
    unfold p2p. destruct (p2p_unmarked k rows cols _ Hk Hg) as (t' & b' & E & Hp & _). rewrite E.
    destruct (pair_of_unique k (glue t b) t b t' b') as [-> ->]; auto. eapply glue_pair_of; eauto; lia.
  - rewrite (pair2part_marked k rows cols) by auto. cbn [bind]. pose proof (glue_kstrict k rows cols t b Hk H) as Hg.
    assert (Hp : pair_of k (glue t b) t b) by (eapply glue_pair_of; eauto; lia).
    assert (Hin : In k (glue t b)) by (eapply row_k; eauto; apply Hg).
    assert (Ht : typed_in k rows cols (glue t b ++ [0])) by (right; exists (glue t b); auto).
    rewrite ret_nonneg by (eapply typed_nonneg; eauto). split; auto. split; [exact Ht|].
    unfold p2p. destruct (p2p_marked k rows cols _ ltac:(lia) Hg Hin) as (t' & b' & E & Hp' & _). rewrite E.
    destruct (pair_of_unique k (glue t b) t b t' b') as [-> ->]; auto.
Qed.
Lemma kstrict_p2p s : on_list (kstrict_in k rows cols) s -> kpair k rows cols (p2p k s).
Proof.
  destruct s as [l|]; [|contradiction]. simpl on_list. intros H. unfold p2p.
  destruct (p2p_unmarked k rows cols l Hk H) as (t & b & E & Hp & Hi). rewrite E. auto.
Qed.
Lemma kstrict_p2p' s : kpair k rows cols s -> on_list (kstrict_in k rows cols) (p2p' s).
Proof.
  destruct s as [l|t b]; [contradiction|]. simpl kpair. intros H. unfold p2p'.
  rewrite (pair2part_unmarked k rows cols) by (auto; lia). apply glue_kstrict; auto.
Qed.
Lemma on_list_impl (V W : list Z -> Prop) s : (forall l, V l -> W l) -> on_list V s -> on_list W s.
Proof. destruct s; simpl; auto. Qed.

Lemma part2pair_eq p : part2pair (mkGr tp k n) p = apply_lc f2p p.
Proof. destruct tp; try congruence; reflexivity. Qed.
Lemma pair2part_eq p : pair2part (mkGr tp k n) p = apply_lc f2p' p.
Proof. destruct tp; try congruence; reflexivity. Qed.

Lemma typed_inverse : mutually_inverse (on_list (typed_in k rows cols)) (typed_pair k rows cols)
  (part2pair (mkGr tp k n)) (pair2part (mkGr tp k n)).
Proof.
  assert (H1 := fun s H => proj1 (typed_p2p s H)). assert (H2 := fun s H => proj2 (typed_p2p s H)).
  assert (H3 := fun s H => proj1 (typed_p2p' s H)). assert (H4 := fun s H => proj2 (typed_p2p' s H)).
  split; intros p Hp.
  - destruct (conv_inverse f2p f2p' (p2p k) p2p' (on_list (typed_in k rows cols)) (typed_pair k rows cols) p)
      as (x & r & E1 & W1 & E2 & _ & P2); auto.
    { intros s Hs. split; auto. apply H2; auto. }
    { intros s Hs. split; auto. apply H4; auto. }
    { intros s Hs. apply H2; auto. }
    exists x, r. rewrite part2pair_eq, pair2part_eq. auto.
  - destruct (conv_inverse f2p' f2p p2p' (p2p k) (typed_pair k rows cols) (on_list (typed_in k rows cols)) p)
      as (x & r & E1 & W1 & E2 & _ & P2); auto.
    { intros s Hs. split; auto. apply H4; auto. }
    { intros s Hs. split; auto. apply H2; auto. }
    { intros s Hs. apply H4; auto. }
    exists x, r. rewrite part2pair_eq, pair2part_eq. auto.
Qed.
Lemma kstrict_inverse : mutually_inverse (on_list (kstrict_in k rows cols)) (kpair k rows cols)
  (part2pair (mkGr tp k n)) (pair2part (mkGr tp k n)).
Proof.
  assert (I1 : forall s, on_list (kstrict_in k rows cols) s -> on_list (typed_in k rows cols) s)
    by (intros s; apply on_list_impl; intros; left; auto).
  assert (I2 : forall s, kpair k rows cols s -> typed_pair k rows cols s) by (intros s H; left; auto).
  split; intros p Hp.
  - destruct (conv_inverse f2p f2p' (p2p k) p2p' (on_list (kstrict_in k rows cols)) (kpair k rows cols) p)
      as (x & r & E1 & W1 & E2 & _ & P2); auto.
    { intros s Hs. split; [apply typed_p2p; auto|apply kstrict_p2p; auto]. }
    { intros s Hs. split; [apply typed_p2p'; auto|apply kstrict_p2p'; auto]. }
    { intros s Hs. apply typed_p2p; auto. }
    exists x, r. rewrite part2pair_eq, pair2part_eq. auto.
  - destruct (conv_inverse f2p' f2p p2p' (p2p k) (kpair k rows cols) (on_list (kstrict_in k rows cols)) p)
      as (x & r & E1 & W1 & E2 & _ & P2); auto.
    { intros s Hs. split; [apply typed_p2p'; auto|apply kstrict_p2p'; auto]. }
    { intros s Hs. split; [apply typed_p2p; auto|apply kstrict_p2p; auto]. }
    { intros s Hs. apply typed_p2p'; auto. }
    exists x, r. rewrite part2pair_eq, pair2part_eq. auto.
Qed.

Lemma class_pair_unmarked l : kstrict_in k rows cols l ->
  exists t b x, part2pair (mkGr tp k n) (pS l) = Ok x /\ peq x (pvar (VS (SPair t b))) /\ pair_of k l t b.
Proof.
  intros H. destruct (p2p_unmarked k rows cols l Hk H) as (t & b & E & Hp & Hi). exists t, b.
  destruct (conv_ok f2p (p2p k) (on_list (typed_in k rows cols)) (typed_pair k rows cols) (pS l)) as (x & Ex & Px & _).
  { intros s Hs. split; apply typed_p2p; auto. }
  { apply expr_in_pS. left. auto. }
  exists x. rewrite part2pair_eq. split; [exact Ex|]. split; [|exact Hp]. rewrite Px. unfold pS, vS. rewrite psubst_pvar.
  cbn [ren p2p]. rewrite E. reflexivity.
Qed.
Lemma class_pair_marked l : kstrict_in k rows cols l -> 0 < k -> In k l ->
  exists t b x, part2pair (mkGr tp k n) (pS (l ++ [0])) = Ok x /\ peq x (pvar (VS (SPair t (b ++ [0])))) /\ pair_of k l t b.
Proof.
  intros H Hk0 Hin. destruct (p2p_marked k rows cols l ltac:(lia) H Hin) as (t & b & E & Hp & Hi & _). exists t, b.
  destruct (conv_ok f2p (p2p k) (on_list (typed_in k rows cols)) (typed_pair k rows cols) (pS (l ++ [0]))) as (x & Ex & Px & _).
  { intros s Hs. split; apply typed_p2p; auto. }
  { apply expr_in_pS. right. exists l. auto. }
  exists x. rewrite part2pair_eq. split; [exact Ex|]. split; [|exact Hp]. rewrite Px. unfold pS, vS. rewrite psubst_pvar.
  cbn [ren p2p]. rewrite E. reflexivity.
Qed.
End P2P.

(** ** C18 *)
Lemma c18_IG m N g : IsotropicGrassmannian m N = Ok g ->
  mutually_inverse (on_list (class_IG m N)) (kpair (N / 2 - m) m (N - m)) (part2pair g) (pair2part g).
Proof.
  intros Hg. apply ig_inv in Hg. destruct Hg as (n & EN & En & Hm & ->). unfold class_IG. rewrite En.
  apply kstrict_inverse; [discriminate|lia].
Qed.
Lemma c18_OG_odd m N g : OrthogonalGrassmannian m N = Ok g -> m <= N / 2 -> Z.even N = false ->
  mutually_inverse (on_list (class_OG m N)) (kpair (N / 2 - m) m (N - 1 - m)) (part2pair g) (pair2part g).
Proof.
  intros Hg Hm He. unfold class_OG. rewrite He.
  destruct (og_inv m N g Hg Hm) as [(n & EN & En & Ev & Hm' & ->)|(n & EN & En & Ev & Hm' & ->)]; [|congruence].
  rewrite En. apply kstrict_inverse; [discriminate|lia].
Qed.
Lemma c18_OG_even m N g : OrthogonalGrassmannian m N = Ok g -> m <= N / 2 -> 1 <= N -> Z.even N = true ->
  mutually_inverse (on_list (class_OG m N)) (typed_pair (N / 2 - m) m (N - 1 - m)) (part2pair g) (pair2part g).
Proof.
  intros Hg Hm HN He. unfold class_OG. rewrite He.
  destruct (og_inv m N g Hg Hm) as [(n & EN & En & Ev & Hm' & ->)|(n & EN & En & Ev & Hm' & ->)]; [congruence|].
  rewrite En. apply typed_inverse; [discriminate|lia].
Qed.
Lemma c18_class_IG m N g lam : IsotropicGrassmannian m N = Ok g -> class_IG m N lam ->
  exists t b x, part2pair g (pS lam) = Ok x /\ peq x (pvar (VS (SPair t b))) /\ pair_of (N / 2 - m) lam t b.
Proof.
  intros Hg Hl. apply ig_inv in Hg. destruct Hg as (n & EN & En & Hm & ->). unfold class_IG in Hl. rewrite En in *.
  eapply class_pair_unmarked; eauto; try discriminate. lia.
Qed.
Lemma c18_class_OG m N g lam : OrthogonalGrassmannian m N = Ok g -> m <= N / 2 -> 1 <= N ->
  is_partition lam -> class_OG m N lam ->
  exists t b x, part2pair g (pS lam) = Ok x /\ peq x (pvar (VS (SPair t b))) /\ pair_of (N / 2 - m) lam t b.
Proof.
  intros Hg Hm HN Hp Hl. unfold class_OG in Hl.
  assert (Hl' : kstrict_in (N / 2 - m) m (N - 1 - m) lam).
  { destruct (Z.even N); auto. destruct Hl as [H|(mu & -> & _)]; auto.
    apply partition_pos in Hp. apply Forall_app in Hp. destruct Hp as [_ Hp]. inversion Hp. lia. }
  destruct (og_inv m N g Hg Hm) as [(n & EN & En & Ev & Hm' & ->)|(n & EN & En & Ev & Hm' & ->)]; rewrite En in *;
    eapply class_pair_unmarked; eauto; try discriminate; lia.
Qed.
Lemma c18_class_OG2 m N g mu : OrthogonalGrassmannian m N = Ok g -> m <= N / 2 -> 1 <= N ->
  is_partition mu -> class_OG m N (mu ++ [0]) ->
  exists t b x, part2pair g (pS (mu ++ [0])) = Ok x /\ peq x (pvar (VS (SPair t (b ++ [0])))) /\ pair_of (N / 2 - m) mu t b.
Proof.
  intros Hg Hm HN Hp Hl. unfold class_OG in Hl.
  assert (Hno : ~ is_partition (mu ++ [0])).
  { intros H. apply partition_pos in H. apply Forall_app in H. destruct H as [_ H]. inversion H. lia. }
  destruct (og_inv m N g Hg Hm) as [(n & EN & En & Ev & Hm' & ->)|(n & EN & En & Ev & Hm' & ->)]; rewrite Ev, En in *.
  - destruct Hl as [(H & _) _]. contradiction.
  - destruct Hl as [[(H & _) _]|(mu' & E & Hk0 & Hin & H)]; [contradiction|].
    apply app_inj_tail in E. destruct E as [<- _]. eapply class_pair_marked; eauto; try discriminate; lia.
Qed.

(** ** C19 *)
Section Swap.
Variables (k rows cols : Z).
Hypothesis Hk : 0 <= k.

Definition has_zero (l : list Z) : bool := match l with [] => false | _ => last l 1 =? 0 end.
Lemma partition_not_zero l : is_partition l -> last l 1 =? 0 = false.
Proof. intros H. pose proof (last_partition l H). destruct l; auto. Qed.
Lemma sl_to_last l (x : Z) : sl_to (l ++ [x]) (-1) = l.
Proof.
  unfold sl_to, sl_bound. rewrite zlen_app. pose proof (zlen_nonneg l). change (zlen [x]) with 1.
  cbn [Z.ltb Z.compare]. replace (Z.to_nat _) with (length l) by (unfold zlen in *; lia).
  rewrite firstn_app, Nat.sub_diag, firstn_all. simpl. apply app_nil_r.
Qed.
Lemma zmem_in x l : zmem x l = true <-> In x l.
Proof.
  unfold zmem. rewrite existsb_exists. split.
  - intros (y & Hy & E). apply Z.eqb_eq in E. subst; auto.
  - intros H. exists x. rewrite Z.eqb_refl. auto.
Qed.
Lemma no_zero l : is_partition l -> ~ In 0 l.
Proof. intros H Hin. apply partition_pos in H. rewrite Forall_forall in H. specialize (H 0 Hin). lia. Qed.

Lemma swap_fixed l : typed_in k rows cols l -> ~ In k l -> is_partition l.
Proof. intros [H|(mu & -> & _ & Hin & _)] Hn; [apply H|]. destruct Hn. apply in_app_iff. auto. Qed.
Lemma swap_cases l : typed_in k rows cols l -> In k l ->
  (kstrict_in k rows cols l /\ 0 < k) \/ (exists mu, l = mu ++ [0] /\ 0 < k /\ In k mu /\ kstrict_in k rows cols mu).
Proof.
  intros [H|H] Hin; auto. left. split; auto. destruct H as [(H & _) _]. apply partition_pos in H.
  rewrite Forall_forall in H. apply H; auto.
Qed.

Lemma type_swap_spec l : typed_in k rows cols l ->
  (In k l -> other_type l (type_swap_inner l k)) /\ (~ In k l -> type_swap_inner l k = l) /\
  typed_in k rows cols (type_swap_inner l k) /\ (In k (type_swap_inner l k) <-> In k l).
Proof.
  intros Hl. destruct (in_dec Z.eq_dec k l) as [Hin|Hnin].
  - destruct (swap_cases l Hl Hin) as [[H Hk0]|(mu & -> & Hk0 & Hin' & H)].
    + assert (E : type_swap_inner l k = l ++ [0]).
      { unfold type_swap_inner. destruct l as [|x t]; [contradiction|]. rewrite (proj2 (zmem_in k _)) by auto.
        rewrite partition_not_zero by apply H. reflexivity. }
      rewrite E. split; [intros _; left; auto; split; [apply H|auto]|]. split; [contradiction|].
      split; [right; exists l; auto|]. rewrite in_app_iff. tauto.
    + assert (E : type_swap_inner (mu ++ [0]) k = mu).
      { unfold type_swap_inner. destruct (mu ++ [0]) as [|x t] eqn:Em; [destruct mu; discriminate|]. rewrite <- Em.
        rewrite (proj2 (zmem_in k _)) by (rewrite Em; auto). rewrite last_last. cbn [negb Z.eqb]. apply sl_to_last. }
      rewrite E. split; [intros _; right; split; [apply H|auto]|]. split; [contradiction|].
      split; [left; auto|]. tauto.
  - assert (E : type_swap_inner l k = l).
    { unfold type_swap_inner. destruct l as [|x t] eqn:El; auto. rewrite <- El in *.
      destruct (zmem k l) eqn:Ez; [apply zmem_in in Ez; contradiction|]. cbn [negb].
      rewrite partition_not_zero; auto. eapply swap_fixed; eauto. }
    rewrite E. tauto.
Qed.
Lemma other_type_unique l a b : other_type l a -> other_type l b -> a = b.
Proof.
  intros [[H1 ->]|[H1 E1]] [[H2 ->]|[H2 E2]]; auto.
  - subst. apply no_zero in H1. destruct H1. apply in_app_iff. simpl. auto.
  - subst. apply no_zero in H2. destruct H2. apply in_app_iff. simpl. auto.
  - subst. apply app_inj_tail in E2. tauto.
Qed.
Lemma other_type_sym a b : other_type a b -> other_type b a.
Proof. intros [[H E]|[H E]]; [right|left]; auto. Qed.
Lemma type_swap_inv l : typed_in k rows cols l -> type_swap_inner (type_swap_inner l k) k = l.
Proof.
  intros Hl. destruct (type_swap_spec l Hl) as (A & B & C & D). destruct (type_swap_spec _ C) as (A' & B' & _).
  destruct (in_dec Z.eq_dec k l) as [Hin|Hnin].
  - eapply other_type_unique; [apply A'; tauto|]. apply other_type_sym, A; auto.
  - rewrite B' by tauto. apply B; auto.
Qed.

Definition longer (l : list Z) : Z := zlen (filter (fun x => k <? x) l).
Lemma longer_other a b : other_type a b -> longer b = longer a.
Proof.
  assert (H : forall mu, longer (mu ++ [0]) = longer mu).
  { intros mu. unfold longer. rewrite filter_app. cbn [filter]. replace (k <? 0) with false by lia. rewrite app_nil_r. auto. }
  intros [[_ ->]|[_ ->]]; rewrite H; auto.
Qed.
Lemma miami_spec l : typed_in k rows cols l ->
  (In k l -> Z.odd (longer l) = true -> other_type l (miami_swap_inner l k)) /\
  (~ In k l \/ Z.odd (longer l) = false -> miami_swap_inner l k = l) /\
  typed_in k rows cols (miami_swap_inner l k) /\ (In k (miami_swap_inner l k) <-> In k l).
Proof.
  intros Hl. destruct (type_swap_spec l Hl) as (A & B & C & D). unfold miami_swap_inner. fold (longer l).
  destruct (in_dec Z.eq_dec k l) as [Hin|Hnin].
  - rewrite (proj2 (zmem_in k l)) by auto. cbn [negb]. rewrite Zmod_even, <- Z.negb_odd.
    destruct (Z.odd (longer l)); cbn [negb].
    + assert (E : type_swap_inner l k = if last l 1 =? 0 then sl_to l (-1) else l ++ [0]).
      { unfold type_swap_inner. destruct l as [|x t]; [contradiction|]. rewrite (proj2 (zmem_in k _)) by auto. reflexivity. }
      cbn [Z.eqb]. rewrite <- E. split; auto. split; [intros [H|H]; [contradiction|discriminate]|]. auto.
    + cbn [Z.eqb]. split; [discriminate|]. split; auto. tauto.
  - destruct (zmem k l) eqn:Ez; [apply zmem_in in Ez; contradiction|]. cbn [negb].
    split; [contradiction|]. split; auto. tauto.
Qed.
Lemma miami_inv l : typed_in k rows cols l -> miami_swap_inner (miami_swap_inner l k) k = l.
Proof.
  intros Hl. destruct (miami_spec l Hl) as (A & B & C & D). destruct (miami_spec _ C) as (A' & B' & _).
  destruct (in_dec Z.eq_dec k l) as [Hin|Hnin].
  - destruct (Z.odd (longer l)) eqn:E.
    + eapply other_type_unique; [apply A'; [tauto|rewrite longer_other with (a := l); auto]|].
      apply other_type_sym, A; auto.
    + rewrite (B (or_intror eq_refl)) in *. apply B; auto.
  - rewrite (B (or_introl Hnin)) in *. apply B; auto.
Qed.
End Swap.

Lemma swap_api (f : list Z -> list Z) (V : list Z -> Prop) :
  (forall l, V l -> nonneg l) -> (forall l, V l -> V (f l)) -> (forall l, V l -> f (f l) = l) ->
  let F := fun p => apply_lc (on_part (fun lam => ret_schur (SP (f lam)))) p in
  (forall p, expr_in (on_list V) p -> exists x y, F p = Ok x /\ expr_in (on_list V) x /\ F x = Ok y /\ peq y p) /\
  (forall l, V l -> exists r, F (pS l) = Ok r /\ peq r (pS (f l))).
Proof.
  intros Hn HV Hi F. pose proof (on_part_conv_pure f V V HV Hn) as H. split.
  - intros p Hp. destruct (conv_inverse _ _ _ _ _ _ p H H) as (x & r & E1 & W1 & E2 & _ & P2); auto.
    { intros [l|] Hs; [|contradiction]. simpl. f_equal. auto. }
    exists x, r. auto.
  - intros l Hl. destruct (conv_ok _ _ _ _ (pS l) H (expr_in_pS (on_list V) (SP l) Hl)) as (x & E & Px & _).
    exists x. split; [exact E|]. rewrite Px. apply pvar_pS_peq.
Qed.

Lemma c19_other_types g p : g_type g <> TD -> type_swap g p = Ok p /\ miami_swap g p = Ok p.
Proof. intros H. unfold type_swap, miami_swap. destruct (g_type g); auto; congruence. Qed.

Lemma class_OG_even m n l : class_OG m (2 * n + 2) l <-> typed_in (n + 1 - m) m (n + (n + 1 - m)) l.
Proof.
  unfold class_OG. replace (2 * n + 2) with (2 * (n + 1)) by lia. rewrite Z.even_mul. cbn [Z.even orb].
  rewrite (Z.mul_comm 2), Z.div_mul by lia. replace ((n + 1) * 2 - 1 - m) with (n + (n + 1 - m)) by lia. reflexivity.
Qed.

Lemma c19_swap m N g : OrthogonalGrassmannian m N = Ok g -> m <= N / 2 -> Z.even N = true ->
  (forall p, expr_in (on_list (class_OG m N)) p ->
    exists x y, type_swap g p = Ok x /\ expr_in (on_list (class_OG m N)) x /\ type_swap g x = Ok y /\ peq y p) /\
  (forall lam, class_OG m N lam ->
    exists mu r, type_swap g (pS lam) = Ok r /\ peq r (pS mu) /\ class_OG m N mu /\
      (In (N / 2 - m) lam -> other_type lam mu) /\ (~ In (N / 2 - m) lam -> mu = lam)).
Proof.
  intros Hg Hm He.
  destruct (og_inv m N g Hg Hm) as [(n & EN & En & Ev & Hm' & ->)|(n & EN & En & Ev & Hm' & ->)]; [congruence|].
  rewrite En. subst N. assert (Hk : 0 <= n + 1 - m) by lia.
  assert (HV : forall l, class_OG m (2 * n + 2) l -> class_OG m (2 * n + 2) (type_swap_inner l (n + 1 - m))).
  { intros l. rewrite !class_OG_even. intros H. apply type_swap_spec; auto. }
  destruct (swap_api (fun l => type_swap_inner l (n + 1 - m)) (class_OG m (2 * n + 2))) as [A B]; auto.
  { intros l Hl. apply class_OG_even in Hl. eapply typed_nonneg; eauto. }
  { intros l Hl. apply class_OG_even in Hl. eapply type_swap_inv; eauto. }
  split; [exact A|]. intros lam Hl. destruct (B lam Hl) as (r & E & Pr).
  exists (type_swap_inner lam (n + 1 - m)), r. split; [exact E|]. split; auto. split; auto.
  apply class_OG_even in Hl. destruct (type_swap_spec _ _ _ lam Hl) as (S1 & S2 & _). auto.
Qed.
Lemma c19_miami m N g : OrthogonalGrassmannian m N = Ok g -> m <= N / 2 -> Z.even N = true ->
  (forall p, expr_in (on_list (class_OG m N)) p ->
    exists x y, miami_swap g p = Ok x /\ expr_in (on_list (class_OG m N)) x /\ miami_swap g x = Ok y /\ peq y p) /\
  (forall lam, class_OG m N lam ->
    exists mu r, miami_swap g (pS lam) = Ok r /\ peq r (pS mu) /\ class_OG m N mu /\
      (In (N / 2 - m) lam -> Z.odd (count_ge lam (N / 2 - m + 1)) = true -> other_type lam mu) /\
      (~ In (N / 2 - m) lam \/ Z.odd (count_ge lam (N / 2 - m + 1)) = false -> mu = lam)).
Proof.
  intros Hg Hm He.
  destruct (og_inv m N g Hg Hm) as [(n & EN & En & Ev & Hm' & ->)|(n & EN & En & Ev & Hm' & ->)]; [congruence|].
  rewrite En. subst N. assert (Hk : 0 <= n + 1 - m) by lia.
  assert (HV : forall l, class_OG m (2 * n + 2) l -> class_OG m (2 * n + 2) (miami_swap_inner l (n + 1 - m))).
  { intros l. rewrite !class_OG_even. intros H. apply miami_spec; auto. }
  destruct (swap_api (fun l => miami_swap_inner l (n + 1 - m)) (class_OG m (2 * n + 2))) as [A B]; auto.
  { intros l Hl. apply class_OG_even in Hl. eapply typed_nonneg; eauto. }
  { intros l Hl. apply class_OG_even in Hl. eapply miami_inv; eauto. }
  split; [exact A|]. intros lam Hl. destruct (B lam Hl) as (r & E & Pr).
  exists (miami_swap_inner lam (n + 1 - m)), r. split; [exact E|]. split; auto. split; auto.
  apply class_OG_even in Hl. destruct (miami_spec _ _ _ lam Hl) as (S1 & S2 & _).
  assert (Ec : count_ge lam (n + 1 - m + 1) = longer (n + 1 - m) lam).
  { unfold count_ge, longer, zlen. f_equal. f_equal. apply filter_ext. intros x. 
    destruct (n + 1 - m + 1 <=? x) eqn:E1, (n + 1 - m <? x) eqn:E2; auto; lia. }
  rewrite Ec. auto.
Qed.

(** schub_type *)
Lemma last_positive l : is_partition l -> l <> [] -> 0 < last l 1.
Proof.
  intros [Hp _] Hn. destruct (exists_last Hn) as (t & x & ->). rewrite last_last.
  specialize (Hp (length t)). unfold part in Hp. rewrite app_nth2, Nat.sub_diag in Hp by lia. cbn in Hp.
  apply Hp. rewrite app_length. cbn. lia.
Qed.
Lemma c19_type m N g : OrthogonalGrassmannian m N = Ok g -> m <= N / 2 -> Z.even N = true ->
  forall lam, class_OG m N lam ->
    (~ In (N / 2 - m) lam -> schub_type g lam = Ok 0) /\
    (In (N / 2 - m) lam -> is_partition lam -> schub_type g lam = Ok 1) /\
    (forall mu, lam = mu ++ [0] -> schub_type g lam = Ok 2).
Proof.
  intros Hg Hm He lam Hl.
  destruct (og_inv m N g Hg Hm) as [(n & EN & En & Ev & Hm' & ->)|(n & EN & En & Ev & Hm' & ->)]; [congruence|].
  rewrite En. subst N. apply class_OG_even in Hl. unfold schub_type. cbn [g_type g_k].
  split; [|split].
  - intros H. apply OrderFacts.zmem_notin in H. rewrite H. auto.
  - intros H Hp. rewrite (proj2 (OrderFacts.zmem_in _ _) H). cbn [negb].
    assert (0 < last lam 1) by (apply last_positive; auto; intros ->; destruct H).
    replace (0 <? last lam 1) with true by (symmetry; apply Z.ltb_lt; auto). auto.
  - intros mu ->. destruct Hl as [[[[Hl _] _] _]|(nu & E & Hk & Hin & _)].
    + exfalso. specialize (Hl (length mu)). unfold part in Hl. rewrite app_nth2, Nat.sub_diag in Hl by lia. cbn in Hl.
      rewrite app_length in Hl. cbn in Hl. lia.
    + rewrite (proj2 (OrderFacts.zmem_in (n + 1 - m) (mu ++ [0]))) by (rewrite E; apply in_app_iff; auto).
      cbn [negb]. rewrite last_last. reflexivity.
Qed.
Lemma c19_type_other g lam : g_type g <> TD -> schub_type g lam = Err ValueError.
Proof. unfold schub_type. destruct (g_type g); congruence. Qed.
