(** schur_expansion and has_part_zero_padding. *)

From Coq Require Import ZArith List Lia Bool Permutation QArith Qcanon Setoid Morphisms Sorted.
From Verif Require Import Py OrderFacts ModelPart ModelQcalc ModelPoly ModelExpr Spec SpecMisc
  PolyFacts SuppFacts PyFacts PartFacts ExprFacts Schub.
Import ListNotations.
Open Scope Z_scope.

Lemma occurs_tvars v e : occurs v e <-> In v (tvars e).
Proof.
  induction e as [c|w|l IH|l IH|b n IH] using tree_ind2; cbn [tvars].
  - split; [inversion 1|intros []].
  - split; [inversion 1; simpl; auto|]. intros [->|[]]. constructor.
  - rewrite in_flat_map, Forall_forall in *. split.
    + inversion 1; subst. exists x. split; auto. apply IH; auto.
    + intros (x & Hx & Hv). apply oc_add with x; auto. apply IH; auto.
  - rewrite in_flat_map, Forall_forall in *. split.
    + inversion 1; subst. exists x. split; auto. apply IH; auto.
    + intros (x & Hx & Hv). apply oc_mul with x; auto. apply IH; auto.
  - split; [inversion 1; subst; apply IH; auto|]. intros H. constructor. apply IH; auto.
Qed.

Lemma mentions_q_iff e : mentions_q e = true <-> occurs VQ e \/ occurs VQ1 e \/ occurs VQ2 e.
Proof.
  rewrite !occurs_tvars. induction e as [c|w|l IH|l IH|b n IH] using tree_ind2; cbn [tvars mentions_q].
  - split; [discriminate|]. intros [[]|[[]|[]]].
  - destruct w; simpl; split; try discriminate; auto; intuition discriminate.
  - rewrite existsb_exists, !in_flat_map. rewrite Forall_forall in IH. split.
    + intros (x & Hx & H). apply (IH x Hx) in H. destruct H as [H|[H|H]]; eauto.
    + intros [(x & Hx & H)|[(x & Hx & H)|(x & Hx & H)]]; exists x; split; auto; apply (IH x Hx); auto.
  - rewrite existsb_exists, !in_flat_map. rewrite Forall_forall in IH. split.
    + intros (x & Hx & H). apply (IH x Hx) in H. destruct H as [H|[H|H]]; eauto.
    + intros [(x & Hx & H)|[(x & Hx & H)|(x & Hx & H)]]; exists x; split; auto; apply (IH x Hx); auto.
  - exact IH.
Qed.

Lemma pprod_app a b : peq (pprod (a ++ b)) (pmul (pprod a) (pprod b)).
Proof.
  induction a as [|x a IH]; [symmetry; apply pmul_1_l|].
  change (peq (pmul x (pprod (a ++ b))) (pmul (pmul x (pprod a)) (pprod b))). rewrite IH. ring.
Qed.

Lemma filter_none {A} (f : A -> bool) l : (forall x, In x l -> f x = false) -> filter f l = [].
Proof. induction l as [|x l IH]; intros H; simpl; auto. rewrite (H x) by (left; auto). apply IH. intros; apply H; right; auto. Qed.
Lemma filter_all {A} (f : A -> bool) l : (forall x, In x l -> f x = true) -> filter f l = l.
Proof. induction l as [|x l IH]; intros H; simpl; auto. rewrite (H x) by (left; auto). f_equal. apply IH. intros; apply H; right; auto. Qed.

(** a term is the product of the reported coefficient and the reported class *)

Lemma expand_term_ok t lam : class_term t lam ->
  exists c, expand_term t = Some (Ok (c, SP lam)) /\ reports t (c, SP lam).
Proof.
  intros H. inversion H as [l E|a l b Hab E]; subst.
  - exists (TNum 1%Qc). split; auto. exists lam. split; auto. split; auto. split; [discriminate|].
    cbn [expand fst]. fold (pS lam). symmetry. apply pmul_1_l.
  - assert (Hs : forall x, In x (a ++ b) -> isSchur x = false).
    { intros x Hx. destruct x as [|v| | |]; auto. destruct v; auto. exfalso. apply (Hab _ s Hx). auto. }
    assert (Ea : filter isSchur a = []) by (apply filter_none; intros; apply Hs, in_or_app; auto).
    assert (Eb : filter isSchur b = []) by (apply filter_none; intros; apply Hs, in_or_app; auto).
    assert (Na : filter (fun x => negb (isSchur x)) a = a) by (apply filter_all; intros; rewrite Hs; auto; apply in_or_app; auto).
    assert (Nb : filter (fun x => negb (isSchur x)) b = b) by (apply filter_all; intros; rewrite Hs; auto; apply in_or_app; auto).
    exists (TMul (a ++ b)). split.
    + cbn [expand_term]. rewrite !filter_app. cbn [filter isSchur vS negb]. rewrite Ea, Eb, Na, Nb. reflexivity.
    + exists lam. split; auto. split; auto. split; [discriminate|]. cbn [expand fst]. rewrite !map_app, !pprod_app.
      cbn [map pprod fold_right expand]. fold (pprod (map expand b)) (pS lam). ring.
Qed.

Lemma map_ins {A} (key : A -> list Z) x l :
  map key (ins (fun a b => zl_cmp (key a) (key b)) x l) = ins zl_cmp (key x) (map key l).
Proof. induction l as [|y l IH]; cbn [ins map]; auto. destruct (zl_cmp (key x) (key y)); cbn [map]; auto. rewrite IH. auto. Qed.
Lemma map_isort {A} (key : A -> list Z) l :
  map key (isort (fun a b => zl_cmp (key a) (key b)) l) = isort zl_cmp (map key l).
Proof. induction l as [|x l IH]; auto. cbn [isort fold_right map]. fold (isort (fun a b => zl_cmp (key a) (key b)) l). rewrite map_ins, IH. auto. Qed.
Lemma sorted_weak l : StronglySorted (cle zl_cmp) l -> weakly_increasing l.
Proof.
  induction 1 as [|x t Hs IH Hx]; intros i j Hij; simpl in Hij; [lia|]. destruct j as [|j]; [lia|]. destruct i as [|i].
  - cbn [nth]. rewrite Forall_forall in Hx. assert (Hin : In (nth j t []) t) by (apply nth_In; lia).
    specialize (Hx _ Hin). unfold cle in Hx. destruct (zl_cmp x (nth j t [])) eqn:E; [left|right|congruence].
    + apply (cmp_eq _ zl_cmp_ok) in E. auto.
    + apply zl_lt_lex. auto.
  - cbn [nth]. apply IH. lia.
Qed.

Lemma mapM_reports ts : (forall t, In t ts -> exists lam, class_term t lam) ->
  exists ys, mapM (fun t => match expand_term t with Some r => r | None => Err RecursionError end) ts = Ok ys /\
    Forall2 reports ts ys.
Proof.
  induction ts as [|t ts IH]; intros H; cbn [mapM].
  - exists []. auto.
  - destruct (H t) as [lam Hl]; [left; auto|]. destruct (expand_term_ok t lam Hl) as (c & E & R). rewrite E. cbn [bind].
    destruct IH as (ys & Ey & Ry); [intros; apply H; right; auto|]. rewrite Ey. cbn [bind]. exists ((c, SP lam) :: ys). auto.
Qed.

Definition keep (include_q : bool) (t : tree) : bool := include_q || negb (mentions_q t).
Lemma keep_iff b t : keep b t = true <-> b = true \/ q_free t.
Proof.
  unfold keep. rewrite orb_true_iff, negb_true_iff. unfold q_free. pose proof (mentions_q_iff t) as M.
  destruct (mentions_q t); intuition congruence.
Qed.

Lemma c39_sum ts b : (forall t, In t ts -> exists lam, class_term t lam) ->
  exists xs ys, schur_expansion (TAdd ts) b = Ok (Many xs) /\
    Forall2 reports (filter (keep b) ts) ys /\ Permutation xs ys /\
    weakly_increasing (map (fun x => schur_key (snd x)) xs).
Proof.
  intros H. unfold schur_expansion. cbn [expand_term].
  destruct (mapM_reports (filter (keep b) ts)) as (ys & E & R).
  { intros t Ht. apply filter_In in Ht. apply H. tauto. }
  unfold keep in E at 1. rewrite E. cbn [bind]. eexists _, ys. split; [reflexivity|]. split; auto. split; [apply isort_perm|].
  rewrite (map_isort (fun x => schur_key (snd x))). apply sorted_weak, isort_sorted, zl_cmp_ok.
Qed.
Lemma c39_one t lam b : class_term t lam ->
  exists x, schur_expansion t b = Ok (One x) /\ reports t x.
Proof.
  intros H. destruct (expand_term_ok t lam H) as (c & E & R). exists (c, SP lam). split; auto.
  unfold schur_expansion. rewrite E. reflexivity.
Qed.
Lemma psum_perm a b : Permutation a b -> peq (psum a) (psum b).
Proof.
  induction 1; cbn [psum fold_right].
  - reflexivity.
  - fold (psum l) (psum l'). rewrite IHPermutation. reflexivity.
  - fold (psum l). ring.
  - etransitivity; eauto.
Qed.
Lemma reports_sum ts ys : Forall2 reports ts ys -> peq (expand (TAdd ts)) (psum (map value ys)).
Proof.
  induction 1 as [|t x ts ys R _ IH]; [reflexivity|]. destruct R as (lam & _ & E & _ & P). cbn [expand map psum fold_right] in *.
  fold (psum (map expand ts)) (psum (map value ys)). unfold value at 1. rewrite E. fold (vS lam) (pS lam). rewrite <- P. 
  fold (psum (map expand ts)) (psum (map value ys)) in IH. rewrite IH. reflexivity.
Qed.
Lemma c39_total ts : (forall t, In t ts -> exists lam, class_term t lam) ->
  exists xs, schur_expansion (TAdd ts) true = Ok (Many xs) /\ length xs = length ts /\
    weakly_increasing (map (fun x => schur_key (snd x)) xs) /\
    peq (expand (TAdd ts)) (psum (map value xs)).
Proof.
  intros H. destruct (c39_sum ts true H) as (xs & ys & E & R & P & W).
  rewrite filter_all in R by reflexivity. exists xs. split; auto. split; [|split; auto].
  - rewrite (Permutation_length P). symmetry. clear -R. induction R; simpl; auto.
  - rewrite (reports_sum ts ys R). apply psum_perm. apply Permutation_map. symmetry; auto.
Qed.

(** ** zero padding *)
Lemma zero_padded_iff s : schur_zero_padded s = true <-> exists l, s = SP (l ++ [0]).
Proof.
  assert (HL : forall l, (length (part_clip l) <= length l)%nat).
  { intros l. destruct (part_clip_spec l) as (c & _ & E). rewrite E at 2. rewrite app_length. lia. }
  destruct s as [l|t b]; cbn [schur_zero_padded].
  - rewrite negb_true_iff, zlist_eqb_neq. split.
    + intros H. destruct l as [|x l] using rev_ind; [exfalso; apply H; reflexivity|]. clear IHl.
      destruct (Z.eq_dec x 0) as [->|Hx]; [eauto|]. exfalso. apply H. destruct (part_clip_spec (l ++ [x])) as (c & Hc & E). destruct (Z.eq_dec c 0) as [->|Hc0]; [rewrite app_nil_r in E; auto|].
      exfalso. apply Hx. replace c with (c - 1 + 1) in E by lia. unfold repz in E. rewrite Z2Nat.inj_add, repeat_app, app_assoc in E by lia.
      apply app_inj_tail in E. tauto.
    + intros (l' & E). inversion E; subst. change [0] with (repz 0 1). rewrite part_clip_app0. intros E2.
      pose proof (HL l') as L. apply (f_equal (@length Z)) in E2. rewrite app_length in E2.
      assert (length (repz 0 1) = 1%nat) by reflexivity. lia.
  - split; [discriminate|]. intros (l & E). discriminate.
Qed.
Lemma c41_padding e : has_part_zero_padding e = true <-> exists l, occurs (vS (l ++ [0])) e.
Proof.
  rewrite zero_padding_iff. split.
  - intros (s & Hs & H). apply zero_padded_iff in H. destruct H as [l ->]. exists l. apply occurs_tvars. auto.
  - intros (l & H). exists (SP (l ++ [0])). split; [apply occurs_tvars; auto|]. apply zero_padded_iff. eauto.
Qed.

(** the partitions of the pairs *)
Lemma report_shapes ts ys xs : Forall2 reports ts ys -> Permutation xs ys ->
  map snd xs = map SP (map (fun x => schur_key (snd x)) xs).
Proof.
  intros R P. rewrite map_map. apply map_ext_in. intros x Hx. apply (Permutation_in _ P) in Hx.
  assert (E : exists lam, snd x = SP lam).
  { clear P. induction R as [|t y ts ys Ry _ IH]; [destruct Hx|]. destruct Hx as [->|Hx]; auto.
    destruct Ry as (lam & _ & E & _). eauto. }
  destruct E as [lam ->]. reflexivity.
Qed.

Lemma c39_kept ts b kp : (forall t, In t ts -> exists lam, class_term t lam) ->
  (forall t, kp t = true <-> b = true \/ q_free t) ->
  exists xs ys lams, schur_expansion (TAdd ts) b = Ok (Many xs) /\
    Forall2 reports (filter kp ts) ys /\ Permutation xs ys /\
    map snd xs = map SP lams /\ weakly_increasing lams.
Proof.
  intros H Hk. destruct (c39_sum ts b H) as (xs & ys & E & R & P & W). exists xs, ys. eexists. split; [exact E|].
  assert (R' : Forall2 reports (filter kp ts) ys).
  { rewrite (filter_ext kp (keep b)); auto. intros t. specialize (Hk t). rewrite <- keep_iff in Hk.
    destruct (kp t), (keep b t); intuition congruence. }
  split; [exact R'|]. split; [exact P|]. split; [exact (report_shapes _ _ _ R' P)|exact W].
Qed.
Lemma c39_value ts : (forall t, In t ts -> exists lam, class_term t lam) ->
  exists xs lams, schur_expansion (TAdd ts) true = Ok (Many xs) /\ length xs = length ts /\
    map snd xs = map SP lams /\ weakly_increasing lams /\
    peq (expand (TAdd ts)) (psum (map value xs)).
Proof.
  intros H. destruct (c39_total ts H) as (xs & E & L & W & V). destruct (c39_sum ts true H) as (xs' & ys & E' & R & P & _).
  rewrite E in E'. inversion E'; subst xs'. exists xs. eexists. split; [exact E|]. split; [exact L|].
  split; [exact (report_shapes _ _ _ R P)|]. split; [exact W|exact V].
Qed.
(** a number: the integer between 0 and it that is nearest to it *)
Lemma c39_trunc c b : exists z, schur_expansion (TNum c) b = Ok (One (TNum (Q2Qc (inject_Z z)), SP [])) /\
  (0 <= this c -> inject_Z z <= this c < inject_Z (z + 1))%Q /\
  (this c <= 0 -> inject_Z (z - 1) < this c <= inject_Z z)%Q.
Proof.
  exists (int_of_num c). split; [reflexivity|]. unfold int_of_num. destruct c as [[a d] Hc]. cbn [this Qnum Qden].
  unfold Qle, Qlt, inject_Z. cbn [Qnum Qden]. split; intros H.
  - assert (Ha : 0 <= a) by lia. pose proof (Z.quot_rem a (Z.pos d) ltac:(lia)). pose proof (Z.rem_bound_pos a (Z.pos d) Ha ltac:(lia)).
    pose proof (Z.quot_pos a (Z.pos d)). split; nia.
  - assert (Ha : a <= 0) by lia. pose proof (Z.quot_rem a (Z.pos d) ltac:(lia)). pose proof (Z.rem_bound_pos (- a) (Z.pos d) ltac:(lia) ltac:(lia)).
    rewrite ?Z.rem_opp_l in * by lia. split; nia.
Qed.
Lemma c39_number : exists c x,
  schur_expansion (TNum c) true = Ok (One x) /\ ~ peq (expand (fst x)) (pconst c).
Proof.
  exists (Q2Qc (1 # 2)). eexists. split; [reflexivity|]. intros H. specialize (H []). vm_compute in H. discriminate.
Qed.
Lemma c39_bare_q : exists e, is_valid e = true /\ schur_expansion e true = Err RecursionError.
Proof. exists (TAdd [TSym VQ; TSym (vS [1])]). vm_compute. auto. Qed.
Lemma valid_linear e m : is_valid e = true -> coef (expand e) m <> 0%Qc -> (length m <= 1)%nat.
Proof. intros H. apply (is_valid_deg1 e H m). Qed.
Lemma tree_apply_total f e : (forall s, occurs (VS s) e -> exists x, f s = Ok x) ->
  exists r, tree_apply f e = Ok r.
Proof.
  intros H. destruct (tree_apply_ok f e) as (r & E & _); [|eauto]. intros v Hv. destruct v as [s| | |]; [|eexists; reflexivity..].
  apply H. apply occurs_tvars. auto.
Qed.
