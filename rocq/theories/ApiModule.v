(** The module-level functions of qcalc.py. *)

From Coq Require Import ZArith List Lia Bool Permutation QArith Qcanon.
From Verif Require Import Py ModelPart ModelQcalc ModelPoly ModelStr ModelGr ModelList ModelModule Spec SpecProd
  PolyFacts SuppFacts OpTheory ExprFacts.
Import ListNotations.
Open Scope Z_scope.

Lemma apply_raises f p : (forall s, exists e, f s = Err e) -> has_class p -> exists e, apply_lc f p = Err e.
Proof.
  intros Hf (m & s & Hm & Hs). destruct (apply_lc f p) as [r|e] eqn:E; [|eauto]. exfalso.
  pose proof (supp_pvars p m Hm) as HV. unfold vars_in in HV. rewrite Forall_forall in HV.
  destruct (apply_lc_defined f p r E (VS s) (HV _ Hs)) as [x Hx]. cbn [image] in Hx. destruct (Hf s) as [e He]. congruence.
Qed.
Lemma on_part_raises (s : schur) : exists e, on_part (fun _ => Err TypeError : res poly) s = Err e.
Proof. destruct s; cbn; eauto. Qed.

Lemma spec2num_eq g v : q_spec2num (SetAs g) v = spec2num (g_type g) v.
Proof. destruct v as [[l|t b]| | |]; try reflexivity; destruct l as [|a [|b l]]; reflexivity. Qed.
Lemma act_lc_eq g pi f : forall e lc, q_act_lc f (SetAs g) pi e lc = act_lc f (g_type g) pi e lc.
Proof.
  induction f as [|f IH]; intros e lc; [reflexivity|]. cbn [q_act_lc act_lc]. destruct (first_var e); [|reflexivity].
  rewrite spec2num_eq. destruct (spec2num (g_type g) v); cbn [bind]; auto. rewrite !IH. reflexivity.
Qed.

(** ** the initial state *)
Lemma coef_dv v E m : coef (dv v E) m = coef E (v :: m).
Proof.
  unfold dv. induction E as [|[a c] E IH]; [reflexivity|]. cbn [filter fst]. destruct (has_var v a) eqn:H.
  - cbn [map fst snd]. unfold coef in *. cbn [fold_right fst snd]. rewrite IH.
    apply has_var_in, remove_var_perm in H.
    assert (EQ : mono_eqb (remove_var v a) m = mono_eqb a (v :: m)); [|rewrite EQ; reflexivity].
    apply eq_true_iff_eq. rewrite !mono_eqb_perm. split; intros P.
    + rewrite H. constructor. exact P.
    + apply (Permutation_cons_inv (a := v)). rewrite <- H. exact P.
  - rewrite IH. unfold coef at 2. cbn [fold_right fst snd]. fold (coef E (v :: m)).
    destruct (mono_eqb a (v :: m)) eqn:EQ; [|reflexivity]. exfalso. apply mono_eqb_perm in EQ.
    assert (In v a) by (eapply Permutation_in; [symmetry; exact EQ|left; auto]). apply has_var_in in H0. congruence.
Qed.
Lemma coef_pmul_pS p l m : coef (pmul p (pS l)) (vS l :: m) = coef p m.
Proof.
  rewrite coef_pmul, coef_phi. apply phi_ext. intros a c _. unfold pS, pvar, phi. cbn [fold_right fst snd].
  assert (EQ : mono_eqb (a ++ [vS l]) (vS l :: m) = mono_eqb a m); [|rewrite EQ; ring].
  apply eq_true_iff_eq. rewrite !mono_eqb_perm. rewrite <- (Permutation_cons_append a (vS l)). split; intros P.
  - eapply Permutation_cons_inv; exact P.
  - constructor; auto.
Qed.

Lemma act_unset f : forall e lam, first_var e <> None ->
  exists x, q_act_lc f Unset (fun _ _ => Err TypeError) e (pS lam) = Err x.
Proof.
  induction f as [|f IH]; intros e lam He; [cbn; eauto|]. cbn [q_act_lc].
  destruct (first_var e) as [v|] eqn:Ev; [|congruence]. destruct (q_spec2num Unset v) as [i|x]; cbn [bind]; [|eauto].
  destruct (q_act_lc f Unset _ (div_var v e) (pS lam)) as [p1|x] eqn:E1; cbn [bind]; [|eauto].
  destruct (q_act_lc f Unset _ (subs0 v e) (pS lam)) as [p2|x] eqn:E2; cbn [bind]; [|eauto].
  destruct (apply_raises (on_part (fun _ => Err TypeError)) p1) as [x Hx]; [apply on_part_raises| |rewrite Hx; cbn [bind]; eauto].
  destruct (first_var (div_var v e)) as [w|] eqn:Ew; [destruct (IH (div_var v e) lam) as [x Hx]; congruence|].
  destruct f as [|f]; [discriminate|]. cbn [q_act_lc] in E1. rewrite Ew in E1. injection E1 as <-.
  apply first_var_some in Ev. destruct Ev as (_ & m & c & Hin & Hv).
  assert (Hc : coef e m <> 0%Qc) by (exact (supp_rawnorm (fun m => coef e m <> 0%Qc) e (fun m H => H) m c Hin)).
  apply remove_var_perm in Hv. set (m' := remove_var v m) in *.
  assert (Hd : coef (div_var v e) m' <> 0%Qc).
  { change (div_var v e) with (dv v (pnorm e)). rewrite coef_dv, coef_pnorm. rewrite <- (coef_perm e _ _ Hv). exact Hc. }
  exists (vS lam :: m'), (SP lam). split; [rewrite coef_pmul_pS; exact Hd|left; reflexivity].
Qed.
Lemma class_first_var e : has_class e -> first_var e <> None.
Proof.
  intros (m & s & Hm & Hs) E. pose proof (supp_pvars e m Hm) as HV. unfold vars_in in HV. rewrite Forall_forall in HV.
  specialize (HV _ Hs). unfold pvars in HV. apply in_flat_map in HV. destruct HV as ([a c] & H1 & H2).
  pose proof (first_var_none e E a c _ H1 H2). discriminate.
Qed.

Lemma c74_set g :
  (forall i lc, q_pieri (SetAs g) i lc = pieri g i lc) /\ (forall i lc, q_qpieri (SetAs g) i lc = qpieri g i lc) /\
  (forall e lc, q_act (SetAs g) e lc = act g e lc) /\ (forall e lc, q_qact (SetAs g) e lc = qact g e lc) /\
  (forall lc, q_part2index (SetAs g) lc = part2index g lc) /\ (forall lc, q_index2part (SetAs g) lc = index2part g lc) /\
  (g_type g <> TA -> (forall lc, q_part2pair (SetAs g) lc = part2pair g lc) /\ (forall lc, q_pair2part (SetAs g) lc = pair2part g lc)) /\
  (forall lam, q_schub_type (SetAs g) lam = schub_type g lam).
Proof.
  split; [reflexivity|]. split; [reflexivity|]. split; [intros; apply act_lc_eq|]. split; [intros; apply act_lc_eq|].
  split; [reflexivity|]. split; [reflexivity|]. split.
  - intros H. unfold q_part2pair, part2pair, q_pair2part, pair2part, ms_is_A. destruct (g_type g); [congruence|..]; split; reflexivity.
  - intros lam. unfold q_schub_type, schub_type. destruct (g_type g); auto. destruct lam; reflexivity.
Qed.
Lemma c74_set_list g l : schur_nonneg (SP l) = true ->
  q_part2index_list (SetAs g) l = part2index g (pS l) /\ q_index2part_list (SetAs g) l = index2part g (pS l).
Proof.
  intros H. unfold q_part2index_list, q_index2part_list, symbol. rewrite H. cbn [bind]. split; reflexivity.
Qed.

Lemma c74_unset lc : has_class lc ->
  (forall i, exists e, q_pieri Unset i lc = Err e) /\ (forall i, exists e, q_qpieri Unset i lc = Err e) /\
  (exists e, q_part2pair Unset lc = Err e) /\
  (forall lam, exists e, q_act Unset lc (pS lam) = Err e) /\ (forall lam, exists e, q_qact Unset lc (pS lam) = Err e).
Proof.
  intros H. split; [intros i; apply apply_raises; auto; apply on_part_raises|]. split; [intros i; apply apply_raises; auto; apply on_part_raises|].
  split; [apply apply_raises; eauto|]. apply class_first_var in H.
  split; intros lam; apply act_unset; auto.
Qed.
Lemma c74_unset_index lc : q_part2index Unset lc = Err ValueError /\ q_index2part Unset lc = Err ValueError /\
  forall lam, q_schub_type Unset lam = Err ValueError.
Proof. repeat split. Qed.
Lemma c74_names st a b : q_giambelli st a = Err NameError /\ q_qgiambelli st a = Err NameError /\ q_mult st a b = Err NameError /\
  q_toS st a = Err NameError /\ q_qtoS st a = Err NameError.
Proof. repeat split. Qed.

Lemma c74_set_A g : g_type g = TA -> forall lc l t b,
  q_part2pair (SetAs g) lc = Err PlainException /\ q_pair2part (SetAs g) lc = Err PlainException /\
  q_part2pair_list (SetAs g) l = Err PlainException /\ q_pair2part_list (SetAs g) t b = Err PlainException /\
  (exists e, part2pair g lc = Err e) /\ (exists e, pair2part g lc = Err e).
Proof.
  intros H lc l t b. unfold q_part2pair, q_pair2part, q_part2pair_list, q_pair2part_list, ms_is_A, part2pair, pair2part. rewrite H.
  repeat split; eauto.
Qed.
Lemma c74_pieri_list g i l : q_pieri_list (SetAs g) i l = pieri_list g i l.
Proof. reflexivity. Qed.
Lemma c74_pair_list g : g_type g <> TA ->
  (forall l, exists t b, q_part2pair_list (SetAs g) l = Ok (SPair t b) /\
     (schur_nonneg (SPair t b) = true -> exists r, part2pair g (pS l) = Ok r /\ peq r (pvar (VS (SPair t b))))) /\
  (forall t b a, q_pair2part_list (SetAs g) t b = Ok (SP a) ->
     schur_nonneg (SP a) = true -> exists r, pair2part g (pvar (VS (SPair t b))) = Ok r /\ peq r (pS a)).
Proof.
  intros H. split.
  - intros l. destruct (part2pair_inner l (g_k g)) as [t b] eqn:E. exists t, b. split.
    + unfold q_part2pair_list. rewrite E. destruct (g_type g); congruence.
    + intros Hn. assert (E2 : part2pair g (pS l) = apply_lc (on_part (fun lam =>
           let '(t, b) := part2pair_inner lam (g_k g) in ret_schur (SPair t b))) (pvar (VS (SP l)))).
      { unfold part2pair. destruct (g_type g); [congruence|..]; reflexivity. }
      rewrite E2. apply apply_class. cbn [on_part]. rewrite E. unfold ret_schur, symbol. rewrite Hn. reflexivity.
  - intros t b a E Hn. assert (E1 : pair2part_inner t b = Ok a).
    { unfold q_pair2part_list, ms_is_A in E. destruct (g_type g); [congruence|..]; destruct (pair2part_inner t b); cbn [bind] in E; congruence. }
    assert (E2 : pair2part g (pvar (VS (SPair t b))) = apply_lc (fun s => match s with
           | SPair t b => a <- pair2part_inner t b ;; ret_schur (SP a)
           | SP [_; _] => Err TypeError
           | SP _ => Err ValueError
           end) (pvar (VS (SPair t b)))).
    { unfold pair2part. destruct (g_type g); [congruence|..]; reflexivity. }
    rewrite E2. apply apply_class. rewrite E1. cbn [bind]. unfold ret_schur, symbol. rewrite Hn. reflexivity.
Qed.
