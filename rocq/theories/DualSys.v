(** Symmetry of the structure constants under duality: if every Pieri operator
    is self-adjoint for the pairing of classes with their duals, so is every
    product. *)

From Coq Require Import ZArith List Lia Bool Permutation QArith Qcanon Setoid Morphisms.
From Verif Require Import Py OrderFacts ModelPart ModelQcalc ModelPoly ModelStr ModelGr Spec
  PolyFacts SuppFacts OpTheory WSum Sys Sys2.
Import ListNotations.
Open Scope Z_scope.

Definition isq (v : var) : bool := match v with VQ => true | _ => false end.
Lemma filter_perm {A} (f : A -> bool) a b : Permutation a b -> Permutation (filter f a) (filter f b).
Proof.
  induction 1; cbn [filter]; auto.
  - destruct (f x); auto.
  - destruct (f x), (f y); auto. apply perm_swap.
  - eapply perm_trans; eauto.
Qed.
Lemma filter_repq e m : filter (fun v => negb (isq v)) (repeat VQ e ++ m) = filter (fun v => negb (isq v)) m.
Proof. induction e as [|e IH]; auto. Qed.

Lemma coef_qmul e r f x : coef (pmul (pmono (repeat VQ e)) r) (qS f x) = if (e <=? f)%nat then coef r (qS (f - e) x) else 0%Qc.
Proof.
  rewrite coef_pmul. cbn [pmono phi fold_right fst snd]. rewrite Qcplus_0_r, Qcmult_1_l.
  destruct (Nat.leb_spec e f) as [He|He].
  - rewrite coef_phi. apply phi_ext. intros m c _. unfold qS.
    assert (E : mono_eqb (repeat VQ e ++ m) (vS x :: repeat VQ f) = mono_eqb m (vS x :: repeat VQ (f - e))); [|rewrite E; reflexivity].
    apply eq_true_iff_eq. rewrite !mono_eqb_perm. replace f with (e + (f - e))%nat at 1 by lia. rewrite repeat_app.
    split; intros HP.
    + apply (Permutation_app_inv_l (repeat VQ e)). rewrite HP. rewrite app_comm_cons. apply Permutation_middle.
    + rewrite HP. rewrite <- Permutation_middle. reflexivity.
  - apply phi_zero. intros m c _. destruct (mono_eqb (repeat VQ e ++ m) (qS f x)) eqn:E; auto. exfalso.
    apply mono_eqb_perm in E. assert (Hc : forall a b, Permutation a b -> length (filter isq a) = length (filter isq b)).
    { intros a b HP. apply Permutation_length, filter_perm, HP. }
    apply Hc in E. unfold qS in E. cbn [filter isq vS] in E. rewrite filter_app, app_length in E.
    assert (HR : forall a, length (filter isq (repeat VQ a)) = a) by (induction a; simpl; auto). rewrite !HR in E. lia.
Qed.

Section Sym.
Context {t : gtype} {pi : Z -> list Z -> res poly} {V : list Z -> Prop} {I : Z -> Prop}
  {k : Z} {mu : list Z -> nat} {fuel : nat}.
Hypothesis H : pieri_sys t pi V I k mu fuel.
Variable dual : list Z -> list Z.
Hypothesis HV : forall l, V l -> V (dual l).
Hypothesis HD : forall l, V l -> dual (dual l) = l.
Hypothesis adj : forall i d x y, I i -> V x -> V y ->
  coef (P pi i x) (qS d (dual y)) = coef (P pi i y) (qS d (dual x)).

Notation MM := (M t pi k fuel).
Notation lq := (supp (linm V (eq VQ))).

(** the coefficient of q^d in <p, r> is [phi (pw d r) p] *)
Definition pw (d : nat) (r : poly) (m : mono) : Qc :=
  match filter (fun v => negb (isq v)) m with
  | [VS (SP x)] => if (length m - 1 <=? d)%nat then coef r (qS (d - (length m - 1)) (dual x)) else 0%Qc
  | _ => 0%Qc
  end.

Lemma pw_inv d r : perm_inv (pw d r).
Proof.
  intros a b HP. unfold pw. rewrite (Permutation_length HP).
  pose proof (filter_perm (fun v => negb (isq v)) a b HP) as HF.
  destruct (filter (fun v => negb (isq v)) a) as [|v [|w x]].
  - apply Permutation_nil in HF. rewrite HF. reflexivity.
  - apply Permutation_length_1_inv in HF. rewrite HF. reflexivity.
  - apply Permutation_length in HF. destruct (filter (fun v => negb (isq v)) b) as [|v' [|w' y]]; simpl in HF; try discriminate.
    destruct v as [[?|? ?]| | |], v' as [[?|? ?]| | |]; reflexivity.
Qed.

Lemma filter_len1 m v : filter (fun v => negb (isq v)) m = [v] -> (1 <= length m)%nat.
Proof. destruct m; simpl; [discriminate|lia]. Qed.

Ltac pwc m := unfold pw; destruct (filter (fun v => negb (isq v)) m) as [|[[?x|? ?]| | |] [|? ?]] eqn:?EF; try ring; try reflexivity.

Lemma pw_q d r e m : pw d r (repeat VQ e ++ m) = if (e <=? d)%nat then pw (d - e) r m else 0%Qc.
Proof.
  unfold pw. rewrite filter_repq, app_length, repeat_length.
  destruct (filter (fun v => negb (isq v)) m) as [|[[x|? ?]| | |] [|? ?]] eqn:EF;
    try (destruct (e <=? d)%nat; reflexivity).
  apply filter_len1 in EF.
  destruct (Nat.leb_spec (e + length m - 1) d), (Nat.leb_spec e d), (Nat.leb_spec (length m - 1) (d - e)); try reflexivity; try lia.
  f_equal. f_equal. lia.
Qed.
Lemma pw_rq d r e m : pw d (pmul (pmono (repeat VQ e)) r) m = if (e <=? d)%nat then pw (d - e) r m else 0%Qc.
Proof.
  unfold pw.
  destruct (filter (fun v => negb (isq v)) m) as [|[[x|? ?]| | |] [|? ?]] eqn:EF;
    try (destruct (e <=? d)%nat; reflexivity).
  rewrite coef_qmul.
  destruct (Nat.leb_spec (length m - 1) d), (Nat.leb_spec e d), (Nat.leb_spec e (d - (length m - 1))), (Nat.leb_spec (length m - 1) (d - e));
    try reflexivity; try lia.
  f_equal. f_equal. lia.
Qed.
Lemma pw_padd d r s m : pw d (padd r s) m = (pw d r m + pw d s m)%Qc.
Proof. pwc m. destruct (length m - 1 <=? d)%nat; [apply coef_padd|ring]. Qed.
Lemma pw_pscale d c r m : pw d (pscale c r) m = (c * pw d r m)%Qc.
Proof. pwc m. destruct (length m - 1 <=? d)%nat; [apply coef_pscale|ring]. Qed.
Lemma pw_peq d r s m : peq r s -> pw d r m = pw d s m.
Proof. intros E. pwc m. destruct (length m - 1 <=? d)%nat; [apply E|reflexivity]. Qed.
Lemma pw_zero d m : pw d pzero m = 0%Qc.
Proof. pwc m. destruct (length m - 1 <=? d)%nat; reflexivity. Qed.

Definition pair (d : nat) (p r : poly) : Qc := phi (pw d r) p.

Lemma pair_peq_l d p p' r : peq p p' -> pair d p r = pair d p' r.
Proof. intros E. apply phi_peq; auto. apply pw_inv. Qed.
Lemma pair_peq_r d p r r' : peq r r' -> pair d p r = pair d p r'.
Proof. intros E. apply phi_ext. intros. apply pw_peq; auto. Qed.
Lemma pair_padd_l d p p' r : pair d (padd p p') r = (pair d p r + pair d p' r)%Qc.
Proof. apply phi_padd, pw_inv. Qed.
Lemma pair_padd_r d p r r' : pair d p (padd r r') = (pair d p r + pair d p r')%Qc.
Proof. unfold pair. rewrite <- phi_add. apply phi_ext. intros. apply pw_padd. Qed.
Lemma pair_pscale_l d c p r : pair d (pscale c p) r = (c * pair d p r)%Qc.
Proof. apply phi_pscale. Qed.
Lemma pair_pscale_r d c p r : pair d p (pscale c r) = (c * pair d p r)%Qc.
Proof. unfold pair. rewrite <- phi_mul. apply phi_ext. intros. apply pw_pscale. Qed.
Lemma pair_zero_l d r : pair d pzero r = 0%Qc.
Proof. reflexivity. Qed.
Lemma pair_zero_r d p : pair d p pzero = 0%Qc.
Proof. apply phi_zero. intros. apply pw_zero. Qed.
Lemma pair_q_l d e p r : pair d (pmul (pmono (repeat VQ e)) p) r = if (e <=? d)%nat then pair (d - e) p r else 0%Qc.
Proof.
  unfold pair. rewrite phi_pmul by apply pw_inv. cbn [pmono phi fold_right fst snd]. rewrite Qcplus_0_r, Qcmult_1_l.
  destruct (e <=? d)%nat eqn:E.
  - apply phi_ext. intros m c _. rewrite pw_q, E. reflexivity.
  - apply phi_zero. intros m c _. rewrite pw_q, E. reflexivity.
Qed.
Lemma pair_q_r d e p r : pair d p (pmul (pmono (repeat VQ e)) r) = if (e <=? d)%nat then pair (d - e) p r else 0%Qc.
Proof.
  unfold pair. destruct (e <=? d)%nat eqn:E.
  - apply phi_ext. intros m c _. rewrite pw_rq, E. reflexivity.
  - apply phi_zero. intros m c _. rewrite pw_rq, E. reflexivity.
Qed.
Lemma pair_pS_l d x r : pair d (pS x) r = coef r (qS d (dual x)).
Proof.
  unfold pair, pS, pvar. cbn [phi fold_right fst snd]. rewrite Qcplus_0_r, Qcmult_1_l. unfold pw, vS.
  cbn [filter isq negb length Nat.sub Nat.leb]. rewrite Nat.sub_0_r. reflexivity.
Qed.
Lemma coef_pS_q x d y : coef (pS x) (qS d y) = if (d =? 0)%nat then (if l_dec x y then 1%Qc else 0%Qc) else 0%Qc.
Proof. rewrite coef_pS. destruct d; reflexivity. Qed.

(** pairing with a class reads off the coefficient of its dual *)
Lemma pair_pS_r d p y : V y -> lq p -> pair d p (pS y) = coef p (qS d (dual y)).
Proof.
  intros Hy. revert p. apply (lin_ind V (eq VQ)).
  - intros p r E Hp. rewrite <- (pair_peq_l d p r _ E), Hp. apply E.
  - reflexivity.
  - intros qm l c p Hl Hq _ IH. rewrite pair_padd_l, pair_pscale_l, coef_padd, coef_pscale, IH. f_equal. f_equal.
    rewrite (allQ qm Hq), pair_q_l, coef_qmul. destruct (length qm <=? d)%nat; auto.
    rewrite pair_pS_l, !coef_pS_q. destruct (d - length qm =? 0)%nat; auto.
    destruct (l_dec y (dual l)) as [E|E], (l_dec l (dual y)) as [E'|E']; auto; exfalso.
    + apply E'. rewrite E, HD; auto.
    + apply E. rewrite E', HD; auto.
Qed.

(** ** self-adjoint operators *)
Definition sa (T : poly -> poly) : Prop := forall d p r, lq p -> lq r -> pair d (T p) r = pair d p (T r).

Lemma ext_half i d x r : I i -> V x -> lq r -> pair d (P pi i x) r = coef (ext pi i r) (qS d (dual x)).
Proof.
  intros Hi Hx Hr. revert d. revert r Hr. apply (lin_ind V (eq VQ) (fun r => forall d, pair d (P pi i x) r = coef (ext pi i r) (qS d (dual x)))).
  - intros p r E Hp d. rewrite <- (pair_peq_r d _ p r E), Hp. apply ext_proper. auto.
  - intros d. rewrite pair_zero_r. reflexivity.
  - intros qm y c p Hy Hq Hl IH d.
    assert (E : peq (ext pi i (padd (pscale c (pmul (pmono qm) (pS y))) p)) (padd (pscale c (pmul (pmono qm) (P pi i y))) (ext pi i p))).
    { rewrite ext_padd, ext_pscale, (ext_qmul pi (eq VQ) eqVQ_isqv), ext_pS; auto. reflexivity. }
    rewrite (E (qS d (dual x))), pair_padd_r, pair_pscale_r, coef_padd, coef_pscale, IH. f_equal. f_equal.
    rewrite (allQ qm Hq), pair_q_r, coef_qmul. destruct (length qm <=? d)%nat; auto.
    rewrite pair_pS_r; auto.
    apply (sys_P_lq H); auto.
Qed.

Lemma ext_sa i : I i -> sa (ext pi i).
Proof.
  intros Hi d p r Hp Hr. revert d. revert p Hp. apply (lin_ind V (eq VQ) (fun p => forall d, pair d (ext pi i p) r = pair d p (ext pi i r))).
  - intros p s E Hp d. rewrite <- (pair_peq_l d p s _ E), <- Hp. apply pair_peq_l. apply ext_proper. symmetry. auto.
  - intros d. reflexivity.
  - intros qm x c p Hx Hq Hl IH d.
    assert (E : peq (ext pi i (padd (pscale c (pmul (pmono qm) (pS x))) p)) (padd (pscale c (pmul (pmono qm) (P pi i x))) (ext pi i p))).
    { rewrite ext_padd, ext_pscale, (ext_qmul pi (eq VQ) eqVQ_isqv), ext_pS; auto. reflexivity. }
    rewrite (pair_peq_l d _ _ r E), !pair_padd_l, !pair_pscale_l, IH. f_equal. f_equal.
    rewrite (allQ qm Hq), !pair_q_l. destruct (length qm <=? d)%nat; auto.
    rewrite pair_pS_l. apply ext_half; auto.
Qed.

Lemma comb_sa (W : list Z -> Prop) a : (forall l, W l -> V l) -> (forall l, W l -> sa (MM (pS l))) -> supp (linm W (eq VQ)) a -> sa (MM a).
Proof.
  intros HW HS. revert a. apply (lin_ind W (eq VQ)).
  - intros a b E Ha d p r Hp Hr. rewrite (pair_peq_l d (MM b p) (MM a p)) by (apply M_peq; [symmetry; auto|reflexivity]).
    rewrite Ha; auto. apply pair_peq_r. apply M_peq; [auto|reflexivity].
  - intros d p r Hp Hr. rewrite (pair_peq_l d (MM pzero p) pzero) by (apply (@sys_zero_l t pi V); auto).
    rewrite (pair_peq_r d _ (MM pzero r) pzero) by (apply (@sys_zero_l t pi V); auto). rewrite pair_zero_r. reflexivity.
  - intros qm l c a Hl Hq Ha IH d p r Hp Hr.
    assert (HlV : lq (pS l)) by (apply sys_lq_pS; auto).
    assert (HaV : lq a) by (eapply supp_impl; [|exact Ha]; intros m (x & q & Hx & Hr' & Hq'); exists x, q; auto).
    assert (HqV : lq (pmul (pmono qm) (pS l))) by (apply (lin_qmul V (eq VQ)); auto).
    assert (E : forall b, lq b -> peq (MM (padd (pscale c (pmul (pmono qm) (pS l))) a) b) (padd (pscale c (pmul (pmono qm) (MM (pS l) b))) (MM a b))).
    { intros b Hb. rewrite (sys_add_l H), (sys_scale_l H), (sys_q_l H); auto using (@sys_lq_vp V), (@supp_pscale (linm V (eq VQ))). reflexivity. }
    rewrite (pair_peq_l d _ _ _ (E p Hp)), (pair_peq_r d _ _ _ (E r Hr)).
    rewrite pair_padd_l, pair_padd_r, pair_pscale_l, pair_pscale_r, IH; auto. f_equal. f_equal.
    rewrite (allQ qm Hq), pair_q_l, pair_q_r. destruct (length qm <=? d)%nat; auto. apply HS; auto.
Qed.

Lemma class_sa l : V l -> sa (MM (pS l)).
Proof.
  remember (mu l) as N eqn:EN. revert l EN. induction N as [N IH] using (well_founded_induction Wf_nat.lt_wf). intros l -> Hl.
  destruct (list_eq_dec Z.eq_dec l []) as [->|Hne].
  { intros d p r Hp Hr. rewrite (pair_peq_l d (MM (pS []) p) p) by (apply (sys_unit H); auto). rewrite (pair_peq_r d _ (MM (pS []) r) r) by (apply (sys_unit H); auto). reflexivity. }
  intros d p r Hp Hr.
  destruct (sys_rec H l p Hl Hp Hne) as (i & l0 & Hg & Hi & (Hl0 & Hm) & HS & E1).
  destruct (sys_rec H l r Hl Hr Hne) as (i' & l0' & Hg' & _ & _ & _ & E2).
  rewrite Hg in Hg'. injection Hg' as <- <-.
  rewrite (pair_peq_l d _ _ _ E1), (pair_peq_r d _ _ _ E2).
  assert (ES : forall a b, peq (psub a b) (padd a (pscale (-(1))%Qc b))).
  { intros x y m. rewrite coef_psub, coef_padd, coef_pscale. ring. }
  rewrite (pair_peq_l d _ _ _ (ES _ _)), (pair_peq_r d _ _ _ (ES _ _)), pair_padd_l, pair_padd_r, pair_pscale_l, pair_pscale_r.
  assert (HL0 : lq (pS l0)) by (apply sys_lq_pS; auto).
  f_equal.
  - rewrite (ext_sa i Hi); auto; [|apply (sys_lin H); auto using (@sys_lq_vp V)].
    rewrite (IH (mu l0) Hm l0 eq_refl Hl0); auto; [|apply (sys_ext_lin H); auto].
    apply pair_peq_r. symmetry. apply (sys_ext_r H); auto.
  - f_equal. apply (comb_sa (below V mu l)); auto.
    + intros x (Hx & _); auto.
    + intros x (Hx & Hmx). apply (IH (mu x) Hmx x eq_refl Hx).
Qed.

(** the structure constants are symmetric: N(l,x;q^d y) = N(l,y*;q^d x* ) *)
Theorem sym_constants l x y d : V l -> V x -> V y ->
  coef (MM (pS l) (pS x)) (qS d (dual y)) = coef (MM (pS l) (pS y)) (qS d (dual x)).
Proof.
  intros Hl Hx Hy. rewrite <- pair_pS_r; auto; [|apply (sys_lin H); auto using (@sys_lq_vp V), (@sys_lq_pS V)].
  rewrite (class_sa l Hl); auto using (@sys_lq_pS V). apply pair_pS_l.
Qed.

(** the coefficient of q^d [point] is 1 for dual classes and d = 0, and 0 otherwise *)
Theorem sym_point l x d : V l -> V x ->
  coef (MM (pS l) (pS x)) (qS d (dual [])) = if (d =? 0)%nat then (if l_dec l (dual x) then 1%Qc else 0%Qc) else 0%Qc.
Proof.
  intros Hl Hx. assert (H0 : V []) by (apply (ps_nil _ _ _ _ _ _ _ H)).
  rewrite sym_constants; auto. rewrite (sys_one H (pS l) (sys_lq_pS l Hl) (qS d (dual x))). apply coef_pS_q.
Qed.
End Sym.
